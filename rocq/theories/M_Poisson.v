(* A finite element problem as it is set up by a user of the library: benchmarks/mito.lib/pdes/poisson.cc. *)
From stdpp Require Import base gmap list.
From Coq Require Import Reals.
From Verif Require Import Base M_Tensor M_Quadrature M_Fem M_System.
Open Scope nat_scope.

Section problem.
  Context {E : element_type}.

  (* lib/mito/fem/FunctionSpace.h line 86 (elements) and lib/mito/fem/DiscreteSystem.h lines 154-176: the
     assembly runs over the elements of the function space and reads the nodes of their connectivity, one
     per shape function. The second component is what M_System calls the connectivity of an element. *)
  Definition system (es : list (element E)) : list (element E * list nat) :=
    (λ e, (e, connectivity e <$> seq 0 (n_nodes E))) <$> es.

  (* benchmarks/mito.lib/pdes/poisson.cc lines 74-89: the weak form of the Poisson problem, with one grad-grad
     block and one source term block, both with the same rule. *)
  Definition poisson (q : rule) (f : vec → R) : element E * list nat → (nat → nat → R) * (nat → R) :=
    compute_blocks [λ e, grad_grad_block q e.1] [λ e, source_term_block q f e.1].

  (* the same with a mass block in place of the grad-grad block, and with both. A client: Weakform.h
     lines 57-102 with one MassBlock and one SourceTermBlock. *)
  Definition projection (q : rule) (f : vec → R) : element E * list nat → (nat → nat → R) * (nat → R) :=
    compute_blocks [λ e, mass_block q e.1] [λ e, source_term_block q f e.1].
  (* a client with both blocks on the left: Weakform.h lines 57-102. *)
  Definition helmholtz (q q' : rule) (f : vec → R) : element E * list nat → (nat → nat → R) * (nat → R) :=
    compute_blocks [λ e, grad_grad_block q e.1; λ e, mass_block q' e.1] [λ e, source_term_block q' f e.1].
End problem.
