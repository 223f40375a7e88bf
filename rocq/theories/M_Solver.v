(* Model of the discrete system as an object (lib/mito/fem/DiscreteSystem.h), of the solvers
   (lib/mito/solvers/LinearSolver.h and lib/mito/matrix_solvers/backend/petsc/PETScKrylovSolver.cc) and of the
   program that solves the Poisson equation on a mesh (benchmarks/mito.lib/pdes/poisson.cc).

   Simplifications. The labels, the options of the matrix solver and the printing are left out. What PETSc
   computes is not modelled: see [krylov]. The linear system is not destroyed before the last solution. *)
From stdpp Require Import base gmap list.
From Coq Require Import Reals.
From Verif Require Import Base M_Tensor M_Geometry M_Quadrature M_Topology M_Fem M_System M_Poisson.
Open Scope nat_scope.

Section solver.
  Context {C : Type} (debug : bool).

  (* DiscreteSystem.h lines 223-240: the elements of the function space, the map of the equations and their
     number, the field of the solution and the linear system. The last component is the vector of the
     solution of the linear system, PETScLinearSystem.h lines 76-83. *)
  Record discrete_system := DiscreteSystem {
    ds_elements : list (C * list nat);
    ds_equations : gmap nat Z;
    ds_n_equations : Z;
    ds_solution : gmap nat R;
    ds_linear : linear_system;
    ds_vector : list R;
  }.

  (* DiscreteSystem.h lines 46-70: the field is made first, then the map and the linear system;
     PETScLinearSystem.cc lines 22-46: the vector of the solution starts with zeros *)
  Definition make_discrete_system (order : gset nat → list nat) (es : list (C * list nat)) (constrained : gset nat)
      : res discrete_system :=
    let! field := fem_field debug order es in
    let '(eqs, n) := build_equation_map es constrained in
    Ok (DiscreteSystem es eqs n field (create n) (replicate (Z.to_nat n) 0%R)).

  (* DiscreteSystem.h lines 145-186: the contributions of the elements are added to what the linear system
     has; [n] and [blocks] are the number of nodes of an element and the weak form, to which the discrete
     system has a reference (line 228) *)
  Definition ds_assemble (n : nat) (blocks : C * list nat → (nat → nat → R) * (nat → R)) (d : discrete_system)
      : res discrete_system :=
    let! s := assemble debug n (ds_equations d) (ds_n_equations d) blocks (ds_elements d) (ds_linear d) in
    Ok (DiscreteSystem (ds_elements d) (ds_equations d) (ds_n_equations d) (ds_solution d) s (ds_vector d)).

  (* KSPSolve (PETScKrylovSolver.cc line 116): from the linear system and what is in the vector of the solution, what is in it after the
     call, and whether the call was successful and converged *)
  Definition krylov : Type := linear_system → list R → list R * bool.

  (* PETScKrylovSolver.cc lines 108-119: an error makes the function return (PetscCallVoid); the reason for
     which the iterations stopped is not asked *)
  Definition krylov_solve (ksp : krylov) (d : discrete_system) : discrete_system :=
    DiscreteSystem (ds_elements d) (ds_equations d) (ds_n_equations d) (ds_solution d) (ds_linear d)
      (ksp (ds_linear d) (ds_vector d)).1.

  (* DiscreteSystem.h lines 189-212 and PETScLinearSystem.icc lines 13-36: the vector is copied in one of
     zeros with a place per equation; to copy more than that is undefined *)
  Definition ds_read_solution (visit : gmap nat Z → list (nat * Z)) (d : discrete_system) : res discrete_system :=
    let! _ := assert_ debug (bool_decide (ds_n_equations d = s_equations (ds_linear d))) in
    let! _ := assert_ debug (bool_decide (Z.of_nat (length (ds_vector d)) = ds_n_equations d)) in
    let! u := (if decide (Z.of_nat (length (ds_vector d)) <= ds_n_equations d)%Z then
                 Ok (ds_vector d ++ replicate (Z.to_nat (ds_n_equations d) - length (ds_vector d)) 0%R)
               else Ub) in
    let! field := read_solution visit (ds_equations d) u (ds_solution d) in
    Ok (DiscreteSystem (ds_elements d) (ds_equations d) (ds_n_equations d) field (ds_linear d) (ds_vector d)).

  (* LinearSolver.h lines 45-58 *)
  Definition solve (n : nat) (visit : gmap nat Z → list (nat * Z)) (blocks : C * list nat → (nat → nat → R) * (nat → R))
      (ksp : krylov) (d : discrete_system) : res discrete_system :=
    let! d := ds_assemble n blocks d in
    ds_read_solution visit (krylov_solve ksp d).
End solver.
Arguments discrete_system C : clear implicits.

Section program.
  Context {K : Type} `{Countable K} (E : element_type).

  (* lib/mito/fem/elements/seg1/DiscretizerCG.h, tri1/DiscretizerCG.h, tri2/DiscretizerCG.h: the function
     space of the elements of a type; the domain of the constraints of a line is a set of nodes *)
  Definition discretize (fresh : gset nat → nat) (alive : gset nat) (cells domain : list (list K)) : res (function_space K) :=
    match E with
    | Seg1 => discretize_seg1 fresh alive cells (concat domain)
    | Tri1 => discretize_tri1 fresh alive cells domain
    | Tri2 => discretize_tri2 fresh alive cells domain
    end.

  (* seg1/DiscretizerCG.h line 47, tri1/DiscretizerCG.h line 49, tri2/DiscretizerCG.h lines 80-83: an element
     is made of a cell, the coordinate system and its discretization nodes; [point]: the point of a node of
     the mesh. Simplification: the elements are made here after all the discretization nodes. *)
  Definition build_elements (point : K → nat) (cs : csys) (fs : function_space K) : res (list (element E)) :=
    rmap (λ c, make_element E cs (point <$> c.1) c.2) (fs_elements fs).

  (* benchmarks/mito.lib/pdes/poisson.cc lines 69-102: the function space of a mesh with homogeneous
     constraints on a domain, the weak form of the Poisson problem, the discrete system, and its solution *)
  Definition poisson_program (debug : bool) (fresh : gset nat → nat) (alive : gset nat) (point : K → nat) (cs : csys)
      (cells domain : list (list K)) (q : rule) (f : vec → R)
      (order : gset nat → list nat) (visit : gmap nat Z → list (nat * Z)) (ksp : krylov)
      : res (function_space K * discrete_system (element E)) :=
    let! fs := discretize fresh alive cells domain in
    let! es := build_elements point cs fs in
    let! d := make_discrete_system debug order (system es) (fs_constrained fs) in
    let! d := solve debug (n_nodes E) visit (poisson q f) ksp d in
    Ok (fs, d).
End program.
