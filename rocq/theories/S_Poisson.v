(* What a finite element problem is expected to be: the integrals, by a quadrature rule, of the fields
   with values at the nodes of a mesh. *)
From Coq Require Import Reals List.
From Verif Require Import Base M_Tensor M_Geometry S_Geometry.
From Verif Require Import M_Functions M_Quadrature M_Fem S_Fem.
Open Scope R_scope.

Section problem.
  Context {E : element_type} (q : rule).

  (* The value and the gradient, at the point of an element with the parametric coordinates [p], of
     the field with the values [u] at the nodes. That [element_gradient] is the gradient of the shape
     function with respect to the position is proved in Properties_Fem (C49_gradient). *)
  Definition value_of (u : nat -> R) (e : element E) (p : vec) : R :=
    interpolant E (fun a => u (connectivity e a)) p.
  Definition gradient_of (u : nat -> R) (e : element E) (p : vec) : vec :=
    fun i => rsum (n_nodes E) (fun a => u (connectivity e a) * element_gradient e a p i).

  (* A mesh: elements, with the positions of their vertices, positively oriented. *)
  Definition good_mesh (mesh : list (element E * list vec)) : Prop :=
    forall e corners, In (e, corners) mesh -> made e corners /\ 0 < simplex_volume corners.

  (* The integral over the mesh of a function of the elements and of the parametric coordinates. *)
  Definition integral (mesh : list (element E * list vec)) (g : element E -> vec -> R) : R :=
    total (map (fun ec => simplex_volume (snd ec) * total (map (fun pw => snd pw * g (fst ec) (fst pw)) q)) mesh).

  Definition stiffness mesh (u v : nat -> R) : R :=
    integral mesh (fun e p => dot (edim E) (gradient_of u e p) (gradient_of v e p)).
  Definition mass mesh (u v : nat -> R) : R := integral mesh (fun e p => value_of u e p * value_of v e p).
  Definition load mesh (f : vec -> R) (v : nat -> R) : R := integral mesh (fun e p => f (image e p) * value_of v e p).

  (* The energy of a field. *)
  Definition energy mesh (f : vec -> R) (v : nat -> R) : R := stiffness mesh v v / 2 - load mesh f v.

  (* The square of the distance between a function and a field. *)
  Definition distance2 mesh (f : vec -> R) (v : nat -> R) : R :=
    integral mesh (fun e p => (f (image e p) - value_of v e p) * (f (image e p) - value_of v e p)).
End problem.
