(* What the error of the solution of the Poisson equation on triangles is: integrals over the triangles of a
   mesh, and meshes whose triangles match along their sides. *)
From stdpp Require Import base gmap list.
From Coq Require Import Reals.
From Verif Require Import Base M_Tensor M_Geometry S_Geometry M_Functions M_Quadrature S_Quadrature S_Solver.
Open Scope nat_scope.

Section mesh.
  Context {K : Type} (x : K → vec) (cells domain : list (list K)).

  (* The sides of a triangle, in the order in which one goes around it. *)
  Definition around (c : list K) : list (K * K) :=
    match c with
    | [k; l; m] => [(k, l); (l, m); (m, k)]
    | _ => []
    end.

  (* Triangles with positive areas that match along their sides: no two go along a side in the same direction;
     each side is a side of two triangles, or belongs to the domain of the constraints, or nothing flows
     through it: the component of the field [G] normal to it is zero. *)
  Definition matching (G : vec → vec) : Prop :=
    NoDup (concat (around <$> cells)) ∧
    ∀ k l, (k, l) ∈ concat (around <$> cells) →
      (l, k) ∈ concat (around <$> cells) ∨
      (∃ b, b ∈ domain ∧ k ∈ b ∧ l ∈ b) ∨
      (∀ (n : vec) t, dot 2 n (vsub (x l) (x k)) = 0%R → dot 2 n (G (between t (x k) (x l))) = 0%R).

  (* [v] is the sum of the integrals over the triangles of a function given in each of them. *)
  Definition whole_integral (g : list K → vec → R) (v : R) : Prop :=
    ∃ vs, Forall2 (λ c w, cell_integral 2 (x <$> c) (g c) w) cells vs ∧ v = S_Geometry.total vs.

  (* The energy of the difference of two functions with the given gradients. *)
  Definition energy (G H : list K → vec → vec) (v : R) : Prop :=
    whole_integral (λ c y, dot 2 (vsub (G c y) (H c y)) (vsub (G c y) (H c y))) v.
End mesh.
