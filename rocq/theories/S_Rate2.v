(* Functions that are nearly affine around each point of a simplex, as those with bounded second
   derivatives are by Taylor's formula, for the second order rate of the quadratures. *)
From Coq Require Import Reals List.
From Verif Require Import M_Tensor M_Geometry S_Geometry S_Refine.
Open Scope R_scope.

(* [f] is continuous on the simplex and at each of its points [c] there are slopes [g] with which [f]
   differs from its linear expansion at [c] by at most M d^2 at the points of the simplex whose
   components differ from those of [c] by at most [d]. *)
Definition nearly_affine (D : nat) (corners : list vec) (f : vec -> R) (M : R) : Prop :=
  continuous_on D corners f /\ 0 <= M /\
  forall c, inside D corners c -> exists g : nat -> R, forall y d, inside D corners y ->
    (forall m, (m < D)%nat -> Rabs (y m - c m) <= d) ->
    Rabs (f y - (f c + rsum D (fun k => g k * (y k - c k)))) <= M * (d * d).
