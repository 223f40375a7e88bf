(* Lipschitz functions on a simplex, for the rate at which quadratures on refined meshes converge. *)
From Coq Require Import Reals List.
From Verif Require Import M_Tensor M_Geometry S_Geometry.
Open Scope R_scope.

(* Between two points of the simplex whose components differ by at most [d], [f] varies by at most
   [L * d]. *)
Definition lipschitz_on (D : nat) (corners : list vec) (f : vec -> R) (L : R) : Prop :=
  0 <= L /\ forall y z d, inside D corners y -> inside D corners z ->
    (forall m, (m < D)%nat -> Rabs (y m - z m) <= d) -> Rabs (f y - f z) <= L * d.
