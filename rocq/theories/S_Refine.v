(* What the refinement of a mesh is expected to do to integrals and to the sizes of the cells. *)
From Coq Require Import Reals List.
From Verif Require Import M_Tensor M_Geometry S_Geometry M_Quadrature.
Open Scope R_scope.

(* [f] is continuous at the points of the simplex with the given corners, uniformly: the simplex is
   compact. *)
Definition continuous_on (D : nat) (corners : list vec) (f : vec -> R) : Prop :=
  forall eps, 0 < eps -> exists delta, 0 < delta /\
    forall y z, inside D corners y -> inside D corners z ->
      (forall m, (m < D)%nat -> Rabs (y m - z m) <= delta) -> Rabs (f y - f z) <= eps.

(* The sum of the weights of a table: what the table makes of the constant one on a simplex of
   volume one. *)
Definition weight (q : rule) : R := total (map snd q).

(* The second simplex is the first one scaled by [k], moved, possibly reflected through a point, and
   its corners are possibly listed in another order: corner [i] of the first is corner [t i] of the
   second. *)
Definition similar (k : R) (qs ps : list vec) : Prop :=
  length qs = length ps /\
  exists (t : nat -> nat) (s : R), (s = 1 \/ s = -1) /\
    (forall i, (i < length ps)%nat -> (t i < length ps)%nat) /\
    (forall i j, (i < length ps)%nat -> (j < length ps)%nat -> t i = t j -> i = j) /\
    forall i j m, (i < length ps)%nat -> (j < length ps)%nat ->
      k * (nth i qs vzero m - nth j qs vzero m) = s * (nth (t i) ps vzero m - nth (t j) ps vzero m).

(* The sum over the edges of a simplex of the squares of their m-th components. *)
Definition sq (x : R) : R := x * x.
Fixpoint spread (m : nat) (ps : list vec) : R :=
  match ps with
  | nil => 0
  | cons p ps' => total (map (fun q => sq (p m - q m)) ps') + spread m ps'
  end.
