(* What a material law is supposed to satisfy, in the words of continuum mechanics. *)
From Coq Require Import Reals.
From Verif Require Import M_Tensor.
Open Scope R_scope.

(* [G] is the velocity at time [t] of the motion [F]: the derivative of each of the nine components. *)
Definition velocity (F : R -> mat) (t : R) (G : mat) : Prop :=
  forall i j, (i < 3)%nat -> (j < 3)%nat -> derivable_pt_lim (fun s => F s i j) t (G i j).

(* The sum over two indices in three dimensions. *)
Definition sum3 (f : nat -> R) : R := f 0%nat + f 1%nat + f 2%nat.
Definition sum33 (f : nat -> nat -> R) : R := sum3 (fun i => sum3 (f i)).

(* [P] is the derivative of [W] at [F]: along every motion through [F], the rate of [W] is the sum of
   the products of the components of [P] with those of the velocity. *)
Definition is_derivative (W : mat -> R) (F P : mat) : Prop :=
  forall (motion : R -> mat) t G,
    (forall i j, motion t i j = F i j) -> velocity motion t G ->
    derivable_pt_lim (fun s => W (motion s)) t (sum33 (fun i j => P i j * G i j)).

(* [F] with the component (i, j) replaced by x. *)
Definition with_entry (F : mat) (i j : nat) (x : R) : mat := fun a b =>
  if (Nat.eqb a i && Nat.eqb b j)%bool then x else F a b.
(* The partial derivative with respect to the component (i, j). *)
Definition is_partial_entry (W : mat -> R) (F : mat) (i j : nat) (l : R) : Prop :=
  derivable_pt_lim (fun x => W (with_entry F i j x)) (F i j) l.

(* Rotations. *)
Definition orthogonal (Q : mat) : Prop :=
  forall i j, (i < 3)%nat -> (j < 3)%nat ->
    sum3 (fun k => Q k i * Q k j) = if Nat.eqb i j then 1 else 0.
Definition rotation (Q : mat) : Prop := orthogonal Q /\ det3 Q = 1.

(* The product of two matrices. *)
Definition product (M N : mat) : mat := fun i j => sum3 (fun k => M i k * N k j).

(* The first invariant: the sum of the squares of the components. *)
Definition invariant1 (F : mat) : R := sum33 (fun i j => F i j * F i j).

(* The strain of linear elasticity: the symmetric part of the displacement gradient F - 1. *)
Definition delta (i j : nat) : R := if Nat.eqb i j then 1 else 0.
Definition strain (F : mat) (i j : nat) : R := (F i j - delta i j + (F j i - delta j i)) / 2.
