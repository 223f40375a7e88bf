(* What forms are supposed to do, stated without the library's way of computing them. *)
From Coq Require Import Reals List.
From Verif Require Import M_Tensor.
Import ListNotations.
Open Scope R_scope.

(* A multilinear function of P vectors, as ordinary mathematics: a function of a list of vectors. *)
Definition action := list vec -> R.

(* Filling the dummy slots of [args], from left to right, with the vectors [vs]. *)
Fixpoint fill (args : list arg) (vs : list vec) : list vec :=
  match args with
  | [] => []
  | Some v :: args' => v :: fill args' vs
  | None :: args' =>
      match vs with
      | [] => []
      | u :: vs' => u :: fill args' vs'
      end
  end.

(* The number of dummy slots. *)
Fixpoint dummies (args : list arg) : nat :=
  match args with
  | [] => 0
  | Some _ :: args' => dummies args'
  | None :: args' => S (dummies args')
  end.

(* [F] is a P-form whose value on the vectors v1 .. vP is [phi [v1; ..; vP]]. A 0-form is a
   scalar. *)
Definition evaluates (F : val) (P : nat) (phi : action) : Prop :=
  match F with
  | Sc r => P = 0%nat /\ r = phi []
  | Fm Q _ =>
      Q = P /\ (0 < P)%nat /\
      forall vs, length vs = P -> app F (map Some vs) = Some (Sc (phi vs))
  end.

(* [F] behaves as the P-form [phi] through [n] successive contractions: it evaluates to [phi], and
   contracting some but not all of its slots, the others being left to the dummy, gives the form
   in the remaining slots, in the same order, which again behaves so. Leaving all slots open is
   possible for one- and two-forms. *)
Fixpoint behaves (n : nat) (F : val) (P : nat) (phi : action) : Prop :=
  evaluates F P phi /\
  match n with
  | O => True
  | S m =>
      forall args, length args = P -> (0 < dummies args)%nat ->
        (dummies args < P \/ P <= 2)%nat ->
        exists G, app F args = Some G /\
          behaves m G (dummies args) (fun vs => phi (fill args vs))
  end.

(* Linear functions of one vector (of dimension D: only the first D components are read). *)
Definition linear1 (f : vec -> R) : Prop :=
  (forall u v, f (vadd u v) = f u + f v) /\ (forall a u, f (vscale a u) = a * f u).

(* The determinants of two and three vectors seen through the forms [a b (c)]. *)
Definition det_of2 (a b : vec -> R) (x y : vec) : R := a x * b y - a y * b x.
Definition det_of3 (a b c : vec -> R) (x y z : vec) : R :=
  a x * (b y * c z - b z * c y) - a y * (b x * c z - b z * c x) + a z * (b x * c y - b y * c x).

(* Alternating: a swap of two neighbouring arguments changes the sign (which also gives the value 0
   on repeated arguments, and generates all permutations). *)
Definition alternating (P : nat) (phi : action) : Prop :=
  forall pre x y post, length (pre ++ x :: y :: post) = P ->
    phi (pre ++ y :: x :: post) = - phi (pre ++ x :: y :: post).

Definition multilinear (P : nat) (phi : action) : Prop :=
  forall pre x y a post, length (pre ++ x :: post) = P ->
    phi (pre ++ vadd x y :: post) = phi (pre ++ x :: post) + phi (pre ++ y :: post) /\
    phi (pre ++ vscale a x :: post) = a * phi (pre ++ x :: post).

(* [F] is the P-form [phi], through any number of successive contractions. *)
Definition is_form (F : val) (P : nat) (phi : action) : Prop := forall n, behaves n F P phi.
