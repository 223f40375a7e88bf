(* Outcomes of modelled C++ functions, shared by all model files. *)
From stdpp Require Import base list.

(* A call of a modelled function ends in one of three ways:
   - [Ok a]: it returns [a];
   - [Abort]: an assert, a firewall or a thrown exception stops it (the program reports an error);
   - [Ub]: it executes undefined behaviour (null or dangling dereference, access out of range,
     read of an uninitialised object). *)
(* Vocabulary of the model: no line of /repo. *)
Inductive res (A : Type) : Type :=
  | Ok (a : A)
  | Abort
  | Ub.
Arguments Ok {A} a.
Arguments Abort {A}.
Arguments Ub {A}.

(* sequencing of two calls: vocabulary of the model, no line of /repo. *)
Definition rbind {A B} (m : res A) (k : A → res B) : res B :=
  match m with
  | Ok a => k a
  | Abort => Abort
  | Ub => Ub
  end.

(* notation for it, no line of /repo. *)
Notation "'let!' x ':=' m 'in' k" := (rbind m (fun x => k))
  (at level 200, x pattern, m at level 100, k at level 200, right associativity).

(* A pointer, iterator or map access that is undefined when the target is absent. As the
   `operator->` of SharedPointer.icc lines 67-75. *)
Definition deref {A} (o : option A) : res A :=
  match o with
  | Some a => Ok a
  | None => Ub
  end.

(* [.at()] throws std::out_of_range when the target is absent. As in CoordinateSystem.h line 88. *)
Definition at_or_throw {A} (o : option A) : res A :=
  match o with
  | Some a => Ok a
  | None => Abort
  end.

(* An [assert(b)]: active in debug builds, absent when NDEBUG is defined. As in SegmentedAllocator.h
   line 288. *)
Definition assert_ (debug b : bool) : res unit :=
  if debug && negb b then Abort else Ok tt.

Lemma rbind_ok {A B} (m : res A) (k : A → res B) b :
  rbind m k = Ok b ↔ ∃ a, m = Ok a ∧ k a = Ok b.
Proof.
  split.
  - destruct m as [a| |]; cbn [rbind]; intros H; try discriminate. eauto.
  - intros (a & -> & H). exact H.
Qed.
