(* Specification vocabulary for discrete fields and their output. *)
From stdpp Require Import base gmap list.
From Coq Require Import Reals.
From Verif Require Import M_Tensor M_Geometry S_Geometry.
From Verif Require Import Base M_SegAlloc M_Topology M_Mesh M_Discrete.
Open Scope nat_scope.

(* what a client does with a field: insert an entry, assign to the value of an entry *)
Inductive fop (K V : Type) :=
  | Insert (k : K) (v : V)
  | Assign (k : K) (v : V).
Arguments Insert {K V} k v.
Arguments Assign {K V} k v.

(* a history of these *)
Definition fstep {K V} `{Countable K} (debug : bool) (f : gmap K V) (o : fop K V) : res (gmap K V) :=
  match o with
  | Insert k v => insert debug k v f
  | Assign k v => assign k v f
  end.

Definition inserts {K V} (k : K) (o : fop K V) : Prop := ∃ v, o = Insert k v.
Definition assigns {K V} (k : K) (o : fop K V) : Prop := ∃ v, o = Assign k v.

(* the value of an entry after a history: the last one assigned; if none was, the first one inserted *)
Definition latest {K V} (h : list (fop K V)) (k : K) (v : V) : Prop :=
  (∃ h1 h2, h = h1 ++ Assign k v :: h2 ∧ Forall (λ o, ¬ assigns k o) h2) ∨
  (Forall (λ o, ¬ assigns k o) h ∧ ∃ h1 h2, h = h1 ++ Insert k v :: h2 ∧ Forall (λ o, ¬ inserts k o) h1).

(* a loop over an unordered container visits each element once, in some order *)
Definition visits {K V} `{Countable K} (visit : gmap K V → list (K * V)) : Prop :=
  ∀ m, visit m ≡ₚ map_to_list m.
Definition visits_set {K} `{Countable K} (order : gset K → list K) : Prop :=
  ∀ s, order s ≡ₚ elements s.

(* the place in space of a point with coordinates [x], as three numbers *)
Definition located (c : chart) (x p : vec) : Prop :=
  (∀ i, i < dim c → p i = position c x i) ∧ ∀ i, dim c <= i → i < 3 → p i = 0%R.

(* the charts of a space of dimension one, two or three *)
Definition in_space (c : chart) : Prop := 1 <= dim c <= 3.
