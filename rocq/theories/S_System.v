(* Specification vocabulary for function spaces and discrete systems. *)
From stdpp Require Import base gmap list.
From Coq Require Import Reals.
From Verif Require Import Base.
Open Scope nat_scope.

(* a new node is not one of those in use *)
Definition fresh_ok (fresh : gset nat → nat) : Prop := ∀ s, fresh s ∉ s.

(* [φ] names the members of [l] without confusing any two *)
Definition names {K : Type} (φ : K → nat) (l : list K) : Prop :=
  ∀ a b, a ∈ l → b ∈ l → φ a = φ b → a = b.

(* the sides of a triangle, as pairs of its nodes *)
Definition sides {K : Type} (nodes : list K) : list (K * K) :=
  match nodes with
  | [a; b; c] => [(a, b); (b, c); (c, a)]
  | _ => []
  end.

(* the same side, whatever the order of its ends *)
Definition same_side {K : Type} (x y : K * K) : Prop := x = y ∨ x = (y.2, y.1).

(* a sum of numbers *)
Definition sumR (l : list R) : R := foldr Rplus 0%R l.

Section galerkin.
  Context {C : Type} (n : nat) (blocks : C * list nat → (nat → nat → R) * (nat → R)).

  (* what an element adds to the entry of the nodes [p], [q]: the entries of its matrix at the local
     numbers of these nodes *)
  Definition element_matrix (e : C * list nat) (p q : nat) : R :=
    sumR ((λ a, sumR ((λ b,
      if decide (e.2 !! a = Some p ∧ e.2 !! b = Some q) then (blocks e).1 a b else 0%R) <$> seq 0 n)) <$> seq 0 n).
  Definition element_vector (e : C * list nat) (p : nat) : R :=
    sumR ((λ a, if decide (e.2 !! a = Some p) then (blocks e).2 a else 0%R) <$> seq 0 n).

  (* the sums over the elements *)
  Definition global_matrix (es : list (C * list nat)) (p q : nat) : R :=
    sumR ((λ e, element_matrix e p q) <$> es).
  Definition global_vector (es : list (C * list nat)) (p : nat) : R :=
    sumR ((λ e, element_vector e p) <$> es).
End galerkin.

(* the node [p] is in the connectivity of some element *)
Definition node_of {C : Type} (es : list (C * list nat)) (p : nat) : Prop := ∃ e, e ∈ es ∧ p ∈ e.2.

(* the value of a field at the local node [b] of an element *)
Definition at_local {C : Type} (field : gmap nat R) (e : C * list nat) (b : nat) : R :=
  match e.2 !! b with
  | Some q => match field !! q with Some x => x | None => 0%R end
  | None => 0%R
  end.

(* the elements' matrices applied to a field, at the node [p] *)
Definition action {C : Type} (n : nat) (blocks : C * list nat → (nat → nat → R) * (nat → R)) (es : list (C * list nat))
    (field : gmap nat R) (p : nat) : R :=
  sumR ((λ e, sumR ((λ a,
    if decide (e.2 !! a = Some p) then sumR ((λ b, ((blocks e).1 a b * at_local field e b)%R) <$> seq 0 n) else 0%R)
    <$> seq 0 n)) <$> es).

(* [u] solves the system: the products of the rows with [u] are the right-hand sides *)
Definition solves (matrix : Z → Z → R) (rhs : Z → R) (u : list R) : Prop :=
  ∀ i, i < length u →
    sumR ((λ j, (matrix (Z.of_nat i) (Z.of_nat j) * nth j u 0)%R) <$> seq 0 (length u)) = rhs (Z.of_nat i).

(* the product x . A y of a matrix of size [N] with two vectors *)
Definition quad (N : nat) (A : nat → nat → R) (x y : nat → R) : R :=
  sumR ((λ i, sumR ((λ j, x i * A i j * y j)%R <$> seq 0 N)) <$> seq 0 N).

(* a symmetric, positive definite matrix *)
Definition symmetric (N : nat) (A : nat → nat → R) : Prop := ∀ i j, i < N → j < N → A i j = A j i.
Definition positive_definite (N : nat) (A : nat → nat → R) : Prop :=
  ∀ x : nat → R, (∃ i, i < N ∧ x i ≠ 0%R) → (0 < quad N A x x)%R.

(* two nodes of the same element; every node of the mesh is joined to a constrained node by elements *)
Definition neighbours {C : Type} (es : list (C * list nat)) (p q : nat) : Prop := ∃ e, e ∈ es ∧ p ∈ e.2 ∧ q ∈ e.2.
Definition held {C : Type} (es : list (C * list nat)) (constrained : gset nat) : Prop :=
  ∀ p, node_of es p → ∃ c, c ∈ constrained ∧ rtc (neighbours es) p c.

(* the value of a field at a node *)
Definition nodal (field : gmap nat R) (p : nat) : R := match field !! p with Some x => x | None => 0%R end.
