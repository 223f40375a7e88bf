(* Specification vocabulary for rearrangements, independent of the model. *)
From stdpp Require Import base list.

(* [l'] is [l] with the entries at two different positions exchanged. *)
Definition exchange {T} (l l' : list T) : Prop :=
  ∃ l1 a m b l2, l = l1 ++ a :: m ++ b :: l2 ∧ l' = l1 ++ b :: m ++ a :: l2.

(* [l'] is reached from [l] by exactly [n] exchanges. *)
Inductive exchanges {T} : nat → list T → list T → Prop :=
  | exchanges_O l : exchanges 0 l l
  | exchanges_S n l l' l'' : exchange l l' → exchanges n l' l'' → exchanges (S n) l l''.

(* A decidable total order given by a boolean test, as the `<` of the C++ element type. *)
Record total_order {T} (leb : T → T → bool) : Prop := {
  to_refl : ∀ x, leb x x = true;
  to_antisym : ∀ x y, leb x y = true → leb y x = true → x = y;
  to_trans : ∀ x y z, leb x y = true → leb y z = true → leb x z = true;
  to_total : ∀ x y, leb x y = true ∨ leb y x = true
}.
