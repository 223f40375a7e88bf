(* C01, C02, C03: math/combinatorics.h *)
From stdpp Require Import base list.
From Verif Require Import Base M_Perm S_Perm P_Perm.

(* C01. In debug and release builds alike, for duplicate-free arrays with the same elements the
   function returns, and its value is the parity of ANY sequence of exchanges of two entries
   leading from one array to the other. *)
Theorem C01_permutation_sign_is_parity :
  ∀ (T : Type) (dec : EqDecision T) (leb : T → T → bool) (debug : bool) (data reference : list T),
    total_order leb → data ≠ [] → NoDup data → data ≡ₚ reference →
    ∃ s, permutation_sign leb debug data reference = Ok s ∧
      (s = 1 ∨ s = -1)%Z ∧
      (s = 1%Z ↔ ∃ n, Nat.Even n ∧ exchanges n data reference) ∧
      (s = (-1)%Z ↔ ∃ n, Nat.Odd n ∧ exchanges n data reference).
Proof. intros T dec leb debug data reference H. exact (permutation_sign_iff leb H debug data reference). Qed.
Print Assumptions C01_permutation_sign_is_parity.

(* C01. The parity does not depend on the chosen sequence of exchanges. *)
Theorem C01_parity_well_defined :
  ∀ (T : Type) (dec : EqDecision T) (n m : nat) (l l' : list T),
    NoDup l → exchanges n l l' → exchanges m l l' → Nat.even n = Nat.even m.
Proof. intros T dec. exact exchanges_parity. Qed.
Print Assumptions C01_parity_well_defined.

Theorem C02_sign_identity :
  ∀ (T : Type) (dec : EqDecision T) (leb : T → T → bool) (debug : bool) (a : list T),
    total_order leb → a ≠ [] → NoDup a → permutation_sign leb debug a a = Ok 1%Z.
Proof. intros T dec leb debug a H. exact (permutation_sign_refl leb H debug a). Qed.
Print Assumptions C02_sign_identity.

Theorem C02_sign_multiplicative :
  ∀ (T : Type) (dec : EqDecision T) (leb : T → T → bool) (debug : bool) (a b c : list T),
    total_order leb → a ≠ [] → NoDup a → a ≡ₚ b → b ≡ₚ c →
    ∃ s t, permutation_sign leb debug a b = Ok s ∧ permutation_sign leb debug b c = Ok t ∧
           permutation_sign leb debug a c = Ok (s * t)%Z.
Proof. intros T dec leb debug a b c H. exact (permutation_sign_trans leb H debug a b c). Qed.
Print Assumptions C02_sign_multiplicative.

Theorem C02_sign_symmetric :
  ∀ (T : Type) (dec : EqDecision T) (leb : T → T → bool) (debug : bool) (a b : list T),
    total_order leb → a ≠ [] → NoDup a → a ≡ₚ b →
    permutation_sign leb debug a b = permutation_sign leb debug b a.
Proof. intros T dec leb debug a b H. exact (permutation_sign_sym leb H debug a b). Qed.
Print Assumptions C02_sign_symmetric.

Theorem C02_sign_antisymmetric :
  ∀ (T : Type) (dec : EqDecision T) (leb : T → T → bool) (debug : bool) (a a' reference : list T),
    total_order leb → a ≠ [] → NoDup a → a ≡ₚ reference → exchange a a' →
    ∃ s, permutation_sign leb debug a reference = Ok s ∧
         permutation_sign leb debug a' reference = Ok (- s)%Z.
Proof. intros T dec leb debug a a' r H. exact (permutation_sign_exchange_l leb H debug a a' r). Qed.
Print Assumptions C02_sign_antisymmetric.

(* C03. same_elements decides equality of multisets. *)
Theorem C03_same_elements :
  ∀ (T : Type) (dec : EqDecision T) (leb : T → T → bool) (a b : list T),
    total_order leb → same_elements leb a b = true ↔ a ≡ₚ b.
Proof. intros T dec leb a b H. exact (same_elements_spec leb H a b). Qed.
Print Assumptions C03_same_elements.

(* C03. Under that condition (duplicates allowed) swap_sort stays inside its arrays and the number
   it returns is a number of exchanges that sorts the array. *)
Theorem C03_swap_sort_defined :
  ∀ (T : Type) (dec : EqDecision T) (reference array : list T),
    array ≠ [] → array ≡ₚ reference →
    ∃ n, swap_sort array reference = Ok n ∧ exchanges n array reference.
Proof. intros T dec. exact swap_sort_exchanges. Qed.
Print Assumptions C03_swap_sort_defined.

(* Non-vacuity: a concrete arrangement of four addresses meets the hypotheses, and the function is
   not constant. *)
Example nonvacuous_perm :
  NoDup [30; 10; 40; 20] ∧ [30; 10; 40; 20] ≡ₚ [10; 20; 30; 40] ∧
  permutation_sign Nat.leb true [30; 10; 40; 20] [10; 20; 30; 40] = Ok (-1)%Z ∧
  permutation_sign Nat.leb true [20; 10; 40; 30] [10; 20; 30; 40] = Ok 1%Z ∧
  permutation_sign Nat.leb true [20; 10; 40; 50] [10; 20; 30; 40] = Abort ∧
  permutation_sign Nat.leb false [20; 10; 40; 50] [10; 20; 30; 40] = Ub.
Proof.
  split_and!; [by apply (bool_decide_unpack _)| |vm_compute; reflexivity..].
  apply (C03_same_elements nat _ Nat.leb); [|vm_compute; reflexivity].
  constructor; intros *; rewrite ?Nat.leb_le; lia.
Qed.
Example nonvacuous_order : total_order Nat.leb.
Proof. constructor; intros *; rewrite ?Nat.leb_le; lia. Qed.
