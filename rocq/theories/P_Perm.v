(* Proofs about math/combinatorics.h: parity of rearrangements. *)
From stdpp Require Import base list.
From Coq Require Import Lia.
From Verif Require Import Base M_Perm S_Perm.

(* ---- parity of the number of inversions of a list of numbers ---- *)

Fixpoint lt_par (x : nat) (l : list nat) : bool :=
  match l with
  | [] => false
  | y :: l => xorb (y <? x) (lt_par x l)
  end.

Fixpoint invp (l : list nat) : bool :=
  match l with
  | [] => false
  | x :: l => xorb (lt_par x l) (invp l)
  end.

Ltac bdone :=
  repeat match goal with
  | |- context [lt_par ?x ?l] => destruct (lt_par x l)
  | |- context [invp ?l] => destruct (invp l)
  | |- context [Nat.odd ?l] => destruct (Nat.odd l)
  end; done.

Lemma lt_par_perm x l l' : l ≡ₚ l' → lt_par x l = lt_par x l'.
Proof.
  induction 1; cbn [lt_par]; [done| | |].
  - by rewrite IHPermutation.
  - destruct (y <? x), (x0 <? x), (lt_par x l); done.
  - congruence.
Qed.

Lemma invp_adjacent l1 a b l2 :
  a ≠ b → invp (l1 ++ a :: b :: l2) = negb (invp (l1 ++ b :: a :: l2)).
Proof.
  intros Hab. induction l1 as [|x l1 IH]; cbn [app invp].
  - cbn [lt_par].
    destruct (Nat.ltb_spec b a), (Nat.ltb_spec a b); try lia;
      bdone.
  - rewrite IH. rewrite (lt_par_perm x (l1 ++ a :: b :: l2) (l1 ++ b :: a :: l2)).
    2:{ apply Permutation_app_head, perm_swap. }
    bdone.
Qed.

Lemma invp_shift m : ∀ l1 a l2,
  a ∉ m → invp (l1 ++ a :: m ++ l2) = xorb (Nat.odd (length m)) (invp (l1 ++ m ++ a :: l2)).
Proof.
  induction m as [|b m IH]; intros l1 a l2 Ha; cbn [app length].
  - change (Nat.odd 0) with false. bdone.
  - apply not_elem_of_cons in Ha as [Hab Ha].
    rewrite invp_adjacent by done.
    pose proof (IH (l1 ++ [b]) a l2 Ha) as E.
    rewrite <- !app_assoc in E. cbn [app] in E. rewrite E.
    rewrite Nat.odd_succ, <- Nat.negb_odd.
    bdone.
Qed.

Lemma invp_exchange l l' :
  NoDup l → exchange l l' → invp l' = negb (invp l).
Proof.
  intros Hnd (l1 & a & m & b & l2 & -> & ->).
  apply NoDup_app in Hnd as (_ & _ & Hnd).
  apply NoDup_cons in Hnd as [Ha Hnd].
  apply NoDup_app in Hnd as (_ & Hb & _).
  rewrite !elem_of_app, elem_of_cons in Ha.
  assert (a ∉ m) as Ham by naive_solver.
  assert (b ∉ m) as Hbm.
  { intros H. apply (Hb b H). apply elem_of_cons. by left. }
  rewrite (invp_shift m l1 b (a :: l2)) by done.
  pose proof (invp_shift (m ++ [b]) l1 a l2) as E.
  rewrite <- !app_assoc in E. cbn [app] in E. rewrite E.
  2:{ rewrite elem_of_app, elem_of_list_singleton. naive_solver. }
  rewrite app_length. cbn [length].
  rewrite Nat.add_1_r, Nat.odd_succ, <- Nat.negb_odd.
  bdone.
Qed.

(* ---- exchanges ---- *)

Lemma exchange_map {A B} (f : A → B) l l' : exchange l l' → exchange (f <$> l) (f <$> l').
Proof.
  intros (l1 & a & m & b & l2 & -> & ->).
  exists (f <$> l1), (f a), (f <$> m), (f b), (f <$> l2).
  by rewrite !fmap_app, !fmap_cons, !fmap_app, !fmap_cons.
Qed.

Lemma exchange_perm {T} (l l' : list T) : exchange l l' → l ≡ₚ l'.
Proof.
  intros (l1 & a & m & b & l2 & -> & ->).
  apply Permutation_app_head.
  rewrite <- (Permutation_middle m l2 b), <- (Permutation_middle m l2 a). apply perm_swap.
Qed.

Lemma exchange_sym {T} (l l' : list T) : exchange l l' → exchange l' l.
Proof. intros (l1 & a & m & b & l2 & -> & ->). by exists l1, b, m, a, l2. Qed.

Lemma exchanges_perm {T} n (l l' : list T) : exchanges n l l' → l ≡ₚ l'.
Proof.
  induction 1 as [l|n l l' l'' He _ IH]; [done|].
  etrans; [apply exchange_perm, He|exact IH].
Qed.

Lemma exchanges_app {T} n m (l l' l'' : list T) :
  exchanges n l l' → exchanges m l' l'' → exchanges (n + m) l l''.
Proof.
  induction 1 as [l|n l k l' He _ IH]; intros H; [done|].
  cbn [Nat.add]. econstructor; eauto.
Qed.

Lemma exchanges_one {T} (l l' : list T) : exchange l l' → exchanges 1 l l'.
Proof. intros. econstructor; [done|constructor]. Qed.

Lemma exchanges_sym {T} n (l l' : list T) : exchanges n l l' → exchanges n l' l.
Proof.
  induction 1 as [l|n l k l' He _ IH]; [constructor|].
  rewrite <- Nat.add_1_r. eapply exchanges_app; [exact IH|].
  by apply exchanges_one, exchange_sym.
Qed.

Lemma exchanges_cons {T} n (x : T) (l l' : list T) :
  exchanges n l l' → exchanges n (x :: l) (x :: l').
Proof.
  induction 1 as [l|n l k l' He _ IH]; [constructor|].
  econstructor; [|exact IH].
  destruct He as (l1 & a & m & b & l2 & -> & ->).
  by exists (x :: l1), a, m, b, l2.
Qed.

Section parity.
  Context {T : Type} `{EqDecision T}.

  Definition idx (l : list T) (x : T) : nat := default 0 (find_index x l).

  Lemma find_index_elem x (l : list T) : x ∈ l → ∃ i, find_index x l = Some i ∧ l !! i = Some x.
  Proof.
    induction l as [|y l IH]; intros Hx.
    { by apply elem_of_nil in Hx. }
    cbn [find_index]. destruct (decide (x = y)) as [->|Hne].
    - by exists 0.
    - apply elem_of_cons in Hx as [->|Hx]; [done|].
      destruct (IH Hx) as (i & -> & Hi). by exists (S i).
  Qed.

  Lemma find_index_lookup x (l : list T) i : find_index x l = Some i → l !! i = Some x.
  Proof.
    revert i. induction l as [|y l IH]; intros i; cbn [find_index]; [done|].
    destruct (decide (x = y)) as [->|Hne].
    - intros [= <-]. done.
    - destruct (find_index x l) as [j|]; cbn; [|done]. intros [= <-]. cbn. eauto.
  Qed.

  Lemma find_index_None x (l : list T) : find_index x l = None ↔ x ∉ l.
  Proof.
    split.
    - intros H Hx. apply find_index_elem in Hx as (i & Hi & _). congruence.
    - intros H. destruct (find_index x l) as [i|] eqn:E; [|done].
      apply find_index_lookup, elem_of_list_lookup_2 in E. done.
  Qed.

  Lemma idx_inj (l : list T) x y : x ∈ l → y ∈ l → idx l x = idx l y → x = y.
  Proof.
    intros (i & Hi & Hxi)%find_index_elem (j & Hj & Hyj)%find_index_elem.
    unfold idx. rewrite Hi, Hj. cbn. intros ->. congruence.
  Qed.

  Lemma NoDup_idx (l0 l : list T) : NoDup l → (∀ x, x ∈ l → x ∈ l0) → NoDup (idx l0 <$> l).
  Proof.
    induction 1 as [|x l Hx Hnd IH]; intros Hsub; [constructor|].
    rewrite fmap_cons. constructor.
    - intros (y & E & Hy)%elem_of_list_fmap.
      apply idx_inj in E as ->; [done| |].
      + apply Hsub. by left.
      + apply Hsub. by right.
    - apply IH. intros y Hy. apply Hsub. by right.
  Qed.

  Lemma exchanges_invp (l0 : list T) n l l' :
    NoDup l → (∀ x, x ∈ l → x ∈ l0) → exchanges n l l' →
    invp (idx l0 <$> l') = xorb (Nat.odd n) (invp (idx l0 <$> l)).
  Proof.
    intros Hnd Hsub H. revert Hnd Hsub.
    induction H as [l|n l k l' He _ IH]; intros Hnd Hsub.
    { change (Nat.odd 0) with false. bdone. }
    assert (k ≡ₚ l) as Hkl by (symmetry; by apply exchange_perm).
    rewrite IH.
    - rewrite (invp_exchange (idx l0 <$> l) (idx l0 <$> k)).
      + rewrite Nat.odd_succ, <- Nat.negb_odd. bdone.
      + by apply NoDup_idx.
      + by apply exchange_map.
    - by rewrite Hkl.
    - intros x Hx. apply Hsub. by rewrite <- Hkl.
  Qed.

  (* the parity of the number of exchanges between two arrangements is well defined *)
  Lemma exchanges_parity n m (l l' : list T) :
    NoDup l → exchanges n l l' → exchanges m l l' → Nat.even n = Nat.even m.
  Proof.
    intros Hnd Hn Hm.
    pose proof (exchanges_invp l n l l' Hnd (λ x H, H) Hn) as E1.
    pose proof (exchanges_invp l m l l' Hnd (λ x H, H) Hm) as E2.
    rewrite E1 in E2. rewrite <- !Nat.negb_odd.
    revert E2. bdone.
  Qed.

  (* ---- swap_sort ---- *)

  Lemma exchange_insert (a r : T) rest j :
    rest !! j = Some r → exchange (a :: rest) (r :: <[j := a]> rest).
  Proof.
    intros Hj.
    exists [], a, (take j rest), r, (drop (S j) rest). cbn [app]. split.
    - f_equal. by rewrite take_drop_middle.
    - f_equal. rewrite insert_take_drop; [done|]. by eapply lookup_lt_Some.
  Qed.

  Lemma swap_sort_exchanges ref : ∀ arr : list T,
    arr ≠ [] → arr ≡ₚ ref → ∃ n, swap_sort arr ref = Ok n ∧ exchanges n arr ref.
  Proof.
    induction ref as [|r ref IH]; intros arr Hne Hperm.
    { symmetry in Hperm. by apply Permutation_nil in Hperm. }
    destruct arr as [|a rest]; [done|].
    destruct rest as [|b rest].
    { exists 0. split; [done|].
      apply Permutation_length_1_inv in Hperm as [= -> ->]. constructor. }
    set (rest' := b :: rest) in *.
    assert (r ∈ a :: rest') as Hr.
    { rewrite Hperm. by left. }
    assert (swap_sort (a :: rest') (r :: ref) =
      match find_index r (a :: rest') with
            | None => Ub
            | Some 0 => swap_sort rest' ref
            | Some (S j) =>
                let! n := swap_sort (<[j := a]> rest') ref in Ok (S n)
            end) as -> by done.
    destruct (find_index_elem _ _ Hr) as (i & Hi & Hlk). rewrite Hi.
    destruct i as [|j].
    - cbn in Hlk. injection Hlk as ->.
      apply Permutation_cons_inv in Hperm.
      destruct (IH rest') as (n & E & Hx); [done..|].
      exists n. split; [done|]. by apply exchanges_cons.
    - cbn [lookup list_lookup] in Hlk.
      pose proof (exchange_insert a r rest' j Hlk) as He.
      assert (<[j := a]> rest' ≡ₚ ref) as Hp'.
      { apply (Permutation_cons_inv (a := r)).
        etrans; [|exact Hperm]. symmetry. by apply exchange_perm. }
      destruct (IH (<[j := a]> rest')) as (n & E & Hx).
      { intros E%(f_equal length). by rewrite insert_length in E. }
      { done. }
      exists (S n). rewrite E. split; [done|].
      econstructor; [exact He|]. by apply exchanges_cons.
  Qed.

  Lemma perm_exchanges (l l' : list T) : l ≡ₚ l' → ∃ n, exchanges n l l'.
  Proof.
    intros Hp. destruct l as [|a l].
    - apply Permutation_nil in Hp as ->. exists 0. constructor.
    - destruct (swap_sort_exchanges l' (a :: l)) as (n & _ & H); eauto.
  Qed.

  (* ---- sort and same_elements ---- *)

  Context (leb : T → T → bool) (Hto : total_order leb).

  Lemma sort_insert_perm x l : sort_insert leb x l ≡ₚ x :: l.
  Proof.
    induction l as [|y l IH]; cbn [sort_insert]; [done|].
    destruct (leb x y); [done|].
    rewrite IH. apply perm_swap.
  Qed.

  Lemma sort_perm l : sort leb l ≡ₚ l.
  Proof.
    induction l as [|x l IH]; cbn [sort]; [done|].
    rewrite sort_insert_perm. by rewrite IH.
  Qed.

  Inductive ordered : list T → Prop :=
    | ordered_nil : ordered []
    | ordered_cons x l : (∀ y, y ∈ l → leb x y = true) → ordered l → ordered (x :: l).

  Lemma sort_insert_ordered x l : ordered l → ordered (sort_insert leb x l).
  Proof using Hto.
    induction 1 as [|y l Hy Hl IH]; cbn [sort_insert].
    { constructor; [|constructor]. intros z Hz%elem_of_nil. done. }
    destruct (leb x y) eqn:E.
    - constructor; [|by constructor].
      intros z [->|Hz]%elem_of_cons; [done|].
      apply (to_trans leb Hto _ y); [done|by apply Hy].
    - constructor; [|done].
      intros z Hz. rewrite sort_insert_perm in Hz.
      apply elem_of_cons in Hz as [->|Hz]; [|by apply Hy].
      destruct (to_total leb Hto x y); congruence.
  Qed.

  Lemma sort_ordered l : ordered (sort leb l).
  Proof using Hto.
    induction l; cbn [sort]; [constructor|]. by apply sort_insert_ordered.
  Qed.

  Lemma ordered_perm_eq l l' : ordered l → ordered l' → l ≡ₚ l' → l = l'.
  Proof using Hto.
    intros Hl. revert l'. induction Hl as [|x l Hx Hl IH]; intros l' Hl' Hp.
    { symmetry. by apply Permutation_nil. }
    destruct Hl' as [|y l' Hy Hl'].
    { symmetry in Hp. by apply Permutation_nil in Hp. }
    assert (x = y) as ->.
    { assert (x ∈ y :: l') as H1 by (rewrite <- Hp; by left).
      assert (y ∈ x :: l) as H2 by (rewrite Hp; by left).
      apply elem_of_cons in H1 as [->|H1]; [done|].
      apply elem_of_cons in H2 as [->|H2]; [done|].
      apply (to_antisym leb Hto); auto. }
    f_equal. apply IH; [done|]. by apply Permutation_cons_inv in Hp.
  Qed.

  Lemma sort_eq_iff l l' : sort leb l = sort leb l' ↔ l ≡ₚ l'.
  Proof using Hto.
    split.
    - intros E. by rewrite <- (sort_perm l), E, sort_perm.
    - intros Hp. apply ordered_perm_eq; [apply sort_ordered..|].
      by rewrite !sort_perm.
  Qed.

  Lemma same_elements_spec l l' : same_elements leb l l' = true ↔ l ≡ₚ l'.
  Proof using Hto.
    unfold same_elements. by rewrite bool_decide_eq_true, sort_eq_iff.
  Qed.

  (* ---- permutation_sign ---- *)

  Lemma permutation_sign_exchanges debug l l' n :
    l ≠ [] → NoDup l → exchanges n l l' →
    permutation_sign leb debug l l' = Ok (if Nat.even n then 1 else -1)%Z.
  Proof using Hto.
    intros Hne Hnd Hx.
    pose proof (exchanges_perm _ _ _ Hx) as Hp.
    unfold permutation_sign, assert_.
    rewrite (proj2 (same_elements_spec l l') Hp).
    rewrite andb_false_r. cbn [rbind].
    destruct (swap_sort_exchanges l' l Hne Hp) as (m & -> & Hm).
    cbn [rbind]. by rewrite (exchanges_parity n m l l').
  Qed.

  Lemma permutation_sign_iff debug l l' :
    l ≠ [] → NoDup l → l ≡ₚ l' →
    ∃ s, permutation_sign leb debug l l' = Ok s ∧
      (s = 1 ∨ s = -1)%Z ∧
      (s = 1%Z ↔ ∃ n, Nat.Even n ∧ exchanges n l l') ∧
      (s = (-1)%Z ↔ ∃ n, Nat.Odd n ∧ exchanges n l l').
  Proof using Hto.
    intros Hne Hnd Hp.
    destruct (perm_exchanges l l' Hp) as (n & Hn).
    eexists. split; [by apply permutation_sign_exchanges|].
    destruct (Nat.even n) eqn:E; (split; [lia|]); split; split; try lia.
    - intros _. exists n. by rewrite <- Nat.even_spec.
    - intros (m & Hm%Nat.odd_spec & Hx).
      pose proof (exchanges_parity n m l l' Hnd Hn Hx) as E'.
      rewrite <- Nat.negb_even in Hm. by rewrite <- E', E in Hm.
    - intros (m & Hm%Nat.even_spec & Hx).
      pose proof (exchanges_parity n m l l' Hnd Hn Hx) as E'. congruence.
    - intros _. exists n. rewrite <- Nat.odd_spec, <- Nat.negb_even. by rewrite E.
  Qed.

  Lemma permutation_sign_refl debug l :
    l ≠ [] → NoDup l → permutation_sign leb debug l l = Ok 1%Z.
  Proof using Hto.
    intros. apply (permutation_sign_exchanges _ _ _ 0); [done..|constructor].
  Qed.

  Lemma permutation_sign_exchange_l debug l l' r :
    l ≠ [] → NoDup l → l ≡ₚ r → exchange l l' →
    ∃ s, permutation_sign leb debug l r = Ok s ∧ permutation_sign leb debug l' r = Ok (- s)%Z.
  Proof using Hto.
    intros Hne Hnd Hp He.
    destruct (perm_exchanges l r Hp) as (n & Hn).
    exists (if Nat.even n then 1 else -1)%Z. split; [by apply permutation_sign_exchanges|].
    pose proof (exchange_perm _ _ He) as Hp'.
    rewrite (permutation_sign_exchanges _ _ _ (S n)).
    - rewrite Nat.even_succ, <- Nat.negb_even. by destruct (Nat.even n).
    - intros ->. symmetry in Hp'. by apply Permutation_nil in Hp'.
    - by rewrite <- Hp'.
    - econstructor; [by apply exchange_sym|done].
  Qed.

  Lemma permutation_sign_sym debug l l' :
    l ≠ [] → NoDup l → l ≡ₚ l' →
    permutation_sign leb debug l l' = permutation_sign leb debug l' l.
  Proof using Hto.
    intros Hne Hnd Hp. destruct (perm_exchanges l l' Hp) as (n & Hn).
    rewrite !(permutation_sign_exchanges _ _ _ n); [done|..]; try done.
    - intros ->. symmetry in Hp. by apply Permutation_nil in Hp.
    - by rewrite <- Hp.
    - by apply exchanges_sym.
  Qed.

  Lemma permutation_sign_trans debug l1 l2 l3 :
    l1 ≠ [] → NoDup l1 → l1 ≡ₚ l2 → l2 ≡ₚ l3 →
    ∃ s t, permutation_sign leb debug l1 l2 = Ok s ∧
      permutation_sign leb debug l2 l3 = Ok t ∧
      permutation_sign leb debug l1 l3 = Ok (s * t)%Z.
  Proof using Hto.
    intros Hne Hnd H12 H23.
    destruct (perm_exchanges l1 l2 H12) as (n & Hn).
    destruct (perm_exchanges l2 l3 H23) as (m & Hm).
    exists (if Nat.even n then 1 else -1)%Z, (if Nat.even m then 1 else -1)%Z.
    split_and!.
    - by apply permutation_sign_exchanges.
    - apply permutation_sign_exchanges; [| |done].
      + intros ->. symmetry in H12. by apply Permutation_nil in H12.
      + by rewrite <- H12.
    - rewrite (permutation_sign_exchanges _ _ _ (n + m)); [|done..|by eapply exchanges_app].
      rewrite Nat.even_add. by destruct (Nat.even n), (Nat.even m).
  Qed.
End parity.
