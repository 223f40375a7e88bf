(* The validity check of compositions: a characterisation by the list of signed sub-simplices. *)
From stdpp Require Import base gmap list.
From Verif Require Import Base M_Perm S_Perm P_Perm M_Topology S_Topology P_Topology P_TopologyErase.

Local Ltac splits := repeat match goal with |- _ ∧ _ => split end.

Local Notation entries := (list (nat * Z)).

(* sum of the entries with key [g] *)
Definition zsum (g : nat) (L : entries) : Z :=
  foldr (λ b acc, ((if decide (b.1 = g) then b.2 else 0) + acc)%Z) 0%Z L.
Definition kcount (g : nat) (L : entries) : nat := count g L.*1.
Definition net (L : entries) (m : gmap nat Z) : gmap nat Z :=
  fold_left (λ m b, bump m b.1 b.2) L m.

Lemma net_lookup L m g :
  net L m !! g = if decide (g ∈ L.*1) then Some (default 0 (m !! g) + zsum g L)%Z else m !! g.
Proof.
  revert m. induction L as [|[k z] L IH]; intros m; cbn [net fold_left].
  - rewrite decide_False; [done|]. cbn. apply not_elem_of_nil.
  - fold (net L (bump m k z)). rewrite IH. cbn [fmap list_fmap fst]. unfold bump.
    cbn [zsum foldr fst snd]. fold (zsum g L).
    destruct (decide (k = g)) as [->|Hk].
    + rewrite lookup_insert. cbn [default]. rewrite (decide_True (P := g ∈ g :: L.*1)) by left.
      case_decide as Hg; [f_equal; unfold id; lia|].
      assert (zsum g L = 0%Z) as ->; [|f_equal; lia].
      clear -Hg. induction L as [|[k y] L IH]; [done|]. cbn [zsum foldr fst snd]. fold (zsum g L).
      cbn [fmap list_fmap fst] in Hg. apply not_elem_of_cons in Hg as [? Hg].
      rewrite decide_False by done. rewrite IH by done. done.
    + rewrite lookup_insert_ne by done.
      destruct (decide (g ∈ L.*1)) as [Hg|Hg].
      * rewrite decide_True by (by right). f_equal.
      * rewrite decide_False; [done|]. intros [->|?]%elem_of_cons; done.
Qed.

Lemma zsum_cons g b L :
  zsum g (b :: L) = ((if decide (b.1 = g) then b.2 else 0) + zsum g L)%Z.
Proof. done. Qed.
Lemma zsum_perm g L L' : L ≡ₚ L' → zsum g L = zsum g L'.
Proof. induction 1; rewrite ?zsum_cons; [done|congruence|lia|congruence]. Qed.
Lemma zsum_app g L L' : zsum g (L ++ L') = (zsum g L + zsum g L')%Z.
Proof.
  induction L as [|b L IH]; [done|]. cbn [app zsum foldr]. fold (zsum g (L ++ L')) (zsum g L). lia.
Qed.

Lemma net_perm L L' : L ≡ₚ L' → net L ∅ = net L' ∅.
Proof.
  intros Hp. apply map_eq. intros g. rewrite !net_lookup, (zsum_perm g L L' Hp).
  destruct (decide (g ∈ L.*1)) as [H|H].
  - rewrite decide_True; [done|]. by rewrite <- Hp.
  - rewrite decide_False; [done|]. by rewrite <- Hp.
Qed.

Definition keys (L : entries) : list nat := remove_dups L.*1.

Lemma net_size L : size (net L ∅) = length (keys L).
Proof.
  rewrite <- (size_dom (D := gset nat)).
  assert (dom (net L ∅) = list_to_set (C := gset nat) (keys L)) as ->.
  { apply set_eq. intros g. rewrite elem_of_dom, elem_of_list_to_set. unfold keys.
    rewrite elem_of_remove_dups, net_lookup. case_decide as Hg.
    - split; [done|]. intros _. by eexists.
    - rewrite lookup_empty. split; [by intros []|done]. }
  apply size_list_to_set, NoDup_remove_dups.
Qed.

(* counting entries by key *)
Lemma kcount_sum (ks : list nat) (L : entries) :
  NoDup ks → (∀ b, b ∈ L → b.1 ∈ ks) → sum_list_with (λ g, kcount g L) ks = length L.
Proof.
  intros Hnd. induction L as [|[k z] L IH]; intros Hin.
  - clear. induction ks as [|g ks IH]; [done|]. cbn [sum_list_with]. by rewrite IH.
  - cbn [length]. rewrite <- IH; [|intros; apply Hin; by right].
    assert (Hk : k ∈ ks) by (apply (Hin (k, z)); left).
    clear -Hnd Hk. revert Hk. induction Hnd as [|g ks Hg Hnd IH]; intros Hk; [inversion Hk|].
    cbn [sum_list_with]. unfold kcount at 1. cbn [fmap list_fmap fst]. rewrite count_cons.
    fold (kcount g L). case_decide as Hd.
    + subst. assert (sum_list_with (λ g, kcount g ((k, z) :: L)) ks =
                     sum_list_with (λ g, kcount g L) ks) as ->; [|lia].
      clear -Hg. induction ks as [|h ks IH]; [done|]. apply not_elem_of_cons in Hg as [Hne Hg].
      cbn [sum_list_with]. rewrite IH by done. f_equal. unfold kcount. cbn [fmap list_fmap fst].
      rewrite count_cons, decide_False by done. done.
    + apply elem_of_cons in Hk as [->|Hk]; [done|]. rewrite IH by done. lia.
Qed.

Definition signed (L : entries) : Prop := ∀ b, b ∈ L → sign b.2.

Lemma zsum_parity g L : signed L → Z.even (zsum g L) = Nat.even (kcount g L).
Proof.
  induction L as [|[k z] L IH]; intros Hs; [done|].
  cbn [zsum foldr fst snd]. fold (zsum g L). unfold kcount. cbn [fmap list_fmap fst].
  rewrite count_cons. fold (kcount g L).
  assert (IH' : Z.even (zsum g L) = Nat.even (kcount g L)) by (apply IH; intros b Hb; apply Hs; by right).
  assert (Hz : sign z) by (apply (Hs (k, z)); left).
  destruct (decide (k = g)) as [->|Hk].
  - rewrite decide_True by done. rewrite Z.even_add, IH'. cbn [Nat.add]. rewrite Nat.even_succ.
    rewrite <- Nat.negb_even. destruct Hz as [-> | ->]; cbn; by destruct (Nat.even _).
  - rewrite decide_False by congruence. rewrite Z.add_0_l. done.
Qed.

(* in a map with half as many keys as entries and all sums zero, every key occurs twice *)
Lemma balanced_twice L :
  signed L → (∀ g, zsum g L = 0%Z) → length L ≤ 2 * length (keys L) →
  ∀ g, g ∈ L.*1 → kcount g L = 2.
Proof.
  intros Hs Hz Hlen.
  assert (Hge : ∀ g, g ∈ keys L → 2 ≤ kcount g L).
  { intros g Hg. unfold keys in Hg. rewrite elem_of_remove_dups in Hg.
    assert (kcount g L ≠ 0) by (unfold kcount; rewrite count_0; intros H; by apply H).
    pose proof (zsum_parity g L Hs) as Hp. rewrite Hz in Hp. cbn in Hp.
    symmetry in Hp. apply Nat.even_spec in Hp as [m ?]. lia. }
  assert (Hsum : sum_list_with (λ g, kcount g L) (keys L) = length L).
  { apply kcount_sum; [apply NoDup_remove_dups|]. intros b Hb. apply elem_of_remove_dups.
    by apply elem_of_list_fmap_1. }
  assert (Hall : ∀ ks : list nat, (∀ g, g ∈ ks → 2 ≤ kcount g L) →
    sum_list_with (λ g, kcount g L) ks ≤ 2 * length ks → ∀ g, g ∈ ks → kcount g L = 2).
  { induction ks as [|h ks IH]; intros Hk Hle g Hg; [inversion Hg|].
    cbn [sum_list_with length] in Hle.
    assert (Hks : 2 * length ks ≤ sum_list_with (λ g, kcount g L) ks).
    { clear -Hk. induction ks as [|h' ks IH]; [done|]. cbn [sum_list_with length].
      assert (2 ≤ kcount h' L) by (apply Hk; right; left).
      assert (2 * length ks ≤ sum_list_with (λ g, kcount g L) ks); [|lia]. apply IH.
      intros g Hg. apply Hk. apply elem_of_cons in Hg as [->|Hg]; [left|by right; right]. }
    assert (2 ≤ kcount h L) by (apply Hk; left).
    apply elem_of_cons in Hg as [->|Hg]; [lia|]. apply IH; [|lia|done].
    intros. apply Hk. by right. }
  intros g Hg. apply (Hall (keys L)); [done|lia|]. by apply elem_of_remove_dups.
Qed.

(* ---- the entries of a composition ---- *)
Definition sub_entry (st : topo) (K : nat) (s : Z) (p : nat) : nat * Z :=
  match ors st !! (K, p) with Some (g, t) => (g, (t * s)%Z) | None => (0, 0%Z) end.
Definition member_entries (st : topo) (K o : nat) : entries :=
  match ors st !! (S K, o) with
  | Some (f, s) =>
      match fps st !! (S K, f) with
      | Some d => sub_entry st K s <$> (if decide (s = (-1)%Z) then swap01 d else d)
      | None => []
      end
  | None => []
  end.
Definition comp_entries (st : topo) (K : nat) (c : list nat) : entries :=
  concat (member_entries st K <$> c).

Lemma net_orientations_entries st K c :
  Inv st → (∀ o, o ∈ c → is_Some (ors st !! (S K, o))) →
  net_orientations st (S K) c = Ok (net (comp_entries st K c) ∅).
Proof.
  intros HI. unfold net_orientations, comp_entries. generalize (∅ : gmap nat Z) as m.
  induction c as [|o c IH]; intros m Hc; [done|]. cbn [rfold].
  destruct (Hc o) as [[f s] Ho]; [left|].
  destruct (i_or _ HI _ _ _ _ Ho) as ([d Hd] & _ & _).
  unfold oriented at 1. rewrite Ho. cbn [deref rbind].
  unfold composition, oriented at 1, fcomposition. rewrite Ho. cbn [deref rbind]. rewrite Hd.
  cbn [deref rbind pred].
  set (d' := if decide (s = (-1)%Z) then swap01 d else d).
  assert (Hd' : ∀ p, p ∈ d' → is_Some (ors st !! (K, p))).
  { intros p Hp. apply (i_fS _ HI _ _ _ Hd). unfold d' in Hp. case_decide; [|done].
    by rewrite swap01_perm in Hp. }
  assert (∀ l m, (∀ p, p ∈ l → is_Some (ors st !! (K, p))) →
    rfold (λ m p, let! (g, t) := oriented st K p in Ok (bump m g (t * s)%Z)) m l =
    Ok (net (sub_entry st K s <$> l) m)) as Hin.
  { induction l as [|p l IHl]; intros m' Hl; [done|]. cbn [rfold].
    destruct (Hl p) as [[g t] Hp]; [left|]. unfold oriented at 1. rewrite Hp. cbn [deref rbind].
    rewrite IHl by (intros; apply Hl; by right).
    f_equal. rewrite fmap_cons. unfold net. cbn [fold_left].
    replace (sub_entry st K s p) with (g, (t * s)%Z); [done|]. unfold sub_entry. by rewrite Hp. }
  rewrite Hin by done. cbn [rbind]. rewrite IH by (intros; apply Hc; by right).
  f_equal. cbn [fmap list_fmap concat]. unfold net. rewrite fold_left_app. f_equal. f_equal.
  unfold member_entries. rewrite Ho, Hd. done.
Qed.

Lemma comp_entries_perm st K c c' : c ≡ₚ c' → comp_entries st K c ≡ₚ comp_entries st K c'.
Proof.
  intros Hp. unfold comp_entries.
  induction Hp; cbn [fmap list_fmap concat]; [done|by rewrite IHHp| |by etrans].
  rewrite !app_assoc. f_equiv. apply Permutation_app_comm.
Qed.

Lemma comp_entries_signed st K c :
  Inv st → (∀ o, o ∈ c → is_Some (ors st !! (S K, o))) → signed (comp_entries st K c).
Proof.
  intros HI Hc b Hb. unfold comp_entries in Hb. rewrite elem_of_list_In, in_concat in Hb.
  destruct Hb as (l & Hl & Hb). rewrite <- elem_of_list_In in Hl. rewrite <- elem_of_list_In in Hb.
  apply elem_of_list_fmap in Hl as (o & -> & Ho). destruct (Hc o Ho) as [[f s] Hos].
  destruct (i_or _ HI _ _ _ _ Hos) as ([d Hd] & _ & Hs).
  unfold member_entries in Hb. rewrite Hos, Hd in Hb.
  apply elem_of_list_fmap in Hb as (p & -> & Hp).
  assert (p ∈ d) as Hpd by (case_decide; [by rewrite swap01_perm in Hp|done]).
  destruct (proj2 (i_fS _ HI _ _ _ Hd) p Hpd) as [[g t] Hgt].
  destruct (i_or _ HI _ _ _ _ Hgt) as (_ & _ & Ht).
  unfold sub_entry. rewrite Hgt. cbn [snd]. unfold sign in *. lia.
Qed.

Lemma member_entries_length st K o :
  Inv st → is_Some (ors st !! (S K, o)) → length (member_entries st K o) = S (S K).
Proof.
  intros HI [[f s] Ho]. destruct (i_or _ HI _ _ _ _ Ho) as ([d Hd] & _ & _).
  unfold member_entries. rewrite Ho, Hd, fmap_length.
  destruct (i_fS _ HI _ _ _ Hd) as [<- _]. case_decide; [|done].
  apply Permutation_length, swap01_perm.
Qed.

Lemma comp_entries_length st K c :
  Inv st → (∀ o, o ∈ c → is_Some (ors st !! (S K, o))) →
  length (comp_entries st K c) = length c * S (S K).
Proof.
  intros HI. induction c as [|o c IH]; intros Hc; [done|].
  change (comp_entries st K (o :: c)) with (member_entries st K o ++ comp_entries st K c).
  rewrite app_length, member_entries_length, IH by (try done; intros; apply Hc; by constructor).
  cbn [length]. lia.
Qed.


Lemma zsum_notin g L : g ∉ L.*1 → zsum g L = 0%Z.
Proof.
  induction L as [|[k y] L IH]; [done|]. intros Hg. cbn [zsum foldr fst snd]. fold (zsum g L).
  cbn [fmap list_fmap fst] in Hg. apply not_elem_of_cons in Hg as [? Hg].
  rewrite decide_False by done. rewrite IH by done. done.
Qed.

Lemma net_balanced L : map_Forall (λ _ z, z = 0%Z) (net L ∅) ↔ ∀ g, zsum g L = 0%Z.
Proof.
  split.
  - intros H g. destruct (decide (g ∈ L.*1)) as [Hg|Hg]; [|by apply zsum_notin].
    specialize (H g (zsum g L)). apply H. rewrite net_lookup, decide_True by done.
    rewrite lookup_empty. done.
  - intros H g z. rewrite net_lookup, lookup_empty. case_decide; [|done].
    intros [= <-]. by rewrite H.
Qed.

Lemma is_valid_true debug st K c :
  Inv st → (∀ o, o ∈ c → is_Some (ors st !! (S K, o))) →
  is_valid debug st (S (S K)) c = Ok true ↔
    (debug = true → length (keys (comp_entries st K c)) = (S (S K) + 1) * S (S K) / 2) ∧
    ∀ g, zsum g (comp_entries st K c) = 0%Z.
Proof.
  intros HI Hc. unfold is_valid. rewrite net_orientations_entries by done. cbn [rbind].
  set (L := comp_entries st K c). unfold assert_. rewrite net_size, <- net_balanced.
  destruct (Nat.eqb_spec (length (keys L)) ((S (S K) + 1) * S (S K) / 2)) as [He|He].
  - cbn [negb]. rewrite andb_false_r. cbn [rbind].
    split; [intros [= Hv]; split; [done|by apply bool_decide_eq_true in Hv]|].
    intros [_ Hv]. f_equal. by apply bool_decide_eq_true.
  - destruct debug; cbn [negb andb rbind].
    + split; [done|]. intros [H _]. by specialize (H eq_refl).
    + split; [intros [= Hv]; split; [done|by apply bool_decide_eq_true in Hv]|].
      intros [_ Hv]. f_equal. by apply bool_decide_eq_true.
Qed.

(* the answer does not depend on the order *)
Lemma is_valid_perm debug st N c c' :
  Inv st → length c = S (S N) → (∀ o, o ∈ c → is_Some (ors st !! (N, o))) → c ≡ₚ c' →
  is_valid debug st (S N) c = is_valid debug st (S N) c'.
Proof.
  intros HI Hlen Hc Hp. destruct N as [|K].
  - destruct c as [|a [|b [|]]]; try done.
    apply Permutation_length_2_inv in Hp as [-> | ->]; [done|].
    destruct (Hc a) as [[fa sa] Ha]; [left|]. destruct (Hc b) as [[fb sb] Hb]; [right; left|].
    unfold is_valid, entry. cbn [lookup list_lookup deref rbind]. unfold oriented.
    rewrite Ha, Hb. cbn [deref rbind]. f_equal.
    f_equal; f_equal; apply bool_decide_ext; done.
  - assert (Hc' : ∀ o, o ∈ c' → is_Some (ors st !! (S K, o))) by (intros o; rewrite <- Hp; apply Hc).
    unfold is_valid. rewrite !net_orientations_entries by done. cbn [rbind].
    by rewrite (net_perm _ _ (comp_entries_perm st K c c' Hp)).
Qed.

(* in a debug build an accepted composition lists no simplex twice *)
Lemma valid_nodup st N c :
  Inv st → length c = S (S N) → (∀ o, o ∈ c → is_Some (ors st !! (N, o))) →
  is_valid true st (S N) c = Ok true → NoDup c.
Proof.
  intros HI Hlen Hc Hv. destruct N as [|K].
  - destruct c as [|a [|b [|]]]; try done.
    destruct (Hc a) as [[fa sa] Ha]; [left|]. destruct (Hc b) as [[fb sb] Hb]; [right; left|].
    unfold is_valid, entry in Hv. cbn [lookup list_lookup deref rbind] in Hv. unfold oriented in Hv.
    rewrite Ha, Hb in Hv. cbn [deref rbind] in Hv. injection Hv as Hv.
    apply andb_true_iff in Hv as [Hv _]. apply negb_true_iff, bool_decide_eq_false in Hv.
    apply NoDup_cons. split; [|apply NoDup_singleton].
    intros ->%elem_of_list_singleton. congruence.
  - apply is_valid_true in Hv as [Hk Hz]; [|done..]. specialize (Hk eq_refl).
    set (L := comp_entries st K c) in *.
    assert (Hs : signed L) by (by apply comp_entries_signed).
    assert (HL : length L ≤ 2 * length (keys L)).
    { rewrite Hk. unfold L. rewrite comp_entries_length, Hlen by done.
      assert (∀ n, Nat.Even ((n + 1) * n)) as Hev.
      { intros n. destruct (Nat.Even_or_Odd n) as [[m ->]|[m ->]].
        - exists ((2 * m + 1) * m). lia.
        - exists ((m + 1) * (2 * m + 1)). lia. }
      destruct (Hev (S (S K))) as [m Hm]. rewrite Hm.
      rewrite (Nat.mul_comm 2 m), Nat.div_mul by lia. lia. }
    pose proof (balanced_twice L Hs Hz HL) as Htwice.
    apply NoDup_alt. intros i j o Hi Hj. destruct (decide (i = j)) as [|Hij]; [done|]. exfalso.
    (* then [o] occurs at two places: the first entry of [o] occurs twice with the same sign *)
    assert (∃ c1 c2 c3, c = c1 ++ o :: c2 ++ o :: c3) as (c1 & c2 & c3 & Hsplit).
    { clear -Hi Hj Hij. destruct (Nat.lt_total i j) as [Hlt|[?|Hlt]]; [|done|].
      - exists (take i c), (take (j - S i) (drop (S i) c)), (drop (S j) c).
        rewrite <- (take_drop_middle c i o Hi) at 1. f_equal. f_equal.
        assert (drop (S i) c !! (j - S i) = Some o) as Hj'
          by (rewrite lookup_drop; rewrite <- Hj; f_equal; lia).
        rewrite <- (take_drop_middle _ _ _ Hj') at 1. f_equal. f_equal. rewrite drop_drop. f_equal. lia.
      - exists (take j c), (take (i - S j) (drop (S j) c)), (drop (S i) c).
        rewrite <- (take_drop_middle c j o Hj) at 1. f_equal. f_equal.
        assert (drop (S j) c !! (i - S j) = Some o) as Hj'
          by (rewrite lookup_drop; rewrite <- Hi; f_equal; lia).
        rewrite <- (take_drop_middle _ _ _ Hj') at 1. f_equal. f_equal. rewrite drop_drop. f_equal. lia. }
    assert (Ho : o ∈ c) by (by eapply elem_of_list_lookup_2).
    pose proof (member_entries_length st K o HI (Hc o Ho)) as Hml.
    destruct (member_entries st K o) as [|[g z] rest] eqn:Hme; [done|].
    assert (HLp : L ≡ₚ (g, z) :: (g, z) :: (comp_entries st K c1 ++ comp_entries st K c2 ++
                        comp_entries st K c3 ++ rest ++ rest)).
    { unfold L. rewrite Hsplit. unfold comp_entries. rewrite !fmap_app, !concat_app.
      cbn [fmap list_fmap concat]. rewrite !fmap_app, !concat_app. cbn [fmap list_fmap concat].
      rewrite Hme. cbn [app]. solve_Permutation. }
    set (R := comp_entries st K c1 ++ _) in HLp.
    assert (Hg : g ∈ L.*1) by (rewrite HLp; left).
    specialize (Htwice g Hg). unfold kcount in Htwice.
    rewrite (count_perm g L.*1 ((g, z) :: (g, z) :: R).*1) in Htwice by (by rewrite HLp).
    cbn [fmap list_fmap fst] in Htwice. rewrite !count_cons, !decide_True in Htwice by done.
    assert (HR : g ∉ R.*1) by (apply count_0; lia).
    specialize (Hz g). rewrite (zsum_perm g _ _ HLp) in Hz. cbn [zsum foldr fst snd] in Hz.
    fold (zsum g R) in Hz. rewrite (zsum_notin g R HR), !decide_True in Hz by done.
    assert (sign z) as Hsz by (apply (Hs (g, z)); rewrite HLp; left). unfold sign in Hsz. lia.
Qed.

(* ---- every registered footprint passes the check ---- *)
Definition agree (st st' : topo) : Prop :=
  (∀ k x y, ors st !! k = Some x → ors st' !! k = Some y → x = y) ∧
  (∀ k x y, fps st !! k = Some x → fps st' !! k = Some y → x = y).

Lemma agree_sub st st' : fps st' ⊆ fps st → ors st' ⊆ ors st → agree st st'.
Proof.
  intros Hf Ho. split; intros k x y Hx Hy.
  - pose proof (lookup_weaken _ _ _ _ Hy Ho). congruence.
  - pose proof (lookup_weaken _ _ _ _ Hy Hf). congruence.
Qed.
Lemma agree_sym st st' : agree st st' → agree st' st.
Proof. intros [H1 H2]. split; intros; symmetry; eauto. Qed.

Lemma atom_sub debug st st' : atom debug st st' → fps st ⊆ fps st' ∧ ors st ⊆ ors st'.
Proof.
  intros [f Hf -> ->|N o f s ? ? ? Ho -> ->|N f c ? ? ? ? Hf -> ->]; split; try done;
    by apply insert_subseteq.
Qed.

Lemma member_entries_agree st st' K o :
  Inv st → Inv st' → agree st st' →
  is_Some (ors st !! (S K, o)) → is_Some (ors st' !! (S K, o)) →
  member_entries st K o = member_entries st' K o.
Proof.
  intros HI HI' [Ha Hb] [[f s] Ho] [[f' s'] Ho'].
  pose proof (Ha _ _ _ Ho Ho') as [= <- <-].
  destruct (i_or _ HI _ _ _ _ Ho) as ([d Hd] & _ & _).
  destruct (i_or _ HI' _ _ _ _ Ho') as ([d' Hd'] & _ & _).
  pose proof (Hb _ _ _ Hd Hd') as <-.
  unfold member_entries. rewrite Ho, Ho', Hd, Hd'. apply list_fmap_ext. intros i p Hp%elem_of_list_lookup_2.
  assert (p ∈ d) as Hpd by (case_decide; [by rewrite swap01_perm in Hp|done]).
  destruct (proj2 (i_fS _ HI _ _ _ Hd) p Hpd) as [x Hx].
  destruct (proj2 (i_fS _ HI' _ _ _ Hd') p Hpd) as [y Hy].
  unfold sub_entry. rewrite Hx, Hy. by rewrite (Ha _ _ _ Hx Hy).
Qed.

Lemma is_valid_agree debug st st' N c :
  Inv st → Inv st' → agree st st' → length c = S (S N) →
  (∀ o, o ∈ c → is_Some (ors st !! (N, o))) → (∀ o, o ∈ c → is_Some (ors st' !! (N, o))) →
  is_valid debug st (S N) c = is_valid debug st' (S N) c.
Proof.
  intros HI HI' Hag Hlen Hc Hc'. destruct N as [|K].
  - destruct c as [|a [|b [|]]]; try done.
    destruct (Hc a) as [xa Ha]; [left|]. destruct (Hc b) as [xb Hb]; [right; left|].
    destruct (Hc' a) as [ya Ha']; [left|]. destruct (Hc' b) as [yb Hb']; [right; left|].
    unfold is_valid, entry. cbn [lookup list_lookup deref rbind]. unfold oriented.
    rewrite Ha, Hb, Ha', Hb'. by rewrite (proj1 Hag _ _ _ Ha Ha'), (proj1 Hag _ _ _ Hb Hb').
  - unfold is_valid. rewrite !net_orientations_entries by done. cbn [rbind].
    assert (comp_entries st K c = comp_entries st' K c) as ->; [|done].
    unfold comp_entries. f_equal. apply list_fmap_ext. intros i o Ho%elem_of_list_lookup_2.
    apply member_entries_agree; auto.
Qed.

Definition all_valid (debug : bool) (st : topo) : Prop :=
  ∀ N f c, fps st !! (S N, f) = Some c → is_valid debug st (S N) c = Ok true.

Lemma reach_valid al (Hal : good_alloc al) debug st : reach al debug st → all_valid debug st.
Proof.
  apply reach_invariant; [done| | |].
  - intros N f c. cbn [topo0 fps]. by rewrite lookup_empty.
  - intros st0 st1 HI0 HI1 HJ Ha N f c Hf.
    destruct (atom_sub _ _ _ Ha) as [Hsf Hso].
    assert (Hag : agree st0 st1) by (by apply agree_sym, agree_sub).
    destruct (i_fS _ HI1 _ _ _ Hf) as [Hlen Hm].
    destruct (fps st0 !! (S N, f)) as [c'|] eqn:Hf0.
    + pose proof (lookup_weaken _ _ _ _ Hf0 Hsf). assert (c' = c) as -> by congruence.
      destruct (i_fS _ HI0 _ _ _ Hf0) as [_ Hm0].
      rewrite <- (is_valid_agree debug st0 st1) by done. by apply HJ in Hf0.
    + destruct Ha as [g Hg Hfe Hoe|N' o g s ? ? ? Ho Hoe Hfe|N' g c' Hl' Hm' Hv' _ Hg Hfe Hoe];
        rewrite Hfe in Hf.
      * apply lookup_insert_Some in Hf as [[[=] _]|[_ Hf]]. congruence.
      * congruence.
      * apply lookup_insert_Some in Hf as [[[= -> ->] ->]|[_ Hf]]; [|congruence].
        by rewrite <- (is_valid_agree debug st0 st1).
  - intros st0 st1 HI0 HI1 HJ Hsf Hso N f c Hf.
    destruct (i_fS _ HI1 _ _ _ Hf) as [Hlen Hm].
    assert (Hf0 : fps st0 !! (S N, f) = Some c) by (by eapply lookup_weaken).
    destruct (i_fS _ HI0 _ _ _ Hf0) as [_ Hm0].
    rewrite <- (is_valid_agree debug st0 st1); [by apply HJ in Hf0|done|done| |done..].
    by apply agree_sub.
Qed.

Lemma reach_nodup al (Hal : good_alloc al) st : reach al true st → nodup_comps st.
Proof.
  intros Hr N f c Hf. pose proof (reach_Inv al Hal true st Hr) as HI.
  destruct N as [|N].
  - apply (i_f0 _ HI) in Hf as ->. constructor.
  - destruct (i_fS _ HI _ _ _ Hf) as [Hlen Hm].
    eapply valid_nodup; [done|done|done|]. by eapply reach_valid.
Qed.
