(* What exists answers, what isValid rejects, the edges of a simplex, the flip. *)
From stdpp Require Import base gmap list.
From Verif Require Import Base M_Perm S_Perm P_Perm M_Topology S_Topology P_Topology P_TopologyErase
  P_TopologyValid P_TopologyOrder P_TopologyVertices P_TopologyCanonical P_TopologyApi.

Local Ltac splits := repeat match goal with |- _ ∧ _ => split end.
Local Notation entries := (list (nat * Z)).

(* ---- flipping a member ---- *)
Definition negate (L : entries) : entries := (λ b, (b.1, (- b.2)%Z)) <$> L.
Lemma zsum_negate g L : zsum g (negate L) = (- zsum g L)%Z.
Proof.
  induction L as [|[k z] L IH]; [done|]. cbn [negate fmap list_fmap]. rewrite !zsum_cons. cbn [fst snd].
  fold (negate L). rewrite IH. case_decide; lia.
Qed.
Lemma negate_keys L : (negate L).*1 = L.*1.
Proof. unfold negate. rewrite <- list_fmap_compose. by apply list_fmap_ext. Qed.

Lemma member_entries_flip st K m m' f s :
  Inv st → ors st !! (S K, m) = Some (f, s) → ors st !! (S K, m') = Some (f, (- s)%Z) →
  member_entries st K m' ≡ₚ negate (member_entries st K m).
Proof.
  intros HI Hm Hm'. destruct (i_or _ HI _ _ _ _ Hm) as ([d Hd] & _ & _).
  destruct (i_fS _ HI _ _ _ Hd) as [_ Hreg].
  unfold member_entries. rewrite Hm, Hm', Hd. unfold negate.
  assert (Hp : ∀ (b : bool), (if b then swap01 d else d) ≡ₚ d) by (intros []; [apply swap01_perm|done]).
  rewrite <- list_fmap_compose.
  transitivity (sub_entry st K (- s) <$> d).
  { f_equiv. case_decide; [apply swap01_perm|done]. }
  transitivity ((λ b, (b.1, (- b.2)%Z)) ∘ sub_entry st K s <$> d).
  2: { f_equiv. case_decide; [by rewrite swap01_perm|done]. }
  erewrite list_fmap_ext; [reflexivity|]. intros i p Hpi%elem_of_list_lookup_2. cbn.
  destruct (Hreg p Hpi) as [[g t] Hgt]. unfold sub_entry. rewrite Hgt. cbn. f_equal. lia.
Qed.

Lemma keys_length_ext L L' : (∀ g, g ∈ L.*1 ↔ g ∈ L'.*1) → length (keys L) = length (keys L').
Proof.
  intros H. apply Permutation_length, NoDup_Permutation; [apply NoDup_remove_dups..|].
  intros g. unfold keys. by rewrite !elem_of_remove_dups.
Qed.

Lemma comp_entries_app st K c c' : comp_entries st K (c ++ c') = comp_entries st K c ++ comp_entries st K c'.
Proof. unfold comp_entries. by rewrite fmap_app, concat_app. Qed.
Lemma comp_entries_cons st K o c : comp_entries st K (o :: c) = member_entries st K o ++ comp_entries st K c.
Proof. done. Qed.

(* a member that leaves some face unbalanced cannot be flipped *)
Lemma valid_flip debug st K c1 m c2 m' f s g :
  Inv st → (∀ o, o ∈ c1 ++ m :: c2 → is_Some (ors st !! (S K, o))) →
  ors st !! (S K, m) = Some (f, s) → ors st !! (S K, m') = Some (f, (- s)%Z) →
  zsum g (member_entries st K m) ≠ 0%Z →
  is_valid debug st (S (S K)) (c1 ++ m :: c2) = Ok true →
  is_valid debug st (S (S K)) (c1 ++ m' :: c2) = Ok false.
Proof.
  intros HI Hreg Hm Hm' Hg Hv.
  assert (Hreg' : ∀ o, o ∈ c1 ++ m' :: c2 → is_Some (ors st !! (S K, o))).
  { intros o. rewrite elem_of_app, elem_of_cons. intros [Ho|[-> |Ho]]; [|by eexists|];
      apply Hreg; rewrite elem_of_app, elem_of_cons; auto. }
  pose proof (proj1 (is_valid_true _ _ _ _ HI Hreg) Hv) as [Hk Hz].
  pose proof (member_entries_flip st K m m' f s HI Hm Hm') as Hp.
  unfold is_valid. rewrite net_orientations_entries by done. cbn [rbind]. rewrite net_size.
  assert (length (keys (comp_entries st K (c1 ++ m' :: c2))) =
          length (keys (comp_entries st K (c1 ++ m :: c2)))) as ->.
  { apply keys_length_ext. intros h. rewrite !comp_entries_app, !comp_entries_cons, !fmap_app, !elem_of_app.
    rewrite Hp, negate_keys. done. }
  assert (Ha : assert_ debug (length (keys (comp_entries st K (c1 ++ m :: c2))) =?
                              (S (S K) + 1) * S (S K) / 2) = Ok tt).
  { unfold assert_. destruct debug; [|done]. rewrite Hk by done. by rewrite Nat.eqb_refl. }
  rewrite Ha. cbn [rbind]. f_equal. apply bool_decide_eq_false. rewrite net_balanced. intros Hz'.
  specialize (Hz g). specialize (Hz' g).
  rewrite !comp_entries_app, !comp_entries_cons, !zsum_app in Hz, Hz'.
  rewrite (zsum_perm g _ _ Hp), zsum_negate in Hz'. lia.
Qed.

Lemma valid_flip_1 debug st c1 m c2 m' f s :
  Inv st → length (c1 ++ m :: c2) = 2 → (∀ o, o ∈ c1 ++ m :: c2 → is_Some (ors st !! (0, o))) →
  ors st !! (0, m) = Some (f, s) → ors st !! (0, m') = Some (f, (- s)%Z) →
  is_valid debug st 1 (c1 ++ m :: c2) = Ok true → is_valid debug st 1 (c1 ++ m' :: c2) = Ok false.
Proof.
  intros HI Hlen Hreg Hm Hm' Hv. destruct (i_or _ HI _ _ _ _ Hm) as (_ & _ & Hs).
  assert (∃ b, (c1 = [b] ∧ c2 = []) ∨ (c1 = [] ∧ c2 = [b])) as (b & Hb).
  { rewrite app_length in Hlen. cbn in Hlen. destruct c1 as [|b [|]], c2 as [|b' [|]]; cbn in Hlen; try lia; eauto. }
  assert (is_Some (ors st !! (0, b))) as [[g t] Hbt].
  { apply Hreg. rewrite elem_of_app, elem_of_cons. destruct Hb as [[-> ->]|[-> ->]]; rewrite elem_of_list_singleton; auto. }
  destruct (i_or _ HI _ _ _ _ Hbt) as (_ & _ & Ht).
  destruct Hb as [[-> ->]|[-> ->]]; cbn [app] in *; unfold is_valid, entry in *;
    cbn [lookup list_lookup deref rbind] in *; unfold oriented in *;
    rewrite ?Hm, ?Hm', ?Hbt in *; cbn [deref rbind] in *; injection Hv as Hv;
    apply andb_true_iff in Hv as [Hv1 Hv2]; apply negb_true_iff, bool_decide_eq_false in Hv2;
    f_equal; apply andb_false_iff; right; apply negb_false_iff, bool_decide_eq_true;
    destruct Hs as [-> | ->], Ht as [-> | ->]; lia.
Qed.

(* members with an odd number of faces, and segments, leave some face unbalanced *)
Lemma unbalanced_odd st K m :
  Inv st → is_Some (ors st !! (S K, m)) → Nat.Odd K → ∃ g, zsum g (member_entries st K m) ≠ 0%Z.
Proof.
  intros HI Hm Hodd. set (L := member_entries st K m).
  assert (Hs : signed L).
  { intros b Hb. apply (comp_entries_signed st K [m] HI).
    - intros o ->%elem_of_list_singleton. done.
    - unfold comp_entries. cbn [fmap list_fmap concat]. by rewrite app_nil_r. }
  destruct (decide (Forall (λ g, zsum g L = 0%Z) (keys L))) as [Hall|Hno].
  - exfalso.
    assert (Hsum : sum_list_with (λ g, kcount g L) (keys L) = length L).
    { apply kcount_sum; [apply NoDup_remove_dups|]. intros b Hb. apply elem_of_remove_dups.
      by apply elem_of_list_fmap_1. }
    assert (Heven : Nat.even (sum_list_with (λ g, kcount g L) (keys L)) = true).
    { clear -Hall Hs. induction Hall as [|g ks Hg _ IH]; [done|]. cbn [sum_list_with].
      rewrite Nat.even_add, IH, <- zsum_parity by done. by rewrite Hg. }
    rewrite Hsum in Heven. unfold L in Heven. rewrite member_entries_length in Heven by done.
    cbn [Nat.even] in Heven. apply Nat.even_spec in Heven.
    by apply (Nat.Even_Odd_False K).
  - apply not_Forall_Exists in Hno; [|apply _]. apply Exists_exists in Hno as (g & _ & Hg). eauto.
Qed.

Lemma unbalanced_segment debug st m :
  Inv st → all_valid debug st → is_Some (ors st !! (1, m)) →
  ∃ g, zsum g (member_entries st 0 m) ≠ 0%Z.
Proof.
  intros HI Hall [[f s] Hm]. destruct (i_or _ HI _ _ _ _ Hm) as ([d Hd] & _ & Hs).
  destruct (i_fS _ HI _ _ _ Hd) as [Hlen Hreg]. pose proof (Hall _ _ _ Hd) as Hv.
  destruct d as [|a [|b [|]]]; try done.
  destruct (Hreg a) as [[ga ta] Ha]; [left|]. destruct (Hreg b) as [[gb tb] Hb]; [right; left|].
  destruct (i_or _ HI _ _ _ _ Ha) as (_ & _ & Hta).
  unfold is_valid, entry in Hv. cbn [lookup list_lookup deref rbind] in Hv. unfold oriented in Hv.
  rewrite Ha, Hb in Hv. cbn [deref rbind] in Hv. injection Hv as Hv.
  apply andb_true_iff in Hv as [Hv1 _]. apply negb_true_iff, bool_decide_eq_false in Hv1.
  exists ga. unfold member_entries. rewrite Hm, Hd.
  rewrite (zsum_perm ga _ (sub_entry st 0 s <$> [a; b])).
  - cbn [fmap list_fmap]. rewrite !zsum_cons.
    replace (sub_entry st 0 s a) with (ga, (ta * s)%Z) by (unfold sub_entry; by rewrite Ha).
    replace (sub_entry st 0 s b) with (gb, (tb * s)%Z) by (unfold sub_entry; by rewrite Hb).
    cbn [fst snd].
    rewrite decide_True, decide_False by congruence. cbn [zsum foldr].
    destruct Hs as [-> | ->], Hta as [-> | ->]; lia.
  - f_equiv. case_decide; [apply swap01_perm|done].
Qed.

Lemma unbalanced_nodup st K m f s d l :
  Inv st → ors st !! (S K, m) = Some (f, s) → fps st !! (S K, f) = Some d →
  footprints_are st K d l → NoDup l → ∃ g, zsum g (member_entries st K m) ≠ 0%Z.
Proof.
  intros HI Hm Hd Hl Hnd. destruct (i_or _ HI _ _ _ _ Hm) as (_ & _ & Hs).
  destruct (i_fS _ HI _ _ _ Hd) as [Hlen Hreg].
  assert (Hz : ∀ g d l, footprints_are st K d l → NoDup l → g ∈ l → zsum g (sub_entry st K s <$> d) ≠ 0%Z).
  { clear -Hs HI. intros g d l Hl Hnd Hg. induction Hl as [|p h d l [t Ht] Hl IH]; [inversion Hg|].
    apply NoDup_cons in Hnd as [Hh Hnd]. cbn [fmap list_fmap]. rewrite zsum_cons.
    destruct (i_or _ HI _ _ _ _ Ht) as (_ & _ & Hst).
    replace (sub_entry st K s p) with (h, (t * s)%Z) by (unfold sub_entry; by rewrite Ht).
    cbn [fst snd]. case_decide as Hd.
    - subst h. rewrite zsum_notin; [destruct Hs as [-> | ->], Hst as [-> | ->]; lia|].
      intros (b & -> & (p' & -> & Hp')%elem_of_list_fmap)%elem_of_list_fmap.
      apply elem_of_list_lookup in Hp' as (i & Hi).
      destruct (Forall2_lookup_l _ _ _ _ _ Hl Hi) as (h & Hih & t' & Ht').
      unfold sub_entry in Hh. rewrite Ht' in Hh. cbn in Hh. apply Hh. by eapply elem_of_list_lookup_2.
    - apply elem_of_cons in Hg as [->|Hg]; [done|]. rewrite Z.add_0_l. by apply IH. }
  destruct d as [|p d]; [done|]. inversion Hl as [|? h ? l' Hh Hl']; subst.
  exists h. unfold member_entries. rewrite Hm, Hd. rewrite (zsum_perm h _ (sub_entry st K s <$> (p :: d))).
  - eapply Hz; [exact Hl|done|left].
  - f_equiv. case_decide; [apply swap01_perm|done].
Qed.

(* ---- the flip ---- *)
Lemma append_new_length vs l : length vs ≤ length (append_new vs l).
Proof.
  unfold append_new. revert vs. induction l as [|x l IH]; intros vs; cbn [fold_left]; [done|].
  etrans; [|apply IH]. case_decide; [done|]. rewrite app_length. lia.
Qed.
Lemma swap01_length l : length (swap01 l) = length l.
Proof. by destruct l as [|? [|]]. Qed.
Lemma fvertex_list_length debug st N f vs r : fvertex_list debug st (S N) f vs = Ok r → 2 ≤ length r.
Proof.
  revert f vs r. induction N as [|N IH]; intros f vs r.
  - cbn [fvertex_list]. intros (c & Hc & (o0 & H0 & (o1 & H1 & ([g0 s0] & Hg0 & (g1 & Hg1 & H)%rbind_ok)%rbind_ok)%rbind_ok)%rbind_ok)%rbind_ok.
    injection H as <-. rewrite app_length. cbn. lia.
  - rewrite fvertex_list_SS.
    intros (c & Hc & (o0 & H0 & (o1 & H1 & ([g0 s0] & Hg0 & (l & Hl & (u & Hu & (g1 & Hg1 & (new & Hnew & H)%rbind_ok)%rbind_ok)%rbind_ok)%rbind_ok)%rbind_ok)%rbind_ok)%rbind_ok)%rbind_ok.
    injection H as <-. etrans; [|apply append_new_length]. apply IH in Hl.
    case_decide; [by rewrite swap01_length|done].
Qed.

Lemma vertices_flip debug st N o o' f s us :
  ors st !! (S N, o) = Some (f, s) → ors st !! (S N, o') = Some (f, (- s)%Z) → sign s →
  vertices debug st (S N) o = Ok us → ∃ us', vertices debug st (S N) o' = Ok us' ∧ reord false us us'.
Proof.
  intros Ho Ho' Hs. unfold vertices, oriented. rewrite Ho, Ho'. cbn [deref rbind].
  intros (l & Hl & (u & Hu & H)%rbind_ok)%rbind_ok. rewrite Hl. cbn [rbind].
  pose proof (fvertex_list_length _ _ _ _ _ _ Hl) as Hlen.
  assert (Hsw : ∀ t, length (if decide (t = (-1)%Z) then swap01 l else l) = length l)
    by (intros t; destruct (decide (t = (-1)%Z)); [apply swap01_length|done]).
  rewrite Hsw in Hu, H. rewrite Hsw, Hu. cbn [rbind]. destruct (S (S N) <? length l); [done|].
  injection H as <-. eexists. split; [reflexivity|]. pose proof (swap01_reord l Hlen) as Hr.
  destruct Hs as [-> | ->]; cbn; [apply reord_sym|]; done.
Qed.

(* ---- edges ---- *)
Lemma elem_of_set_insert x y l : x ∈ set_insert y l ↔ x = y ∨ x ∈ l.
Proof.
  induction l as [|z l IH]; cbn [set_insert]; [by rewrite elem_of_list_singleton, elem_of_nil; tauto|].
  destruct (y <? z); [by rewrite elem_of_cons|]. destruct (Nat.eqb_spec y z) as [->|].
  - rewrite !elem_of_cons. tauto.
  - rewrite !elem_of_cons, IH. tauto.
Qed.
Lemma elem_of_fold_insert x c es : x ∈ fold_left (λ es o, set_insert o es) c es ↔ x ∈ c ∨ x ∈ es.
Proof.
  revert es. induction c as [|o c IH]; intros es; cbn [fold_left]; [rewrite elem_of_nil; tauto|].
  rewrite IH, elem_of_set_insert, elem_of_cons. tauto.
Qed.

Definition edge_of (st : topo) (e a b : nat) : Prop := spans st 1 e [a; b] ∨ spans st 1 e [b; a].

Definition edges_are (st : topo) (ws es r : list nat) : Prop :=
  (∀ e, e ∈ es → e ∈ r) ∧
  (∀ e, e ∈ r → e ∈ es ∨ ∃ a b, a ∈ ws ∧ b ∈ ws ∧ a ≠ b ∧ edge_of st e a b) ∧
  (∀ a b, a ∈ ws → b ∈ ws → a ≠ b → ∃ e, e ∈ r ∧ edge_of st e a b).

Lemma fedges_2 st f ws es :
  order st 2 f ws → ∃ r, fedges st 2 f es = Ok r ∧ edges_are st ws es r.
Proof.
  intros (_ & Hlen & Hnd & c & Hc & HF)%order_SS.
  destruct ws as [|a [|b [|d [|]]]]; try done. cbn [faces] in HF.
  inversion HF as [|x ? ? ? Hx HF1]; subst. inversion HF1 as [|y ? ? ? Hy HF2]; subst.
  inversion HF2 as [|z ? ? ? Hz HF3]; subst. inversion HF3; subst.
  rewrite NoDup_3 in Hnd. destruct Hnd as (Hab & Hbd & Hda).
  cbn [fedges]. unfold fcomposition. rewrite Hc. cbn [deref rbind]. eexists. split; [reflexivity|].
  unfold edges_are. splits.
  - intros e He. rewrite elem_of_fold_insert. by right.
  - intros e. rewrite elem_of_fold_insert. intros [He|He]; [right|by left].
    apply elem_of_3 in He as [-> |[-> | ->]].
    + exists a, b. splits; [by left|by right; left|done|by left].
    + exists b, d. splits; [by right; left|by right; right; left|done|by left].
    + exists d, a. splits; [by right; right; left|by left|done|by left].
  - assert (Hin : ∀ e, e ∈ [x; y; z] → e ∈ fold_left (λ es o, set_insert o es) [x; y; z] es)
      by (intros e He; rewrite elem_of_fold_insert; by left).
    intros p q Hp Hq Hpq. apply elem_of_3 in Hp, Hq.
    destruct Hp as [-> |[-> | ->]], Hq as [-> |[-> | ->]]; try done.
    + exists x. split; [apply Hin; left|by left].
    + exists z. split; [apply Hin; right; right; left|by right].
    + exists x. split; [apply Hin; left|by right].
    + exists y. split; [apply Hin; right; left|by left].
    + exists z. split; [apply Hin; right; right; left|by left].
    + exists y. split; [apply Hin; right; left|by right].
Qed.

Lemma fedges_3 st f ws es :
  order st 3 f ws → ∃ r, fedges st 3 f es = Ok r ∧ edges_are st ws es r.
Proof.
  intros (_ & Hlen & Hnd & c & Hc & HF)%order_SS.
  assert (Hfold : ∃ r, rfold (λ es o, let! g := footprint st 2 o in fedges st 2 g es) es c = Ok r ∧
    (∀ e, e ∈ es → e ∈ r) ∧
    (∀ e, e ∈ r → e ∈ es ∨ ∃ fv a b, fv ∈ faces 3 ws ∧ a ∈ fv ∧ b ∈ fv ∧ a ≠ b ∧ edge_of st e a b) ∧
    (∀ fv a b, fv ∈ faces 3 ws → a ∈ fv → b ∈ fv → a ≠ b → ∃ e, e ∈ r ∧ edge_of st e a b)).
  { clear -HF. revert es. induction HF as [|o fv c fs (g & b & us & Ho & Hg & Hr) _ IH]; intros es.
    - exists es. splits; [done|done|auto|]. intros fv a b H. inversion H.
    - cbn [rfold]. unfold footprint at 1, oriented. rewrite Ho. cbn [deref rbind fst].
      destruct (fedges_2 st g us es Hg) as (r1 & -> & H1 & H2 & H3). cbn [rbind].
      destruct (IH r1) as (r & -> & H4 & H5 & H6). exists r. apply reord_perm in Hr. splits; [done|auto| |].
      + intros e He. destruct (H5 e He) as [He1|(fv' & p & q & ? & ?)].
        * destruct (H2 e He1) as [?|(p & q & Hp & Hq & ?)]; [by left|right].
          rewrite Hr in Hp, Hq. exists fv, p, q. split; [left|done].
        * right. exists fv', p, q. split; [by right|done].
      + intros fv' p q [-> |Hf]%elem_of_cons Hp Hq Hpq.
        * rewrite <- Hr in Hp, Hq. destruct (H3 p q Hp Hq Hpq) as (e & ? & ?). exists e. auto.
        * by eapply H6. }
  destruct Hfold as (r & Hr & H1 & H2 & H3).
  exists r. split. { cbn [fedges]. unfold fcomposition. rewrite Hc. cbn [deref rbind]. exact Hr. }
  destruct ws as [|a [|b [|d [|e [|]]]]]; try done. cbn [faces] in *.
  unfold edges_are. splits; [done| |].
  - intros x Hx. destruct (H2 x Hx) as [?|(fv & p & q & Hf & Hp & Hq & ?)]; [by left|right].
    assert (Hsub : ∀ u, u ∈ fv → u ∈ [a; b; d; e]).
    { intros u Hu. rewrite !elem_of_cons, elem_of_nil in Hf.
      destruct Hf as [-> |[-> |[-> |[-> |[]]]]]; apply elem_of_3 in Hu as [-> |[-> | ->]];
        rewrite !elem_of_cons; auto. }
    exists p, q. auto.
  - assert (Hf : ∀ u v, u ∈ [a; b; d; e] → v ∈ [a; b; d; e] → ∃ fv,
      fv ∈ [[a; b; d]; [b; e; d]; [e; b; a]; [e; a; d]] ∧ u ∈ fv ∧ v ∈ fv).
    { intros u v Hu Hv. rewrite !elem_of_cons, elem_of_nil in Hu, Hv.
      destruct Hu as [-> |[-> |[-> |[-> |[]]]]], Hv as [-> |[-> |[-> |[-> |[]]]]];
        first [ exists [a; b; d]; rewrite !elem_of_cons; tauto
              | exists [b; e; d]; rewrite !elem_of_cons; tauto
              | exists [e; b; a]; rewrite !elem_of_cons; tauto
              | exists [e; a; d]; rewrite !elem_of_cons; tauto ]. }
    intros p q Hp Hq Hpq. destruct (Hf p q Hp Hq) as (fv & ? & ? & ?). by eapply H3.
Qed.

Section api2.
  Context (al : alloc) (Hal : good_alloc al) (debug : bool).
  Local Notation grows := (growsd debug).

  Lemma footprint_unique st N f f' c c' l l' :
    Inv st → fps st !! (S N, f) = Some c → fps st !! (S N, f') = Some c' →
    footprints_are st N c l → footprints_are st N c' l' → l ≡ₚ l' → f = f'.
  Proof.
    intros HI Hf Hf' Hl%footprints_spec Hl'%footprints_spec Hp.
    destruct (i_cm _ HI _ _ _ Hf) as (r & Hr & Hcm). destruct (i_cm _ HI _ _ _ Hf') as (r' & Hr' & Hcm').
    unfold representative in Hr, Hr'. rewrite Hl in Hr. rewrite Hl' in Hr'. cbn [rbind] in Hr, Hr'.
    apply (sort_eq_iff _ nat_total) in Hp. congruence.
  Qed.
  Lemma oriented_unique st N o o' f s :
    Inv st → ors st !! (N, o) = Some (f, s) → ors st !! (N, o') = Some (f, s) → o = o'.
  Proof.
    intros HI Ho Ho'. destruct (i_or _ HI _ _ _ _ Ho) as (_ & H & _).
    destruct (i_or _ HI _ _ _ _ Ho') as (_ & H' & _). congruence.
  Qed.
  Lemma footprints_are_det st N c l l' : footprints_are st N c l → footprints_are st N c l' → l = l'.
  Proof. intros H%footprints_spec H'%footprints_spec. congruence. Qed.
  Lemma footprints_are_mono st st' N c l :
    extends st st' → footprints_are st N c l → footprints_are st' N c l.
  Proof.
    intros He H. eapply Forall2_impl; [exact H|]. intros o f [s Hs]. exists s. by eapply extends_or.
  Qed.

  (* what simplex(c) returns *)
  Lemma simplex_result st N c o st1 :
    Inv st → length c = S (S N) → (∀ o, o ∈ c → is_Some (ors st !! (N, o))) →
    simplex al debug (S N) c st = Ret o st1 →
    Inv st1 ∧ extends st st1 ∧ is_valid debug st (S N) c = Ok true ∧
    ∃ f s c' l l', ors st1 !! (S N, o) = Some (f, s) ∧ fps st1 !! (S N, f) = Some c' ∧
      footprints_are st1 N c l ∧ footprints_are st1 N c' l' ∧ l ≡ₚ l' ∧
      permutation_sign Nat.leb debug l l' = Ok s.
  Proof.
    intros HI Hlen Hreg E. eapply wp_ret in E; [|by apply (wp_simplex al Hal debug st N c)].
    destruct E as (Hv & HI1 & Hg & f & s & c' & r & Ho & Hs & Hf & Hr' & Hr & Hor & _).
    splits; [done|by eapply grows_extends|done|].
    destruct (representative_perm _ _ _ _ _ Hr Hr') as (l & l' & Hl & Hl' & Hp).
    exists f, s, c', l, l'. splits; [done|done|by apply footprints_spec..|done|].
    unfold orientation, fcomposition in Hor. rewrite Hf in Hor. cbn [deref rbind] in Hor.
    rewrite Hl, Hl' in Hor. done.
  Qed.

  Lemma footprints_length st N c l : footprints_are st N c l → length l = length c.
  Proof. intros H. by rewrite (Forall2_length _ _ _ H). Qed.

  Lemma simplex_reorder st N c o st1 st' c' o' st2 l l' b :
    Inv st → length c = S (S N) → (∀ o, o ∈ c → is_Some (ors st !! (N, o))) →
    simplex al debug (S N) c st = Ret o st1 →
    Inv st' → extends st1 st' → length c' = S (S N) → (∀ o, o ∈ c' → is_Some (ors st' !! (N, o))) →
    simplex al debug (S N) c' st' = Ret o' st2 →
    footprints_are st' N c l → footprints_are st' N c' l' → NoDup l → reord b l l' →
    ∃ f s, ors st2 !! (S N, o) = Some (f, s) ∧
           ors st2 !! (S N, o') = Some (f, if b then s else (- s)%Z) ∧ (b = true → o = o').
  Proof.
    intros HI Hlen Hreg E HI' He Hlen' Hreg' E' Hl Hl' Hnd Hb.
    destruct (simplex_result _ _ _ _ _ HI Hlen Hreg E) as
      (HI1 & He1 & _ & f & s & d & k & kd & Ho & Hf & Hk & Hkd & Hp & Hs).
    destruct (simplex_result _ _ _ _ _ HI' Hlen' Hreg' E') as
      (HI2 & He2 & _ & f' & s' & d' & k' & kd' & Ho' & Hf' & Hk' & Hkd' & Hp' & Hs').
    assert (He3 : extends st1 st2) by (by eapply extends_trans).
    assert (k = l) as ->.
    { eapply footprints_are_det; [exact (footprints_are_mono _ _ _ _ _ He Hk)|exact Hl]. }
    assert (k' = l') as ->.
    { eapply footprints_are_det; [exact Hk'|exact (footprints_are_mono _ _ _ _ _ He2 Hl')]. }
    pose proof (extends_or _ _ _ _ He3 Ho) as Ho2. pose proof (extends_fp _ _ _ _ He3 Hf) as Hf2.
    pose proof (footprints_are_mono _ _ _ _ _ He3 Hkd) as Hkd2.
    assert (f = f') as <-.
    { eapply footprint_unique; [exact HI2|exact Hf2|exact Hf'|exact Hkd2|exact Hkd'|].
      rewrite <- Hp, <- Hp'. by apply (reord_perm b). }
    rewrite Hf2 in Hf'. injection Hf' as <-.
    pose proof (footprints_are_det _ _ _ _ _ Hkd2 Hkd') as <-.
    assert (Hne : l ≠ []). { apply footprints_length in Hl. intros ->. rewrite Hlen in Hl. done. }
    assert (Hne' : l' ≠ []). { apply footprints_length in Hl'. intros ->. rewrite Hlen' in Hl'. done. }
    assert (Hnd' : NoDup l') by (by rewrite <- (reord_perm _ _ _ Hb)).
    destruct (perm_reord _ _ Hp) as (t & Ht). destruct (perm_reord _ _ Hp') as (t' & Ht').
    rewrite (reord_sign debug t l kd Hne Hnd Ht) in Hs. injection Hs as <-.
    rewrite (reord_sign debug t' l' kd Hne' Hnd' Ht') in Hs'. injection Hs' as <-.
    assert (t' = eqb b t) as ->.
    { eapply (reord_det _ _ l'); [done|exact Ht'|]. eapply reord_trans; [|exact Ht]. by apply reord_sym. }
    exists f, (zs t). splits; [done| |].
    - rewrite Ho'. by destruct b, t.
    - intros ->. cbn [eqb] in Ho'. eapply oriented_unique; [exact HI2|exact Ho2|].
      rewrite Ho'. by destruct t.
  Qed.

  (* ---- exists ---- *)
  Lemma exists_composition_spec st N c l :
    Inv st → length c = S (S N) → footprints_are st N c l → NoDup l →
    ∃ b : bool, exists_composition debug st (S N) c = Ok b ∧
      (b = true ↔ ∃ o f s c' l', ors st !! (S N, o) = Some (f, s) ∧ fps st !! (S N, f) = Some c' ∧
         footprints_are st N c' l' ∧
         ((s = 1%Z ∧ reord true l l') ∨ (s = (-1)%Z ∧ reord false l l'))).
  Proof.
    intros HI Hlen Hl Hnd. pose proof Hl as Hl0. apply footprints_spec in Hl0.
    assert (Hne : l ≠ []). { apply footprints_length in Hl. intros ->. rewrite Hlen in Hl. done. }
    unfold exists_composition, find_simplex, representative. rewrite Hl0. cbn [rbind].
    destruct (cmap st !! (S N, sort Nat.leb l)) as [f|] eqn:Hcm.
    - destruct (i_mc _ HI _ _ _ Hcm) as (N' & c' & [= <-] & Hf & Hr).
      unfold representative in Hr. apply rbind_ok in Hr as (l' & Hl' & Hr). injection Hr as Hr.
      symmetry in Hr. apply (sort_eq_iff _ nat_total) in Hr. symmetry in Hr.
      unfold orientation, fcomposition. rewrite Hf. cbn [deref rbind]. rewrite Hl0, Hl'. cbn [rbind].
      destruct (perm_reord l l') as (t & Ht); [by symmetry|]. rewrite (reord_sign debug t l l' Hne Hnd Ht).
      cbn [rbind]. eexists. split; [reflexivity|]. unfold exists_oriented, find_oriented.
      pose proof Hl' as Hl2. apply footprints_spec in Hl2.
      destruct (omap st !! (S N, f, zs t)) as [o|] eqn:Hom.
      + split; [intros _|done]. exists o, f, (zs t), c', l'. splits; [by apply (i_om _ HI)|done|done|].
        destruct t; [left|right]; done.
      + split; [done|]. intros (o & f2 & s & c2 & l2 & Ho & Hf2 & Hl3 & Hs). exfalso.
        assert (f2 = f) as ->.
        { eapply footprint_unique; [exact HI|exact Hf2|exact Hf|exact Hl3|exact Hl2|].
          rewrite Hr. destruct Hs as [[_ H]|[_ H]]; apply reord_perm in H; by rewrite H. }
        rewrite Hf in Hf2. injection Hf2 as <-. pose proof (footprints_are_det _ _ _ _ _ Hl2 Hl3) as <-.
        assert (s = zs t) as ->.
        { destruct Hs as [[-> H]|[-> H]]; rewrite (reord_det _ _ l l' Hnd Ht H); done. }
        destruct (i_or _ HI _ _ _ _ Ho) as (_ & H & _). congruence.
    - eexists. split; [reflexivity|]. split; [done|].
      intros (o & f2 & s & c2 & l2 & Ho & Hf2 & Hl3 & Hs). exfalso.
      destruct (i_cm _ HI _ _ _ Hf2) as (r & Hr & Hcm2). unfold representative in Hr.
      apply footprints_spec in Hl3. rewrite Hl3 in Hr. cbn [rbind] in Hr. injection Hr as <-.
      assert (sort Nat.leb l = sort Nat.leb l2) as Heq; [|congruence].
      apply (sort_eq_iff _ nat_total). destruct Hs as [[_ H]|[_ H]]; by apply reord_perm in H.
  Qed.

  Lemma exists_composition_request st N c :
    Inv st → length c = S (S N) → (∀ o, o ∈ c → is_Some (ors st !! (N, o))) →
    is_valid debug st (S N) c = Ok true →
    exists_composition debug st (S N) c = Ok true ↔
    ∃ o st', simplex al debug (S N) c st = Ret o st' ∧ same_objects st st'.
  Proof.
    intros HI Hlen Hreg Hv. destruct (representative_ok st (S N) c Hreg) as (l & Hl & Hrep). split.
    - unfold exists_composition, find_simplex. rewrite Hrep. cbn [rbind].
      destruct (cmap st !! (S N, sort Nat.leb l)) as [f|] eqn:Hcm; [|done].
      intros (s & Hs & Hex)%rbind_ok. unfold exists_oriented, find_oriented in Hex.
      destruct (omap st !! (S N, f, s)) as [o|] eqn:Hom; [|done]. exists o, st. split; [|done].
      unfold simplex, abind, aread. rewrite Hv. unfold simplex_f, abind, aread. rewrite Hrep, Hcm.
      unfold aret. rewrite Hs. unfold oriented_simplex, abind, aread, find_oriented. by rewrite Hom.
    - intros (o & st' & E & Hsf & Hso & Hsc & Hsom).
      eapply wp_ret in E; [|by apply (wp_simplex al Hal debug st N c)].
      destruct E as (_ & HI' & Hg & f & s & c' & r & Ho & Hs & Hf & Hr' & Hr & Hor & _).
      destruct (i_or _ HI' _ _ _ _ Ho) as (_ & Hom & _).
      destruct (i_cm _ HI' _ _ _ Hf) as (r2 & Hr2 & Hcm2).
      assert (r2 = r) as -> by congruence. rewrite Hsc in Hcm2. rewrite Hsom in Hom.
      assert (Hfp : ∀ d, footprints st' (S N) d = footprints st (S N) d)
        by (intros d; apply footprints_ext; by rewrite Hso).
      unfold exists_composition, find_simplex. unfold representative in Hr |- *. rewrite Hfp in Hr. rewrite Hr.
      cbn [rbind]. rewrite Hcm2. unfold orientation, fcomposition in *. rewrite Hsf in Hor.
      rewrite Hsf in Hf. rewrite Hf in *. cbn [deref rbind] in *. rewrite !Hfp in Hor. rewrite Hor. cbn [rbind].
      unfold exists_oriented, find_oriented. by rewrite Hom.
  Qed.

  Lemma exists_segment_request st v0 v1 :
    Inv st → is_Some (fps st !! (0, v0)) → is_Some (fps st !! (0, v1)) → v0 ≠ v1 →
    ∃ b : bool, exists_segment debug st v0 v1 = Ok b ∧
      (b = true ↔ match segment al debug v0 v1 st with
                  | Ret _ st' | Throw st' => same_objects st st'
                  | Undef => False
                  end).
  Proof.
    intros HI H0 H1 Hne. unfold exists_segment, find_oriented.
    (* what the request does *)
    assert (Hseg : wp (segment al debug v0 v1) st
      (λ _ st', grows st st' ∧ ∃ t h o st2, omap st' !! (0, v0, (-1)%Z) = Some t ∧
         omap st' !! (0, v1, 1%Z) = Some h ∧ grows st st2 ∧ Inv st2 ∧
         ors st2 !! (0, t) = Some (v0, (-1)%Z) ∧ ors st2 !! (0, h) = Some (v1, 1%Z) ∧
         simplex al debug 1 [t; h] st2 = Ret o st')
      (λ st', grows st st' ∧ ∃ t h o st2, omap st' !! (0, v0, (-1)%Z) = Some t ∧
         omap st' !! (0, v1, 1%Z) = Some h ∧ grows st st2 ∧ Inv st2 ∧
         ors st2 !! (0, t) = Some (v0, (-1)%Z) ∧ ors st2 !! (0, h) = Some (v1, 1%Z) ∧
         simplex al debug 1 [t; h] st2 = Ret o st')).
    { unfold segment. apply wp_bind.
      eapply wp_mono; [apply (wp_oriented al Hal debug _ _ _ _ (λ _, False)); [done..|by right]| |intros st' []].
      intros t st1 (HI1 & Hg1 & Ht & Hf1 & _). cbn beta. apply wp_bind.
      eapply wp_mono; [apply (wp_oriented al Hal debug _ _ _ _ (λ _, False));
        [done|by rewrite Hf1|by left]| |intros st' []].
      intros h st2 (HI2 & Hg2 & Hh & Hf2 & _). cbn beta. apply wp_bind.
      assert (Hg : grows st st2) by (by eapply grows_trans).
      assert (Ht2 : ors st2 !! (0, t) = Some (v0, (-1)%Z)) by (exact (grows_or _ _ _ _ _ Hg2 Ht)).
      assert (Hreg : ∀ o, o ∈ [t; h] → is_Some (ors st2 !! (0, o))).
      { intros o [-> |[-> |Ho]%elem_of_cons]%elem_of_cons; [eauto..|inversion Ho]. }
      assert (Hv : is_valid debug st2 1 [t; h] = Ok true).
      { unfold is_valid, entry. cbn [lookup list_lookup deref rbind]. unfold oriented.
        rewrite Ht2, Hh. cbn [deref rbind]. rewrite !bool_decide_eq_false_2; done. }
      pose proof (wp_simplex al Hal debug st2 0 [t; h] HI2 eq_refl Hreg) as Hw. unfold wp in Hw |- *.
      destruct (simplex al debug 1 [t; h] st2) as [o st3|st3|] eqn:E; [|destruct Hw as (_ & [?|?]); congruence|done].
      destruct Hw as (_ & HI3 & Hg3 & f & s & c' & r & Ho & _).
      assert (Hres : grows st st3 ∧ ∃ t h o st2, omap st3 !! (0, v0, (-1)%Z) = Some t ∧
         omap st3 !! (0, v1, 1%Z) = Some h ∧ grows st st2 ∧ Inv st2 ∧
         ors st2 !! (0, t) = Some (v0, (-1)%Z) ∧ ors st2 !! (0, h) = Some (v1, 1%Z) ∧
         simplex al debug 1 [t; h] st2 = Ret o st3).
      { split; [by eapply grows_trans|]. exists t, h, o, st2. splits; try done.
        - by apply (i_or _ HI3), (grows_or _ _ _ _ _ Hg3 Ht2).
        - by apply (i_or _ HI3), (grows_or _ _ _ _ _ Hg3 Hh). }
      match goal with |- match abind ?m ?k st3 with _ => _ end =>
        change (wp (abind m k) st3 (λ _ st', grows st st' ∧ ∃ t h o st2, omap st' !! (0, v0, (-1)%Z) = Some t ∧
         omap st' !! (0, v1, 1%Z) = Some h ∧ grows st st2 ∧ Inv st2 ∧
         ors st2 !! (0, t) = Some (v0, (-1)%Z) ∧ ors st2 !! (0, h) = Some (v1, 1%Z) ∧
         simplex al debug 1 [t; h] st2 = Ret o st')
      (λ st', grows st st' ∧ ∃ t h o st2, omap st' !! (0, v0, (-1)%Z) = Some t ∧
         omap st' !! (0, v1, 1%Z) = Some h ∧ grows st st2 ∧ Inv st2 ∧
         ors st2 !! (0, t) = Some (v0, (-1)%Z) ∧ ors st2 !! (0, h) = Some (v1, 1%Z) ∧
         simplex al debug 1 [t; h] st2 = Ret o st')) end.
      apply wp_bind. apply (wp_assert_vertices debug); [done|by eexists|done|done|done]. }
    assert (Hback : ∀ st', grows st st' → same_objects st st' →
      (∃ t h o st2, omap st' !! (0, v0, (-1)%Z) = Some t ∧
         omap st' !! (0, v1, 1%Z) = Some h ∧ grows st st2 ∧ Inv st2 ∧
         ors st2 !! (0, t) = Some (v0, (-1)%Z) ∧ ors st2 !! (0, h) = Some (v1, 1%Z) ∧
         simplex al debug 1 [t; h] st2 = Ret o st') →
      match omap st !! (0, v0, (-1)%Z), omap st !! (0, v1, 1%Z) with
      | Some t, Some h => exists_composition debug st 1 [t; h]
      | _, _ => Ok false
      end = Ok true).
    { intros st' Hg (Hsf & Hso & Hsc & Hsom) (t & h & o & st2 & Ht & Hh & Hg2 & HI2 & Ht2 & Hh2 & E).
      rewrite Hsom in Ht, Hh. rewrite Ht, Hh.
      apply (i_om _ HI) in Ht. apply (i_om _ HI) in Hh.
      assert (Hreg : ∀ st, ors st !! (0, t) = Some (v0, (-1)%Z) → ors st !! (0, h) = Some (v1, 1%Z) →
        ∀ o, o ∈ [t; h] → is_Some (ors st !! (0, o))).
      { intros s Ha Hb q [-> |[-> |Hq]%elem_of_cons]%elem_of_cons; [eauto..|inversion Hq]. }
      assert (Hv : is_valid debug st 1 [t; h] = Ok true).
      { unfold is_valid, entry. cbn [lookup list_lookup deref rbind]. unfold oriented.
        rewrite Ht, Hh. cbn [deref rbind]. rewrite !bool_decide_eq_false_2; done. }
      pose proof (wp_simplex al Hal debug st2 0 [t; h] HI2 eq_refl (Hreg st2 Ht2 Hh2)) as Hw.
      unfold wp in Hw. rewrite E in Hw. destruct Hw as (_ & HI3 & Hg3 & f & s & c' & r & Ho & Hs & Hf & Hr' & Hr & Hor & _).
      destruct (i_or _ HI3 _ _ _ _ Ho) as (_ & Hom & _).
      destruct (i_cm _ HI3 _ _ _ Hf) as (r2 & Hr2 & Hcm2).
      assert (r2 = r) as -> by congruence. rewrite Hsc in Hcm2. rewrite Hsom in Hom.
      assert (Hfp : ∀ d, footprints st' 1 d = footprints st 1 d)
        by (intros d; apply footprints_ext; by rewrite Hso).
      unfold exists_composition, find_simplex. unfold representative in Hr |- *. rewrite Hfp in Hr. rewrite Hr.
      cbn [rbind]. rewrite Hcm2. unfold orientation, fcomposition in *. rewrite Hsf in Hor.
      rewrite Hsf in Hf. rewrite Hf in *. cbn [deref rbind] in *. rewrite !Hfp in Hor. rewrite Hor. cbn [rbind].
      unfold exists_oriented, find_oriented. by rewrite Hom. }
    assert (Hdef : ∃ b : bool, match omap st !! (0, v0, (-1)%Z), omap st !! (0, v1, 1%Z) with
      | Some t, Some h => exists_composition debug st 1 [t; h]
      | _, _ => Ok false
      end = Ok b ∧ (b = true → ∃ t h o, omap st !! (0, v0, (-1)%Z) = Some t ∧
        omap st !! (0, v1, 1%Z) = Some h ∧ simplex al debug 1 [t; h] st = Ret o st)).
    { destruct (omap st !! (0, v0, (-1)%Z)) as [t|] eqn:Ht; [|by exists false].
      destruct (omap st !! (0, v1, 1%Z)) as [h|] eqn:Hh; [|by exists false].
      pose proof (i_om _ HI _ _ _ _ Ht) as Hto. pose proof (i_om _ HI _ _ _ _ Hh) as Hho.
      destruct (exists_composition_spec st 0 [t; h] [v0; v1] HI eq_refl) as (b & Hb & _).
      { repeat constructor; eauto. } { by apply NoDup_2. }
      exists b. split; [done|]. intros ->. exists t, h.
      assert (Hreg : ∀ o, o ∈ [t; h] → is_Some (ors st !! (0, o))).
      { intros q [-> |[-> |Hq]%elem_of_cons]%elem_of_cons; [eauto..|inversion Hq]. }
      assert (Hv : is_valid debug st 1 [t; h] = Ok true).
      { unfold is_valid, entry. cbn [lookup list_lookup deref rbind]. unfold oriented.
        rewrite Hto, Hho. cbn [deref rbind]. rewrite !bool_decide_eq_false_2; done. }
      unfold exists_composition, find_simplex in Hb.
      destruct (representative_ok st 1 [t; h] Hreg) as (l & Hl & Hrep). rewrite Hrep in Hb. cbn [rbind] in Hb.
      destruct (cmap st !! (1, sort Nat.leb l)) as [f|] eqn:Hcm; [|done].
      apply rbind_ok in Hb as (s & Hs & Hex). unfold exists_oriented, find_oriented in Hex.
      destruct (omap st !! (1, f, s)) as [o|] eqn:Hom; [|done]. exists o. splits; [done..|].
      unfold simplex, abind, aread. rewrite Hv. unfold simplex_f, abind, aread. rewrite Hrep, Hcm.
      unfold aret. rewrite Hs. unfold oriented_simplex, abind, aread, find_oriented. by rewrite Hom. }
    destruct Hdef as (b & Hb & Hbt). exists b. split; [exact Hb|]. unfold wp in Hseg. split.
    - intros ->. destruct (Hbt eq_refl) as (t & h & o & Ht & Hh & E).
      assert (Hfo : ∀ v s w, omap st !! (0, v, s) = Some w → oriented_simplex al 0 v s st = Ret w st).
      { intros v s w Hw. unfold oriented_simplex, abind, aread, find_oriented. by rewrite Hw. }
      unfold segment, abind at 1 2 3. rewrite (Hfo _ _ _ Ht), (Hfo _ _ _ Hh), E.
      pose proof (i_om _ HI _ _ _ _ Ht) as Hto. pose proof (i_om _ HI _ _ _ _ Hh) as Hho.
      assert (Ho : is_Some (ors st !! (1, o))).
      { assert (Hreg : ∀ o, o ∈ [t; h] → is_Some (ors st !! (0, o))).
        { intros q [-> |[-> |Hq]%elem_of_cons]%elem_of_cons; [eauto..|inversion Hq]. }
        destruct (simplex_result st 0 [t; h] o st HI eq_refl Hreg E) as (_ & _ & _ & f & s & c' & l & l' & Ho & _).
        by eexists. }
      pose proof (wp_assert_vertices debug st 0 o [v0; v1] (λ _ st', st' = st) (λ st', st' = st) HI Ho
        (λ _, eq_refl) eq_refl eq_refl) as Hw.
      unfold abind. unfold wp in Hw.
      destruct (assert_vertices debug 1 o [v0; v1] st) as [[] st'|st'|]; [unfold aret; by rewrite Hw|by rewrite Hw|done].
    - intros Hsame. destruct (segment al debug v0 v1 st) as [o st'|st'|]; [..|done];
        destruct Hseg as [Hg Hx]; rewrite (Hback st' Hg Hsame Hx) in Hb; by injection Hb.
  Qed.
End api2.
