From stdpp Require Import base gmap list.
From Coq Require Import Factorial.
From Verif Require Import Base M_SegAlloc S_SegAlloc P_SegAlloc M_Topology S_Topology P_Topology
  P_TopologyErase P_TopologyValid P_TopologyApi M_Mesh S_Mesh P_Mesh.

(* ---- the facets listed by the loops over the cells ---- *)

Definition comp (st : topo) (N o : nat) : list nat :=
  match composition st N o with Ok c => c | _ => [] end.

Definition bdry (st : topo) (M : nat) (L : list (nat * Z)) (sub : nat) : bool :=
  match ors st !! (M, sub) with
  | Some (g, s) => bool_decide (occurs g (- s) L = 0)
  | None => false
  end.

Lemma bdry_eq st M L sub g s :
  ors st !! (M, sub) = Some (g, s) → bdry st M L sub = bool_decide (occurs g (- s) L = 0).
Proof. unfold bdry. by intros ->. Qed.

Lemma rfold_app {A B} (f : B → res (list A)) (g : B → list A) (l : list B) :
  (∀ x, x ∈ l → f x = Ok (g x)) →
  ∀ acc, rfold (λ acc x, let! b := f x in Ok (acc ++ b)) acc l = Ok (acc ++ concat (g <$> l)).
Proof.
  induction l as [|x l IH]; intros H acc; cbn [rfold fmap list_fmap concat].
  - by rewrite app_nil_r.
  - rewrite H by left. cbn [rbind]. rewrite IH by (intros; apply H; by right).
    by rewrite <- app_assoc.
Qed.

Section boundary.
  Context (pick : M_Topology.alloc) (Hpick : good_alloc pick) (blk : nat → nat)
    (Hblk : ∀ i j, blk i = blk j → i = j) (debug : bool) (M : nat).
  Notation MInv := (MInv pick blk debug M).

  Lemma comp_ok st m es x :
    MInv st m es → x ∈ cells_listed es →
    composition st (S M) x.2.1 = Ok (comp st (S M) x.2.1) ∧
    length (comp st (S M) x.2.1) = S (S M) ∧
    Forall2 (λ sub p, ors st !! (M, sub) = Some p) (comp st (S M) x.2.1) (facets_of st (S M) x.2.1).
  Proof.
    intros H Hx. pose proof (reach_Inv pick Hpick debug _ (m_reach _ _ _ _ _ _ _ H)) as HI.
    destruct (facets_ok st M x.2.1 HI) as (c & Hc & Hlen & _ & Hf);
      [apply i_hO; [done|by eapply listed_has]|].
    unfold comp. by rewrite Hc.
  Qed.

  Lemma on_boundary_ok st m es x c :
    MInv st m es → x ∈ cells_listed es →
    (∀ sub, sub ∈ c → sub ∈ comp st (S M) x.2.1) →
    on_boundary (S M) st m c = Ok (filter (λ sub, bdry st M (all_facets st (S M) (cells_listed es)) sub = true) c).
  Proof.
    intros H Hx. destruct (comp_ok _ _ _ _ H Hx) as [Hc _].
    induction c as [|sub c IH]; intros Hsub; [done|]. cbn [on_boundary].
    destruct (facet_in pick Hpick blk Hblk debug M st m es x sub _ H Hx Hc (Hsub sub ltac:(left)))
      as (g & s & Ho & Hs & Hin).
    rewrite (on_boundary_spec M st m _ sub g s (counts_listed pick blk Hblk debug M _ _ _ H) Ho Hs Hin).
    cbn [rbind]. rewrite IH by (intros; apply Hsub; by right). cbn [rbind].
    rewrite filter_cons. rewrite (bdry_eq _ _ _ _ _ _ Ho).
    destruct (bool_decide _); done.
  Qed.

  Definition blist (st : topo) (l : list (addr * gcell)) : list (nat * list node) :=
    concat ((λ x : addr * gcell,
      (λ sub, (sub, x.2.2)) <$>
        filter (λ sub, bdry st M (all_facets st (S M) l) sub = true) (comp st (S M) x.2.1)) <$> l).

  Lemma boundary_facets_ok st m es :
    MInv st m es → boundary_facets (S M) st m = Ok (blist st (cells_listed es)).
  Proof.
    intros H. unfold boundary_facets. destruct (mesh_cells_ok pick blk Hblk debug M _ _ _ H) as [-> _].
    cbn [rbind].
    transitivity (rfold (λ acc x,
      let! b := (let! c := composition st (S M) x.2.1 in
                 let! b := on_boundary (S M) st m c in Ok ((λ sub, (sub, x.2.2)) <$> b)) in
      Ok (acc ++ b)) [] (cells_listed es)).
    { generalize (@nil (nat * list node)). induction (cells_listed es) as [|x l IH]; intros acc; [done|].
      cbn [rfold]. destruct (composition st (S M) x.2.1) as [c| |]; cbn [rbind]; [|done..].
      destruct (on_boundary (S M) st m c) as [b| |]; cbn [rbind]; [|done..]. by rewrite IH. }
    erewrite rfold_app; [done|]. intros x Hx. cbn beta.
    destruct (comp_ok _ _ _ _ H Hx) as (-> & _). cbn [rbind].
    by rewrite (on_boundary_ok st m es x _ H Hx).
  Qed.

  (* the facets reported are those of the mesh whose opposite does not occur, in the same order *)
  Lemma blist_facets st m es :
    MInv st m es →
    let L := all_facets st (S M) (cells_listed es) in
    base.omap (λ sub, ors st !! (M, sub)) (blist st (cells_listed es)).*1 =
      filter (λ p : nat * Z, occurs p.1 (- p.2) L = 0) L ∧
    length (blist st (cells_listed es)) = length (filter (λ p : nat * Z, occurs p.1 (- p.2) L = 0) L).
  Proof.
    intros H L. unfold blist. fold L.
    assert (Hall : ∀ x, x ∈ cells_listed es →
      Forall2 (λ sub p, ors st !! (M, sub) = Some p) (comp st (S M) x.2.1) (facets_of st (S M) x.2.1)).
    { intros x Hx. by destruct (comp_ok _ _ _ _ H Hx) as (_ & _ & ?). }
    set (F := λ p : nat * Z, occurs p.1 (- p.2) L = 0).
    assert (HF : ∀ l, (∀ x, x ∈ l → x ∈ cells_listed es) → let bl := concat ((λ x : addr * gcell,
      (λ sub, (sub, x.2.2)) <$> filter (λ sub, bdry st M L sub = true) (comp st (S M) x.2.1)) <$> l) in
      base.omap (λ sub, ors st !! (M, sub)) bl.*1 = filter F (all_facets st (S M) l) ∧
      length bl = length (filter F (all_facets st (S M) l))); [|by apply HF].
    clearbody L. clear H. unfold all_facets. cbv zeta.
    intros l Hl.
    assert (Hall' : ∀ x, x ∈ l → Forall2 (λ sub p, ors st !! (M, sub) = Some p)
      (comp st (S M) x.2.1) (facets_of st (S M) x.2.1)) by auto. clear Hl Hall. rename Hall' into Hall.
    induction l as [|x l IH]; [done|]. cbn [fmap list_fmap concat].
    destruct IH as [IH1 IH2]; [intros; apply Hall; by right|].
    rewrite fmap_app, filter_app, omap_app, app_length, app_length, IH1, IH2. clear IH1 IH2.
    specialize (Hall x ltac:(left)).
    assert (base.omap (λ sub, ors st !! (M, sub))
       ((λ sub, (sub, x.2.2)) <$> filter (λ sub, bdry st M L sub = true) (comp st (S M) x.2.1)).*1 =
       filter F (facets_of st (S M) x.2.1) ∧
       length ((λ sub, (sub, x.2.2)) <$> filter (λ sub, bdry st M L sub = true) (comp st (S M) x.2.1)) =
       length (filter F (facets_of st (S M) x.2.1))) as [-> ->]; [|done].
    induction Hall as [|sub [g s] c F0 Ho _ [IH1 IH2]]; [done|]. rewrite !filter_cons.
    rewrite !(bdry_eq _ _ _ _ _ _ Ho). assert (HF : F (g, s) ↔ occurs g (- s) L = 0) by done.
    destruct (decide (occurs g (- s) L = 0)) as [E|E].
    - rewrite !(bool_decide_eq_true_2 _ E). rewrite !decide_True by (done || by apply HF).
      cbn [fmap list_fmap base.omap list_omap fst length]. rewrite Ho. by rewrite IH1, IH2.
    - rewrite !(bool_decide_eq_false_2 _ E). rewrite !decide_False by (done || by rewrite HF). done.
  Qed.

  Lemma blist_elem st m es sub ns :
    MInv st m es →
    (sub, ns) ∈ blist st (cells_listed es) ↔
    ∃ x c g s, x ∈ cells_listed es ∧ ns = x.2.2 ∧ composition st (S M) x.2.1 = Ok c ∧ sub ∈ c ∧
      ors st !! (M, sub) = Some (g, s) ∧
      occurs g (- s) (all_facets st (S M) (cells_listed es)) = 0.
  Proof.
    intros H. unfold blist. rewrite elem_of_concat. split.
    - intros (l & Hl & (x & -> & Hx)%elem_of_list_fmap).
      apply elem_of_list_fmap in Hl as (sub' & [= <- ->] & [Hb Hs]%elem_of_list_filter).
      destruct (comp_ok _ _ _ _ H Hx) as (Hc & _). unfold bdry in Hb.
      destruct (ors st !! (M, sub)) as [[g s]|] eqn:Ho; [|done].
      apply bool_decide_eq_true in Hb. by exists x, (comp st (S M) x.2.1), g, s.
    - intros (x & c & g & s & Hx & -> & Hc & Hs & Ho & Hb).
      eexists. split; [|apply elem_of_list_fmap; by exists x]. apply elem_of_list_fmap.
      exists sub. split; [done|]. apply elem_of_list_filter. split.
      + unfold bdry. rewrite Ho. by apply bool_decide_eq_true.
      + unfold comp. by rewrite Hc.
  Qed.
End boundary.

(* ---- a consistently oriented mesh ---- *)

Lemma consistent_nodup L : consistent L → NoDup L.
Proof.
  induction L as [|[g s] L IH]; intros H; constructor.
  - intros Hin. apply occurs_pos in Hin. specialize (H g s). rewrite occurs_cons in H.
    rewrite decide_True in H by done. lia.
  - apply IH. intros g' s'. specialize (H g' s'). rewrite occurs_cons in H. lia.
Qed.

Lemma owners_occurs g L :
  (∀ p, p ∈ L → sign p.2) → owners g L = occurs g 1 L + occurs g (-1) L.
Proof.
  unfold owners. induction L as [|[h s] L IH]; intros Hs; [done|]. rewrite filter_cons, !occurs_cons.
  cbn [fst]. specialize (IH ltac:(intros; apply Hs; by right)).
  assert (sign s) as Hss by (apply (Hs (h, s)); left).
  destruct (decide (h = g)) as [->|].
  - cbn [length]. rewrite IH. destruct Hss as [-> | ->].
    + rewrite decide_True by done. rewrite decide_False by congruence. lia.
    + rewrite decide_False by congruence. rewrite decide_True by done. lia.
  - rewrite !(decide_False (P := (h, _) = (g, _))) by congruence. done.
Qed.

(* ---- signed sums ---- *)

Definition wsum (w : nat → Z) (L : list (nat * Z)) : Z :=
  foldr (λ p acc, (p.2 * w p.1 + acc)%Z) 0%Z L.
Lemma wsum_cons w p L : wsum w (p :: L) = (p.2 * w p.1 + wsum w L)%Z.
Proof. done. Qed.
Lemma wsum_app w L L' : wsum w (L ++ L') = (wsum w L + wsum w L')%Z.
Proof. induction L as [|p L IH]; [done|]. cbn [app]. rewrite !wsum_cons, IH. lia. Qed.
Lemma wsum_perm w L L' : L ≡ₚ L' → wsum w L = wsum w L'.
Proof. induction 1; rewrite ?wsum_cons; [done|congruence|lia|congruence]. Qed.
Lemma wsum_filter w (P : nat * Z → Prop) `{∀ p, Decision (P p)} L :
  wsum w L = (wsum w (filter P L) + wsum w (filter (λ p, ¬ P p) L))%Z.
Proof.
  induction L as [|p L IH]; [done|]. rewrite !filter_cons.
  destruct (decide (P p)), (decide (¬ P p)); try tauto; rewrite !wsum_cons, IH; lia.
Qed.

Definition opposite (p : nat * Z) : nat * Z := (p.1, (- p.2)%Z).
Lemma wsum_opposite w L : wsum w (opposite <$> L) = (- wsum w L)%Z.
Proof. induction L as [|p L IH]; [done|]. rewrite fmap_cons, !wsum_cons, IH. cbn [opposite fst snd]. lia. Qed.

(* the facets that occur with both orientations cancel *)
Lemma interior_cancels w L :
  consistent L →
  wsum w (filter (λ p : nat * Z, occurs p.1 (- p.2) L = 0) L) = wsum w L.
Proof.
  intros Hc. rewrite (wsum_filter w (λ p : nat * Z, occurs p.1 (- p.2) L = 0) L).
  set (I := filter (λ p : nat * Z, ¬ _) L).
  assert (wsum w I = 0%Z); [|lia].
  assert (Hnd : NoDup I) by (apply NoDup_filter, consistent_nodup, Hc).
  assert (Hinj : ∀ p q, opposite p = opposite q → p = q).
  { intros [a b] [c d] [= -> ?]. f_equal. lia. }
  assert (Hin : ∀ p, p ∈ I → opposite p ∈ I).
  { intros [g s] [Ho Hp]%elem_of_list_filter. cbn [fst snd] in Ho. apply elem_of_list_filter.
    cbn [opposite fst snd]. split.
    - rewrite Z.opp_involutive. apply occurs_pos in Hp. lia.
    - change (opposite (g, s)) with (g, (- s)%Z). apply occurs_pos. lia. }
  assert (HP : (opposite <$> I) ≡ₚ I).
  { apply NoDup_Permutation.
    - by apply NoDup_fmap_2.
    - done.
    - intros p. rewrite elem_of_list_fmap. split.
      + intros (q & -> & Hq). by apply Hin.
      + intros Hp. exists (opposite p). split; [|by apply Hin]. destruct p as [a b]. unfold opposite. cbn. by rewrite Z.opp_involutive. }
  pose proof (wsum_perm w _ _ HP) as E. rewrite wsum_opposite in E. lia.
Qed.

(* ---- the boundary of the boundary ---- *)

(* the signed occurrences of [h] among the members of the footprint [g] of order S K *)
Definition weight (st : topo) (K h g : nat) : Z :=
  match fps st !! (S K, g) with
  | Some d => zsum h (sub_entry st K 1 <$> d)
  | None => 0%Z
  end.

Lemma zsum_sub_entry st K h s d :
  zsum h (sub_entry st K s <$> d) = (s * zsum h (sub_entry st K 1 <$> d))%Z.
Proof.
  induction d as [|p d IH]; [cbn; lia|]. rewrite !fmap_cons, !zsum_cons, IH.
  assert (∃ g t, ∀ s, sub_entry st K s p = (g, (t * s)%Z)) as (g & t & E).
  { unfold sub_entry. destruct (ors st !! (K, p)) as [[g t]|]; [by exists g, t|by exists 0, 0%Z]. }
  rewrite !E. cbn [fst snd]. destruct (decide _); lia.
Qed.

Lemma swap01_perm (l : list nat) : swap01 l ≡ₚ l.
Proof. destruct l as [|a [|b l]]; [done|done|]. cbn. constructor. Qed.

Lemma zsum_member st K h sub g s :
  Inv st → ors st !! (S K, sub) = Some (g, s) →
  zsum h (member_entries st K sub) = (s * weight st K h g)%Z.
Proof.
  intros HI Ho. unfold member_entries, weight. rewrite Ho.
  destruct (i_or _ HI _ _ _ _ Ho) as ([d Hd] & _ & _). rewrite Hd. rewrite zsum_sub_entry.
  f_equal. destruct (decide _); [|done]. apply zsum_perm. by rewrite swap01_perm.
Qed.

Lemma zsum_concat h (ls : list (list (nat * Z))) :
  zsum h (concat ls) = foldr (λ l acc, (zsum h l + acc)%Z) 0%Z ls.
Proof. induction ls as [|l ls IH]; [done|]. cbn [concat foldr]. by rewrite zsum_app, IH. Qed.

Lemma zsum_members st K h c F :
  Inv st → Forall2 (λ sub p, ors st !! (S K, sub) = Some p) c F →
  zsum h (comp_entries st K c) = wsum (weight st K h) F.
Proof.
  intros HI HF. unfold comp_entries. induction HF as [|sub [g s] c F Ho _ IH]; [done|].
  cbn [fmap list_fmap concat]. rewrite zsum_app, wsum_cons.
  rewrite (zsum_member st K h sub g s HI Ho). cbn [fst snd]. f_equal. exact IH.
Qed.

(* each cell contributes nothing *)
Lemma cell_closed pick debug st K o h :
  good_alloc pick → reach pick debug st → is_Some (ors st !! (S (S K), o)) →
  wsum (weight st K h) (facets_of st (S (S K)) o) = 0%Z.
Proof.
  intros Hp Hr Ho. pose proof (reach_Inv pick Hp debug _ Hr) as HI.
  destruct (facets_ok st (S K) o HI Ho) as (c & Hc & _ & Hm & HF).
  rewrite <- (zsum_members st K h c _ HI HF).
  destruct (composition_ok st (S K) o HI Ho) as (f & s & d & c' & Hf & Hd & Hc' & HP & _).
  rewrite Hc in Hc'. injection Hc' as <-.
  assert (zsum h (comp_entries st K c) = zsum h (comp_entries st K d)) as ->.
  { unfold comp_entries. apply zsum_perm. by rewrite HP. }
  pose proof (reach_valid pick Hp debug st Hr _ _ _ Hd) as Hv.
  apply is_valid_true in Hv as [_ Hv]; [apply Hv|done|].
  intros x Hx. apply Hm. by rewrite HP.
Qed.

Lemma induced_entries st K o :
  Inv st → is_Some (ors st !! (S K, o)) → induced st (S K) o = member_entries st K o.
Proof.
  intros HI Ho. destruct (composition_ok st K o HI Ho) as (f & s & d & c & Hf & Hd & Hc & HP & Ec).
  unfold induced, member_entries. rewrite Hf, Hd. subst c.
  destruct (facets_ok st K o HI Ho) as (c & Hc' & _ & Hm & HF). rewrite Hc in Hc'.
  injection Hc' as <-. clear -HF. induction HF as [|sub [g t] c F Hs _ IH]; [done|].
  cbn [fmap list_fmap]. unfold sub_entry at 1. rewrite Hs. cbn [fst snd]. f_equal. exact IH.
Qed.

Lemma zsum_occurs h L : signed L → zsum h L = (Z.of_nat (occurs h 1 L) - Z.of_nat (occurs h (-1) L))%Z.
Proof.
  induction L as [|[g s] L IH]; intros Hs; [done|]. rewrite zsum_cons, !occurs_cons, IH.
  2:{ intros b Hb. apply Hs. by right. }
  assert (sign s) as Hss by (apply (Hs (g, s)); left). cbn [fst snd].
  destruct (decide (g = h)) as [->|].
  - destruct Hss as [-> | ->].
    + rewrite decide_True by done. rewrite decide_False by congruence. lia.
    + rewrite decide_False by congruence. rewrite decide_True by done. lia.
  - rewrite !(decide_False (P := (g, _) = (h, _))) by congruence. lia.
Qed.

Lemma induced_signed st N o b : Inv st → b ∈ induced st N o → sign b.2.
Proof.
  intros HI. unfold induced. destruct (ors st !! (N, o)) as [[f s]|] eqn:Ho; [|by intros ?%elem_of_nil].
  intros ([g t] & -> & Hg)%elem_of_list_fmap. cbn [fst snd].
  apply facets_sign in Hg; [|done]. cbn [snd] in Hg.
  destruct (i_or _ HI _ _ _ _ Ho) as (_ & _ & Hs).
  destruct Hs as [-> | ->], Hg as [-> | ->]; [left|right|right|left]; done.
Qed.

Section closed.
  Context (pick : M_Topology.alloc) (Hpick : good_alloc pick) (blk : nat → nat)
    (Hblk : ∀ i j, blk i = blk j → i = j) (debug : bool) (K : nat).
  Notation MInv := (MInv pick blk debug (S K)).

  Lemma mesh_closed st m es h :
    MInv st m es → wsum (weight st K h) (all_facets st (S (S K)) (cells_listed es)) = 0%Z.
  Proof.
    intros H. pose proof (reach_Inv pick Hpick debug _ (m_reach _ _ _ _ _ _ _ H)) as HI.
    assert (Hall : ∀ x, x ∈ cells_listed es → is_Some (ors st !! (S (S K), x.2.1))).
    { intros x Hx. apply i_hO; [done|]. by eapply (listed_has pick blk Hblk debug (S K)). }
    unfold all_facets. induction (cells_listed es) as [|x l IH]; [done|].
    cbn [fmap list_fmap concat]. rewrite wsum_app.
    rewrite (cell_closed pick debug st K x.2.1 h); [|done|apply H|apply Hall; left].
    rewrite IH; [done|]. intros; apply Hall; by right.
  Qed.

  Lemma boundary_closed st m es h :
    MInv st m es → consistent (all_facets st (S (S K)) (cells_listed es)) →
    occurs h 1 (concat (induced st (S K) <$> (blist (S K) st (cells_listed es)).*1)) =
    occurs h (-1) (concat (induced st (S K) <$> (blist (S K) st (cells_listed es)).*1)).
  Proof.
    intros H Hc. pose proof (reach_Inv pick Hpick debug _ (m_reach _ _ _ _ _ _ _ H)) as HI.
    set (bl := (blist (S K) st (cells_listed es)).*1).
    assert (Hreg : ∀ sub, sub ∈ bl → is_Some (ors st !! (S K, sub))).
    { intros sub ([sub' ns] & -> & Hs)%elem_of_list_fmap.
      apply (blist_elem pick Hpick blk Hblk debug (S K) st m es _ _ H) in Hs as (x & c & g & s & _ & _ & _ & _ & Ho & _).
      by eexists. }
    assert (Hs : signed (concat (induced st (S K) <$> bl))).
    { intros b (l & Hb & (sub & -> & _)%elem_of_list_fmap)%elem_of_concat. by eapply induced_signed. }
    assert (Hz : zsum h (concat (induced st (S K) <$> bl)) = 0%Z).
    { assert (concat (induced st (S K) <$> bl) = comp_entries st K bl) as ->.
      { unfold comp_entries. f_equal. apply list_fmap_ext. intros i sub Hi.
        apply induced_entries; [done|]. apply Hreg. by eapply elem_of_list_lookup_2. }
      rewrite (zsum_members st K h bl (base.omap (λ sub, ors st !! (S K, sub)) bl)); [|done|].
      - unfold bl. rewrite (proj1 (blist_facets pick Hpick blk Hblk debug (S K) st m es H)).
        rewrite interior_cancels by done. by eapply mesh_closed.
      - clear -Hreg. induction bl as [|sub bl IH]; [constructor|]. cbn [base.omap list_omap].
        destruct (Hreg sub) as [p Hp]; [left|]. rewrite Hp. constructor; [done|].
        apply IH. intros; apply Hreg; by right. }
    rewrite zsum_occurs in Hz by done. lia.
  Qed.
End closed.

(* ---- sub-cells ---- *)

Section filter.
  Context (st : topo) (HI : Inv st) (I : nat).

  (* the number of chains of members from order I + k down to order I *)
  Fixpoint chains (k : nat) : nat :=
    match k with 0 => 1 | S k' => S (I + k) * chains k' end.
  Lemma chains_fact k : chains k * fact (S I) = fact (S (I + k)).
  Proof.
    induction k as [|k IH]; [rewrite Nat.add_0_r; cbn [chains]; lia|].
    cbn [chains]. rewrite <- Nat.mul_assoc, IH. replace (I + S k) with (S (I + k)) by lia.
    done.
  Qed.

  Lemma sub_cells_ok k : ∀ o,
    is_Some (ors st !! (I + k, o)) →
    ∃ l, sub_cells I k st o = Ok l ∧ length l = chains k ∧
      (∀ o', o' ∈ l ↔ sub_face st I k o o') ∧ (∀ o', o' ∈ l → is_Some (ors st !! (I, o'))).
  Proof.
    induction k as [|k IH]; intros o Ho.
    - exists [o]. rewrite Nat.add_0_r in Ho. split_and!; [done|done| |].
      + intros o'. rewrite elem_of_list_singleton. split; [intros ->; constructor|]. inversion 1. done.
      + intros o' ->%elem_of_list_singleton. done.
    - cbn [sub_cells]. rewrite Nat.add_succ_r in Ho.
      destruct (facets_ok st (I + k) o HI Ho) as (c & Hc & Hlen & Hm & _).
      rewrite <- Nat.add_succ_r in Hc.
      rewrite Hc. cbn [rbind].
      assert (HA : ∀ c', (∀ sub, sub ∈ c' → is_Some (ors st !! (I + k, sub))) → ∀ acc,
        ∃ l, rfold (λ acc sub, let! l := sub_cells I k st sub in Ok (acc ++ l)) acc c' = Ok (acc ++ l) ∧
          length l = length c' * chains k ∧
          (∀ o', o' ∈ l ↔ ∃ sub, sub ∈ c' ∧ sub_face st I k sub o') ∧
          (∀ o', o' ∈ l → is_Some (ors st !! (I, o')))).
      { induction c' as [|sub c' IHc]; intros Hc' acc.
        - exists []. cbn [rfold]. rewrite app_nil_r. split_and!; [done|done| |].
          + intros o'. split; [by intros ?%elem_of_nil|]. by intros (? & ?%elem_of_nil & _).
          + by intros o' ?%elem_of_nil.
        - cbn [rfold]. destruct (IH sub) as (l1 & -> & Hl1 & He1 & Hr1); [apply Hc'; left|]. cbn [rbind].
          destruct (IHc (λ x Hx, Hc' x (elem_of_list_further _ _ _ Hx)) (acc ++ l1))
            as (l2 & -> & Hl2 & He2 & Hr2).
          exists (l1 ++ l2). rewrite <- app_assoc. split_and!; [done| | |].
          + rewrite app_length, Hl1, Hl2. cbn [length]. lia.
          + intros o'. rewrite elem_of_app, He1, He2. setoid_rewrite elem_of_cons. naive_solver.
          + intros o'. rewrite elem_of_app. naive_solver. }
      destruct (HA c Hm []) as (l & -> & Hl & He & Hr). exists l. split_and!; [done| | |done].
      + rewrite Hl, Hlen. cbn [chains]. replace (I + S k) with (S (I + k)) by lia. done.
      + intros o'. rewrite He. split.
        * intros (sub & Hs & Hf). by econstructor.
        * inversion 1 as [|k' o1 c1 sub o2 Hc1 Hs Hf]; subst. rewrite Hc in Hc1. injection Hc1 as <-. eauto.
  Qed.
End filter.
