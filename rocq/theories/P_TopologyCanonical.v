(* What segment, triangle and tetrahedron return in canonical histories. *)
From stdpp Require Import base gmap list.
From Verif Require Import Base M_Perm S_Perm P_Perm M_Topology S_Topology P_Topology P_TopologyErase
  P_TopologyValid P_TopologyOrder P_TopologyVertices.

Local Ltac splits := repeat match goal with |- _ ∧ _ => split end.

(* every registered segment, triangle and tetrahedron is listed in canonical order *)
Definition Can (st : topo) : Prop :=
  ∀ N f, 1 ≤ N ≤ 3 → is_Some (fps st !! (N, f)) → ∃ ws, order st N f ws.

Lemma Can0 : Can topo0.
Proof. intros N f _ [c Hc]. cbn [topo0 fps] in Hc. by rewrite lookup_empty in Hc. Qed.

Lemma Can_mono st st' :
  Inv st → Inv st' → agree st st' → Can st →
  (∀ N f, 1 ≤ N ≤ 3 → is_Some (fps st' !! (N, f)) → is_Some (fps st !! (N, f))) → Can st'.
Proof.
  intros HI HI' Hag HC Hsub N f HN Hf. destruct (HC N f HN (Hsub N f HN Hf)) as (ws & Hord).
  exists ws. by apply (order_agree st st' N).
Qed.

Lemma Can_grow debug st st' :
  Inv st → Inv st' → growsd debug st st' → Can st →
  (∀ N f, 1 ≤ N ≤ 3 → is_Some (fps st' !! (N, f)) →
     is_Some (fps st !! (N, f)) ∨ ∃ ws, order st' N f ws) → Can st'.
Proof.
  intros HI HI' Hg HC Hsub N f HN Hf. destruct (Hsub N f HN Hf) as [Hf0|]; [|done].
  destruct (HC N f HN Hf0) as (ws & Hord). exists ws. apply (order_agree st st' N); try done.
  apply agree_sym, agree_sub; apply Hg.
Qed.

Lemma spans_even st N o vs vs' : spans st N o vs → reord true vs vs' → spans st N o vs'.
Proof.
  intros (f & b & ws & Ho & Hord & Hr) H. exists f, b, ws. splits; try done.
  replace b with (eqb b true) by (by destruct b). by eapply reord_trans.
Qed.

(* in a canonical state every simplex spans its vertices *)
Lemma Can_spans debug st N o us :
  Inv st → Can st → 1 ≤ N ≤ 3 → is_Some (ors st !! (N, o)) → vertices debug st N o = Ok us →
  spans st N o us.
Proof.
  intros HI HC HN [[f s] Ho] Hus. destruct (i_or _ HI _ _ _ _ Ho) as (Hf & _ & Hs).
  destruct (HC N f HN Hf) as (ws & Hord). destruct (sign_zs s Hs) as (b & ->).
  assert (∃ vs, spans st N o vs) as (vs & Hsp).
  { destruct (order_shape _ _ _ _ Hord) as (Hlen & _ & _).
    destruct b.
    - exists ws, f, true, ws. splits; try done. apply reord_refl.
    - exists (swap01 ws), f, false, ws. splits; try done. apply reord_sym, swap01_reord. lia. }
  destruct (vertices_spans debug st N o vs Hsp) as (us' & Hus' & Hr).
  rewrite Hus in Hus'. injection Hus' as <-. eapply spans_even; [exact Hsp|]. by apply reord_sym.
Qed.
Lemma Can_vertices debug st N o :
  Inv st → Can st → 1 ≤ N ≤ 3 → is_Some (ors st !! (N, o)) → ∃ us, vertices debug st N o = Ok us ∧
    spans st N o us.
Proof.
  intros HI HC HN Ho. pose proof Ho as [[f s] Ho']. destruct (i_or _ HI _ _ _ _ Ho') as (Hf & _ & Hs).
  destruct (HC N f HN Hf) as (ws & Hord). destruct (sign_zs s Hs) as (b & ->).
  assert (∃ vs, spans st N o vs) as (vs & Hsp).
  { destruct (order_shape _ _ _ _ Hord) as (Hlen & _ & _).
    destruct b.
    - exists ws, f, true, ws. splits; try done. apply reord_refl.
    - exists (swap01 ws), f, false, ws. splits; try done. apply reord_sym, swap01_reord. lia. }
  destruct (vertices_spans debug st N o vs Hsp) as (us' & Hus' & Hr). exists us'. split; [done|].
  by apply (Can_spans debug).
Qed.

(* lists of footprints with the same entries belong to the same vertices *)
Lemma faces_perm st N vs ws l l' :
  Inv st → 2 ≤ S N ≤ 3 → length vs = S (S N) → length ws = S (S N) → NoDup vs → NoDup ws →
  Forall2 (face_missing st N vs) (missing (S N) vs) l →
  Forall2 (face_missing st N ws) (missing (S N) ws) l' → l ≡ₚ l' → vs ≡ₚ ws.
Proof.
  intros HI HN Hlen Hlen' Hnd Hnd' HF HF' Hp.
  assert (Hsub : ∀ u, u ∈ ws → u ∈ vs).
  { intros u Hu.
    assert (∃ i y, missing (S N) ws !! i = Some y ∧ y ≠ u) as (i & y & Hi & Hyu).
    { pose proof (missing_perm (S N) ws HN Hlen') as Hpm.
      assert (NoDup (missing (S N) ws)) as Hndm by (by rewrite Hpm).
      destruct (missing (S N) ws) as [|y0 [|y1 rest]].
      - apply Permutation_length in Hpm. cbn in Hpm. lia.
      - apply Permutation_length in Hpm. cbn in Hpm. lia.
      - destruct (decide (y0 = u)) as [->|]; [|by exists 0, y0].
        exists 1, y1. split; [done|]. intros ->. apply NoDup_cons in Hndm as [Hnn _].
        apply Hnn. left. }
    destruct (Forall2_lookup_l _ _ _ _ _ HF' Hi) as (g & Hg & us' & Hgo' & Hp').
    apply elem_of_list_lookup_2 in Hg. rewrite <- Hp in Hg. apply elem_of_list_lookup in Hg as (j & Hg).
    destruct (Forall2_lookup_r _ _ _ _ _ HF Hg) as (x & Hx & us & Hgo & Hpu).
    pose proof (proj1 (order_unique st N HI) _ _ _ Hgo Hgo') as Hpp.
    rewrite <- Hpu. right. rewrite Hpp. rewrite <- Hp' in Hu.
    apply elem_of_cons in Hu as [->|Hu]; done. }
  symmetry. apply NoDup_Permutation_bis; [by apply NoDup_ListNoDup|lia|].
  intros u. rewrite <- !elem_of_list_In. apply Hsub.
Qed.

Section canonical.
  Context (al : alloc) (Hal : good_alloc al) (debug : bool).
  Local Notation grows := (growsd debug).

  (* the general shape of the result *)
  Definition good (st : topo) (N : nat) (vs : list nat) (o : nat) (st' : topo) : Prop :=
    Inv st' ∧ Can st' ∧ grows st st' ∧ spans st' N o vs.

  (* [simplex] on members that span the faces of [vs], in order *)
  Lemma wp_simplex_faces st N c vs :
    Inv st → Can st → 2 ≤ S N ≤ 3 → length vs = S (S N) → NoDup vs →
    Forall2 (spans st N) c (faces (S N) vs) →
    wp (simplex al debug (S N) c) st (good st (S N) vs) (λ _, False).
  Proof.
    intros HI HC HN Hlen Hnd HF.
    pose proof (spans_registered _ _ _ _ HF) as Hreg.
    assert (Hlc : length c = S (S N)).
    { rewrite (Forall2_length _ _ _ HF).
      destruct N as [|[|[|]]]; try lia; destruct vs as [|? [|? [|? [|? [|]]]]]; done. }
    assert (Hv : is_valid debug st (S N) c = Ok true).
    { destruct N as [|[|[|]]]; try lia; [by apply (valid2 _ _ _ vs)|by apply (valid3 _ _ _ vs)]. }
    eapply wp_mono; [by apply (wp_simplex al Hal debug st N c)| |].
    2: { intros st' (-> & [H|H]); congruence. }
    intros o st' (_ & HI' & Hg & f & s & c' & r & Ho & Hs & Hf & Hr' & Hr & Hor & Hold & Hnew & _).
    (* what the members of [c] are in the new state *)
    assert (HF' : Forall2 (spans st' N) c (faces (S N) vs)).
    { eapply Forall2_impl; [exact HF|]. intros x fv. by eapply spans_grows. }
    destruct N as [|N]; [lia|].
    (* the order in which the footprint is listed *)
    assert (∃ ws, order st' (S (S N)) f ws ∧ Can st') as (ws & Hord & HC').
    { destruct (representative_ok st (S (S N)) c Hreg) as (l & Hl & Hrep).
      destruct (cmap st !! (S (S N), sort Nat.leb l)) as [g|] eqn:Hcm.
      - assert (Hfs : find_simplex st (S (S N)) c = Ok (Some g))
          by (unfold find_simplex; rewrite Hrep; cbn [rbind]; by rewrite Hcm).
        destruct (Hold g Hfs) as (-> & Hfe & _ & _).
        assert (HC' : Can st').
        { eapply (Can_mono st); [done|done| |done|].
          - apply agree_sym, agree_sub; apply Hg.
          - intros M h _. by rewrite Hfe. }
        destruct (HC' (S (S N)) f) as (ws & Hord); [lia|by eexists|]. by exists ws.
      - assert (Hfs : find_simplex st (S (S N)) c = Ok None)
          by (unfold find_simplex; rewrite Hrep; cbn [rbind]; by rewrite Hcm).
        destruct (Hnew Hfs) as (Hfe & Hfn).
        assert (Hord : order st' (S (S N)) f vs).
        { apply order_SS. splits; try done; [lia|]. exists c. split; [|done].
          by rewrite Hfe, lookup_insert. }
        exists vs. split; [done|]. eapply Can_grow; [exact HI|done|exact Hg|done|].
        intros M h _ [d Hd]. rewrite Hfe in Hd.
        apply lookup_insert_Some in Hd as [[[= <- <-] <-]|[_ Hd]]; [right; by exists vs|left; by exists d]. }
    unfold good. splits; try done.
    destruct (order_shape _ _ _ _ Hord) as (Hlen' & Hnd' & _).
    destruct (order_members _ _ _ _ Hord) as (c'' & l' & Hc'' & Hl' & HFw).
    rewrite Hf in Hc''. injection Hc'' as <-.
    destruct (spans_footprints st' (S N) c vs HN Hlen HF') as (l & Hl & HFv).
    apply footprints_spec in Hl, Hl'.
    assert (Hp : l ≡ₚ l').
    { unfold representative in Hr, Hr'. rewrite Hl in Hr. rewrite Hl' in Hr'. cbn [rbind] in Hr, Hr'.
      apply (sort_eq_iff _ nat_total). congruence. }
    pose proof (faces_perm st' (S N) vs ws l l' HI' HN Hlen Hlen' Hnd Hnd' HFv HFw Hp) as Hpv.
    destruct (perm_reord _ _ Hpv) as (b & Hb).
    assert (Hb' : reord b l l').
    { eapply (Forall2_reord (face_missing st' (S N) vs)).
      - intros x g h. by apply face_missing_det.
      - apply missing_reord2; [exact HN|exact Hlen|exact Hlen'|exact Hb].
      - done.
      - eapply Forall2_impl; [exact HFw|]. intros x g (us & Hg1 & Hus). exists us. split; [done|].
        by rewrite Hus. }
    assert (Hndl : NoDup l).
    { eapply (Forall2_nodup (face_missing st' (S N) vs)); [| |exact HFv].
      - intros x y g. by apply face_missing_inj.
      - by rewrite missing_perm. }
    unfold orientation, fcomposition in Hor. rewrite Hf in Hor. cbn [deref rbind] in Hor.
    rewrite Hl, Hl' in Hor. cbn [rbind] in Hor.
    rewrite (reord_sign debug b l l') in Hor; [|intros ->|done|done].
    - injection Hor as <-. exists f, b, ws. splits; try done. by apply reord_sym.
    - apply footprints_length in Hl. rewrite Hlc in Hl. done.
  Qed.

  Lemma vertices_assert st N o vs (Q : unit → topo → Prop) E :
    1 ≤ N → Inv st → spans st N o vs → Q tt st → wp (assert_vertices debug N o vs) st Q E.
  Proof.
    intros HN HI Hsp HQ. unfold assert_vertices. destruct debug; [|done].
    destruct (vertices_spans true st N o vs Hsp) as (us & Hus & Hr).
    apply wp_bind. apply wp_read; rewrite Hus; [|done..]. intros us' [= <-].
    destruct Hsp as (f & b & ws & _ & Hord & Hr').
    destruct (order_shape _ _ _ _ Hord) as (Hlen & Hnd & _).
    assert (Hsign : permutation_sign Nat.leb true us vs = Ok 1%Z).
    { apply (reord_sign true true); [| |done].
      - intros ->. apply reord_perm, Permutation_length in Hr. apply reord_perm, Permutation_length in Hr'.
        cbn in Hr. lia.
      - rewrite (reord_perm _ _ _ Hr), <- (reord_perm _ _ _ Hr'). done. }
    apply wp_bind. apply wp_read; rewrite Hsign; [|done..]. intros s [= <-]. by rewrite decide_True.
  Qed.

  (* segments *)
  Lemma wp_simplex_ends st t h a b :
    Inv st → Can st → a ≠ b → ors st !! (0, t) = Some (a, (-1)%Z) → ors st !! (0, h) = Some (b, 1%Z) →
    wp (simplex al debug 1 [t; h]) st (good st 1 [a; b]) (λ _, False).
  Proof.
    intros HI HC Hab Ht Hh.
    assert (Hreg : ∀ o, o ∈ [t; h] → is_Some (ors st !! (0, o))).
    { intros o [->|[->|Ho]%elem_of_cons]%elem_of_cons; [eauto..|inversion Ho]. }
    assert (Hv : is_valid debug st 1 [t; h] = Ok true).
    { unfold is_valid, entry. cbn [lookup list_lookup deref rbind]. unfold oriented.
      rewrite Ht, Hh. cbn [deref rbind]. rewrite !bool_decide_eq_false_2; done. }
    eapply wp_mono; [by apply (wp_simplex al Hal debug st 0 [t; h])| |].
    2: { intros st' (-> & [H|H]); congruence. }
    intros o st' (_ & HI' & Hg & f & s & c' & r & Ho & Hs & Hf & Hr' & Hr & Hor & Hold & Hnew & _).
    assert (Ht' : ors st' !! (0, t) = Some (a, (-1)%Z)) by (by eapply grows_or).
    assert (Hh' : ors st' !! (0, h) = Some (b, 1%Z)) by (by eapply grows_or).
    assert (∃ ws, order st' 1 f ws ∧ Can st') as (ws & Hord & HC').
    { destruct (representative_ok st 1 [t; h] Hreg) as (l & Hl & Hrep).
      destruct (cmap st !! (1, sort Nat.leb l)) as [g|] eqn:Hcm.
      - assert (Hfs : find_simplex st 1 [t; h] = Ok (Some g))
          by (unfold find_simplex; rewrite Hrep; cbn [rbind]; by rewrite Hcm).
        destruct (Hold g Hfs) as (-> & Hfe & _ & _).
        assert (HC' : Can st').
        { eapply (Can_mono st); [done|done| |done|].
          - apply agree_sym, agree_sub; apply Hg.
          - intros M k _. by rewrite Hfe. }
        destruct (HC' 1 f) as (ws & Hord); [lia|by eexists|]. by exists ws.
      - assert (Hfs : find_simplex st 1 [t; h] = Ok None)
          by (unfold find_simplex; rewrite Hrep; cbn [rbind]; by rewrite Hcm).
        destruct (Hnew Hfs) as (Hfe & Hfn).
        assert (Hord : order st' 1 f [a; b]).
        { exists t, h, a, b. splits; try done. by rewrite Hfe, lookup_insert. }
        exists [a; b]. split; [done|]. eapply Can_grow; [exact HI|done|exact Hg|done|].
        intros M k _ [d Hd]. rewrite Hfe in Hd.
        apply lookup_insert_Some in Hd as [[[= <- <-] <-]|[_ Hd]]; [right; eauto|left; by exists d]. }
    unfold good. splits; try done.
    destruct (order_shape _ _ _ _ Hord) as (_ & Hndw & _).
    apply order_1 in Hord as (p & q & x & y & -> & Hxy & Hfw & Hp & Hq).
    rewrite Hf in Hfw. injection Hfw as ->.
    assert (Hl : footprints st' 1 [t; h] = Ok [a; b])
      by (apply footprints_spec; repeat constructor; eauto).
    assert (Hl' : footprints st' 1 [p; q] = Ok [x; y])
      by (apply footprints_spec; repeat constructor; eauto).
    assert (Hpv : [a; b] ≡ₚ [x; y]).
    { unfold representative in Hr, Hr'. rewrite Hl in Hr. rewrite Hl' in Hr'. cbn [rbind] in Hr, Hr'.
      apply (sort_eq_iff _ nat_total). congruence. }
    destruct (perm_reord _ _ Hpv) as (bb & Hb).
    unfold orientation, fcomposition in Hor. rewrite Hf in Hor. cbn [deref rbind] in Hor.
    rewrite Hl, Hl' in Hor. cbn [rbind] in Hor.
    rewrite (reord_sign debug bb [a; b] [x; y]) in Hor; [|done| |done].
    - injection Hor as <-. exists f, bb, [x; y]. splits; [done| |by apply reord_sym].
      by exists p, q, x, y.
    - by rewrite Hpv.
  Qed.

  Definition refused (st : topo) (vs : list nat) (st' : topo) : Prop :=
    Inv st' ∧ Can st' ∧ grows st st' ∧ ¬ NoDup vs.

  Lemma NoDup_2 (a b : nat) : NoDup [a; b] ↔ a ≠ b.
  Proof. rewrite !NoDup_cons, elem_of_list_singleton. split; [tauto|]. intros. splits; try done; [apply not_elem_of_nil|constructor]. Qed.

  Lemma wp_segment_can st v0 v1 :
    Inv st → Can st → is_Some (fps st !! (0, v0)) → is_Some (fps st !! (0, v1)) →
    wp (segment al debug v0 v1) st
      (λ o st', NoDup [v0; v1] ∧ good st 1 [v0; v1] o st') (refused st [v0; v1]).
  Proof.
    intros HI HC H0 H1. unfold segment. apply wp_bind.
    eapply wp_mono; [apply (wp_oriented al Hal debug _ _ _ _ (λ _, False)); [done..|by right]| |intros st' []].
    intros t st1 (HI1 & Hg1 & Ht & Hf1 & _). cbn beta.
    assert (HC1 : Can st1).
    { eapply (Can_mono st); [done|done| |done|].
      - apply agree_sym, agree_sub; apply Hg1.
      - intros M k _. by rewrite Hf1. }
    apply wp_bind. eapply wp_mono;
      [apply (wp_oriented al Hal debug _ _ _ _ (λ _, False)); [done|by rewrite Hf1|by left]| |intros st' []].
    intros h st2 (HI2 & Hg2 & Hh & Hf2 & _). cbn beta.
    assert (HC2 : Can st2).
    { eapply (Can_mono st1); [done|done| |done|].
      - apply agree_sym, agree_sub; apply Hg2.
      - intros M k _. by rewrite Hf2. }
    assert (Hg : grows st st2) by (by eapply grows_trans).
    assert (Ht2 : ors st2 !! (0, t) = Some (v0, (-1)%Z)) by (by apply (grows_or debug st1)).
    apply wp_bind. destruct (decide (v0 = v1)) as [Heq|Hne].
    - (* the two ends coincide *)
      assert (Hv : is_valid debug st2 1 [t; h] = Ok false).
      { unfold is_valid, entry. cbn [lookup list_lookup deref rbind]. unfold oriented.
        rewrite Ht2, Hh. cbn [deref rbind]. rewrite bool_decide_eq_true_2; done. }
      unfold simplex. apply wp_bind. apply wp_read; rewrite Hv; [|done..]. intros ? [= <-].
      unfold wp, athrow, refused. splits; try done. rewrite NoDup_2. auto.
    - eapply wp_mono; [by apply (wp_simplex_ends st2 t h v0 v1)| |done].
      intros o st3 (HI3 & HC3 & Hg3 & Hsp). cbn beta. apply wp_bind.
      apply vertices_assert; [lia|done|done|]. unfold wp, aret. split; [by apply NoDup_2|].
      unfold good. splits; try done. by eapply grows_trans.
  Qed.

  Lemma NoDup_3 (a b c : nat) : NoDup [a; b; c] ↔ a ≠ b ∧ b ≠ c ∧ c ≠ a.
  Proof.
    rewrite NoDup_cons, NoDup_2, elem_of_cons, elem_of_list_singleton. split.
    - intros [H ?]. splits; [|done|]; intros ->; apply H; auto.
    - intros (? & ? & ?). split; [|done]. intros [->| ->]; done.
  Qed.
  Lemma NoDup_4 (a b c d : nat) :
    NoDup [a; b; c; d] ↔ a ≠ b ∧ a ≠ c ∧ a ≠ d ∧ b ≠ c ∧ c ≠ d ∧ d ≠ b.
  Proof.
    rewrite NoDup_cons, NoDup_3, !elem_of_cons, elem_of_nil. split.
    - intros [H (? & ? & ?)]. splits; try done; intros ->; apply H; auto.
    - intros (? & ? & ? & ? & ? & ?). split; [|done]. intros [->|[->|[->|Hn]]]; done.
  Qed.

  Lemma refused_trans st st1 vs vs' st' :
    grows st st1 → refused st1 vs st' → (NoDup vs' → NoDup vs) → refused st vs' st'.
  Proof. intros Hg (? & ? & ? & H) Hn. unfold refused. splits; try done; [by eapply grows_trans|tauto]. Qed.

  Lemma wp_triangle_can st v0 v1 v2 :
    Inv st → Can st → is_Some (fps st !! (0, v0)) → is_Some (fps st !! (0, v1)) →
    is_Some (fps st !! (0, v2)) →
    wp (triangle al debug v0 v1 v2) st
      (λ o st', NoDup [v0; v1; v2] ∧ good st 2 [v0; v1; v2] o st') (refused st [v0; v1; v2]).
  Proof.
    intros HI HC H0 H1 H2. unfold triangle. apply wp_bind.
    eapply wp_mono; [by apply wp_segment_can| |].
    2: { intros st' H. eapply refused_trans; [apply grows_refl|exact H|]. rewrite NoDup_3, NoDup_2. tauto. }
    intros a st1 (Hn1 & HI1 & HC1 & Hg1 & Ha). cbn beta. apply wp_bind.
    eapply wp_mono; [apply wp_segment_can; [done|done|by apply (grows_fp_some debug st)..]| |].
    2: { intros st' H. eapply refused_trans; [exact Hg1|exact H|]. rewrite NoDup_3, NoDup_2. tauto. }
    intros b st2 (Hn2 & HI2 & HC2 & Hg2 & Hb). cbn beta. apply wp_bind.
    assert (Hg12 : grows st st2) by (by eapply grows_trans).
    eapply wp_mono; [apply wp_segment_can; [done|done|by apply (grows_fp_some debug st)..]| |].
    2: { intros st' H. eapply refused_trans; [exact Hg12|exact H|]. rewrite NoDup_3, NoDup_2. tauto. }
    intros c st3 (Hn3 & HI3 & HC3 & Hg3 & Hc). cbn beta. apply wp_bind.
    assert (Hg13 : grows st st3) by (by eapply grows_trans).
    assert (Hg23 : grows st1 st3) by (by eapply grows_trans).
    assert (Hnd : NoDup [v0; v1; v2]) by (rewrite NoDup_2 in Hn1, Hn2, Hn3; by rewrite NoDup_3).
    eapply wp_mono; [apply (wp_simplex_faces st3 1 [a; b; c] [v0; v1; v2]); [done|done|lia|done|done|]| |done].
    - cbn [faces]. constructor; [|constructor; [|constructor; [|constructor]]].
      + eapply (spans_grows debug st1 st3); done.
      + eapply (spans_grows debug st2 st3); done.
      + done.
    - intros o st4 (HI4 & HC4 & Hg4 & Ho). cbn beta. apply wp_bind.
      apply vertices_assert; [lia|done|done|]. unfold wp, aret. split; [done|].
      unfold good. splits; try done. by eapply grows_trans.
  Qed.

  Lemma wp_tetrahedron_can st v0 v1 v2 v3 :
    Inv st → Can st → is_Some (fps st !! (0, v0)) → is_Some (fps st !! (0, v1)) →
    is_Some (fps st !! (0, v2)) → is_Some (fps st !! (0, v3)) →
    wp (tetrahedron al debug v0 v1 v2 v3) st
      (λ o st', NoDup [v0; v1; v2; v3] ∧ good st 3 [v0; v1; v2; v3] o st')
      (refused st [v0; v1; v2; v3]).
  Proof.
    intros HI HC H0 H1 H2 H3. unfold tetrahedron. apply wp_bind.
    eapply wp_mono; [by apply wp_triangle_can| |].
    2: { intros st' H. eapply refused_trans; [apply grows_refl|exact H|]. rewrite NoDup_4, NoDup_3. naive_solver. }
    intros a st1 (Hn1 & HI1 & HC1 & Hg1 & Ha). cbn beta. apply wp_bind.
    eapply wp_mono; [apply wp_triangle_can; [done|done|by apply (grows_fp_some debug st)..]| |].
    2: { intros st' H. eapply refused_trans; [exact Hg1|exact H|]. rewrite NoDup_4, NoDup_3. naive_solver. }
    intros b st2 (Hn2 & HI2 & HC2 & Hg2 & Hb). cbn beta. apply wp_bind.
    assert (Hg12 : grows st st2) by (by eapply grows_trans).
    eapply wp_mono; [apply wp_triangle_can; [done|done|by apply (grows_fp_some debug st)..]| |].
    2: { intros st' H. eapply refused_trans; [exact Hg12|exact H|]. rewrite NoDup_4, NoDup_3. naive_solver. }
    intros c st3 (Hn3 & HI3 & HC3 & Hg3 & Hc). cbn beta. apply wp_bind.
    assert (Hg13 : grows st st3) by (by eapply grows_trans).
    eapply wp_mono; [apply wp_triangle_can; [done|done|by apply (grows_fp_some debug st)..]| |].
    2: { intros st' H. eapply refused_trans; [exact Hg13|exact H|]. rewrite NoDup_4, NoDup_3. naive_solver. }
    intros d st4 (Hn4 & HI4 & HC4 & Hg4 & Hd). cbn beta. apply wp_bind.
    assert (Hg14 : grows st st4) by (by eapply grows_trans).
    assert (Hg24 : grows st2 st4) by (by eapply grows_trans).
    assert (Hg1_4 : grows st1 st4) by (by eapply grows_trans).
    assert (Hnd : NoDup [v0; v1; v2; v3]).
    { rewrite NoDup_3 in Hn1, Hn2, Hn3, Hn4. rewrite NoDup_4. naive_solver. }
    eapply wp_mono; [apply (wp_simplex_faces st4 2 [a; b; c; d] [v0; v1; v2; v3]); [done|done|lia|done|done|]| |done].
    - cbn [faces]. constructor; [|constructor; [|constructor; [|constructor; [|constructor]]]].
      + eapply (spans_grows debug st1 st4); done.
      + eapply (spans_grows debug st2 st4); done.
      + eapply (spans_grows debug st3 st4); done.
      + done.
    - intros o st5 (HI5 & HC5 & Hg5 & Ho). cbn beta. apply wp_bind.
      apply vertices_assert; [lia|done|done|]. unfold wp, aret. split; [done|].
      unfold good. splits; try done. by eapply grows_trans.
  Qed.
End canonical.

Lemma Can_sub st st' :
  Inv st → Inv st' → fps st' ⊆ fps st → ors st' ⊆ ors st → Can st → Can st'.
Proof.
  intros HI HI' Hf Ho HC. eapply (Can_mono st); [done|done|by apply agree_sub|done|].
  intros N f _ [c Hc]. exists c. by eapply lookup_weaken.
Qed.
Lemma Can_same st st' :
  Inv st → Inv st' → fps st' = fps st → ors st' = ors st → Can st → Can st'.
Proof. intros HI HI' Hf Ho. apply Can_sub; [done|done|by rewrite Hf|by rewrite Ho]. Qed.
Lemma Can_grow_same debug st st' :
  Inv st → Inv st' → growsd debug st st' → Can st →
  (∀ N f, 1 ≤ N ≤ 3 → fps st' !! (N, f) = fps st !! (N, f)) → Can st'.
Proof.
  intros HI HI' Hg HC Hf. eapply Can_grow; [exact HI|done|exact Hg|done|].
  intros N f HN. rewrite (Hf N f HN). auto.
Qed.

Section listed.
  Context (al : alloc) (Hal : good_alloc al) (debug : bool).
  Local Notation fine := (λ st', Inv st' ∧ Can st').

  Lemma wp_keepO_can N (m : act nat) st :
    wp m st (λ o st', Inv st' ∧ Can st' ∧ is_Some (ors st' !! (N, o))) fine →
    wp (keepO N m) st (λ _, fine) fine.
  Proof.
    intros H. unfold keepO. apply wp_bind. eapply wp_mono; [exact H| |done].
    intros o st' (HI & HC & Ho). unfold wp. pose proof (Inv_holdO _ _ _ HI Ho) as HI'.
    split; [done|]. by apply (Can_same st').
  Qed.
  Lemma wp_keepF_can N (m : act nat) st :
    wp m st (λ f st', Inv st' ∧ Can st' ∧ is_Some (fps st' !! (N, f))) fine →
    wp (keepF N m) st (λ _, fine) fine.
  Proof.
    intros H. unfold keepF. apply wp_bind. eapply wp_mono; [exact H| |done].
    intros o st' (HI & HC & Ho). unfold wp. pose proof (Inv_holdF _ _ _ HI Ho) as HI'.
    split; [done|]. by apply (Can_same st').
  Qed.

  Lemma good_created st N vs o st' :
    good debug st N vs o st' → Inv st' ∧ Can st' ∧ is_Some (ors st' !! (N, o)).
  Proof. intros (HI & HC & _ & f & b & ws & Ho & _). splits; try done. Qed.

  Lemma wp_oriented_can st N f s E :
    Inv st → Can st → is_Some (fps st !! (N, f)) → sign s →
    wp (oriented_simplex al N f s) st
      (λ o st', Inv st' ∧ Can st' ∧ is_Some (ors st' !! (N, o))) E.
  Proof.
    intros HI HC Hf Hs. eapply wp_mono; [by apply (wp_oriented al Hal debug _ _ _ _ (λ _, False))| |done].
    intros o st' (HI' & Hg & Ho & Hfe & _). splits; [done| |by eexists].
    eapply Can_grow_same; [exact HI|done|exact Hg|done|]. intros. by rewrite Hfe.
  Qed.

  Lemma well_listed_spans st N c :
    Inv st → Can st → 1 ≤ N ≤ 2 → length c = S (S N) → (∀ o, o ∈ c → is_Some (ors st !! (N, o))) →
    well_listed debug st (OComposition (S N) c) →
    ∃ vs, length vs = S (S N) ∧ NoDup vs ∧ Forall2 (spans st N) c (faces (S N) vs).
  Proof.
    intros HI HC HN Hlen Hreg Hw.
    assert (Hsp : ∀ o, o ∈ c → ∃ us, vertices debug st N o = Ok us ∧ spans st N o us).
    { intros o Ho. apply Can_vertices; [done|done|lia|by apply Hreg]. }
    destruct N as [|[|[|]]]; try lia.
    - destruct c as [|x [|y [|z [|]]]]; try done. cbn [well_listed] in Hw.
      assert (Hs : ∀ o, o ∈ [x; y; z] → ∃ a b, a ≠ b ∧ spans st 1 o [a; b]).
      { intros o Ho. destruct (Hsp o Ho) as (us & _ & Hs). pose proof Hs as (f & b & ws & _ & Hord & Hr).
        destruct (order_shape _ _ _ _ Hord) as (Hl & Hnd & _). apply reord_perm in Hr.
        rewrite Hr in Hnd. apply Permutation_length in Hr.
        destruct us as [|a [|b' [|]]]; try (cbn in *; lia). exists a, b'. split; [|done].
        by apply NoDup_2. }
      destruct (Hs x) as (a & b & Hab & Hx); [left|].
      destruct (Hs y) as (b' & d & Hbd & Hy); [right; left|].
      destruct (Hs z) as (d' & a' & Hda & Hz); [right; right; left|].
      destruct (tail_head_spans _ _ _ _ HI Hx) as [Htx Hhx].
      destruct (tail_head_spans _ _ _ _ HI Hy) as [Hty Hhy].
      destruct (tail_head_spans _ _ _ _ HI Hz) as [Htz Hhz].
      unfold head_tail_connected in Hw. rewrite Htx, Hhx, Hty, Hhy, Htz, Hhz in Hw. cbn [rbind] in Hw.
      destruct Hw as ([= ->%Nat.eqb_eq] & [= ->%Nat.eqb_eq] & [= ->%Nat.eqb_eq]).
      exists [a; b'; d']. splits; [done|by apply NoDup_3|]. cbn [faces]. by repeat constructor.
    - destruct c as [|w [|x [|y [|z [|]]]]]; try done. cbn [well_listed] in Hw.
      destruct Hw as (a & b & e & d & Hw & Hx & Hy & Hz).
      assert (Hs : ∀ o vs, o ∈ [w; x; y; z] → vertices_are debug st 2 o vs →
        spans st 2 o vs ∧ NoDup vs).
      { intros o vs Ho (us & Hus & He%even_reord). destruct (Hsp o Ho) as (us' & Hus' & Hs).
        rewrite Hus in Hus'. injection Hus' as <-. pose proof Hs as (f & t & ws & _ & Hord & Hr).
        split; [by eapply spans_even|]. destruct (order_shape _ _ _ _ Hord) as (Hl & Hnd & _).
        by rewrite <- (reord_perm _ _ _ He), <- (reord_perm _ _ _ Hr). }
      destruct (Hs w _ ltac:(left) Hw) as [Hw' Hn1].
      destruct (Hs x _ ltac:(right; left) Hx) as [Hx' Hn2].
      destruct (Hs y _ ltac:(right; right; left) Hy) as [Hy' Hn3].
      destruct (Hs z _ ltac:(right; right; right; left) Hz) as [Hz' Hn4].
      exists [a; b; e; d]. splits; [done| |].
      + rewrite NoDup_3 in Hn1, Hn2, Hn3, Hn4. rewrite NoDup_4. naive_solver.
      + cbn [faces]. by repeat constructor.
  Qed.

  Lemma wp_simplex_listed st N c :
    Inv st → Can st → length c = S (S N) → (∀ o, o ∈ c → is_Some (ors st !! (N, o))) →
    well_listed debug st (OComposition (S N) c) →
    wp (simplex al debug (S N) c) st
      (λ o st', Inv st' ∧ Can st' ∧ is_Some (ors st' !! (S N, o))) fine.
  Proof.
    intros HI HC Hlen Hreg Hw. destruct N as [|N].
    - destruct c as [|t [|h [|]]]; try done. destruct Hw as (a & Ht).
      destruct (Hreg h) as [[b s] Hh]; [right; left|].
      destruct (decide (a ≠ b ∧ s = 1%Z)) as [[Hab ->]|Hno].
      + eapply wp_mono; [by apply (wp_simplex_ends al Hal debug st t h a b)| |done].
        intros o st' Hg. by eapply good_created.
      + assert (Hv : is_valid debug st 1 [t; h] = Ok false).
        { unfold is_valid, entry. cbn [lookup list_lookup deref rbind]. unfold oriented.
          rewrite Ht, Hh. cbn [deref rbind]. f_equal. apply andb_false_iff. rewrite !negb_false_iff.
          rewrite !bool_decide_eq_true. destruct (decide (a = b)); [by left|right].
          destruct (i_or _ HI _ _ _ _ Hh) as (_ & _ & [-> | ->]); [|done]. tauto. }
        unfold simplex. apply wp_bind. apply wp_read; rewrite Hv; [|done..]. intros ? [= <-].
        unfold wp, athrow. done.
    - destruct (decide (S (S N) ≤ 3)) as [HN|HN].
      + destruct (well_listed_spans st (S N) c) as (vs & Hl & Hnd & HF); [done|done|lia|done|done|done|].
        eapply wp_mono; [apply (wp_simplex_faces al Hal debug st (S N) c vs); try done; lia| |done].
        intros o st' Hg. by eapply good_created.
      + eapply wp_mono; [by apply (wp_simplex al Hal debug st (S N) c)| |].
        * intros o st' (_ & HI' & Hg & f & s & c' & r & Ho & _ & _ & _ & _ & _ & Hold & Hnew & _).
          splits; [done| |by eexists]. eapply Can_grow_same; [exact HI|done|exact Hg|done|].
          intros M k HM. destruct (representative_ok st (S (S N)) c Hreg) as (l & Hl & Hrep).
          destruct (find_simplex st (S (S N)) c) as [[g|]| |] eqn:Hfs.
          -- destruct (Hold g eq_refl) as (_ & -> & _). done.
          -- destruct (Hnew eq_refl) as (-> & _). rewrite lookup_insert_ne; [done|]. intros [= <- _]. lia.
          -- unfold find_simplex in Hfs. by rewrite Hrep in Hfs.
          -- unfold find_simplex in Hfs. by rewrite Hrep in Hfs.
        * by intros st' [-> _].
  Qed.

  Lemma step_can st x :
    Inv st → Can st → legal st x → well_listed debug st x → wp (step al debug x) st (λ _, fine) fine.
  Proof.
    intros HI HC Hl Hw. destruct x; cbn [step legal] in *.
    - apply wp_keepF_can. eapply wp_mono; [by apply (wp_vertex al Hal debug st (λ _, False))| |done].
      intros f st' (HI' & Hg & Hf & _ & _ & Hfe). splits; [done| |by eexists].
      eapply Can_grow_same; [exact HI|done|exact Hg|done|]. intros N g HN. rewrite Hfe.
      rewrite lookup_insert_ne; [done|]. intros [= <- _]. lia.
    - apply wp_keepO_can. unfold simplex0. apply wp_bind.
      eapply wp_mono; [by apply (wp_vertex al Hal debug st (λ _, False))| |done].
      intros f st1 (HI1 & Hg1 & Hf & _ & _ & Hfe). cbn beta. apply wp_oriented_can; [done| |by eexists|done].
      eapply Can_grow_same; [exact HI|done|exact Hg1|done|]. intros N g HN. rewrite Hfe.
      rewrite lookup_insert_ne; [done|]. intros [= <- _]. lia.
    - destruct Hl as [Hf Hs]. apply wp_keepO_can. apply wp_oriented_can; try done. by apply (i_hF _ HI).
    - destruct Hl as (HN & Hlen & Hc). apply wp_keepO_can. destruct N as [|N]; [lia|].
      apply wp_simplex_listed; try done. intros o Ho. apply (i_hO _ HI).
      rewrite Forall_forall in Hc. by apply Hc.
    - destruct Hl as (H0 & H1). apply wp_keepO_can.
      eapply wp_mono; [apply (wp_segment_can al Hal debug); [done|done|by apply (i_hF _ HI)..]| |].
      + intros o st' [_ Hg]. by eapply good_created.
      + intros st' (? & ? & _). done.
    - destruct Hl as (H0 & H1 & H2). apply wp_keepO_can.
      eapply wp_mono; [apply (wp_triangle_can al Hal debug); [done|done|by apply (i_hF _ HI)..]| |].
      + intros o st' [_ Hg]. by eapply good_created.
      + intros st' (? & ? & _). done.
    - destruct Hl as (H0 & H1 & H2 & H3). apply wp_keepO_can.
      eapply wp_mono; [apply (wp_tetrahedron_can al Hal debug); [done|done|by apply (i_hF _ HI)..]| |].
      + intros o st' [_ Hg]. by eapply good_created.
      + intros st' (? & ? & _). done.
    - apply wp_keepO_can. unfold flip. apply wp_bind. destruct (i_hO _ HI _ _ Hl) as [[f s] Ho].
      destruct (i_or _ HI _ _ _ _ Ho) as (Hf & _ & Hs).
      apply wp_read; unfold oriented; rewrite Ho; cbn; [|done..]. intros y [= <-].
      apply wp_oriented_can; try done. destruct Hs as [-> | ->]; [by right|by left].
    - unfold wp, erase. destruct (erase_safe N o st HI Hl) as (st' & b & -> & HI' & ? & ? & _).
      split; [done|]. by apply (Can_sub st).
    - apply wp_keepO_can. unfold wp, aret. splits; try done. by apply (i_hO _ HI).
    - unfold wp. pose proof (Inv_dropO st N o HI). split; [done|]. by apply (Can_same st).
    - apply wp_keepF_can. unfold wp, aret. splits; try done. by apply (i_hF _ HI).
    - unfold wp. pose proof (Inv_dropF st N f HI). split; [done|]. by apply (Can_same st).
    - apply wp_keepF_can. destruct (i_hO _ HI _ _ Hl) as [[f s] Ho].
      apply wp_read; unfold footprint, oriented; rewrite Ho; cbn; [|done..].
      intros g [= <-]. splits; try done. by destruct (i_or _ HI _ _ _ _ Ho).
    - destruct Hl as (Ho & HN & Hi). apply wp_keepO_can. destruct N as [|N]; [lia|].
      destruct (composition_ok st N o HI) as (f & s & c & c' & _ & Hf & Hc & Hp & _);
        [by apply (i_hO _ HI)|].
      destruct (i_fS _ HI _ _ _ Hf) as [Hlen Hm].
      destruct (entry_ok c' i) as (y & Hy & Hy').
      { rewrite (Permutation_length Hp). lia. }
      apply wp_read; rewrite Hc; cbn [rbind]; rewrite ?Hy; [|done..].
      intros z [= <-]. splits; try done. cbn [pred]. apply Hm.
      rewrite <- Hp. by eapply elem_of_list_lookup_2.
  Qed.

  Lemma listed_fine st : reach_listed al debug st → Inv st ∧ Can st.
  Proof.
    induction 1 as [|st x a st' _ [HI HC] Hl Hw Hs|st x st' _ [HI HC] Hl Hw Hs];
      [split; [apply Inv0|apply Can0]|..];
      pose proof (step_can st x HI HC Hl Hw) as H; unfold wp in H; by rewrite Hs in H.
  Qed.
  Lemma listed_reach st : reach_listed al debug st → reach al debug st.
  Proof. induction 1; [constructor|by eapply reach_ret|by eapply reach_throw]. Qed.
End listed.
