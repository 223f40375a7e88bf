(* Erasing duplicates while iterating over the cells. *)
From stdpp Require Import base gmap list.
From Verif Require Import Base M_SegAlloc S_SegAlloc P_SegAlloc M_Topology S_Topology P_Topology
  P_TopologyErase P_TopologyValid P_TopologyApi M_Mesh S_Mesh P_Mesh.

Lemma first_of_seen {A} (key : A → nat) seen seen' l :
  (∀ k, k ∈ seen ↔ k ∈ seen') → first_of key seen l = first_of key seen' l.
Proof.
  revert seen seen'. induction l as [|x l IH]; intros seen seen' H; [done|]. cbn [first_of].
  destruct (decide (key x ∈ seen)) as [Hx|Hx].
  - rewrite decide_True by (by apply H). by apply IH.
  - rewrite decide_False by (by rewrite <- H). f_equal. apply IH. intros k.
    rewrite !elem_of_cons. by rewrite H.
Qed.

(* the specification does what it says: it keeps one entry of each key, and loses no key *)
Lemma first_of_sublist {A} (key : A → nat) seen l : first_of key seen l `sublist_of` l.
Proof.
  revert seen. induction l as [|x l IH]; intros seen; [constructor|]. cbn [first_of].
  destruct (decide _); [by apply sublist_cons|by apply sublist_skip].
Qed.
Lemma first_of_keys {A} (key : A → nat) l : ∀ seen,
  NoDup (key <$> first_of key seen l) ∧
  (∀ x, x ∈ first_of key seen l → key x ∉ seen) ∧
  (∀ x, x ∈ l → key x ∈ seen ∨ key x ∈ key <$> first_of key seen l).
Proof.
  induction l as [|x l IH]; intros seen; cbn [first_of].
  - split_and!; [constructor|by intros x ?%elem_of_nil..].
  - destruct (decide (key x ∈ seen)) as [Hx|Hx].
    + destruct (IH seen) as (H1 & H2 & H3). split_and!; [done|done|].
      intros y [->|Hy]%elem_of_cons; [by left|auto].
    + destruct (IH (key x :: seen)) as (H1 & H2 & H3). split_and!.
      * cbn [fmap list_fmap]. constructor; [|done].
        intros (y & E & Hy)%elem_of_list_fmap. apply (H2 y Hy). rewrite <- E. left.
      * intros y [->|Hy]%elem_of_cons; [done|]. intros Hs. apply (H2 y Hy). by right.
      * intros y [->|Hy]%elem_of_cons; [right; left|].
        destruct (H3 y Hy) as [[E|?]%elem_of_cons|?]; [right; rewrite E; left|by left|right; by right].
Qed.

Section dup.
  Context (pick : M_Topology.alloc) (Hpick : good_alloc pick) (blk : nat → nat)
    (Hblk : ∀ i j, blk i = blk j → i = j) (debug : bool) (M : nat).
  Notation addr_of := (addr_of blk 100).
  Notation mreach := (mreach pick blk debug (S M)).
  Notation MInv := (MInv pick blk debug M).

  Definition listing (i : nat) (vs : list (gcell * bool)) : list (addr * gcell) :=
    (λ p : addr * (gcell * bool), (p.1, p.2.1)) <$> velems blk 100 obj_valid i vs.

  Lemma listing_app vs : ∀ i vs', listing i (vs ++ vs') = listing i vs ++ listing (i + length vs) vs'.
  Proof.
    induction vs as [|v vs IH]; intros i vs'; cbn [app length].
    - by rewrite Nat.add_0_r.
    - unfold listing in *. cbn [velems]. destruct (obj_valid v); cbn [fmap list_fmap].
      + rewrite IH. rewrite Nat.add_succ_r. done.
      + rewrite IH. by rewrite Nat.add_succ_r.
  Qed.

  Lemma listing_valid i v vs : obj_valid v = true → listing i (v :: vs) = (addr_of i, v.1) :: listing (S i) vs.
  Proof. intros E. unfold listing. cbn [velems]. by rewrite E. Qed.
  Lemma listing_invalid i v vs : obj_valid v = false → listing i (v :: vs) = listing (S i) vs.
  Proof. intros E. unfold listing. cbn [velems]. by rewrite E. Qed.

  Lemma listing_all m es xs q :
    vinv blk 100 (mcells m) es xs q → listing 0 (cval <$> xs) = cells_listed es.
  Proof.
    intros Hv. unfold listing. change xs with (drop 0 xs).
    rewrite (velems_omap blk Hblk 100 ltac:(lia) (mcells m) es xs q (length xs) Hv 0) by lia.
    assert (first_uses [] es = addr_of <$> seq 0 (length xs)) as Hfu by apply Hv.
    rewrite <- Hfu. unfold cells_listed. clear.
    induction (first_uses [] es) as [|a l IH]; [done|].
    cbn [base.omap list_omap]. unfold slot_item at 1. destruct (contents ∅ es !! a); cbn; [by rewrite IH|done].
  Qed.

  Lemma slot_lookup (c : cont (gcell * bool)) es xs q j :
    vinv blk 100 c es xs q → xs !! j = cells c !! addr_of j.
  Proof.
    intros (_ & (Hc & _) & _). destruct (cells c !! addr_of j) as [x|] eqn:E.
    - apply Hc in E as (i & Hi & <-%(addr_of_inj blk Hblk 100 ltac:(lia))). done.
    - destruct (xs !! j) as [x|] eqn:Ex; [|done].
      assert (cells c !! addr_of j = Some x) by (apply Hc; eauto). congruence.
  Qed.

  Lemma vec_erase_end (c c' : cont (gcell * bool)) loc b :
    vec_erase debug loc c = Ok (c', b) → aend (al c') = aend (al c).
  Proof.
    unfold vec_erase. intros (x & _ & H)%rbind_ok. destruct (negb (calive x)); [done|].
    destruct (negb (obj_valid (cval x))); [by injection H as <- <-|].
    apply rbind_ok in H as (s & Hs & [= <- <-]). cbn [al] in *. unfold alloc_erase in Hs.
    apply rbind_ok in Hs as (u & _ & [= <-]). done.
  Qed.

  Context (st : topo) (key : gcell → res nat) (k : gcell → nat).

  Lemma erase_seen_ok vs : ∀ pre it fuel m es xs q seen,
    mreach st m es → vinv blk 100 (mcells m) es xs q → cval <$> xs = pre ++ vs → length vs < fuel →
    (∀ x, x ∈ (cells_listed es).*2 → key x = Ok (k x)) →
    at_first blk 100 obj_valid (mcells m) it (length pre) vs →
    ∃ m' es', erase_seen debug (S M) key fuel st m seen it (aend (al (mcells m))) = Ok m' ∧
      mreach st m' es' ∧
      cells_listed es' = listing 0 pre ++ first_of (k ∘ snd) seen (listing (length pre) vs).
  Proof.
    induction vs as [|v vs IH]; intros pre it fuel m es xs q seen Hr Hv Hxs Hfuel Hkey Hit;
      (destruct fuel as [|fuel]; [cbn in Hfuel; lia|]).
    - cbn [at_first] in Hit. destruct Hit as [Hit _]. cbn [erase_seen]. rewrite Hit, decide_True by done.
      exists m, es. split_and!; [done|done|]. cbn [first_of listing velems fmap list_fmap].
      rewrite app_nil_r in *. rewrite <- Hxs. symmetry. by eapply listing_all.
    - cbn [at_first] in Hit.
      assert (Hlen : length xs = length pre + S (length vs)).
      { rewrite <- (fmap_length cval xs), Hxs, app_length. done. }
      destruct (lookup_lt_is_Some_2 xs (length pre)) as [x Hx]; [lia|].
      assert (Hcv : cval x = v).
      { assert ((cval <$> xs) !! length pre = Some v).
        { rewrite Hxs, lookup_app_r, Nat.sub_diag by lia. done. }
        rewrite list_lookup_fmap, Hx in H. by injection H. }
      destruct (obj_valid v) eqn:Ev.
      2:{ destruct (IH (pre ++ [v]) it (S fuel) m es xs q seen) as (m' & es' & E & Hr' & Hl');
            [done|done|by rewrite <- app_assoc|cbn in Hfuel; lia|done| |].
          { by rewrite app_length, Nat.add_1_r. }
          exists m', es'. split_and!; [done|done|]. rewrite Hl'. rewrite listing_app, app_length.
          cbn [length]. rewrite Nat.add_1_r, !listing_invalid by done. by rewrite app_nil_r. }
      subst it. pose proof (mreach_MInv pick Hpick blk Hblk debug M _ _ _ Hr) as HMI.
      pose proof Hv as (Ha & (Hcells & Hvalid & _) & _ & (Hfu & _ & Hcs)).
      cbn [erase_seen iptr it_at].
      rewrite decide_False.
      2:{ eapply (addr_of_ne_end blk Hblk 100 ltac:(lia)); [done|lia]. }
      cbn [deref rbind].
      rewrite (vec_read blk 100 (mcells m) es xs q (length pre) x true Hv Hx). cbn [rbind].
      assert (Hcont : contents ∅ es !! addr_of (length pre) = Some v.1).
      { rewrite (contents_slot blk Hblk 100 ltac:(lia) _ _ _ _ _ _ Hv Hx). by rewrite Hcv, Ev. }
      assert (Hused : addr_of (length pre) ∈ first_uses [] es).
      { by eapply (contents_first_uses blk 100 ltac:(lia) (mcells m)). }
      rewrite Hkey.
      2:{ apply elem_of_list_fmap. exists (addr_of (length pre), v.1). split; [by rewrite Hcv|].
          unfold cells_listed. apply elem_of_list_omap. exists (addr_of (length pre)).
          split; [done|]. by rewrite Hcont. }
      cbn [rbind]. rewrite Hcv.
      assert (Hnext : ∀ m1 es1 xs1 q1 v1,
        vinv blk 100 (mcells m1) es1 xs1 q1 → cval <$> xs1 = pre ++ v1 :: vs →
        aend (al (mcells m1)) = aend (al (mcells m)) →
        ∃ it, citer_next obj_valid (cfuel (mcells m1)) true (mcells m1)
                (it_at blk 100 (al (mcells m)) (length pre)) = Ok it ∧
              at_first blk 100 obj_valid (mcells m1) it (S (length pre)) vs).
      { intros m1 es1 xs1 q1 v1 Hv1 Hxs1 Hend.
        assert (it_at blk 100 (al (mcells m)) (length pre) = it_at blk 100 (al (mcells m1)) (length pre)) as ->.
        { unfold it_at. by rewrite Hend. }
        pose proof Hv1 as (Ha1 & _).
        eapply (citer_next_first blk Hblk 100 ltac:(lia) obj_valid true (mcells m1) (cval <$> xs1) q1).
        - by rewrite fmap_length.
        - intros i w Hw. rewrite list_lookup_fmap in Hw. destruct (xs1 !! i) as [y|] eqn:Ey; [|done].
          injection Hw as <-. by eapply vec_read.
        - exact Hxs1.
        - pose proof (n_le_capacity blk 100 ltac:(lia) _ _ _ Ha1) as Hcap. unfold cfuel.
          assert (length xs1 = length pre + S (length vs)); [|lia].
          rewrite <- (fmap_length cval xs1), Hxs1, app_length. done. }
      destruct (decide (k v.1 ∈ seen)) as [Hk|Hk].
      + destruct (erase_spec pick Hpick blk Hblk debug M st m es _ HMI Hused)
          as (m1 & Em & _ & _ & (c' & Ec & Emc)).
        rewrite Hcont in Ec. rewrite bool_decide_eq_true_2 in Ec by eauto.
        rewrite Em. cbn [rbind].
        assert (Hr1 : mreach st m1 (es ++ [EvErase (addr_of (length pre)) true])).
        { pose proof (mreach_erase pick blk debug (S M) _ _ _ _ _ Hr Hused Em) as H.
          rewrite Hcont in H. rewrite bool_decide_eq_true_2 in H by eauto. done. }
        destruct (m_vec _ _ _ _ _ _ _ (mreach_MInv pick Hpick blk Hblk debug M _ _ _ Hr1))
          as (xs1 & q1 & Hv1 & _).
        pose proof (vec_erase_cells _ _ _ _ _ Ec) as Hce. cbn beta iota in Hce. destruct Hce as (y & Hy & Hcs').
        assert (y = x) as ->.
        { pose proof (slot_lookup _ _ _ _ (length pre) Hv) as H. congruence. }
        assert (Hxs1 : xs1 = <[length pre := Cell (cid x) true ((cval x).1, false)]> xs).
        { apply list_eq. intros j. rewrite (slot_lookup _ _ _ _ j Hv1), Emc, Hcs'.
          destruct (decide (j = length pre)) as [->|Hj].
          - rewrite lookup_insert, list_lookup_insert by lia. done.
          - rewrite lookup_insert_ne.
            2:{ intros E%(addr_of_inj blk Hblk 100 ltac:(lia)). congruence. }
            rewrite list_lookup_insert_ne by done. symmetry. by apply (slot_lookup _ es xs q). }
        assert (Hvals : cval <$> xs1 = pre ++ (v.1, false) :: vs).
        { rewrite Hxs1, list_fmap_insert, Hxs. cbn [cval]. rewrite Hcv.
          rewrite insert_app_r_alt by lia. by rewrite Nat.sub_diag. }
        assert (Hend : aend (al (mcells m1)) = aend (al (mcells m))).
        { rewrite Emc. by eapply vec_erase_end. }
        destruct (Hnext m1 _ xs1 q1 (v.1, false) Hv1 Hvals Hend) as (it & Eit & Hit). rewrite Eit.
        cbn [rbind]. rewrite <- Hend.
        destruct (IH (pre ++ [(v.1, false)]) it fuel m1 _ xs1 q1 (k v.1 :: seen) Hr1 Hv1)
          as (m' & es' & E & Hr' & Hl'); [by rewrite <- app_assoc|cbn in Hfuel; lia| | |].
        { intros z ([a w] & -> & Hw)%elem_of_list_fmap. apply Hkey.
          apply elem_of_list_fmap. exists (a, w). split; [done|]. unfold cells_listed in *.
          apply elem_of_list_omap in Hw as (a' & Ha' & Hw). apply elem_of_list_omap. exists a'.
          rewrite first_uses_snoc in Ha'. split; [done|]. rewrite contents_snoc in Hw. cbn [contents] in Hw.
          destruct (decide (a' = addr_of (length pre))) as [->|].
          - by rewrite lookup_delete in Hw.
          - by rewrite lookup_delete_ne in Hw. }
        { by rewrite app_length, Nat.add_1_r. }
        exists m', es'. split_and!; [done|done|]. rewrite Hl', listing_app, app_length. cbn [length].
        rewrite Nat.add_1_r, (listing_invalid _ (v.1, false)) by done. rewrite app_nil_r.
        f_equal. rewrite listing_valid by done. cbn [first_of compose fst snd].
        rewrite decide_True by done. apply first_of_seen. intros w. rewrite elem_of_cons. naive_solver.
      + cbn [rbind]. destruct (Hnext m es xs q v Hv Hxs eq_refl) as (it & Eit & Hit). rewrite Eit.
        cbn [rbind].
        destruct (IH (pre ++ [v]) it fuel m es xs q (k v.1 :: seen) Hr Hv)
          as (m' & es' & E & Hr' & Hl'); [by rewrite <- app_assoc|cbn in Hfuel; lia|done| |].
        { by rewrite app_length, Nat.add_1_r. }
        exists m', es'. split_and!; [done|done|]. rewrite Hl', listing_app, app_length. cbn [length].
        rewrite Nat.add_1_r, <- app_assoc. f_equal. rewrite !listing_valid by done.
        cbn [first_of compose fst snd app]. rewrite decide_False by done. done.
  Qed.

  Lemma erase_duplicates_ok m es :
    mreach st m es → (∀ x, x ∈ (cells_listed es).*2 → key x = Ok (k x)) →
    ∃ m' es', erase_duplicates debug (S M) key st m = Ok m' ∧ mreach st m' es' ∧
      cells_listed es' = first_of (k ∘ snd) [] (cells_listed es).
  Proof.
    intros Hr Hkey. pose proof (mreach_MInv pick Hpick blk Hblk debug M _ _ _ Hr) as HMI.
    destruct (m_vec _ _ _ _ _ _ _ HMI) as (xs & q & Hv & _). pose proof Hv as (Ha & _).
    assert (Ha' : ainv blk 100 (al (mcells m)) (length (cval <$> xs)) q) by (by rewrite fmap_length).
    assert (Hrd : ∀ i v, (cval <$> xs) !! i = Some v → read true (mcells m) (addr_of i) = Ok v).
    { intros i w Hw. rewrite list_lookup_fmap in Hw. destruct (xs !! i) as [y|] eqn:Ey; [|done].
      injection Hw as <-. by eapply vec_read. }
    unfold erase_duplicates.
    destruct (cont_begin_first blk Hblk 100 ltac:(lia) obj_valid true (mcells m) (cval <$> xs) q Ha' Hrd)
      as (it & -> & Hit). cbn [rbind].
    rewrite (cont_end_spec obj_valid true (mcells m)). cbn [rbind iptr alloc_end].
    destruct (erase_seen_ok (cval <$> xs) [] it (cfuel (mcells m)) m es xs q [] Hr Hv eq_refl)
      as (m' & es' & E & Hr' & Hl'); [|done|done|].
    { rewrite fmap_length. pose proof (n_le_capacity blk 100 ltac:(lia) _ _ _ Ha). unfold cfuel. lia. }
    exists m', es'. split_and!; [done|done|]. rewrite Hl'. cbn [listing velems fmap list_fmap app length].
    f_equal. by eapply listing_all.
  Qed.
End dup.
