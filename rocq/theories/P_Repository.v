From stdpp Require Import base gmap list.
From Coq Require Import Lia ZArith.
From Verif Require Import Base M_SegAlloc S_SegAlloc P_SegAlloc M_Repository S_Repository.

Section proofs.
  Context (blk : nat → nat) (Hblk : ∀ i j, blk i = blk j → i = j).
  Context (size : nat) (Hsize : 0 < size).
  Context {V : Type} (debug : bool).
  Notation rcont := (cont (V * Z)).
  Notation addr_of := (addr_of blk size).
  Notation ainv := (ainv blk size).
  Implicit Types (c : rcont) (xs : list (cell (V * Z))) (es : list (revent (V:=V))) (q : list nat).

  Definition rslots c xs q : Prop :=
    (∀ a x, cells c !! a = Some x ↔ ∃ i, xs !! i = Some x ∧ a = addr_of i) ∧
    (∀ i x, xs !! i = Some x → i ∈ q → calive x = false ∧ (cval x).2 = 0%Z) ∧
    (∀ i x, xs !! i = Some x → i ∉ q → calive x = true) ∧
    NoDup q ∧ (∀ i, i ∈ q → i < length xs).

  Definition rlog c xs q : Prop :=
    NoDup (cid <$> xs) ∧ (∀ i x, xs !! i = Some x → cid x < serial c) ∧
    (∀ id, occurrences (Constructed id) (mlog c) = if decide (id < serial c) then 1 else 0) ∧
    (∀ i x, xs !! i = Some x →
       occurrences (Destroyed (cid x)) (mlog c) = if decide (i ∈ q) then 1 else 0) ∧
    (∀ id, id ∉ cid <$> xs →
       occurrences (Destroyed id) (mlog c) = if decide (id < serial c) then 1 else 0).

  Definition rtrace es xs q : Prop :=
    rfirst_uses [] es = addr_of <$> seq 0 (length xs) ∧
    rfree_queue [] es = addr_of <$> q ∧
    (∀ a v k, held ∅ es !! a = Some (v, k) ↔
       ∃ i x, a = addr_of i ∧ xs !! i = Some x ∧ i ∉ q ∧ cval x = (v, k)).

  Definition rinv c es xs q : Prop :=
    ainv (al c) (length xs) q ∧ rslots c xs q ∧ rlog c xs q ∧ rtrace es xs q ∧
    (nelems (al c) + Z.of_nat (length q) = Z.of_nat (length xs))%Z.

  Lemma held_snoc m es e : held m (es ++ [e]) = held1 (held m es) e.
  Proof. unfold held. by rewrite fold_left_app. Qed.
  Lemma rfirst_uses_snoc es e l : rfirst_uses l (es ++ [e]) = rfirst_uses (rfirst_uses l es) [e].
  Proof. revert l. induction es as [|[] ? IH]; intros l; [done|apply IH..]. Qed.
  Lemma rfree_queue_snoc es e l : rfree_queue l (es ++ [e]) = rfree_queue (rfree_queue l es) [e].
  Proof. revert l. induction es as [|[] ? IH]; intros l; [done|apply IH..]. Qed.

  Lemma rinv_init : rinv (cont_init size) [] [] [].
  Proof.
    unfold rinv, rslots, rlog, rtrace. splits.
    - by apply ainv_init.
    - intros a x. cbn. rewrite lookup_empty. split; [done|]. intros (i & H & _).
      by rewrite lookup_nil in H.
    - intros i x H. by rewrite lookup_nil in H.
    - intros i x H. by rewrite lookup_nil in H.
    - constructor.
    - intros i H. by apply elem_of_nil in H.
    - constructor.
    - intros i x H. by rewrite lookup_nil in H.
    - intros id. rewrite decide_False by (cbn; lia). done.
    - intros i x H. by rewrite lookup_nil in H.
    - intros id _. rewrite decide_False by (cbn; lia). done.
    - done.
    - done.
    - intros a v k. cbn. rewrite lookup_empty. split; [done|]. intros (i & x & _ & H & _).
      by rewrite lookup_nil in H.
    - done.
  Qed.

  Lemma addr_inj i j : addr_of i = addr_of j → i = j.
  Proof. by apply addr_of_inj. Qed.

  Lemma remplace_fresh c es xs v :
    rinv c es xs [] →
    ∃ c' x, repo_emplace blk false debug v c = Ok (c', addr_of (length xs)) ∧
      rinv c' (es ++ [EvREmplace v (addr_of (length xs))]) (xs ++ [x]) [].
  Proof.
    intros (Ha & (Hc & Hdead & Hlive & Hq & Hq') & (Hid & Hids & HlC & HlD & HlD') & (Hfu & Hfq & Hcs) & Hcnt).
    destruct (location_fresh blk Hblk size Hsize _ _ Ha) as (s1 & E1 & Ha1 & Hn1 & _).
    unfold repo_emplace. rewrite E1. cbn [rbind].
    unfold construct. cbn [al].
    pose proof Ha1 as (Hs1 & _). rewrite Hs1.
    rewrite decide_True. 2:{ cbn. apply Nat.mod_upper_bound. lia. }
    cbn [rbind al]. destruct (ainv_insert_fresh blk size debug s1 _ (addr_of (length xs)) Ha1)
      as (s2 & -> & Ha2 & Hn2 & _). cbn [rbind].
    unfold add_ref. cbn [cells al serial mlog]. rewrite lookup_insert. cbn [deref rbind calive cid cval fst snd andb].
    set (x := Cell (serial c) true (v, (0 + 1)%Z)).
    eexists _, x. split; [reflexivity|]. rewrite insert_insert.
    assert (∀ i, (xs ++ [x]) !! i = if decide (i = length xs) then Some x else xs !! i) as Hlk.
    { intros i. destruct (decide (i = length xs)) as [->|].
      - rewrite lookup_app_r by lia. by rewrite Nat.sub_diag.
      - destruct (decide (i < length xs)).
        + by rewrite lookup_app_l.
        + rewrite lookup_app_r by lia. rewrite (lookup_ge_None_2 xs) by lia.
          destruct (i - length xs) eqn:Ei; [lia|]. done. }
    unfold rinv, rslots, rlog, rtrace. splits; cbn [al cells serial mlog].
    - rewrite app_length. cbn. rewrite Nat.add_1_r. exact Ha2.
    - intros a y. destruct (decide (a = addr_of (length xs))) as [->|Hne].
      + rewrite lookup_insert. split.
        * intros [= <-]. exists (length xs). rewrite Hlk, decide_True by done. done.
        * intros (i & Hi & <-%addr_inj). rewrite Hlk, decide_True in Hi by done. done.
      + rewrite lookup_insert_ne by done. rewrite Hc. apply exist_proper. intros i.
        rewrite Hlk. destruct (decide (i = length xs)) as [->|]; [|done].
        rewrite (lookup_ge_None_2 xs) by lia. naive_solver.
    - intros i y _ Hi%elem_of_nil. done.
    - intros i y. rewrite Hlk. destruct (decide (i = length xs)) as [->|]; [|apply Hlive].
      by intros [= <-].
    - done.
    - intros i Hi%elem_of_nil. done.
    - rewrite fmap_app. cbn. apply NoDup_app. split_and!; [done| |apply NoDup_singleton].
      intros id (y & -> & (i & Hi)%elem_of_list_lookup)%elem_of_list_fmap E%elem_of_list_singleton.
      apply Hids in Hi. lia.
    - intros i y. rewrite Hlk. destruct (decide (i = length xs)) as [->|].
      + intros [= <-]. cbn. lia.
      + intros Hi%Hids. lia.
    - intros id. rewrite occurrences_app, occurrences_one, HlC.
      destruct (decide (id = serial c)) as [->|].
      + rewrite decide_False by lia. rewrite !decide_True by (done || lia). done.
      + rewrite (decide_False (P:=Constructed _ = _)) by congruence.
        destruct (decide (id < serial c)); [rewrite decide_True by lia|rewrite decide_False by lia]; lia.
    - intros i y. rewrite Hlk, occurrences_app, occurrences_one.
      rewrite (decide_False (P:=Constructed _ = _)) by congruence.
      destruct (decide (i = length xs)) as [->|].
      + intros [= <-]. cbn [cid x]. rewrite HlD'.
        * rewrite !decide_False; [done|by apply not_elem_of_nil|lia].
        * intros (z & E & (j & Hj)%elem_of_list_lookup)%elem_of_list_fmap. apply Hids in Hj. lia.
      + intros Hi. rewrite (HlD i y Hi). lia.
    - intros id. rewrite fmap_app, not_elem_of_app. cbn. rewrite elem_of_list_singleton. intros [H1 H2].
      rewrite occurrences_app, occurrences_one, HlD' by done.
      rewrite (decide_False (P:=Constructed _ = _)) by congruence. rewrite Nat.add_0_r.
      apply decide_ext. lia.
    - rewrite rfirst_uses_snoc, Hfu. cbn. rewrite decide_False.
      + rewrite app_length. cbn. rewrite Nat.add_1_r, seq_S, fmap_app. done.
      + intros (i & E%addr_inj & Hi%elem_of_seq)%elem_of_list_fmap. lia.
    - rewrite rfree_queue_snoc, Hfq. done.
    - intros a w k. rewrite held_snoc. cbn [held1].
      destruct (decide (a = addr_of (length xs))) as [->|Hne].
      + rewrite lookup_insert. split.
        * intros [= <- <-]. exists (length xs), x. rewrite Hlk, decide_True by done.
          split_and!; [done..|by apply not_elem_of_nil|done].
        * intros (i & y & <-%addr_inj & Hi & _ & Hy). rewrite Hlk, decide_True in Hi by done.
          injection Hi as <-. by injection Hy as <- <-.
      + rewrite lookup_insert_ne by done. rewrite Hcs. apply exist_proper. intros i.
        apply exist_proper. intros y. rewrite Hlk.
        destruct (decide (i = length xs)) as [->|]; [|done].
        rewrite (lookup_ge_None_2 xs) by lia. naive_solver.
    - rewrite app_length. cbn in *. lia.
  Qed.

  Lemma lookup_insert_if {B} (xs : list B) i x :
    i < length xs → ∀ j, <[i:=x]> xs !! j = if decide (j = i) then Some x else xs !! j.
  Proof.
    intros Hi j. destruct (decide (j = i)) as [->|].
    - by apply list_lookup_insert.
    - by apply list_lookup_insert_ne.
  Qed.

  Lemma remplace_reused c es xs v i q :
    rinv c es xs (i :: q) →
    ∃ c' x, repo_emplace blk false debug v c = Ok (c', addr_of i) ∧
      rinv c' (es ++ [EvREmplace v (addr_of i)]) (<[i := x]> xs) q.
  Proof.
    intros (Ha & (Hc & Hdead & Hlive & Hq & Hq') & (Hid & Hids & HlC & HlD & HlD') & (Hfu & Hfq & Hcs) & Hcnt).
    assert (i < length xs) as Hi by (apply Hq'; left).
    assert (i ∉ q) as Hiq by (by apply NoDup_cons in Hq as [? _]).
    destruct (lookup_lt_is_Some_2 xs i Hi) as [y Hy].
    pose proof (location_reused blk Hblk size Hsize _ _ _ _ Ha Hi) as E1.
    unfold repo_emplace. rewrite E1. cbn [rbind].
    unfold construct. cbn [al cells serial mlog].
    pose proof Ha as (Hs & _). rewrite Hs.
    rewrite decide_True. 2:{ cbn. apply Nat.mod_upper_bound. lia. }
    cbn [rbind al].
    destruct (ainv_insert_reused blk size debug (al c) _ i q Ha) as (s2 & -> & Ha2 & Hn2 & _). cbn [rbind].
    unfold add_ref. cbn [cells al serial mlog]. rewrite lookup_insert. cbn [deref rbind calive cid cval fst snd andb].
    set (x := Cell (serial c) true (v, (0 + 1)%Z)).
    eexists _, x. split; [reflexivity|]. rewrite insert_insert.
    pose proof (lookup_insert_if xs i x Hi) as Hlk.
    destruct (cid_insert_other size Hsize xs i y (serial c) x Hy Hid Hids eq_refl) as [Hid' Hmem'].
    assert (cid y < serial c) as Hyid by eauto.
    assert (cid y ∈ cid <$> xs) as Hymem.
    { apply elem_of_list_fmap. exists y. split; [done|]. by eapply elem_of_list_lookup_2. }
    assert (∀ j, j ≠ i → j ∈ i :: q ↔ j ∈ q) as Hmemq.
    { intros j Hj. rewrite elem_of_cons. naive_solver. }
    unfold rinv, rslots, rlog, rtrace. splits; cbn [al cells serial mlog].
    - rewrite insert_length. exact Ha2.
    - intros a z.
      destruct (decide (a = addr_of i)) as [->|Hne].
      + rewrite lookup_insert. split.
        * intros [= <-]. exists i. rewrite Hlk, decide_True by done. done.
        * intros (j & Hj & <-%addr_inj). rewrite Hlk, decide_True in Hj by done. done.
      + rewrite lookup_insert_ne by done. rewrite Hc. apply exist_proper. intros j.
        rewrite Hlk. destruct (decide (j = i)) as [->|]; [|done]. naive_solver.
    - intros j z. rewrite Hlk. destruct (decide (j = i)) as [->|Hne]; [done|].
      intros Hz Hj. apply (Hdead j z Hz). by right.
    - intros j z. rewrite Hlk. destruct (decide (j = i)) as [->|Hne].
      + by intros [= <-].
      + intros Hz Hj. apply (Hlive j z Hz). by rewrite Hmemq.
    - by apply NoDup_cons in Hq as [_ ?].
    - intros j Hj. rewrite insert_length. apply Hq'. by right.
    - done.
    - intros j z. rewrite Hlk. destruct (decide (j = i)) as [->|].
      + intros [= <-]. cbn. lia.
      + intros Hj%Hids. lia.
    - intros id. rewrite !occurrences_app, !occurrences_one, HlC.
      destruct (decide (id = serial c)) as [->|].
      + rewrite decide_False by lia. rewrite !decide_True by (done || lia). done.
      + rewrite (decide_False (P:=Constructed _ = _)) by congruence.
        destruct (decide (id < serial c)); [rewrite decide_True by lia|rewrite decide_False by lia]; lia.
    - intros j z. rewrite Hlk, occurrences_app, occurrences_one.
      rewrite (decide_False (P:=Constructed _ = _)) by congruence. rewrite Nat.add_0_r.
      destruct (decide (j = i)) as [->|Hne].
      + intros [= <-]. cbn [cid x]. rewrite HlD'.
        * rewrite !decide_False; [done|done|lia].
        * intros (z & E & (j & Hj)%elem_of_list_lookup)%elem_of_list_fmap. apply Hids in Hj. lia.
      + intros Hz. rewrite (HlD j z Hz). apply decide_ext. by apply Hmemq.
    - intros id. rewrite Hmem', occurrences_app, occurrences_one.
      rewrite (decide_False (P:=Constructed _ = _)) by congruence. rewrite Nat.add_0_r.
      intros Hni. destruct (decide (id = cid y)) as [->|Hne].
      + rewrite (HlD i y Hy), decide_True by left. rewrite decide_True by lia. done.
      + rewrite HlD' by tauto. apply decide_ext. split; [lia|]. intros H.
        destruct (decide (id = serial c)); [tauto|lia].
    - rewrite rfirst_uses_snoc, Hfu, insert_length. cbn [rfirst_uses]. rewrite decide_True; [done|].
      apply elem_of_list_fmap. exists i. split; [done|]. apply elem_of_seq. lia.
    - rewrite rfree_queue_snoc, Hfq. done.
    - intros a w k. rewrite held_snoc. cbn [held1].
      destruct (decide (a = addr_of i)) as [->|Hne].
      + rewrite lookup_insert. split.
        * intros [= <- <-]. exists i, x. rewrite Hlk, decide_True by done. done.
        * intros (j & z & <-%addr_inj & Hj & _ & Hz). rewrite Hlk, decide_True in Hj by done.
          injection Hj as <-. by injection Hz as <- <-.
      + rewrite lookup_insert_ne by done. rewrite Hcs. apply exist_proper. intros j.
        apply exist_proper. intros z. rewrite Hlk.
        destruct (decide (j = i)) as [->|Hj]; [naive_solver|]. by rewrite Hmemq.
    - rewrite insert_length. cbn in Hcnt. lia.
  Qed.

  (* copying or dropping a pointer *)
  Lemma radd_ref c es xs q a d e v k :
    rinv c es xs q → held ∅ es !! a = Some (v, k) →
    ((e = EvRCopy a ∧ d = 1%Z) ∨ (e = EvRDrop a ∧ d = (-1)%Z)) →
    ∃ c' xs', add_ref false d a c = Ok c' ∧ rinv c' (es ++ [e]) xs' q.
  Proof.
    intros (Ha & (Hc & Hdead & Hlive & Hq & Hq') & (Hid & Hids & HlC & HlD & HlD') & (Hfu & Hfq & Hcs) & Hcnt).
    intros (i & x & -> & Hx & Hiq & Ex)%Hcs He.
    unfold add_ref. rewrite (proj2 (Hc _ _)) by eauto. cbn [deref rbind andb]. rewrite Ex. cbn [fst snd].
    set (x' := Cell (cid x) (calive x) (v, (k + d)%Z)).
    eexists _, (<[i := x']> xs). split; [reflexivity|].
    assert (i < length xs) as Hi by (by eapply lookup_lt_Some).
    pose proof (lookup_insert_if xs i x' Hi) as Hlk.
    assert (cid <$> <[i:=x']> xs = cid <$> xs) as Hcid.
    { rewrite list_fmap_insert. apply list_insert_id. rewrite list_lookup_fmap, Hx. done. }
    unfold rinv, rslots, rlog, rtrace. splits; cbn [al cells serial mlog].
    - by rewrite insert_length.
    - intros a z. destruct (decide (a = addr_of i)) as [->|Hne].
      + rewrite lookup_insert. split.
        * intros [= <-]. exists i. rewrite Hlk, decide_True by done. done.
        * intros (j & Hj & <-%addr_inj). rewrite Hlk, decide_True in Hj by done. done.
      + rewrite lookup_insert_ne by done. rewrite Hc. apply exist_proper. intros j.
        rewrite Hlk. destruct (decide (j = i)) as [->|]; [|done]. naive_solver.
    - intros j z. rewrite Hlk. destruct (decide (j = i)) as [->|Hne]; [done|]. apply Hdead.
    - intros j z. rewrite Hlk. destruct (decide (j = i)) as [->|Hne]; [|apply Hlive].
      intros [= <-] _. cbn. eauto.
    - done.
    - intros j Hj. rewrite insert_length. auto.
    - by rewrite Hcid.
    - intros j z. rewrite Hlk. destruct (decide (j = i)) as [->|]; [|apply Hids].
      intros [= <-]. cbn. eauto.
    - done.
    - intros j z. rewrite Hlk. destruct (decide (j = i)) as [->|]; [|apply HlD].
      intros [= <-]. cbn. eauto.
    - intros id. rewrite Hcid. apply HlD'.
    - rewrite rfirst_uses_snoc, Hfu, insert_length. by destruct He as [[-> _]|[-> _]].
    - rewrite rfree_queue_snoc, Hfq. by destruct He as [[-> _]|[-> _]].
    - intros a w l. rewrite held_snoc.
      assert (held1 (held ∅ es) e !! a =
              if decide (a = addr_of i) then Some (v, (k + d)%Z) else held ∅ es !! a) as ->.
      { assert (held ∅ es !! addr_of i = Some (v, k)) as Hh by (apply Hcs; eauto 10).
        destruct (decide (a = addr_of i)) as [->|Hne].
        - destruct He as [[-> ->]|[-> ->]]; cbn [held1]; rewrite lookup_alter, Hh; done.
        - destruct He as [[-> ->]|[-> ->]]; cbn [held1]; by rewrite lookup_alter_ne. }
      destruct (decide (a = addr_of i)) as [->|Hne].
      + split.
        * intros [= <- <-]. exists i, x'. rewrite Hlk, decide_True by done. done.
        * intros (j & z & <-%addr_inj & Hj & _ & Hz). rewrite Hlk, decide_True in Hj by done.
          injection Hj as <-. by injection Hz as <- <-.
      + rewrite Hcs. apply exist_proper. intros j. apply exist_proper. intros z. rewrite Hlk.
        destruct (decide (j = i)) as [->|]; [|done]. naive_solver.
    - by rewrite insert_length.
  Qed.

  Lemma rerase_last c es xs q a v :
    rinv c es xs q → held ∅ es !! a = Some (v, 1%Z) →
    ∃ c' xs' i, repo_erase false debug a c = Ok c' ∧ rinv c' (es ++ [EvRErase a]) xs' (q ++ [i]).
  Proof.
    intros (Ha & (Hc & Hdead & Hlive & Hq & Hq') & (Hid & Hids & HlC & HlD & HlD') & (Hfu & Hfq & Hcs) & Hcnt).
    intros (i & x & -> & Hx & Hiq & Ex)%Hcs.
    assert (i < length xs) as Hi by (by eapply lookup_lt_Some).
    unfold repo_erase.
    destruct (ainv_erase blk size Hsize debug _ _ _ i Ha Hi) as (s2 & -> & Ha2 & Hn2 & _).
    cbn [rbind]. unfold destroy. cbn [cells al serial mlog].
    rewrite (proj2 (Hc _ _)) by eauto. cbn [deref rbind].
    unfold add_ref. cbn [cells al serial mlog]. rewrite lookup_insert.
    cbn [deref rbind andb cid cval calive]. rewrite Ex. cbn [fst snd].
    set (x' := Cell (cid x) false (v, (1 + -1)%Z)).
    eexists _, (<[i := x']> xs), i. split; [reflexivity|]. rewrite insert_insert.
    pose proof (lookup_insert_if xs i x' Hi) as Hlk.
    assert (cid <$> <[i:=x']> xs = cid <$> xs) as Hcid.
    { rewrite list_fmap_insert. apply list_insert_id. rewrite list_lookup_fmap, Hx. done. }
    assert (∀ j, j ≠ i → j ∈ q ++ [i] ↔ j ∈ q) as Hmemq.
    { intros j Hj. rewrite elem_of_app, elem_of_list_singleton. naive_solver. }
    assert (∀ j z, xs !! j = Some z → cid z = cid x → j = i) as Huniq.
    { intros j z Hj E. eapply (NoDup_lookup _ j i (cid x) Hid).
      - by rewrite list_lookup_fmap, Hj, <- E.
      - by rewrite list_lookup_fmap, Hx. }
    unfold rinv, rslots, rlog, rtrace. splits; cbn [al cells serial mlog].
    - by rewrite insert_length.
    - intros a z. destruct (decide (a = addr_of i)) as [->|Hne].
      + rewrite lookup_insert. split.
        * intros [= <-]. exists i. rewrite Hlk, decide_True by done. done.
        * intros (j & Hj & <-%addr_inj). rewrite Hlk, decide_True in Hj by done. done.
      + rewrite lookup_insert_ne by done. rewrite Hc. apply exist_proper. intros j.
        rewrite Hlk. destruct (decide (j = i)) as [->|]; [|done]. naive_solver.
    - intros j z. rewrite Hlk. destruct (decide (j = i)) as [->|Hne].
      + by intros [= <-].
      + rewrite Hmemq by done. apply Hdead.
    - intros j z. rewrite Hlk. destruct (decide (j = i)) as [->|Hne].
      + rewrite elem_of_app, elem_of_list_singleton. tauto.
      + rewrite Hmemq by done. apply Hlive.
    - apply NoDup_app. split_and!; [done| |apply NoDup_singleton].
      intros j Hj ->%elem_of_list_singleton. done.
    - intros j [Hj| ->%elem_of_list_singleton]%elem_of_app; rewrite insert_length; [auto|lia].
    - by rewrite Hcid.
    - intros j z. rewrite Hlk. destruct (decide (j = i)) as [->|]; [|apply Hids].
      intros [= <-]. cbn. eauto.
    - intros id. rewrite occurrences_app, occurrences_one, HlC. done.
    - intros j z. rewrite Hlk. destruct (decide (j = i)) as [->|Hne].
      + intros [= <-]. cbn [cid x']. rewrite occurrences_app, occurrences_one.
        rewrite (HlD i x Hx), decide_False by done. rewrite decide_True by done.
        rewrite decide_True; [done|]. rewrite elem_of_app, elem_of_list_singleton. tauto.
      + intros Hz. rewrite occurrences_app, occurrences_one, (HlD j z Hz).
        rewrite (decide_False (P:=Destroyed _ = _)).
        2:{ intros [= E]. apply Hne. by eapply Huniq. }
        rewrite Nat.add_0_r. apply decide_ext. by rewrite Hmemq.
    - intros id. rewrite Hcid. intros Hni. rewrite occurrences_app, occurrences_one, (HlD' id Hni).
      rewrite (decide_False (P:=Destroyed _ = _)); [lia|].
      intros [= <-]. apply Hni, elem_of_list_fmap. exists x. split; [done|]. by eapply elem_of_list_lookup_2.
    - rewrite rfirst_uses_snoc, insert_length. done.
    - rewrite rfree_queue_snoc, Hfq, fmap_app. done.
    - intros a w k. rewrite held_snoc. cbn [held1].
      destruct (decide (a = addr_of i)) as [->|Hne].
      + rewrite lookup_delete. split; [done|].
        intros (j & z & <-%addr_inj & _ & Hni & _).
        rewrite elem_of_app, elem_of_list_singleton in Hni. tauto.
      + rewrite lookup_delete_ne by done. rewrite Hcs. apply exist_proper. intros j.
        apply exist_proper. intros z. rewrite Hlk.
        destruct (decide (j = i)) as [->|Hj]; [naive_solver|]. by rewrite Hmemq.
    - rewrite insert_length, app_length. cbn. lia.
  Qed.

  Lemma rstep_inv c es xs q o c' e es' :
    rinv c es xs q → rstep blk false debug c o = Ok (c', e) → disciplined (held ∅ es) (e :: es') →
    ∃ xs' q', rinv c' (es ++ [e]) xs' q' ∧ disciplined (held ∅ (es ++ [e])) es'.
  Proof.
    intros Hinv Hst [Hd Hds]. rewrite <- held_snoc in Hds.
    destruct o as [v|a|a|a]; cbn [rstep] in Hst.
    - destruct q as [|i q].
      + destruct (remplace_fresh c es xs v Hinv) as (c1 & x & E & H). rewrite E in Hst.
        cbn [rbind] in Hst. injection Hst as <- <-. eauto.
      + destruct (remplace_reused c es xs v i q Hinv) as (c1 & x & E & H). rewrite E in Hst.
        cbn [rbind] in Hst. injection Hst as <- <-. eauto.
    - apply rbind_ok in Hst as (c1 & E & [= -> <-]). destruct Hd as (v & k & Hm & _).
      destruct (radd_ref c es xs q a 1 (EvRCopy a) v k Hinv Hm) as (c2 & xs' & E' & H); [by left|].
      rewrite E in E'. injection E' as <-. eauto.
    - apply rbind_ok in Hst as (c1 & E & [= -> <-]). destruct Hd as (v & k & Hm & _).
      destruct (radd_ref c es xs q a (-1) (EvRDrop a) v k Hinv Hm) as (c2 & xs' & E' & H); [by right|].
      rewrite E in E'. injection E' as <-. eauto.
    - apply rbind_ok in Hst as (c1 & E & [= -> <-]). destruct Hd as (v & Hm).
      destruct (rerase_last c es xs q a v Hinv Hm) as (c2 & xs' & i & E' & H).
      rewrite E in E'. injection E' as <-. eauto.
  Qed.

  Lemma rrun_inv c es xs q os c' es' :
    rinv c es xs q → rrun blk false debug c os = Ok (c', es') → disciplined (held ∅ es) es' →
    ∃ xs' q', rinv c' (es ++ es') xs' q'.
  Proof.
    revert c es xs q es'. induction os as [|o os IH]; intros c es xs q es' Hinv; cbn [rrun].
    - intros [= <- <-] _. rewrite app_nil_r. eauto.
    - intros ([c1 e] & H1 & ([c2 es2] & H2 & [= -> <-])%rbind_ok)%rbind_ok Hd.
      destruct (rstep_inv c es xs q o c1 e es2) as (xs1 & q1 & Hinv1 & Hd1); [done..|].
      destruct (IH c1 (es ++ [e]) xs1 q1 es2) as (xs2 & q2 & Hi); [done..|].
      rewrite <- app_assoc in Hi. eauto.
  Qed.

  Lemma rrun_init_inv os c es :
    rrun blk false debug (cont_init size) os = Ok (c, es) → disciplined ∅ es →
    ∃ xs q, rinv c es xs q.
  Proof. intros H Hd. apply (rrun_inv (cont_init size) [] [] [] os c es); [apply rinv_init|done..]. Qed.

  (* what the client sees *)
  Definition ritem es (a : addr) : option (addr * (V * Z)) :=
    match held ∅ es !! a with
    | Some (v, k) => if (0 <? k)%Z then Some (a, (v, k)) else None
    | None => None
    end.

  Lemma held_slot c es xs q i x :
    rinv c es xs q → xs !! i = Some x →
    held ∅ es !! addr_of i = if decide (i ∈ q) then None else Some (cval x).
  Proof.
    intros (_ & _ & _ & (_ & _ & Hcs) & _) Hx. destruct (decide (i ∈ q)).
    - destruct (held ∅ es !! addr_of i) as [[w k]|] eqn:Ew; [|done].
      apply Hcs in Ew as (j & y & <-%addr_inj & Hy & Hni & Ey). done.
    - destruct (cval x) as [v k] eqn:E. apply Hcs. eauto 10.
  Qed.

  Lemma rvelems_omap c es xs q k :
    rinv c es xs q → ∀ i, k = length xs - i →
    velems blk size rsc_valid i (cval <$> drop i xs) = omap (ritem es) (addr_of <$> seq i k).
  Proof.
    intros Hinv. induction k as [|k IH]; intros i Hk.
    - rewrite drop_ge by lia. done.
    - destruct (lookup_lt_is_Some_2 xs i) as [x Hx]; [lia|].
      rewrite (drop_S xs x i) by done. cbn [fmap list_fmap velems seq].
      rewrite IH by lia. cbn [omap list_omap].
      assert (ritem es (addr_of i) = if rsc_valid (cval x) then Some (addr_of i, cval x) else None) as ->.
      { unfold ritem. rewrite (held_slot _ _ _ _ _ _ Hinv Hx). destruct (decide (i ∈ q)) as [Hi|].
        - destruct Hinv as (_ & (_ & Hdead & _) & _). destruct (Hdead i x Hx Hi) as [_ E].
          unfold rsc_valid. rewrite E. done.
        - destruct (cval x) as [v0 k0]. done. }
      destruct (rsc_valid (cval x)); done.
  Qed.

  Lemma repo_range c es xs q :
    rinv c es xs q → cont_range rsc_valid false c = Ok (omap (ritem es) (rfirst_uses [] es)).
  Proof.
    intros Hinv. pose proof Hinv as (Ha & (Hc & _) & _ & (Hfu & _) & _).
    rewrite (cont_range_spec blk Hblk size Hsize rsc_valid false c (cval <$> xs) q).
    - rewrite Hfu. f_equal. rewrite <- (rvelems_omap c es xs q) by (done || lia). done.
    - by rewrite fmap_length.
    - intros i v Hi. rewrite list_lookup_fmap in Hi.
      destruct (xs !! i) as [x|] eqn:Hx; [|done]. injection Hi as <-.
      unfold read. rewrite (proj2 (Hc _ _)) by eauto. done.
  Qed.

  Lemma held_count c es xs q : rinv c es xs q → base.size (held ∅ es) + length q = length xs.
  Proof.
    intros Hinv. pose proof Hinv as (_ & (_ & _ & _ & Hq & Hq') & _ & (Hfu & _ & Hcs) & _).
    assert (dom (held ∅ es) =
            list_to_set (addr_of <$> filter (λ i, i ∉ q) (seq 0 (length xs))) :> gset addr) as Hdom.
    { apply set_eq. intros a. rewrite elem_of_dom, elem_of_list_to_set, elem_of_list_fmap. split.
      - intros [[v k] (i & x & -> & Hx & Hi & Ex)%Hcs]. exists i. split; [done|].
        apply elem_of_list_filter. split; [done|].
        apply elem_of_seq. apply lookup_lt_Some in Hx. lia.
      - intros (i & -> & (Hi & Hi'%elem_of_seq)%elem_of_list_filter).
        destruct (lookup_lt_is_Some_2 xs i) as [x Hx]; [lia|].
        rewrite (held_slot _ _ _ _ _ _ Hinv Hx), decide_False by done. by eexists. }
    rewrite <- size_dom, Hdom. rewrite size_list_to_set.
    2:{ apply NoDup_fmap_2_strong; [intros i j _ _; apply addr_inj|].
        apply NoDup_filter, NoDup_seq. }
    rewrite fmap_length.
    assert (q ≡ₚ filter (λ i, i ∈ q) (seq 0 (length xs))) as Hqp.
    { apply NoDup_Permutation; [done|apply NoDup_filter, NoDup_seq|].
      intros i. rewrite elem_of_list_filter, elem_of_seq. split; [|tauto].
      intros Hi. split; [done|]. apply Hq' in Hi. lia. }
    rewrite (Permutation_length Hqp).
    assert (∀ l, length (filter (λ i, i ∉ q) l) + length (filter (λ i, i ∈ q) l) = length l) as Hsplit.
    { intros l. induction l as [|i l IH]; [done|]. rewrite !filter_cons.
      destruct (decide (i ∈ q)).
      - rewrite decide_False by tauto. cbn. lia.
      - rewrite decide_True by done. cbn. lia. }
    by rewrite Hsplit, seq_length.
  Qed.

  Lemma repo_size c es xs q : rinv c es xs q → cont_size c = Z.of_nat (base.size (held ∅ es)).
  Proof.
    intros Hinv. pose proof (held_count _ _ _ _ Hinv). destruct Hinv as (_ & _ & _ & _ & Hc).
    unfold cont_size, alloc_size. lia.
  Qed.

  Lemma repo_lifetime c es xs q :
    rinv c es xs q →
    ∃ c', cont_destroy c = Ok c' ∧
      (∀ id, occurrences (Constructed id) (mlog c') = if decide (id < serial c) then 1 else 0) ∧
      ((∀ id, id < serial c → occurrences (Destroyed id) (mlog c') = 1) ↔ q = []) ∧
      (∀ id, id < serial c → 1 <= occurrences (Destroyed id) (mlog c') <= 2).
  Proof.
    intros (Ha & (Hc & Hdead & Hlive & Hq & Hq') & (Hid & Hids & HlC & HlD & HlD') & _).
    unfold cont_destroy.
    rewrite (raw_range_spec blk Hblk size Hsize _ _ _ Ha). cbn [rbind].
    destruct (destroy_all_spec blk Hblk size Hsize (addr_of <$> seq 0 (length xs)) c xs 0) as (c' & -> & Ea & Es & El).
    { by rewrite Nat.sub_0_r. }
    { lia. }
    { intros a x (j & _ & Hx & ->). apply Hc. eauto. }
    cbn [rbind]. rewrite Ea, (alloc_destroy_spec blk Hblk size Hsize _ _ _ Ha). cbn [rbind].
    eexists. split; [done|]. cbn [mlog]. rewrite El, drop_0.
    assert (∀ id, id ∉ cid <$> xs → id < serial c → occurrences (Destroyed id)
       ((mlog c ++ (Destroyed <$> (cid <$> xs))) ++ (Freed <$> (blk <$> seq 0 (nsegs (al c))))) = 1) as D1.
    { intros id Hni Hlt. rewrite !occurrences_app, (occurrences_fmap_other Freed) by done.
      rewrite occurrences_fmap_inj; [|congruence|done]. rewrite HlD', (decide_False (P:=id ∈ _)) by done.
      rewrite decide_True by done. done. }
    assert (∀ i x, xs !! i = Some x → occurrences (Destroyed (cid x))
       ((mlog c ++ (Destroyed <$> (cid <$> xs))) ++ (Freed <$> (blk <$> seq 0 (nsegs (al c))))) =
       if decide (i ∈ q) then 2 else 1) as D2.
    { intros i x Hx. rewrite !occurrences_app, (occurrences_fmap_other Freed) by done.
      rewrite occurrences_fmap_inj; [|congruence|done]. rewrite (HlD i x Hx).
      rewrite (decide_True (P:=cid x ∈ _)).
      2:{ apply elem_of_list_fmap. exists x. split; [done|]. by eapply elem_of_list_lookup_2. }
      destruct (decide (i ∈ q)); done. }
    split; [|split].
    - intros id. rewrite !occurrences_app, HlC.
      rewrite !occurrences_fmap_other by done. lia.
    - split.
      + intros H. destruct q as [|i q]; [done|]. exfalso.
        destruct (lookup_lt_is_Some_2 xs i) as [x Hx]; [apply Hq'; left|].
        pose proof (D2 i x Hx) as E. rewrite decide_True in E by left.
        rewrite (H (cid x)) in E by eauto. done.
      + intros -> id Hlt. destruct (decide (id ∈ cid <$> xs)) as [Hin|Hni]; [|auto].
        apply elem_of_list_fmap in Hin as (x & -> & (i & Hx)%elem_of_list_lookup).
        rewrite (D2 i x Hx), decide_False; [done|apply not_elem_of_nil].
    - intros id Hlt. destruct (decide (id ∈ cid <$> xs)) as [Hin|Hni]; [|rewrite D1; [lia|done..]].
      apply elem_of_list_fmap in Hin as (x & -> & (i & Hx)%elem_of_list_lookup).
      rewrite (D2 i x Hx). case_decide; lia.
  Qed.

  Lemma repo_emplace_location c es xs q v :
    rinv c es xs q →
    ∃ c' a, repo_emplace blk false debug v c = Ok (c', a) ∧ held ∅ es !! a = None ∧
      match rfree_queue [] es with
      | b :: _ => a = b
      | [] => a ∉ rfirst_uses [] es
      end.
  Proof.
    intros Hinv. pose proof Hinv as (_ & (_ & _ & _ & _ & Hq') & _ & (Hfu & Hfq & Hcs) & _).
    rewrite Hfq, Hfu. destruct q as [|i q]; cbn.
    - destruct (remplace_fresh c es xs v Hinv) as (c1 & x & E & _).
      exists c1, (addr_of (length xs)). split; [done|]. split.
      + destruct (held ∅ es !! addr_of (length xs)) as [[w k]|] eqn:E'; [|done].
        apply Hcs in E' as (i & y & <-%addr_inj & Hy & _). apply lookup_lt_Some in Hy. lia.
      + intros (i & E'%addr_inj & Hi%elem_of_seq)%elem_of_list_fmap. lia.
    - destruct (remplace_reused c es xs v i q Hinv) as (c1 & x & E & _).
      exists c1, (addr_of i). split; [done|]. split; [|done].
      destruct (lookup_lt_is_Some_2 xs i) as [y Hy]; [apply Hq'; left|].
      by rewrite (held_slot _ _ _ _ _ _ Hinv Hy), decide_True by left.
  Qed.

  Lemma repo_read c es xs q a v k :
    rinv c es xs q → held ∅ es !! a = Some (v, k) → read true c a = Ok (v, k).
  Proof.
    intros (_ & (Hc & _ & Hlive & _) & _ & (_ & _ & Hcs) & _) (i & x & -> & Hx & Hi & <-)%Hcs.
    unfold read. rewrite (proj2 (Hc _ _)) by eauto. cbn. by rewrite (Hlive i x Hx Hi).
  Qed.
End proofs.
