From stdpp Require Import base gmap list.
From Coq Require Import Lia ZArith.
From Verif Require Import Base M_SegAlloc S_SegAlloc.

Ltac splits := repeat match goal with |- _ ∧ _ => split end.

Section proofs.
  Context (blk : nat → nat) (Hblk : ∀ i j, blk i = blk j → i = j).
  Context (size : nat) (Hsize : 0 < size).

  Definition addr_of (i : nat) : addr := (blk (i / size), i mod size).

  Lemma div_mod_unique a q r : r < size → a = q * size + r → a / size = q ∧ a mod size = r.
  Proof.
    intros Hr ->. split.
    - rewrite Nat.div_add_l by lia. rewrite Nat.div_small by done. lia.
    - rewrite Nat.add_comm, Nat.mod_add by lia. by apply Nat.mod_small.
  Qed.

  Lemma div_mod_eq i : i = (i / size) * size + i mod size ∧ i mod size < size.
  Proof.
    split; [|apply Nat.mod_upper_bound; lia].
    pose proof (Nat.div_mod i size). lia.
  Qed.

  Lemma addr_of_inj i j : addr_of i = addr_of j → i = j.
  Proof.
    unfold addr_of. intros [= H1%Hblk H2].
    destruct (div_mod_eq i) as [Ei _], (div_mod_eq j) as [Ej _]. rewrite H1, H2 in Ei. lia.
  Qed.

  (* the allocator holds [n] slots, of which those in [q] wait for reuse *)
  Definition ainv (s : alloc) (n : nat) (q : list nat) : Prop :=
    ssize s = size ∧ nalloc s = nsegs s ∧
    avail s = addr_of <$> q ∧
    ((n = 0 ∧ abegin s = None ∧ aend s = None ∧ aend_alloc s = None ∧ nsegs s = 0) ∨
     (∃ m r, n = m * size + r ∧ 1 <= r <= size ∧ nsegs s = S m ∧
        abegin s = Some (blk 0, 0) ∧ aend s = Some (blk m, r) ∧ aend_alloc s = Some (blk m, size))) ∧
    (∀ i, starts s !! i = if decide (i < nsegs s) then Some (blk i, 0) else None) ∧
    (∀ i, S i < nsegs s → links s !! blk i = Some (blk (S i), 0)).

  Lemma ainv_init : ainv (alloc_init size) 0 [].
  Proof. split_and!; cbn; [done..|by left| |]; intros i; [|lia]. by rewrite lookup_empty. Qed.

  Lemma ainv_nsegs s n q : ainv s n q → nsegs s = (n + size - 1) / size.
  Proof.
    intros (_ & _ & _ & [(-> & _ & _ & _ & ->)|(m & r & -> & Hr & -> & _)] & _).
    - rewrite Nat.div_small; lia.
    - destruct (div_mod_unique (m * size + r + size - 1) (S m) (r - 1)); lia.
  Qed.

  (* the next location when something is waiting for reuse *)
  Lemma location_reused s n i q :
    ainv s n (i :: q) → i < n →
    location_for_placement blk s = Ok (s, addr_of i, true).
  Proof.
    intros (_ & _ & Hq & Hends & _) Hi.
    unfold location_for_placement, next_available_location. rewrite Hq. cbn.
    rewrite decide_False; [done|].
    destruct Hends as [(-> & _)|(m & r & -> & Hr & _ & _ & -> & _)]; [lia|].
    intros [= E1%Hblk E2]. destruct (div_mod_eq i) as [Ei Hi']. rewrite E1, E2 in Ei. lia.
  Qed.

  Lemma location_fresh s n :
    ainv s n [] →
    ∃ s', location_for_placement blk s = Ok (s', addr_of n, false) ∧ ainv s' (S n) [] ∧
      nelems s' = nelems s ∧
      nsegs s' = (if decide (n = nsegs s * size) then S (nsegs s) else nsegs s).
  Proof.
    intros (Hs & Ha & Hq & Hends & Hst & Hl).
    unfold location_for_placement, next_available_location. rewrite Hq. cbn [fmap list_fmap].
    destruct Hends as [(-> & Hb & He & Hea & Hn)|(m & r & -> & Hr & Hn & Hb & He & Hea)].
    - rewrite He, Hea, decide_True by done. cbn [rbind].
      unfold allocate_new_segment. rewrite Hb, He, decide_True by done. cbn.
      rewrite decide_True by done. cbn. rewrite Ha, Hn.
      eexists. split.
      { unfold addr_of. rewrite Nat.div_small, Nat.mod_small by done. reflexivity. }
      split; [|split; [done|]].
      2:{ cbn. rewrite decide_True by lia. done. }
      split_and!; cbn; [done|done|done| | |].
      + right. exists 0, 1. split_and!; try done || lia. by rewrite Hs.
      + intros i. destruct (decide (i = 0)) as [->|].
        * rewrite lookup_insert. rewrite decide_True by lia. done.
        * rewrite lookup_insert_ne by done. rewrite Hst. rewrite !decide_False by lia. done.
      + intros i Hi. lia.
    - rewrite He, Hea.
      destruct (decide (r = size)) as [->|Hrs].
      + rewrite decide_True by done.
        unfold allocate_new_segment. rewrite Hb, He, Hea.
        rewrite decide_False. 2:{ intros [= E1 E2]. lia. }
        rewrite decide_True by done. cbn. rewrite decide_True by done. cbn. rewrite Ha, Hn.
        eexists. split.
        { unfold addr_of. destruct (div_mod_unique (m * size + size) (S m) 0) as [-> ->]; [lia..|].
          reflexivity. }
        split; [|split; [done|]].
        2:{ cbn. rewrite decide_True by lia. done. }
        split_and!; cbn; [done|done|done| | |].
        * right. exists (S m), 1. split_and!; try done || lia. by rewrite Hs.
        * intros i. destruct (decide (i = S m)) as [->|].
          -- rewrite lookup_insert. rewrite decide_True by lia. done.
          -- rewrite lookup_insert_ne by done. rewrite Hst.
             destruct (decide (i < nsegs s)); [rewrite decide_True by lia|rewrite decide_False by lia]; done.
        * intros i Hi. destruct (decide (i = m)) as [->|].
          -- by rewrite lookup_insert.
          -- rewrite lookup_insert_ne. { apply Hl. lia. } intros E%Hblk. done.
      + rewrite decide_False. 2:{ intros [= E]. lia. }
        cbn. rewrite He. assert (addr_of (m * size + r) = (blk m, r)) as Haddr.
        { unfold addr_of. destruct (div_mod_unique (m * size + r) m r) as [-> ->]; [lia..|]. done. }
        rewrite decide_True by done. cbn.
        eexists. split; [rewrite Haddr; reflexivity|].
        split; [|split; [done|cbn; rewrite Hn, decide_False; [done|nia]]].
        split_and!; cbn; [done|done|done| |done|done].
        right. exists m, (S r). split_and!; try done || lia. by rewrite Nat.add_1_r.
  Qed.

  Lemma ainv_insert_fresh debug s n a :
    ainv s n [] → ∃ s', alloc_insert debug a s = Ok s' ∧ ainv s' n [] ∧
      nelems s' = (nelems s + 1)%Z ∧ nsegs s' = nsegs s.
  Proof.
    intros (H1 & H2 & Hq & H3). unfold alloc_insert. rewrite Hq. cbn.
    eexists. split; [done|]. split; [|done]. split_and!; try done; apply H3.
  Qed.

  Lemma ainv_insert_reused debug s n i q :
    ainv s n (i :: q) → ∃ s', alloc_insert debug (addr_of i) s = Ok s' ∧ ainv s' n q ∧
      nelems s' = (nelems s + 1)%Z ∧ nsegs s' = nsegs s.
  Proof.
    intros (H1 & H2 & Hq & H3). unfold alloc_insert. rewrite Hq. cbn.
    unfold assert_. rewrite bool_decide_eq_true_2 by done. cbn. rewrite andb_false_r. cbn.
    eexists. split; [done|]. split; [|done]. split_and!; try done; apply H3.
  Qed.

  Lemma erase_check_ok s n q i : ainv s n q → i < n → erase_check (addr_of i) s = true.
  Proof.
    intros (Hs & _ & _ & Hends & Hst & _) Hi.
    unfold erase_check. apply existsb_exists. exists (i / size).
    assert (i / size < nsegs s).
    { destruct Hends as [(-> & _)|(m & r & -> & Hr & -> & _)]; [lia|].
      destruct (div_mod_eq i). nia. }
    split; [apply in_seq; lia|]. rewrite Hst, decide_True by done. cbn.
    rewrite bool_decide_eq_true_2 by done. cbn. apply Nat.ltb_lt. rewrite Hs.
    apply Nat.mod_upper_bound. lia.
  Qed.

  Lemma ainv_erase debug s n q i :
    ainv s n q → i < n → ∃ s', alloc_erase debug (addr_of i) s = Ok s' ∧ ainv s' n (q ++ [i]) ∧
      nelems s' = (nelems s - 1)%Z ∧ nsegs s' = nsegs s.
  Proof.
    intros H Hi. unfold alloc_erase, assert_.
    assert (ainv (Alloc (ssize s) (abegin s) (aend s) (aend_alloc s) (nsegs s) (nelems s - 1)
               (avail s ++ [addr_of i]) (starts s) (links s) (nalloc s)) n (q ++ [i])) as H'.
    { destruct H as (H1 & H2 & Hq & H3). split_and!; try done; try apply H3. cbn.
      by rewrite Hq, fmap_app. }
    rewrite (erase_check_ok _ n (q ++ [i])) by done. rewrite andb_false_r. cbn. eauto.
  Qed.

  (* ---- iteration ---- *)

  Definition it_at (s : alloc) (i : nat) : iter :=
    Iter (Some (addr_of i)) (Some (blk (i / size), size)) (aend s).

  Lemma addr_of_ne_end s n q i : ainv s n q → i < n → Some (addr_of i) ≠ aend s.
  Proof.
    intros (_ & _ & _ & Hends & _) Hi.
    destruct Hends as [(-> & _)|(m & r & -> & Hr & _ & _ & -> & _)]; [lia|].
    intros [= E1%Hblk E2]. destruct (div_mod_eq i) as [Ei Hi']. rewrite E1, E2 in Ei. lia.
  Qed.

  Lemma iter_next_at s n q i :
    ainv s n q → i < n →
    ∃ it, iter_next s (it_at s i) = Ok it ∧
      if decide (S i = n) then iptr it = aend s ∧ iend it = aend s else it = it_at s (S i).
  Proof.
    intros H Hi. pose proof H as (Hs & _ & _ & Hends & _ & Hl).
    destruct Hends as [(-> & _)|(m & r & Hn & Hr & Hns & _ & He & _)]; [lia|].
    destruct (div_mod_eq i) as [Ei Hi'].
    unfold iter_next, it_at. cbn. rewrite He.
    destruct (decide (S i = n)) as [Hin|Hin].
    - assert (i / size = m ∧ i mod size = r - 1) as [-> ->] by (apply div_mod_unique; lia).
      rewrite decide_True. 2:{ repeat f_equal. lia. }
      eexists. split; [done|]. cbn. split; [|done]. repeat f_equal. lia.
    - rewrite decide_False.
      2:{ intros [= E1%Hblk E2]. rewrite E1 in Ei. lia. }
      destruct (decide (i mod size + 1 = size)) as [Hm|Hm].
      + rewrite decide_True by (by rewrite Hm). cbn.
        assert (S (i / size) < nsegs s) as Hlt by nia.
        rewrite (Hl _ Hlt). cbn. eexists. split; [done|].
        unfold addr_of. destruct (div_mod_unique (S i) (S (i / size)) 0) as [-> ->]; [lia..|].
        by rewrite Hs.
      + rewrite decide_False. 2:{ intros [= E]. lia. }
        eexists. split; [done|]. unfold addr_of.
        destruct (div_mod_unique (S i) (i / size) (i mod size + 1)) as [-> ->]; [lia..|]. done.
  Qed.

  Lemma begin_at s n q : ainv s n q → 0 < n → alloc_begin s = it_at s 0.
  Proof.
    intros (Hs & _ & _ & Hends & _) Hn.
    destruct Hends as [(-> & _)|(m & r & -> & Hr & _ & Hb & He & _)]; [lia|].
    unfold alloc_begin, it_at. rewrite Hb. cbn.
    unfold addr_of. rewrite Nat.div_small, Nat.mod_small by done. by rewrite Hs.
  Qed.

  Lemma begin_empty s q : ainv s 0 q → iptr (alloc_begin s) = aend s ∧ aend s = None.
  Proof.
    intros (Hs & _ & _ & Hends & _).
    destruct Hends as [(_ & Hb & He & _)|(m & r & E & Hr & _)]; [|lia].
    cbn. by rewrite Hb, He.
  Qed.

  Lemma raw_loop_at s n q k : ∀ fuel i it,
    ainv s n q → n - i = k → i <= n → k < fuel →
    (if decide (i = n) then iptr it = aend s else it = it_at s i) →
    raw_loop fuel s it (aend s) = Ok (addr_of <$> seq i k).
  Proof.
    induction k as [|k IH]; intros fuel i it H Hk Hin Hfuel Hit;
      (destruct fuel as [|fuel]; [lia|]); cbn [raw_loop].
    - rewrite decide_True in Hit by lia. rewrite Hit. by rewrite decide_True.
    - rewrite decide_False in Hit by lia. subst it. cbn [iptr it_at].
      rewrite decide_False by (eapply addr_of_ne_end; [done|lia]).
      cbn [deref rbind].
      destruct (iter_next_at s n q i H) as (it & -> & Hit); [lia|]. cbn [rbind].
      rewrite (IH fuel (S i) it); [|done|lia..|].
      + done.
      + destruct (decide (S i = n)); [apply Hit|done].
  Qed.

  Lemma n_le_capacity s n q : ainv s n q → n <= nsegs s * ssize s.
  Proof.
    intros (Hs & _ & _ & Hends & _). rewrite Hs.
    destruct Hends as [(-> & _)|(m & r & -> & Hr & -> & _)]; lia.
  Qed.

  Lemma raw_range_spec s n q : ainv s n q → raw_range s = Ok (addr_of <$> seq 0 n).
  Proof.
    intros H. unfold raw_range. apply (raw_loop_at s n q); [done|lia|lia| |].
    - pose proof (n_le_capacity s n q H). lia.
    - destruct (decide (0 = n)) as [<-|Hn].
      + by apply (begin_empty s q).
      + apply (begin_at s n q); [done|lia].
  Qed.

  Section container.
    Context {A : Type} (is_valid : A → bool) (strict : bool) (c : cont A).
    Context (vals : list A) (q : list nat).
    Context (Hainv : ainv (al c) (length vals) q).
    Context (Hread : ∀ i v, vals !! i = Some v → read strict c (addr_of i) = Ok v).

    Fixpoint velems (i : nat) (vs : list A) : list (addr * A) :=
      match vs with
      | [] => []
      | v :: vs => if is_valid v then (addr_of i, v) :: velems (S i) vs else velems (S i) vs
      end.

    Fixpoint at_first (it : iter) (i : nat) (vs : list A) : Prop :=
      match vs with
      | [] => iptr it = aend (al c) ∧ iend it = aend (al c)
      | v :: vs => if is_valid v then it = it_at (al c) i else at_first it (S i) vs
      end.

    Lemma citer_next_first vs : ∀ pre v0 fuel,
      vals = pre ++ v0 :: vs → length vs < fuel →
      ∃ it, citer_next is_valid fuel strict c (it_at (al c) (length pre)) = Ok it ∧
        at_first it (S (length pre)) vs.
    Proof.
      induction vs as [|v vs IH]; intros pre v0 fuel Hvals Hfuel;
        (destruct fuel as [|fuel]; [cbn in Hfuel; lia|]); cbn [citer_next].
      - destruct (iter_next_at (al c) (length vals) q (length pre)) as (it & -> & Hit); [done| |].
        { rewrite Hvals, app_length. cbn. lia. }
        rewrite decide_True in Hit by (rewrite Hvals, app_length; cbn; lia).
        destruct Hit as [Hp He]. cbn [rbind]. rewrite decide_True by congruence.
        exists it. done.
      - destruct (iter_next_at (al c) (length vals) q (length pre)) as (it & -> & Hit); [done| |].
        { rewrite Hvals, app_length. cbn. lia. }
        rewrite decide_False in Hit by (rewrite Hvals, app_length; cbn; lia).
        subst it. cbn [rbind iptr it_at iend].
        rewrite decide_False.
        2:{ eapply addr_of_ne_end; [done|]. rewrite Hvals, app_length. cbn. lia. }
        cbn [deref rbind].
        rewrite (Hread (S (length pre)) v).
        2:{ rewrite Hvals. rewrite lookup_app_r by lia.
            replace (S (length pre) - length pre) with 1 by lia. done. }
        cbn [rbind at_first]. destruct (is_valid v) eqn:Ev; [eauto|].
        destruct (IH (pre ++ [v0]) v fuel) as (it & E & Hit).
        { rewrite Hvals. by rewrite <- app_assoc. }
        { cbn in Hfuel. lia. }
        rewrite app_length in E, Hit. cbn in E, Hit. rewrite Nat.add_1_r in E, Hit.
        exists it. split; [exact E|exact Hit].
    Qed.

    Lemma cfuel_enough : length vals < cfuel c.
    Proof.
      unfold cfuel. pose proof (n_le_capacity _ _ _ Hainv). lia.
    Qed.

    Lemma cont_loop_at vs : ∀ pre it fuel,
      vals = pre ++ vs → length vs < fuel → at_first it (length pre) vs →
      cont_loop is_valid fuel strict c it (aend (al c)) = Ok (velems (length pre) vs).
    Proof.
      induction vs as [|v vs IH]; intros pre it fuel Hvals Hfuel Hit;
        (destruct fuel as [|fuel]; [cbn in Hfuel; lia|]); cbn [at_first velems] in *.
      - cbn [cont_loop]. destruct Hit as [-> _]. by rewrite decide_True.
      - destruct (is_valid v) eqn:Ev.
        + subst it. cbn [cont_loop iptr it_at].
          rewrite decide_False.
          2:{ eapply addr_of_ne_end; [done|]. rewrite Hvals, app_length. cbn. lia. }
          cbn [deref rbind].
          rewrite (Hread (length pre) v).
          2:{ rewrite Hvals. rewrite lookup_app_r by lia. by rewrite Nat.sub_diag. }
          cbn [rbind].
          destruct (citer_next_first vs pre v (cfuel c)) as (it & -> & Hit); [done| |].
          { pose proof cfuel_enough as Hf. rewrite Hvals, app_length in Hf. cbn in Hf. lia. }
          cbn [rbind].
          rewrite <- (Nat.add_1_r (length pre)) in Hit.
          assert (length (pre ++ [v]) = length pre + 1) as El by (by rewrite app_length).
          rewrite <- El in Hit.
          rewrite (IH (pre ++ [v]) it fuel); [|by rewrite <- app_assoc|cbn in Hfuel; lia|done].
          cbn [rbind]. rewrite El, Nat.add_1_r. done.
        + assert (length (pre ++ [v]) = S (length pre)) as El by (rewrite app_length; cbn; lia).
          rewrite <- El in Hit |- *.
          apply IH; [by rewrite <- app_assoc|cbn in Hfuel; lia|done].
    Qed.

    Lemma cont_begin_first :
      ∃ it, cont_begin is_valid strict c = Ok it ∧ at_first it 0 vals.
    Proof.
      unfold cont_begin, citer_make.
      destruct vals as [|v vs] eqn:Evals.
      - destruct (begin_empty _ _ Hainv) as [Hb He]. rewrite decide_True by done.
        eexists. split; [done|]. cbn. done.
      - rewrite (begin_at _ _ _ Hainv) by (cbn; lia). cbn [iptr iend it_at].
        rewrite decide_False by (eapply addr_of_ne_end; [done|cbn; lia]).
        cbn [deref rbind]. rewrite (Hread 0 v) by done. cbn [rbind at_first].
        destruct (is_valid v) eqn:Ev; [eauto|].
        rewrite <- Evals in *.
        destruct (citer_next_first vs [] v (cfuel c)) as (it & E & Hit); [done| |eauto].
        pose proof cfuel_enough as Hf. rewrite Evals in Hf. cbn in Hf. lia.
    Qed.

    Lemma cont_end_spec : cont_end is_valid strict c = Ok (alloc_end (al c)).
    Proof. unfold cont_end, citer_make. cbn [iptr iend alloc_end]. by rewrite decide_True. Qed.

    Lemma cont_range_spec : cont_range is_valid strict c = Ok (velems 0 vals).
    Proof.
      unfold cont_range. destruct cont_begin_first as (it & -> & Hit). cbn [rbind].
      rewrite cont_end_spec. cbn [rbind iptr alloc_end].
      apply (cont_loop_at vals [] it (cfuel c)); [done|apply cfuel_enough|done].
    Qed.
  End container.

  (* ---- freeing the segments ---- *)
  Lemma free_segments_spec s n q k : ∀ fuel i,
    ainv s n q → nsegs s = i + S k → k < fuel →
    free_segments fuel s (blk i, 0) = Ok (blk <$> seq i (S k)).
  Proof.
    induction k as [|k IH]; intros fuel i H Hk Hfuel; (destruct fuel as [|fuel]; [lia|]);
      cbn [free_segments]; pose proof H as (Hs & _ & _ & Hends & _ & Hl);
      (destruct Hends as [(_ & _ & _ & _ & Hn)|(m & r & _ & _ & Hn & _ & _ & Hea)]; [lia|]);
      rewrite Hea, Hs; cbn [padd fmap option_fmap option_map fst snd Nat.add].
    - rewrite decide_True; [done|]. repeat f_equal. lia.
    - rewrite decide_False. 2:{ intros [= E%Hblk]. lia. }
      rewrite (Hl i) by lia. cbn [deref rbind].
      rewrite (IH fuel (S i)); [|done|lia..]. done.
  Qed.

  Lemma alloc_destroy_spec s n q : ainv s n q → alloc_destroy s = Ok (blk <$> seq 0 (nsegs s)).
  Proof.
    intros H. unfold alloc_destroy. pose proof H as (Hs & _ & _ & Hends & _ & Hl).
    destruct Hends as [(_ & -> & _ & _ & ->)|(m & r & _ & _ & Hn & -> & _ & Hea)]; [done|].
    rewrite (free_segments_spec s n q m); [|done|lia..]. by rewrite Hn.
  Qed.

  (* ---- indexing ---- *)
  Lemma alloc_index_spec s n q i :
    ainv s n q → i < n → alloc_index s (Z.of_nat i) = Ok (addr_of i).
  Proof.
    intros (Hs & _ & _ & Hends & Hst & _) Hi. unfold alloc_index.
    rewrite Hs, decide_False by lia.
    rewrite Z.quot_div_nonneg, Z.rem_mod_nonneg by lia.
    rewrite <- Nat2Z.inj_div, <- Nat2Z.inj_mod.
    rewrite (proj2 (Z.ltb_ge _ _)) by lia.
    rewrite Nat2Z.id, Hst, decide_True.
    2:{ destruct Hends as [(-> & _)|(m & r & -> & Hr & -> & _)]; [lia|].
        destruct (div_mod_eq i). nia. }
    cbn. rewrite (proj2 (Z.ltb_ge _ _)) by lia. by rewrite Nat2Z.id.
  Qed.

  Lemma alloc_index_out s n q i :
    ainv s n q → (Z.of_nat (nsegs s) * Z.of_nat size <= i)%Z → alloc_index s i = Abort.
  Proof.
    intros (Hs & _ & _ & Hends & Hst & _) Hi. unfold alloc_index.
    rewrite Hs, decide_False by lia.
    rewrite Z.quot_div_nonneg, Z.rem_mod_nonneg by lia.
    assert (Z.of_nat (nsegs s) <= i / Z.of_nat size)%Z.
    { apply Z.div_le_lower_bound; lia. }
    rewrite (proj2 (Z.ltb_ge _ _)) by lia.
    rewrite Hst, decide_False by lia. done.
  Qed.

  (* ---- SegmentedVector ---- *)
  Section vector.
    Context {V : Type} (debug : bool).
    Notation vcont := (cont (V * bool)).
    Implicit Types (c : vcont) (xs : list (cell (V * bool))) (es : list (vevent (V:=V))).

    Definition slots_inv c xs q : Prop :=
      (∀ a x, cells c !! a = Some x ↔ ∃ i, xs !! i = Some x ∧ a = addr_of i) ∧
      (∀ i x, xs !! i = Some x → calive x = true ∧ (obj_valid (cval x) = false ↔ i ∈ q)) ∧
      NoDup q ∧ (∀ i, i ∈ q → i < length xs).

    Definition log_inv c xs : Prop :=
      NoDup (cid <$> xs) ∧ (∀ i x, xs !! i = Some x → cid x < serial c) ∧
      (∀ id, occurrences (Constructed id) (mlog c) = if decide (id < serial c) then 1 else 0) ∧
      (∀ id, occurrences (Destroyed id) (mlog c) =
         if decide (id < serial c ∧ id ∉ cid <$> xs) then 1 else 0) ∧
      (∀ b, occurrences (Freed b) (mlog c) = 0) ∧
      (∀ l1 l2 id, mlog c = l1 ++ Destroyed id :: l2 → Constructed id ∈ l1).

    Definition trace_inv es xs q : Prop :=
      first_uses [] es = addr_of <$> seq 0 (length xs) ∧
      free_queue [] es = addr_of <$> q ∧
      (∀ a v, contents ∅ es !! a = Some v ↔
         ∃ i x, a = addr_of i ∧ xs !! i = Some x ∧ cval x = (v, true)).

    Definition vinv c es xs q : Prop :=
      ainv (al c) (length xs) q ∧ slots_inv c xs q ∧ log_inv c xs ∧ trace_inv es xs q.

    Definition count_inv c xs (q : list nat) : Prop := (nelems (al c) + Z.of_nat (length q) = Z.of_nat (length xs))%Z.

    Lemma contents_snoc es e m :
      contents m (es ++ [e]) = contents (contents m es) [e].
    Proof. revert m. induction es as [|[] ? IH]; intros m; [done|apply IH..]. Qed.
    Lemma first_uses_snoc es e l :
      first_uses l (es ++ [e]) = first_uses (first_uses l es) [e].
    Proof. revert l. induction es as [|[] ? IH]; intros l; [done|apply IH..]. Qed.
    Lemma free_queue_snoc es e l :
      free_queue l (es ++ [e]) = free_queue (free_queue l es) [e].
    Proof. revert l. induction es as [|[] ? IH]; intros l; [done|apply IH..]. Qed.

    Lemma occurrences_app e l1 l2 : occurrences e (l1 ++ l2) = occurrences e l1 + occurrences e l2.
    Proof. unfold occurrences. by rewrite filter_app, app_length. Qed.
    Lemma occurrences_one e x : occurrences e [x] = if decide (x = e) then 1 else 0.
    Proof. unfold occurrences. rewrite filter_cons, filter_nil. by destruct (decide _). Qed.
    Lemma occurrences_pos e l : 0 < occurrences e l → e ∈ l.
    Proof.
      unfold occurrences. destruct (filter _ l) as [|x l'] eqn:E; cbn; [lia|]. intros _.
      assert (x ∈ filter (λ y, y = e) l) as [-> H]%elem_of_list_filter by (rewrite E; left). done.
    Qed.

    Lemma vinv_init : vinv (cont_init size) [] [] [].
    Proof.
      split; [apply ainv_init|]. split; [|split].
      - split; [|split; [|split]].
        + intros a x. cbn. rewrite lookup_empty. split; [done|]. intros (i & H & _).
          by rewrite lookup_nil in H.
        + intros i x H. by rewrite lookup_nil in H.
        + constructor.
        + intros i H. by apply elem_of_nil in H.
      - split; [|split; [|split; [|split; [|split]]]].
        + constructor.
        + intros i x H. by rewrite lookup_nil in H.
        + intros id. rewrite decide_False by (cbn; lia). done.
        + intros id. rewrite decide_False by (cbn; lia). done.
        + done.
        + intros l1 l2 id H. by apply app_cons_not_nil in H.
      - split; [done|split; [done|]].
        intros a v. cbn. rewrite lookup_empty. split; [done|]. intros (i & x & _ & H & _).
        by rewrite lookup_nil in H.
    Qed.

    Lemma log_app_constructed id l :
      (∀ l1 l2 id, l = l1 ++ Destroyed id :: l2 → Constructed id ∈ l1) →
      (∀ l1 l2 id', l ++ [Constructed id] = l1 ++ Destroyed id' :: l2 → Constructed id' ∈ l1).
    Proof.
      intros H l1 l2 id' E. destruct l2 as [|y l2 _] using rev_ind.
      - by apply app_inj_tail in E as [_ ?].
      - rewrite app_comm_cons, app_assoc in E. apply app_inj_tail in E as [E _]. eauto.
    Qed.
    Lemma log_app_destroyed id l :
      (∀ l1 l2 id, l = l1 ++ Destroyed id :: l2 → Constructed id ∈ l1) → Constructed id ∈ l →
      (∀ l1 l2 id', l ++ [Destroyed id] = l1 ++ Destroyed id' :: l2 → Constructed id' ∈ l1).
    Proof.
      intros H Hid l1 l2 id' E. destruct l2 as [|y l2 _] using rev_ind.
      - by apply app_inj_tail in E as [-> [= ->]].
      - rewrite app_comm_cons, app_assoc in E. apply app_inj_tail in E as [E _]. eauto.
    Qed.

    Lemma emplace_fresh c es xs v valid :
      vinv c es xs [] → valid = true →
      ∃ c' x, vec_emplace blk debug v valid c = Ok (c', addr_of (length xs)) ∧
        vinv c' (es ++ [EvEmplace v valid (addr_of (length xs))]) (xs ++ [x]) [] ∧
        nelems (al c') = (nelems (al c) + 1)%Z ∧
        nsegs (al c') = (if decide (length xs = nsegs (al c) * size) then S (nsegs (al c)) else nsegs (al c)).
    Proof.
      intros (Ha & (Hc & Hv & Hq & Hq') & (Hid & Hids & HlC & HlD & HlF & Hbr) & (Hfu & Hfq & Hcs)) ->.
      destruct (location_fresh _ _ Ha) as (s1 & E1 & Ha1 & Hn1 & Hg1).
      unfold vec_emplace. rewrite E1. cbn [rbind].
      unfold construct. cbn [al].
      pose proof Ha1 as (Hs1 & _). rewrite Hs1.
      rewrite decide_True. 2:{ cbn. apply Nat.mod_upper_bound. lia. }
      cbn [rbind al]. destruct (ainv_insert_fresh debug s1 _ (addr_of (length xs)) Ha1)
        as (s2 & -> & Ha2 & Hn2 & Hg2). cbn [rbind].
      set (x := Cell (serial c) true (v, true)).
      eexists _, x. split; [reflexivity|]. cbn [al cells serial mlog].
      split; [|split; [lia|by rewrite Hg2]].
      assert (∀ i, (xs ++ [x]) !! i = if decide (i = length xs) then Some x else xs !! i) as Hlk.
      { intros i. destruct (decide (i = length xs)) as [->|].
        - rewrite lookup_app_r by lia. by rewrite Nat.sub_diag.
        - destruct (decide (i < length xs)).
          + by rewrite lookup_app_l.
          + rewrite lookup_app_r by lia. rewrite (lookup_ge_None_2 xs) by lia.
            destruct (i - length xs) eqn:Ei; [lia|]. done. }
      unfold vinv, slots_inv, log_inv, trace_inv. splits.
      - rewrite app_length. cbn. rewrite Nat.add_1_r. exact Ha2.
      - intros a y. cbn. destruct (decide (a = addr_of (length xs))) as [->|Hne].
        + rewrite lookup_insert. split.
          * intros [= <-]. exists (length xs). rewrite Hlk, decide_True by done. done.
          * intros (i & Hi & <-%addr_of_inj). rewrite Hlk, decide_True in Hi by done. done.
        + rewrite lookup_insert_ne by done. rewrite Hc. apply exist_proper. intros i.
          rewrite Hlk. destruct (decide (i = length xs)) as [->|]; [|done].
          rewrite (lookup_ge_None_2 xs) by lia. naive_solver.
      - intros i y. rewrite Hlk. destruct (decide (i = length xs)) as [->|]; [|apply Hv].
        intros [= <-]. split; [done|]. cbn. split; [done|]. intros Hi%elem_of_nil. done.
      - done.
      - intros i Hi%elem_of_nil. done.
      - rewrite fmap_app. cbn. apply NoDup_app. split_and!; [done| |apply NoDup_singleton].
        intros id (y & -> & (i & Hi)%elem_of_list_lookup)%elem_of_list_fmap E%elem_of_list_singleton.
        apply Hids in Hi. lia.
      - cbn. intros i y. rewrite Hlk. destruct (decide (i = length xs)) as [->|].
        + intros [= <-]. cbn. lia.
        + intros Hi%Hids. lia.
      - intros id. cbn [mlog serial]. rewrite occurrences_app, occurrences_one, HlC.
        destruct (decide (id = serial c)) as [->|].
        + rewrite decide_False by lia. rewrite !decide_True by (done || lia). done.
        + rewrite (decide_False (P:=Constructed _ = _)) by congruence.
          destruct (decide (id < serial c)); [rewrite decide_True by lia|rewrite decide_False by lia]; lia.
      - intros id. cbn [mlog serial]. rewrite occurrences_app, occurrences_one, HlD.
        rewrite (decide_False (P:=Constructed _ = _)) by congruence.
        rewrite fmap_app, Nat.add_0_r. cbn. apply decide_ext. rewrite not_elem_of_app, elem_of_list_singleton.
        split; [intros []; split_and!; [lia|done|lia]|intros (? & ? & ?); split; [lia|done]].
      - intros b. cbn [mlog serial]. rewrite occurrences_app, occurrences_one, HlF. done.
      - cbn. apply log_app_constructed; done.
      - rewrite first_uses_snoc, Hfu. cbn. rewrite decide_False.
        + rewrite app_length. cbn. rewrite Nat.add_1_r, seq_S, fmap_app. done.
        + intros (i & E%addr_of_inj & Hi%elem_of_seq)%elem_of_list_fmap. lia.
      - rewrite free_queue_snoc, Hfq. done.
      - intros a w. rewrite contents_snoc. cbn.
        destruct (decide (a = addr_of (length xs))) as [->|Hne].
        + rewrite lookup_insert. split.
          * intros [= <-]. exists (length xs), x. rewrite Hlk, decide_True by done. done.
          * intros (i & y & <-%addr_of_inj & Hi & Hy). rewrite Hlk, decide_True in Hi by done.
            injection Hi as <-. cbn in Hy. congruence.
        + rewrite lookup_insert_ne by done. rewrite Hcs. apply exist_proper. intros i.
          apply exist_proper. intros y. rewrite Hlk.
          destruct (decide (i = length xs)) as [->|]; [|done].
          rewrite (lookup_ge_None_2 xs) by lia. naive_solver.
    Qed.

    Lemma slot_exists c es xs q i : vinv c es xs q → i ∈ q → ∃ y, xs !! i = Some y.
    Proof. intros (_ & (_ & _ & _ & H) & _) Hi. apply lookup_lt_is_Some. auto. Qed.

    Lemma cid_insert_other {B} (xs : list (cell B)) i y id x :
      xs !! i = Some y → NoDup (cid <$> xs) → (∀ j z, xs !! j = Some z → cid z < id) → cid x = id →
      NoDup (cid <$> <[i := x]> xs) ∧
      (∀ k, k ∈ cid <$> <[i := x]> xs ↔ k = id ∨ (k ∈ cid <$> xs ∧ k ≠ cid y)).
    Proof.
      intros Hy Hnd Hlt <-.
      assert (i < length xs) as Hi by (by eapply lookup_lt_Some).
      assert (∀ j z, xs !! j = Some z → cid z = cid y → j = i) as Huniq.
      { intros j z Hj E. eapply (NoDup_lookup _ j i (cid y) Hnd).
        - by rewrite list_lookup_fmap, Hj, <- E.
        - by rewrite list_lookup_fmap, Hy. }
      split.
      - apply NoDup_alt. intros j k z. rewrite !list_lookup_fmap.
        destruct (decide (j = i)) as [->|Hj], (decide (k = i)) as [->|Hk]; [done| | |].
        + rewrite list_lookup_insert by done. rewrite list_lookup_insert_ne by done.
          cbn. intros [= <-]. destruct (xs !! k) as [w|] eqn:Ek; cbn; [|done].
          intros [= E]. apply Hlt in Ek. lia.
        + rewrite list_lookup_insert by done. rewrite list_lookup_insert_ne by done.
          destruct (xs !! j) as [w|] eqn:Ek; cbn; [|done].
          intros [= E] [= E']. apply Hlt in Ek. lia.
        + rewrite !list_lookup_insert_ne by done. rewrite <- !list_lookup_fmap.
          apply (proj1 (NoDup_alt _) Hnd).
      - intros k. rewrite !elem_of_list_fmap. split.
        + intros (z & -> & (j & Hj)%elem_of_list_lookup).
          destruct (decide (j = i)) as [->|Hne].
          * rewrite list_lookup_insert in Hj by done. injection Hj as <-. by left.
          * rewrite list_lookup_insert_ne in Hj by done. right. split.
            -- exists z. split; [done|]. by eapply elem_of_list_lookup_2.
            -- intros E. apply Hne. by eapply Huniq.
        + intros [->|[(z & -> & (j & Hj)%elem_of_list_lookup) Hne]].
          * exists x. split; [done|]. apply elem_of_list_lookup. exists i. by apply list_lookup_insert.
          * exists z. split; [done|]. apply elem_of_list_lookup. exists j.
            rewrite list_lookup_insert_ne; [done|]. intros <-. rewrite Hj in Hy. by injection Hy as ->.
    Qed.

    Lemma emplace_reused c es xs v valid i q :
      vinv c es xs (i :: q) → valid = true →
      ∃ c' x, vec_emplace blk debug v valid c = Ok (c', addr_of i) ∧
        vinv c' (es ++ [EvEmplace v valid (addr_of i)]) (<[i := x]> xs) q ∧
        nelems (al c') = (nelems (al c) + 1)%Z ∧ nsegs (al c') = nsegs (al c).
    Proof.
      intros Hinv ->.
      destruct (slot_exists _ _ _ _ i Hinv) as [y Hy]; [left|].
      destruct Hinv as
        (Ha & (Hc & Hv & Hq & Hq') & (Hid & Hids & HlC & HlD & HlF & Hbr) & (Hfu & Hfq & Hcs)).
      assert (i < length xs) as Hi by (apply Hq'; left).
      assert (i ∉ q) as Hiq by (by apply NoDup_cons in Hq as [? _]).
      pose proof (location_reused _ _ _ _ Ha Hi) as E1.
      unfold vec_emplace. rewrite E1. cbn [rbind].
      unfold destroy. cbn [cells al serial mlog].
      rewrite (proj2 (Hc (addr_of i) y)) by eauto. cbn [deref rbind].
      unfold construct. cbn [al cells serial mlog].
      pose proof Ha as (Hs & _). rewrite Hs.
      rewrite decide_True. 2:{ cbn. apply Nat.mod_upper_bound. lia. }
      cbn [rbind al].
      destruct (ainv_insert_reused debug (al c) _ i q Ha) as (s2 & -> & Ha2 & Hn2 & Hg2). cbn [rbind].
      set (x := Cell (serial c) true (v, true)).
      eexists _, x. split; [reflexivity|]. cbn [al cells serial mlog].
      split; [|split; [lia|by rewrite Hg2]].
      assert (∀ j, <[i:=x]> xs !! j = if decide (j = i) then Some x else xs !! j) as Hlk.
      { intros j. destruct (decide (j = i)) as [->|].
        - by apply list_lookup_insert.
        - by apply list_lookup_insert_ne. }
      destruct (cid_insert_other xs i y (serial c) x Hy Hid Hids eq_refl) as [Hid' Hmem'].
      assert (cid y < serial c) as Hyid by eauto.
      assert (cid y ∈ cid <$> xs) as Hymem.
      { apply elem_of_list_fmap. exists y. split; [done|]. by eapply elem_of_list_lookup_2. }
      unfold vinv, slots_inv, log_inv, trace_inv. splits; cbn [al cells serial mlog].
      - rewrite insert_length. exact Ha2.
      - intros a z. rewrite insert_insert.
        destruct (decide (a = addr_of i)) as [->|Hne].
        + rewrite lookup_insert. split.
          * intros [= <-]. exists i. rewrite Hlk, decide_True by done. done.
          * intros (j & Hj & <-%addr_of_inj). rewrite Hlk, decide_True in Hj by done. done.
        + rewrite lookup_insert_ne by done. rewrite Hc. apply exist_proper. intros j.
          rewrite Hlk. destruct (decide (j = i)) as [->|]; [|done]. naive_solver.
      - intros j z. rewrite Hlk. destruct (decide (j = i)) as [->|Hne].
        + intros [= <-]. split; [done|]. cbn. done.
        + intros [H1 H2]%Hv. split; [done|]. rewrite H2, elem_of_cons. naive_solver.
      - by apply NoDup_cons in Hq as [_ ?].
      - intros j Hj. rewrite insert_length. apply Hq'. by right.
      - done.
      - intros j z. rewrite Hlk. destruct (decide (j = i)) as [->|].
        + intros [= <-]. cbn. lia.
        + intros Hj%Hids. lia.
      - intros id. rewrite !occurrences_app, !occurrences_one, HlC.
        rewrite (decide_False (P:=Destroyed _ = _)) by congruence.
        destruct (decide (id = serial c)) as [->|].
        + rewrite decide_False by lia. rewrite !decide_True by (done || lia). done.
        + rewrite (decide_False (P:=Constructed _ = _)) by congruence.
          destruct (decide (id < serial c)); [rewrite decide_True by lia|rewrite decide_False by lia]; lia.
      - intros id. rewrite !occurrences_app, !occurrences_one, HlD.
        rewrite (decide_False (P:=Constructed _ = _)) by congruence.
        destruct (decide (id = cid y)) as [->|Hne].
        + rewrite decide_False by naive_solver. rewrite decide_True by done.
          rewrite decide_True; [done|]. split; [lia|]. rewrite Hmem'. intros [E|[_ ?]]; [lia|done].
        + rewrite (decide_False (P:=Destroyed _ = _)) by congruence. rewrite !Nat.add_0_r.
          apply decide_ext. rewrite Hmem'. split.
          * intros [? ?]. split; [lia|]. intros [->|[? _]]; [lia|done].
          * intros [? H]. split; [|tauto]. destruct (decide (id = serial c)) as [->|]; [tauto|lia].
      - intros b. rewrite !occurrences_app, !occurrences_one, HlF. done.
      - apply log_app_constructed, log_app_destroyed; [done|]. apply occurrences_pos.
        rewrite HlC, decide_True by done. lia.
      - rewrite first_uses_snoc, Hfu, insert_length. cbn [first_uses]. rewrite decide_True; [done|].
        apply elem_of_list_fmap. exists i. split; [done|]. apply elem_of_seq. lia.
      - rewrite free_queue_snoc, Hfq. done.
      - intros a w. rewrite contents_snoc. cbn [contents].
        destruct (decide (a = addr_of i)) as [->|Hne].
        + rewrite lookup_insert. split.
          * intros [= <-]. exists i, x. rewrite Hlk, decide_True by done. done.
          * intros (j & z & <-%addr_of_inj & Hj & Hz). rewrite Hlk, decide_True in Hj by done.
            injection Hj as <-. cbn in Hz. congruence.
        + rewrite lookup_insert_ne by done. rewrite Hcs. apply exist_proper. intros j.
          apply exist_proper. intros z. rewrite Hlk.
          destruct (decide (j = i)) as [->|]; [|done]. naive_solver.
    Qed.

    Lemma erase_unused c es xs q a :
      vinv c es xs q → a ∉ first_uses [] es → vec_erase debug a c = Ub.
    Proof.
      intros (Ha & (Hc & _) & _ & (Hfu & _)) Hni. unfold vec_erase.
      destruct (cells c !! a) as [x|] eqn:E; [|done].
      apply Hc in E as (i & Hi & ->). exfalso. apply Hni. rewrite Hfu.
      apply elem_of_list_fmap. exists i. split; [done|]. apply elem_of_seq.
      apply lookup_lt_Some in Hi. lia.
    Qed.

    Lemma erase_used c es xs q a :
      vinv c es xs q → a ∈ first_uses [] es →
      match contents ∅ es !! a with
      | Some v =>
          ∃ c' xs' i, vec_erase debug a c = Ok (c', true) ∧ a = addr_of i ∧
            length xs' = length xs ∧ i < length xs ∧
            vinv c' (es ++ [EvErase a true]) xs' (q ++ [i]) ∧
            nelems (al c') = (nelems (al c) - 1)%Z ∧ nsegs (al c') = nsegs (al c)
      | None => vec_erase debug a c = Ok (c, false) ∧ vinv c (es ++ [EvErase a false]) xs q
      end.
    Proof.
      intros Hinv Hin.
      assert (vinv c (es ++ [EvErase a false]) xs q) as Hsame.
      { destruct Hinv as (H1 & H2 & H3 & (Hfu & Hfq & Hcs)). split; [done|]. split; [done|].
        split; [done|]. unfold trace_inv.
        rewrite first_uses_snoc, free_queue_snoc, contents_snoc. done. }
      destruct Hinv as
        (Ha & (Hc & Hv & Hq & Hq') & (Hid & Hids & HlC & HlD & HlF & Hbr) & (Hfu & Hfq & Hcs)).
      rewrite Hfu in Hin. apply elem_of_list_fmap in Hin as (i & -> & Hi%elem_of_seq).
      destruct (lookup_lt_is_Some_2 xs i) as [x Hx]; [lia|].
      destruct (Hv i x Hx) as [Hal Hval].
      unfold vec_erase. rewrite (proj2 (Hc (addr_of i) x)) by eauto. cbn [deref rbind].
      rewrite Hal. cbn [negb].
      destruct (contents ∅ es !! addr_of i) as [v|] eqn:Ev.
      - apply Hcs in Ev as (j & z & <-%addr_of_inj & Hz & Ez).
        rewrite Hx in Hz. injection Hz as <-. rewrite Ez. cbn [obj_valid snd negb].
        destruct (ainv_erase debug _ _ _ i Ha) as (s2 & E2 & Ha2 & Hn2 & Hg2); [lia|].
        cbn [al]. rewrite E2. cbn [rbind fst cells serial mlog].
        set (x' := Cell (cid x) true (v, false)).
        exists (Cont s2 (<[addr_of i := x']> (cells c)) (serial c) (mlog c)), (<[i := x']> xs), i.
        split; [done|]. split; [done|]. split; [by rewrite insert_length|]. split; [lia|].
        split; [|done].
        assert (∀ j, <[i:=x']> xs !! j = if decide (j = i) then Some x' else xs !! j) as Hlk.
        { intros j. destruct (decide (j = i)) as [->|].
          - apply list_lookup_insert. lia.
          - by apply list_lookup_insert_ne. }
        assert (i ∉ q) as Hiq.
        { rewrite <- Hval, Ez. done. }
        assert (cid <$> <[i:=x']> xs = cid <$> xs) as Hcid.
        { rewrite list_fmap_insert. apply list_insert_id. rewrite list_lookup_fmap, Hx. done. }
        unfold vinv, slots_inv, log_inv, trace_inv. splits; cbn [al cells serial mlog].
        + by rewrite insert_length.
        + intros a z. destruct (decide (a = addr_of i)) as [->|Hne].
          * rewrite lookup_insert. split.
            -- intros [= <-]. exists i. rewrite Hlk, decide_True by done. done.
            -- intros (j & Hj & <-%addr_of_inj). rewrite Hlk, decide_True in Hj by done. done.
          * rewrite lookup_insert_ne by done. rewrite Hc. apply exist_proper. intros j.
            rewrite Hlk. destruct (decide (j = i)) as [->|]; [|done]. naive_solver.
        + intros j z. rewrite Hlk, elem_of_app, elem_of_list_singleton.
          destruct (decide (j = i)) as [->|Hne].
          * intros [= <-]. split; [done|]. cbn. tauto.
          * intros [H1 H2]%Hv. split; [done|]. rewrite H2. tauto.
        + apply NoDup_app. split_and!; [done| |apply NoDup_singleton].
          intros j Hj ->%elem_of_list_singleton. done.
        + intros j [Hj| ->%elem_of_list_singleton]%elem_of_app; rewrite insert_length; [auto|lia].
        + by rewrite Hcid.
        + intros j z. rewrite Hlk. destruct (decide (j = i)) as [->|]; [|apply Hids].
          intros [= <-]. cbn. eauto.
        + done.
        + intros id. by rewrite Hcid.
        + done.
        + done.
        + rewrite first_uses_snoc, insert_length. done.
        + rewrite free_queue_snoc, Hfq, fmap_app. done.
        + intros a w. rewrite contents_snoc. cbn [contents].
          destruct (decide (a = addr_of i)) as [->|Hne].
          * rewrite lookup_delete. split; [done|].
            intros (j & z & <-%addr_of_inj & Hj & Hz). rewrite Hlk, decide_True in Hj by done.
            injection Hj as <-. done.
          * rewrite lookup_delete_ne by done. rewrite Hcs. apply exist_proper. intros j.
            apply exist_proper. intros z. rewrite Hlk.
            destruct (decide (j = i)) as [->|]; [|done]. naive_solver.
      - split; [|done].
        destruct (obj_valid (cval x)) eqn:Eo; [|done].
        exfalso. assert (contents ∅ es !! addr_of i = Some (cval x).1) as E.
        { apply Hcs. exists i, x. split_and!; [done..|]. destruct (cval x) as [w []]; done. }
        congruence.
    Qed.

    (* the run *)
    Lemma vrun_app c os1 os2 :
      vrun blk debug c (os1 ++ os2) =
        (let! (c, es1) := vrun blk debug c os1 in
         let! (c, es2) := vrun blk debug c os2 in Ok (c, es1 ++ es2)).
    Proof.
      revert c. induction os1 as [|o os1 IH]; intros c; cbn [app vrun rbind].
      - destruct (vrun blk debug c os2) as [[c' es]| |]; done.
      - destruct (vstep blk debug c o) as [[c' e]| |]; cbn [rbind]; [|done..].
        rewrite IH. destruct (vrun blk debug c' os1) as [[c1 es1]| |]; cbn [rbind]; [|done..].
        destruct (vrun blk debug c1 os2) as [[c2 es2]| |]; done.
    Qed.

    Lemma vstep_inv c es xs q o c' e :
      vinv c es xs q → count_inv c xs q → (∀ v b, o = Emplace v b → b = true) →
      vstep blk debug c o = Ok (c', e) →
      ∃ xs' q', vinv c' (es ++ [e]) xs' q' ∧ count_inv c' xs' q'.
    Proof.
      unfold count_inv. intros Hinv Hcnt Ho. destruct o as [v b|a]; cbn [vstep].
      - rewrite (Ho v b) by done. destruct q as [|i q].
        + destruct (emplace_fresh c es xs v true Hinv eq_refl) as (c1 & x & -> & H1 & H2 & _).
          cbn [rbind]. intros [= <- <-]. exists (xs ++ [x]), []. split; [done|].
          rewrite app_length. cbn in *. lia.
        + destruct (emplace_reused c es xs v true i q Hinv eq_refl) as (c1 & x & -> & H1 & H2 & _).
          cbn [rbind]. intros [= <- <-]. exists (<[i := x]> xs), q. split; [done|].
          rewrite insert_length. cbn in *. lia.
      - destruct (decide (a ∈ first_uses [] es)) as [Hin|Hni].
        + pose proof (erase_used c es xs q a Hinv Hin) as H.
          destruct (contents ∅ es !! a) as [v|].
          * destruct H as (c1 & xs' & i & -> & -> & Hl & Hi & H1 & H2 & _).
            cbn [rbind]. intros [= <- <-]. exists xs', (q ++ [i]). split; [done|].
            rewrite app_length. cbn. lia.
          * destruct H as [-> H]. cbn [rbind]. intros [= <- <-]. eauto.
        + by rewrite (erase_unused c es xs q a Hinv Hni).
    Qed.

    Lemma vrun_inv c es xs q os c' es' :
      vinv c es xs q → count_inv c xs q → fresh_objects os →
      vrun blk debug c os = Ok (c', es') →
      ∃ xs' q', vinv c' (es ++ es') xs' q' ∧ count_inv c' xs' q'.
    Proof.
      revert c es xs q es'. induction os as [|o os IH]; intros c es xs q es' Hinv Hcnt Hf; cbn [vrun].
      - intros [= <- <-]. rewrite app_nil_r. eauto.
      - intros ([c1 e] & H1 & ([c2 es2] & H2 & [= -> <-])%rbind_ok)%rbind_ok.
        destruct (vstep_inv c es xs q o c1 e) as (xs1 & q1 & Hinv1 & Hcnt1); [done..| |done|].
        { intros v b ->. apply (Hf v b). left. }
        destruct (IH c1 (es ++ [e]) xs1 q1 es2) as (xs2 & q2 & Hi & Hc); [done..| |done|].
        { intros v b Hb. apply (Hf v b). by right. }
        rewrite <- app_assoc in Hi. eauto.
    Qed.

    Lemma vrun_init_inv os c es :
      fresh_objects os → vrun blk debug (cont_init size) os = Ok (c, es) →
      ∃ xs q, vinv c es xs q ∧ count_inv c xs q.
    Proof.
      intros Hf H. apply (vrun_inv (cont_init size) [] [] [] os c es); [apply vinv_init|done..].
    Qed.

    (* ---- what the client sees ---- *)
    Definition slot_item es (a : addr) : option (addr * (V * bool)) :=
      (λ v, (a, (v, true))) <$> contents ∅ es !! a.

    Lemma contents_slot c es xs q i x :
      vinv c es xs q → xs !! i = Some x →
      contents ∅ es !! addr_of i = (if obj_valid (cval x) then Some (cval x).1 else None).
    Proof.
      intros (_ & _ & _ & (_ & _ & Hcs)) Hx.
      destruct (cval x) as [v []] eqn:E; cbn.
      - apply Hcs. eauto.
      - destruct (contents ∅ es !! addr_of i) as [w|] eqn:Ew; [|done].
        apply Hcs in Ew as (j & y & <-%addr_of_inj & Hy & Ey). congruence.
    Qed.

    Lemma velems_omap c es xs q k :
      vinv c es xs q → ∀ i, k = length xs - i →
      velems obj_valid i (cval <$> drop i xs) = omap (slot_item es) (addr_of <$> seq i k).
    Proof.
      intros Hinv. induction k as [|k IH]; intros i Hk.
      - rewrite drop_ge by lia. done.
      - destruct (lookup_lt_is_Some_2 xs i) as [x Hx]; [lia|].
        rewrite (drop_S xs x i) by done. cbn [fmap list_fmap velems seq].
        rewrite IH by lia. cbn [omap list_omap].
        assert (slot_item es (addr_of i) = if obj_valid (cval x) then Some (addr_of i, cval x) else None) as ->.
        { unfold slot_item. rewrite (contents_slot _ _ _ _ _ _ Hinv Hx).
          destruct (cval x) as [v []] eqn:E; done. }
        destruct (obj_valid (cval x)); done.
    Qed.

    Lemma vec_read c es xs q i x strict :
      vinv c es xs q → xs !! i = Some x → read strict c (addr_of i) = Ok (cval x).
    Proof.
      intros (_ & (Hc & Hv & _) & _) Hx. unfold read. rewrite (proj2 (Hc _ _)) by eauto.
      cbn. destruct (Hv i x Hx) as [-> _]. by rewrite andb_false_r.
    Qed.

    Lemma vec_range c es xs q :
      vinv c es xs q →
      cont_range obj_valid true c = Ok (omap (slot_item es) (first_uses [] es)).
    Proof.
      intros Hinv. pose proof Hinv as (Ha & _ & _ & (Hfu & _)).
      rewrite (cont_range_spec obj_valid true c (cval <$> xs) q).
      - rewrite Hfu. f_equal. rewrite <- (velems_omap c es xs q) by (done || lia). done.
      - by rewrite fmap_length.
      - intros i v Hi. rewrite list_lookup_fmap in Hi.
        destruct (xs !! i) as [x|] eqn:Hx; [|done]. injection Hi as <-. by eapply vec_read.
    Qed.

    Lemma contents_first_uses c es xs q a v :
      vinv c es xs q → contents ∅ es !! a = Some v → a ∈ first_uses [] es.
    Proof.
      intros (_ & _ & _ & (-> & _ & Hcs)) (i & x & -> & Hx & _)%Hcs.
      apply elem_of_list_fmap. exists i. split; [done|]. apply elem_of_seq.
      apply lookup_lt_Some in Hx. lia.
    Qed.

    Lemma first_uses_nodup c es xs q : vinv c es xs q → NoDup (first_uses [] es).
    Proof.
      intros (_ & _ & _ & (-> & _)). apply NoDup_fmap_2_strong; [|apply NoDup_seq].
      intros i j _ _. apply addr_of_inj.
    Qed.

    Lemma vec_range_perm c es xs q :
      vinv c es xs q →
      (λ p, (p.1, p.2.1)) <$> omap (slot_item es) (first_uses [] es) ≡ₚ map_to_list (contents ∅ es).
    Proof.
      intros Hinv.
      assert ((λ p : addr * (V * bool), (p.1, p.2.1)) <$> omap (slot_item es) (first_uses [] es)
              = omap (λ a, (λ v, (a, v)) <$> contents ∅ es !! a) (first_uses [] es)) as ->.
      { induction (first_uses [] es) as [|a l IH]; [done|]. cbn. unfold slot_item at 1.
        destruct (contents ∅ es !! a); cbn; rewrite IH; done. }
      apply NoDup_Permutation.
      - pose proof (first_uses_nodup _ _ _ _ Hinv) as Hnd.
        induction Hnd as [|a l Ha Hnd IH]; [constructor|]. cbn.
        destruct (contents ∅ es !! a) as [v|]; cbn; [|done].
        constructor; [|done]. intros (b & Hb & Eb)%elem_of_list_omap.
        destruct (contents ∅ es !! b); [|done]. injection Eb as -> _. done.
      - apply NoDup_map_to_list.
      - intros [a v]. rewrite elem_of_map_to_list, elem_of_list_omap. split.
        + intros (b & _ & Eb). destruct (contents ∅ es !! b) eqn:E; [|done].
          by injection Eb as -> ->.
        + intros E. exists a. split; [by eapply contents_first_uses|]. by rewrite E.
    Qed.

    Lemma contents_count c es xs q :
      vinv c es xs q → base.size (contents ∅ es) + length q = length xs.
    Proof.
      intros Hinv. pose proof Hinv as (_ & (_ & Hv & Hq & Hq') & _ & (Hfu & _ & Hcs)).
      assert (dom (contents ∅ es) =
              list_to_set (addr_of <$> filter (λ i, i ∉ q) (seq 0 (length xs))) :> gset addr) as Hdom.
      { apply set_eq. intros a. rewrite elem_of_dom, elem_of_list_to_set, elem_of_list_fmap. split.
        - intros [v (i & x & -> & Hx & Ex)%Hcs]. exists i. split; [done|].
          apply elem_of_list_filter. split.
          + destruct (Hv i x Hx) as [_ <-]. by rewrite Ex.
          + apply elem_of_seq. apply lookup_lt_Some in Hx. lia.
        - intros (i & -> & (Hi & Hi'%elem_of_seq)%elem_of_list_filter).
          destruct (lookup_lt_is_Some_2 xs i) as [x Hx]; [lia|].
          rewrite (contents_slot _ _ _ _ _ _ Hinv Hx).
          destruct (Hv i x Hx) as [_ Hval]. destruct (obj_valid (cval x)); [by eexists|].
          exfalso. apply Hi. by apply Hval. }
      rewrite <- size_dom, Hdom. rewrite size_list_to_set.
      2:{ apply NoDup_fmap_2_strong; [intros i j _ _; apply addr_of_inj|].
          apply NoDup_filter, NoDup_seq. }
      rewrite fmap_length.
      assert (q ≡ₚ filter (λ i, i ∈ q) (seq 0 (length xs))) as Hqp.
      { apply NoDup_Permutation; [done|apply NoDup_filter, NoDup_seq|].
        intros i. rewrite elem_of_list_filter, elem_of_seq. split; [|tauto].
        intros Hi. split; [done|]. apply Hq' in Hi. lia. }
      rewrite (Permutation_length Hqp).
      assert (∀ l, length (filter (λ i, i ∉ q) l) + length (filter (λ i, i ∈ q) l) = length l) as Hsplit.
      { intros l. induction l as [|i l IH]; [done|]. rewrite !filter_cons.
        destruct (decide (i ∈ q)).
        - rewrite decide_False by tauto. cbn. lia.
        - rewrite decide_True by done. cbn. lia. }
      by rewrite Hsplit, seq_length.
    Qed.

    Lemma vec_size c es xs q :
      vinv c es xs q → count_inv c xs q → cont_size c = Z.of_nat (base.size (contents ∅ es)).
    Proof.
      intros Hinv Hc. pose proof (contents_count _ _ _ _ Hinv). unfold count_inv in Hc.
      unfold cont_size, alloc_size. lia.
    Qed.

    Lemma vec_capacity c es xs q :
      vinv c es xs q →
      cont_capacity c = Z.of_nat (size * ((length (first_uses [] es) + size - 1) / size)).
    Proof.
      intros (Ha & _ & _ & (-> & _)). unfold cont_capacity, alloc_capacity.
      rewrite (ainv_nsegs _ _ _ Ha), fmap_length, seq_length. destruct Ha as (-> & _). lia.
    Qed.

    Lemma vec_read_contents c es xs q a v strict :
      vinv c es xs q → contents ∅ es !! a = Some v → read strict c a = Ok (v, true).
    Proof.
      intros Hinv Hc. pose proof Hinv as (_ & _ & _ & (_ & _ & Hcs)).
      apply Hcs in Hc as (i & x & -> & Hx & <-). by eapply vec_read.
    Qed.

    Lemma emplace_location c es xs q v c' a :
      vinv c es xs q → vec_emplace blk debug v true c = Ok (c', a) →
      contents ∅ es !! a = None ∧
      match free_queue [] es with
      | b :: _ => a = b
      | [] => a ∉ first_uses [] es
      end.
    Proof.
      intros Hinv He. pose proof Hinv as (_ & (_ & Hv & _) & _ & (Hfu & Hfq & Hcs)).
      rewrite Hfq, Hfu. destruct q as [|i q]; cbn.
      - destruct (emplace_fresh c es xs v true Hinv eq_refl) as (c1 & x & E & _).
        rewrite E in He. injection He as <- <-.
        assert (addr_of (length xs) ∉ addr_of <$> seq 0 (length xs)) as Hni.
        { intros (i & E'%addr_of_inj & Hi%elem_of_seq)%elem_of_list_fmap. lia. }
        split; [|done]. destruct (contents ∅ es !! addr_of (length xs)) eqn:E'; [|done].
        exfalso. apply Hni. rewrite <- Hfu. by eapply contents_first_uses.
      - destruct (emplace_reused c es xs v true i q Hinv eq_refl) as (c1 & x & E & _).
        rewrite E in He. injection He as <- <-. split; [|done].
        destruct (slot_exists _ _ _ _ i Hinv) as [y Hy]; [left|].
        rewrite (contents_slot _ _ _ _ _ _ Hinv Hy).
        destruct (Hv i y Hy) as [_ [_ ->]]; [done|left].
    Qed.

    Lemma emplace_total c es xs q v :
      vinv c es xs q → ∃ c' a, vec_emplace blk debug v true c = Ok (c', a).
    Proof.
      intros Hinv. destruct q as [|i q].
      - destruct (emplace_fresh c es xs v true Hinv eq_refl) as (c1 & x & -> & _). eauto.
      - destruct (emplace_reused c es xs v true i q Hinv eq_refl) as (c1 & x & -> & _). eauto.
    Qed.

    Lemma emplace_capacity c es xs q v c' a :
      vinv c es xs q → count_inv c xs q → vec_emplace blk debug v true c = Ok (c', a) →
      cont_capacity c' = (if decide (free_queue [] es = [] ∧ cont_size c = cont_capacity c)
                          then cont_capacity c + Z.of_nat size else cont_capacity c)%Z.
    Proof.
      intros Hinv Hcnt He. pose proof Hinv as (Ha & _ & _ & (_ & Hfq & _)).
      unfold count_inv in Hcnt. unfold cont_size, alloc_size, cont_capacity, alloc_capacity.
      pose proof Ha as (Hs & _). rewrite Hfq. destruct q as [|i q].
      - destruct (emplace_fresh c es xs v true Hinv eq_refl) as (c1 & x & E & ((Hs1 & _) & _) & _ & Hg).
        rewrite E in He. injection He as <- <-. rewrite Hg, Hs, Hs1.
        cbn in Hcnt.
        destruct (decide (length xs = nsegs (al c) * size)).
        + rewrite decide_True; [lia|]. split; [done|lia].
        + rewrite decide_False; [lia|]. intros [_ ?]. lia.
      - destruct (emplace_reused c es xs v true i q Hinv eq_refl) as (c1 & x & E & ((Hs1 & _) & _) & _ & Hg).
        rewrite E in He. injection He as <- <-. rewrite Hg, Hs, Hs1.
        rewrite decide_False; [done|]. intros [? _]. done.
    Qed.

    Lemma vec_index c es xs q i a :
      vinv c es xs q → first_uses [] es !! i = Some a → cont_index c (Z.of_nat i) = Ok a.
    Proof.
      intros (Ha & _ & _ & (-> & _)) Hi. rewrite list_lookup_fmap in Hi.
      destruct (seq 0 (length xs) !! i) as [j|] eqn:E; [|done]. injection Hi as <-.
      apply lookup_seq in E as [-> Hlt]. by eapply alloc_index_spec.
    Qed.

    Lemma vec_index_out c es xs q i :
      vinv c es xs q → (cont_capacity c <= i)%Z → cont_index c i = Abort.
    Proof.
      intros (Ha & _) Hi. eapply alloc_index_out; [done|].
      unfold cont_capacity, alloc_capacity in Hi. destruct Ha as (Hs & _). by rewrite <- Hs.
    Qed.

    Lemma first_uses_prefix es1 es2 l :
      first_uses l es1 `prefix_of` first_uses l (es1 ++ es2).
    Proof.
      revert l. induction es1 as [|[] es1 IH]; intros l; cbn; [|apply IH..].
      revert l. induction es2 as [|[v b a|] es2 IH]; intros l; cbn; [done| |apply IH].
      etrans; [|apply IH]. case_decide; [done|]. by apply prefix_app_r.
    Qed.

    (* the destructor *)
    Lemma destroy_all_spec {B} l : ∀ (c : cont B) (xs : list (cell B)) i,
      l = addr_of <$> seq i (length xs - i) → i <= length xs →
      (∀ a x, (∃ j, i <= j ∧ xs !! j = Some x ∧ a = addr_of j) → cells c !! a = Some x) →
      ∃ c' : cont B, destroy_all l c = Ok c' ∧ al c' = al c ∧ serial c' = serial c ∧
        mlog c' = mlog c ++ (Destroyed <$> (cid <$> drop i xs)).
    Proof.
      induction l as [|a l IH]; intros c xs i Hl Hi Hc.
      - exists c. split_and!; [done..|]. destruct (length xs - i) eqn:E; [|done].
        rewrite drop_ge by lia. by rewrite app_nil_r.
      - destruct (length xs - i) as [|k] eqn:E; [done|]. cbn in Hl. injection Hl as -> Hl.
        destruct (lookup_lt_is_Some_2 xs i) as [x Hx]; [lia|].
        cbn [destroy_all]. unfold destroy.
        rewrite (Hc (addr_of i) x) by eauto. cbn [deref rbind].
        set (c1 := Cont _ _ _ _).
        destruct (IH c1 xs (S i)) as (c' & -> & Ha & Hs & Hlog).
        { rewrite Hl. f_equal. f_equal. lia. }
        { lia. }
        { intros a y (j & Hj & Hy & ->). cbn. rewrite lookup_insert_ne.
          - apply Hc. exists j. split; [lia|done].
          - intros E'%addr_of_inj. lia. }
        exists c'. split; [done|]. split; [done|]. split; [done|].
        rewrite Hlog. cbn. rewrite <- app_assoc. cbn. by rewrite (drop_S xs x i).
    Qed.

    Lemma vec_destroy c es xs q :
      vinv c es xs q →
      ∃ c', cont_destroy c = Ok c' ∧ serial c' = serial c ∧
        mlog c' = mlog c ++ (Destroyed <$> (cid <$> xs)) ++ (Freed <$> (blk <$> seq 0 (nsegs (al c)))).
    Proof.
      intros (Ha & (Hc & _) & _). unfold cont_destroy.
      rewrite (raw_range_spec _ _ _ Ha). cbn [rbind].
      destruct (destroy_all_spec (addr_of <$> seq 0 (length xs)) c xs 0) as (c' & -> & Ea & Es & El).
      { by rewrite Nat.sub_0_r. }
      { lia. }
      { intros a x (j & _ & Hx & ->). apply Hc. eauto. }
      cbn [rbind]. rewrite Ea, (alloc_destroy_spec _ _ _ Ha). cbn [rbind].
      eexists. split; [done|]. cbn. rewrite El, <- app_assoc. done.
    Qed.

    Lemma occurrences_fmap_other {B} (f : B → mevent) l e :
      (∀ b, f b ≠ e) → occurrences e (f <$> l) = 0.
    Proof.
      intros Hf. induction l as [|b l IH]; [done|]. cbn.
      change (occurrences e ([f b] ++ (f <$> l)) = 0).
      rewrite occurrences_app, occurrences_one, decide_False by done. done.
    Qed.
    Lemma occurrences_fmap_inj (f : nat → mevent) l b :
      (∀ b b', f b = f b' → b = b') → NoDup l →
      occurrences (f b) (f <$> l) = if decide (b ∈ l) then 1 else 0.
    Proof.
      intros Hf Hnd. induction Hnd as [|x l Hx Hnd IH]; [done|]. cbn [fmap list_fmap].
      change (f x :: (f <$> l)) with ([f x] ++ (f <$> l)).
      rewrite occurrences_app, occurrences_one, IH.
      destruct (decide (x = b)) as [->|Hne].
      - rewrite decide_True by done. rewrite decide_False by done. rewrite decide_True by left. done.
      - rewrite decide_False by auto. apply decide_ext. rewrite elem_of_cons. naive_solver.
    Qed.

    Lemma vec_lifetime c es xs q :
      vinv c es xs q →
      ∃ c', cont_destroy c = Ok c' ∧
        (∀ id, occurrences (Constructed id) (mlog c') = if decide (id < serial c) then 1 else 0) ∧
        (∀ id, occurrences (Destroyed id) (mlog c') = occurrences (Constructed id) (mlog c')) ∧
        (∀ l1 l2 id, mlog c' = l1 ++ Destroyed id :: l2 → Constructed id ∈ l1) ∧
        (∀ k, occurrences (Freed (blk k)) (mlog c') = if decide (k < nsegs (al c)) then 1 else 0).
    Proof.
      intros Hinv. destruct (vec_destroy _ _ _ _ Hinv) as (c' & Hd & Hs & Hlog).
      exists c'. split; [done|]. rewrite Hlog.
      destruct Hinv as (_ & _ & (Hid & Hids & HlC & HlD & HlF & Hbr) & _).
      assert (∀ id, occurrences (Constructed id)
                (mlog c ++ (Destroyed <$> (cid <$> xs)) ++ (Freed <$> (blk <$> seq 0 (nsegs (al c))))) =
              if decide (id < serial c) then 1 else 0) as HC.
      { intros id. rewrite !occurrences_app, HlC.
        rewrite !occurrences_fmap_other by done. lia. }
      split; [exact HC|]. split; [|split].
      - intros id. rewrite HC. rewrite !occurrences_app, HlD.
        rewrite (occurrences_fmap_other Freed) by done.
        rewrite occurrences_fmap_inj; [|congruence|done].
        destruct (decide (id ∈ cid <$> xs)) as [Hin|Hni].
        + rewrite decide_False by tauto. rewrite decide_True; [done|].
          apply elem_of_list_fmap in Hin as (x & -> & (i & Hx)%elem_of_list_lookup). eauto.
        + destruct (decide (id < serial c)); [rewrite decide_True by done|rewrite decide_False by tauto]; lia.
      - assert (∀ ids, (∀ id, id ∈ ids → Constructed id ∈ mlog c) →
          ∀ l1 l2 id, mlog c ++ (Destroyed <$> ids) = l1 ++ Destroyed id :: l2 → Constructed id ∈ l1) as Hb1.
        { intros ids. induction ids as [|x ids IH] using rev_ind; intros Hin.
          - rewrite app_nil_r. exact Hbr.
          - rewrite fmap_app, app_assoc. cbn. apply log_app_destroyed.
            + apply IH. intros id Hid'. apply Hin, elem_of_app. by left.
            + apply elem_of_app. left. apply Hin, elem_of_app. right. by apply elem_of_list_singleton. }
        rewrite app_assoc. generalize (blk <$> seq 0 (nsegs (al c))) as bs. intros bs.
        induction bs as [|b bs IH] using rev_ind.
        + rewrite app_nil_r. apply Hb1. intros id (x & -> & (i & Hx)%elem_of_list_lookup)%elem_of_list_fmap.
          apply occurrences_pos. rewrite HlC, decide_True by eauto. lia.
        + rewrite fmap_app, app_assoc. intros l1 l2 id E. destruct l2 as [|y l2 _] using rev_ind.
          * by apply app_inj_tail in E as [_ ?].
          * rewrite app_comm_cons, (app_assoc l1) in E. apply app_inj_tail in E as [E _]. eauto.
      - intros k. rewrite !occurrences_app, HlF.
        rewrite (occurrences_fmap_other Destroyed) by done.
        rewrite occurrences_fmap_inj; [|congruence|].
        2:{ apply NoDup_fmap_2_strong; [|apply NoDup_seq]. intros i j _ _. apply Hblk. }
        cbn. apply decide_ext. rewrite elem_of_list_fmap. split.
        + intros (j & ->%Hblk & Hj%elem_of_seq). lia.
        + intros Hk. exists k. split; [done|]. apply elem_of_seq. lia.
    Qed.

    Lemma next_all_valid c es xs i :
      vinv c es xs [] → i < length xs →
      ∃ it, iter_next (al c) (it_at (al c) i) = Ok it ∧
        citer_next obj_valid (cfuel c) true c (it_at (al c) i) = Ok it ∧
        (if decide (S i = length xs) then iptr it = aend (al c) else it = it_at (al c) (S i)).
    Proof.
      intros Hinv Hi. pose proof Hinv as (Ha & (_ & Hv & _) & _).
      destruct (iter_next_at _ _ _ _ Ha Hi) as (it & E & Hit). exists it. split; [done|].
      unfold cfuel. cbn [citer_next]. rewrite E. cbn [rbind].
      destruct (decide (S i = length xs)) as [HS|HS].
      - destruct Hit as [H1 H2]. rewrite decide_True by congruence. done.
      - subst it. cbn [iptr iend it_at]. rewrite decide_False.
        2:{ eapply addr_of_ne_end; [done|lia]. }
        cbn [deref rbind]. destruct (lookup_lt_is_Some_2 xs (S i)) as [x Hx]; [lia|].
        rewrite (vec_read _ _ _ _ _ _ true Hinv Hx). cbn [rbind].
        destruct (Hv _ _ Hx) as [_ Hval]. destruct (obj_valid (cval x)); [done|].
        exfalso. by apply (not_elem_of_nil (S i)), Hval.
    Qed.

    Lemma advance_all_valid c es xs k it :
      vinv c es xs [] → cont_advance obj_valid k true c = Ok it →
      iptr it = aend (al c) ∨ (k < length xs ∧ it = it_at (al c) k).
    Proof.
      intros Hinv. pose proof Hinv as (Ha & (_ & Hv & _) & _). revert it.
      induction k as [|k IH]; intros it; cbn [cont_advance].
      - destruct (cont_begin_first obj_valid true c (cval <$> xs) []) as (it' & -> & Hf).
        { by rewrite fmap_length. }
        { intros i v Hi. rewrite list_lookup_fmap in Hi.
          destruct (xs !! i) as [x|] eqn:Hx; [|done]. injection Hi as <-. by eapply vec_read. }
        intros [= <-]. destruct xs as [|x xs]; cbn in Hf; [by left; apply Hf|].
        destruct (Hv 0 x eq_refl) as [_ Hval]. destruct (obj_valid (cval x)) eqn:E.
        + right. split; [cbn; lia|done].
        + exfalso. by apply (not_elem_of_nil 0), Hval.
      - destruct (cont_advance obj_valid k true c) as [it1| |]; cbn [rbind]; [|done..].
        destruct (IH it1 eq_refl) as [He|[Hk ->]]; intros Hn.
        + by rewrite decide_True in Hn.
        + rewrite decide_False in Hn by (by eapply addr_of_ne_end).
          destruct (next_all_valid c es xs k Hinv Hk) as (it2 & _ & E & Hit).
          rewrite E in Hn. injection Hn as <-. destruct (decide (S k = length xs)); [by left|].
          right. split; [lia|done].
    Qed.

    Lemma postfix_agrees c es xs k it :
      vinv c es xs [] → cont_advance obj_valid k true c = Ok it → iptr it ≠ aend (al c) →
      citer_next obj_valid (cfuel c) true c it = citer_next_postfix c it.
    Proof.
      intros Hinv Hit Hne.
      destruct (advance_all_valid c es xs k it Hinv Hit) as [?|[Hk ->]]; [done|].
      destruct (next_all_valid c es xs k Hinv Hk) as (it2 & E1 & E2 & _).
      unfold citer_next_postfix. by rewrite E1.
    Qed.

  End vector.
End proofs.
