(* C05-C10, C12, C13: segmented vectors (SegmentedAllocator, its iterators, SegmentedVector).

   In every theorem [blk k] is the block of memory returned by the k-th allocation; the hypothesis
   says that different allocations return different blocks. [os] is any sequence of calls of emplace
   and erase on a new vector, [es] the calls with what they returned, [c] the state reached. A run is
   [Ok] unless the client erases a location that never held an element (C09_defined). *)
From stdpp Require Import base gmap list.
From Coq Require Import Lia ZArith.
From Verif Require Import Base M_SegAlloc S_SegAlloc P_SegAlloc.

Notation injective f := (∀ i j, f i = f j → i = j).

Section with_blocks.
  Context {V : Type}.
  Implicit Types (os : list (vop (V:=V))) (es : list (vevent (V:=V))) (c : cont (V * bool)).

  (* C05: a range-for visits the live elements, once each, in slot order, and nothing else: the
     sequence visited is the sequence of the locations ever handed out in order of first use, keeping
     those that hold a live element. *)
  Theorem C05_iteration_in_slot_order blk size debug os c es :
    injective blk → 0 < size → fresh_objects os →
    vrun blk debug (cont_init size) os = Ok (c, es) →
    cont_range obj_valid true c =
      Ok (omap (λ a, (λ v, (a, (v, true))) <$> contents ∅ es !! a) (first_uses [] es)).
  Proof.
    intros Hb Hs Hf Hr. destruct (vrun_init_inv blk Hb size Hs debug os c es Hf Hr) as (xs & q & Hi & _).
    exact (vec_range blk Hb size Hs c es xs q Hi).
  Qed.

  Theorem C05_iteration_exactly_live blk size debug os c es l :
    injective blk → 0 < size → fresh_objects os →
    vrun blk debug (cont_init size) os = Ok (c, es) →
    cont_range obj_valid true c = Ok l →
    (λ p, (p.1, p.2.1)) <$> l ≡ₚ map_to_list (contents ∅ es).
  Proof.
    intros Hb Hs Hf Hr Hl. destruct (vrun_init_inv blk Hb size Hs debug os c es Hf Hr) as (xs & q & Hi & _).
    rewrite (vec_range blk Hb size Hs c es xs q Hi) in Hl. injection Hl as <-.
    exact (vec_range_perm blk Hb size Hs c es xs q Hi).
  Qed.

  (* C06 *)
  Theorem C06_size_is_number_of_live blk size debug os c es :
    injective blk → 0 < size → fresh_objects os →
    vrun blk debug (cont_init size) os = Ok (c, es) →
    cont_size c = Z.of_nat (base.size (contents ∅ es)).
  Proof.
    intros Hb Hs Hf Hr. destruct (vrun_init_inv blk Hb size Hs debug os c es Hf Hr) as (xs & q & Hi & Hc).
    exact (vec_size blk Hb size Hs c es xs q Hi Hc).
  Qed.

  (* whole segments, just enough for the locations handed out so far *)
  Theorem C06_capacity blk size debug os c es :
    injective blk → 0 < size → fresh_objects os →
    vrun blk debug (cont_init size) os = Ok (c, es) →
    ∃ k, cont_capacity c = Z.of_nat (k * size) ∧
      length (first_uses [] es) <= k * size < length (first_uses [] es) + size ∧
      (cont_size c <= cont_capacity c)%Z.
  Proof.
    intros Hb Hs Hf Hr. destruct (vrun_init_inv blk Hb size Hs debug os c es Hf Hr) as (xs & q & Hi & Hc).
    pose proof (vec_capacity blk size Hs c es xs q Hi) as Ecap.
    exists ((length (first_uses [] es) + size - 1) / size).
    set (n := length (first_uses [] es)) in *.
    pose proof (Nat.div_mod (n + size - 1) size ltac:(lia)) as E.
    pose proof (Nat.mod_upper_bound (n + size - 1) size ltac:(lia)) as E'.
    split; [rewrite Ecap; f_equal; lia|]. split; [lia|].
    rewrite Ecap, (vec_size blk Hb size Hs c es xs q Hi Hc).
    pose proof (contents_count blk Hb size Hs c es xs q Hi).
    destruct Hi as (_ & _ & _ & (Hfu & _)). unfold n in *. rewrite Hfu, fmap_length, seq_length in *. lia.
  Qed.

  Theorem C06_capacity_never_shrinks blk size debug os1 os2 c1 es1 c2 es2 :
    injective blk → 0 < size → fresh_objects (os1 ++ os2) →
    vrun blk debug (cont_init size) os1 = Ok (c1, es1) →
    vrun blk debug c1 os2 = Ok (c2, es2) →
    (cont_capacity c1 <= cont_capacity c2)%Z.
  Proof.
    intros Hb Hs Hf H1 H2.
    destruct (vrun_init_inv blk Hb size Hs debug os1 c1 es1) as (xs1 & q1 & Hi1 & Hc1); [|done|].
    { intros v b Hin. apply (Hf v b), elem_of_app. by left. }
    destruct (vrun_inv blk Hb size Hs debug c1 es1 xs1 q1 os2 c2 es2) as (xs2 & q2 & Hi2 & _); [done..| |done|].
    { intros v b Hin. apply (Hf v b), elem_of_app. by right. }
    rewrite (vec_capacity blk size Hs _ _ _ _ Hi1), (vec_capacity blk size Hs _ _ _ _ Hi2).
    pose proof (prefix_length _ _ (first_uses_prefix es1 es2 [])) as Hp.
    apply inj_le, Nat.mul_le_mono_l, Nat.div_le_mono; lia.
  Qed.

  (* emplace adds one segment when no slot is free, i.e. none is waiting for reuse and all the
     allocated ones hold an element; otherwise the capacity does not change *)
  Theorem C06_capacity_grows_when_full blk size debug os c es v c' a :
    injective blk → 0 < size → fresh_objects os →
    vrun blk debug (cont_init size) os = Ok (c, es) →
    vec_emplace blk debug v true c = Ok (c', a) →
    cont_capacity c' = (if decide (free_queue [] es = [] ∧ cont_size c = cont_capacity c)
                        then cont_capacity c + Z.of_nat size else cont_capacity c)%Z.
  Proof.
    intros Hb Hs Hf Hr He. destruct (vrun_init_inv blk Hb size Hs debug os c es Hf Hr) as (xs & q & Hi & Hc).
    exact (emplace_capacity blk Hb size Hs debug c es xs q v c' a Hi Hc He).
  Qed.

  (* C07 *)
  Theorem C07_handle_stable blk size debug os c es a v :
    injective blk → 0 < size → fresh_objects os →
    vrun blk debug (cont_init size) os = Ok (c, es) →
    contents ∅ es !! a = Some v →
    read true c a = Ok (v, true).
  Proof.
    intros Hb Hs Hf Hr Hv. destruct (vrun_init_inv blk Hb size Hs debug os c es Hf Hr) as (xs & q & Hi & _).
    eapply vec_read_contents; eassumption.
  Qed.

  (* emplace always succeeds, never returns the location of a live element, and takes the location
     freed first among those waiting for reuse, or a location never used before if there is none *)
  Theorem C07_no_alias_and_fifo_reuse blk size debug os c es v :
    injective blk → 0 < size → fresh_objects os →
    vrun blk debug (cont_init size) os = Ok (c, es) →
    ∃ c' a, vec_emplace blk debug v true c = Ok (c', a) ∧
      contents ∅ es !! a = None ∧
      match free_queue [] es with
      | b :: _ => a = b
      | [] => a ∉ first_uses [] es
      end.
  Proof.
    intros Hb Hs Hf Hr. destruct (vrun_init_inv blk Hb size Hs debug os c es Hf Hr) as (xs & q & Hi & _).
    destruct (emplace_total blk Hb size Hs debug c es xs q v Hi) as (c' & a & He).
    exists c', a. split; [done|].
    exact (emplace_location blk Hb size Hs debug c es xs q v c' a Hi He).
  Qed.

  (* C08 *)
  Theorem C08_index_is_order_of_first_use blk size debug os c es i a :
    injective blk → 0 < size → fresh_objects os →
    vrun blk debug (cont_init size) os = Ok (c, es) →
    first_uses [] es !! i = Some a →
    cont_index c (Z.of_nat i) = Ok a.
  Proof.
    intros Hb Hs Hf Hr Ha. destruct (vrun_init_inv blk Hb size Hs debug os c es Hf Hr) as (xs & q & Hi & _).
    eapply vec_index; eassumption.
  Qed.

  Theorem C08_index_past_capacity_fails blk size debug os c es i :
    injective blk → 0 < size → fresh_objects os →
    vrun blk debug (cont_init size) os = Ok (c, es) →
    (cont_capacity c <= i)%Z →
    cont_index c i = Abort.
  Proof.
    intros Hb Hs Hf Hr Ha. destruct (vrun_init_inv blk Hb size Hs debug os c es Hf Hr) as (xs & q & Hi & _).
    eapply vec_index_out; eassumption.
  Qed.

  (* C09: erase returns true exactly when the location holds a live element; otherwise it changes
     nothing. *)
  Theorem C09_erase_repeatable blk size debug os c es a :
    injective blk → 0 < size → fresh_objects os →
    vrun blk debug (cont_init size) os = Ok (c, es) →
    a ∈ first_uses [] es →
    match contents ∅ es !! a with
    | Some _ => ∃ c', vec_erase debug a c = Ok (c', true)
    | None => vec_erase debug a c = Ok (c, false)
    end.
  Proof.
    intros Hb Hs Hf Hr Ha. destruct (vrun_init_inv blk Hb size Hs debug os c es Hf Hr) as (xs & q & Hi & _).
    pose proof (erase_used blk Hb size Hs debug c es xs q a Hi Ha) as H.
    destruct (contents ∅ es !! a).
    - destruct H as (c' & xs' & i & H & _). eauto.
    - apply H.
  Qed.

  (* the only misuse is erasing a location that was never handed out *)
  Theorem C09_defined blk size debug os c es o :
    injective blk → 0 < size → fresh_objects (os ++ [o]) →
    vrun blk debug (cont_init size) os = Ok (c, es) →
    (∃ c' e, vstep blk debug c o = Ok (c', e)) ↔
      match o with Emplace _ _ => True | Erase a => a ∈ first_uses [] es end.
  Proof.
    intros Hb Hs Hf Hr. destruct (vrun_init_inv blk Hb size Hs debug os c es) as (xs & q & Hi & _).
    { intros v b Hin. apply (Hf v b), elem_of_app. by left. }
    { done. }
    destruct o as [v b|a]; cbn [vstep].
    - rewrite (Hf v b) by (apply elem_of_app; right; left).
      destruct (emplace_total blk Hb size Hs debug c es xs q v Hi) as (c' & a & ->). cbn. naive_solver.
    - destruct (decide (a ∈ first_uses [] es)) as [Hin|Hni].
      + pose proof (erase_used blk Hb size Hs debug c es xs q a Hi Hin) as H.
        destruct (contents ∅ es !! a).
        * destruct H as (c' & xs' & i & -> & _). cbn. naive_solver.
        * destruct H as [-> _]. cbn. naive_solver.
      + erewrite erase_unused by eassumption. cbn. naive_solver.
  Qed.

  (* C09: the check that the allocator makes on a location given back to it, in a debug build: it
     stops the program exactly for the locations outside its segments. A slot of the last segment
     that was never used passes it. *)
  Theorem C09_allocator_check blk size debug os c es a :
    injective blk → 0 < size → fresh_objects os →
    vrun blk debug (cont_init size) os = Ok (c, es) →
    alloc_erase true a (al c) = Abort ↔
    ¬ ∃ k j, (Z.of_nat (k * size) < alloc_capacity (al c))%Z ∧ j < size ∧ a = (blk k, j).
  Proof.
    intros Hb Hs Hf Hr. destruct (vrun_init_inv blk Hb size Hs debug os c es Hf Hr) as (xs & q & Hi & _).
    destruct Hi as ((Hsz & _ & _ & _ & Hst & _) & _).
    assert (Hcheck : erase_check a (Alloc (ssize (al c)) (abegin (al c)) (aend (al c))
        (aend_alloc (al c)) (nsegs (al c)) (nelems (al c) - 1) (avail (al c) ++ [a])
        (starts (al c)) (links (al c)) (nalloc (al c))) = true ↔
      ∃ k j, (Z.of_nat (k * size) < alloc_capacity (al c))%Z ∧ j < size ∧ a = (blk k, j)).
    { unfold erase_check. cbn [starts nsegs ssize]. rewrite existsb_exists. unfold alloc_capacity.
      rewrite Hsz. split.
      - intros (k & Hk & H). apply in_seq in Hk. rewrite Hst in H. rewrite decide_True in H by lia.
        destruct a as [b j]. cbn in H. apply andb_true_iff in H as [H H2].
        apply andb_true_iff in H as [H1 _]. apply bool_decide_eq_true in H1 as ->.
        apply Nat.ltb_lt in H2. exists k, j. split; [nia|]. split; [lia|done].
      - intros (k & j & Hk & Hj & ->). assert (k < nsegs (al c)) by nia. exists k.
        split; [apply in_seq; lia|]. rewrite Hst, decide_True by done. cbn.
        rewrite bool_decide_eq_true_2 by done. cbn. by apply Nat.ltb_lt. }
    rewrite <- Hcheck. unfold alloc_erase, assert_. destruct (erase_check _ _); cbn; naive_solver.
  Qed.

  (* C10: from construction to the end of the destructor, every element constructed is destroyed
     exactly once, after its construction, nothing else is destroyed, and every block obtained from
     the system is returned exactly once. *)
  Theorem C10_destroyed_exactly_once blk size debug os c es :
    injective blk → 0 < size → fresh_objects os →
    vrun blk debug (cont_init size) os = Ok (c, es) →
    ∃ c', cont_destroy c = Ok c' ∧
      (∀ id, occurrences (Constructed id) (mlog c') = if decide (id < serial c) then 1 else 0) ∧
      (∀ id, occurrences (Destroyed id) (mlog c') = occurrences (Constructed id) (mlog c')) ∧
      (∀ l1 l2 id, mlog c' = l1 ++ Destroyed id :: l2 → Constructed id ∈ l1) ∧
      (∀ k, occurrences (Freed (blk k)) (mlog c') = if decide (k < nsegs (al c)) then 1 else 0).
  Proof.
    intros Hb Hs Hf Hr. destruct (vrun_init_inv blk Hb size Hs debug os c es Hf Hr) as (xs & q & Hi & _).
    exact (vec_lifetime blk Hb size Hs c es xs q Hi).
  Qed.

  (* C12, what holds: when no slot is waiting for reuse, it++ and ++it agree at every position. *)
  Theorem C12_postfix_agrees_partial blk size debug os c es k it :
    injective blk → 0 < size → fresh_objects os →
    vrun blk debug (cont_init size) os = Ok (c, es) →
    free_queue [] es = [] →
    cont_advance obj_valid k true c = Ok it → iptr it ≠ aend (al c) →
    citer_next_postfix c it = citer_next obj_valid (cfuel c) true c it.
  Proof.
    intros Hb Hs Hf Hr Hq Hit Hne.
    destruct (vrun_init_inv blk Hb size Hs debug os c es Hf Hr) as (xs & q & Hi & _).
    assert (q = []) as ->.
    { destruct Hi as (_ & _ & _ & (_ & Hfq & _)). rewrite Hfq in Hq. by destruct q. }
    symmetry. exact (postfix_agrees blk Hb size Hs c es xs k it Hi Hit Hne).
  Qed.

  (* C13: a vector used with calls [os1], then moved; afterwards the new vector is used with [os2]
     and the source with [os3] (the source takes its blocks [blk'] from the same heap). The new one
     behaves as the old one continued with [os2], the source as a new vector used with [os3]. *)
  Theorem C13_move blk blk' size debug os1 os2 os3 c es1 c1 es2 c0 es3 :
    injective blk → injective blk' → 0 < size → fresh_objects (os1 ++ os2 ++ os3) →
    vrun blk debug (cont_init size) os1 = Ok (c, es1) →
    vrun blk debug (cont_move c).1 os2 = Ok (c1, es2) →
    vrun blk' debug (cont_move c).2 os3 = Ok (c0, es3) →
    vrun blk debug (cont_init size) (os1 ++ os2) = Ok (c1, es1 ++ es2) ∧
    vrun blk' debug (cont_init size) os3 = Ok (c0, es3) ∧
    cont_range obj_valid true c1 =
      Ok (omap (λ a, (λ v, (a, (v, true))) <$> contents ∅ (es1 ++ es2) !! a) (first_uses [] (es1 ++ es2))) ∧
    cont_range obj_valid true c0 =
      Ok (omap (λ a, (λ v, (a, (v, true))) <$> contents ∅ es3 !! a) (first_uses [] es3)) ∧
    cont_size (cont_move c).1 = cont_size c ∧ cont_capacity (cont_move c).1 = cont_capacity c ∧
    cont_size (cont_move c).2 = 0%Z ∧ cont_capacity (cont_move c).2 = 0%Z ∧
    (∃ d, cont_destroy (cont_move c).2 = Ok d ∧ mlog d = []).
  Proof.
    intros Hb Hb' Hs Hf H1 H2 H3.
    assert (fresh_objects os1 ∧ fresh_objects os2 ∧ fresh_objects os3) as (Hf1 & Hf2 & Hf3).
    { split_and!; intros v b Hin; apply (Hf v b); rewrite !elem_of_app; tauto. }
    destruct (vrun_init_inv blk Hb size Hs debug os1 c es1 Hf1 H1) as (xs & q & Hi & _).
    assert (ssize (al c) = size) as Esz by (by destruct Hi as ((? & _) & _)).
    assert ((cont_move c).1 = c) as E1 by (by destruct c).
    assert ((cont_move c).2 = cont_init size) as E0.
    { destruct c as [a ? ? ?]. cbn in *. by rewrite Esz. }
    rewrite E0 in H3. rewrite E1 in H2.
    assert (vrun blk debug (cont_init size) (os1 ++ os2) = Ok (c1, es1 ++ es2)) as H12.
    { rewrite vrun_app, H1. cbn [rbind]. by rewrite H2. }
    split; [done|]. split; [done|]. split; [|split].
    - apply (C05_iteration_in_slot_order blk size debug (os1 ++ os2)); [done..| |done].
      intros v b Hin. apply (Hf v b). rewrite !elem_of_app in *. tauto.
    - by apply (C05_iteration_in_slot_order blk' size debug os3).
    - rewrite E1, E0. split_and!; [done..|]. eexists. split; [reflexivity|done].
  Qed.
End with_blocks.

(* ---- counterexamples ---- *)

(* C06 does not hold when elements are built by copying an erased element: the flag is copied
   (Invalidatable.h), the new element is counted by size() and never visited. *)
Theorem C06_size_after_copying_erased_refuted :
  ∃ (os : list (vop (V:=nat))) c es,
    vrun (λ k, k) true (cont_init 2) os = Ok (c, es) ∧
    cont_size c = 1%Z ∧ cont_range obj_valid true c = Ok [].
Proof. eexists [Emplace 7 false], _, _. split; [vm_compute; reflexivity|]. split; vm_compute; reflexivity. Qed.

(* C12: after erasing the middle of three elements, it++ from the first stops on the erased one,
   ++it on the third. *)
Theorem C12_postfix_refuted :
  ∃ (os : list (vop (V:=nat))) c es it it1 it2,
    fresh_objects os ∧
    vrun (λ k, k) true (cont_init 4) os = Ok (c, es) ∧
    cont_begin obj_valid true c = Ok it ∧
    citer_next obj_valid (cfuel c) true c it = Ok it1 ∧ iptr it1 = Some (0, 2) ∧
    citer_next_postfix c it = Ok it2 ∧ iptr it2 = Some (0, 1) ∧
    read true c (0, 1) = Ok (8, false).
Proof.
  eexists [Emplace 7 true; Emplace 8 true; Emplace 9 true; Erase (0, 1)], _, _, _, _, _.
  split.
  { intros v b. rewrite !elem_of_cons, elem_of_nil. naive_solver. }
  split; [vm_compute; reflexivity|]. split; [vm_compute; reflexivity|].
  split; [vm_compute; reflexivity|]. split; [vm_compute; reflexivity|].
  split; [vm_compute; reflexivity|]. split; vm_compute; reflexivity.
Qed.

(* ---- the hypotheses are met ---- *)

(* segments of two slots; five elements, two erased, one of the two slots reused *)
Definition demo_ops : list (vop (V:=nat)) :=
  [Emplace 10 true; Emplace 11 true; Emplace 12 true; Emplace 13 true; Emplace 14 true;
   Erase (3, 0); Erase (7, 1); Emplace 15 true; Erase (7, 1)].
Definition demo_blk (k : nat) : nat := 4 * k + 3.

Example demo_injective : injective demo_blk.
Proof. unfold demo_blk. intros. lia. Qed.
Example demo_fresh : fresh_objects demo_ops.
Proof. intros v b. unfold demo_ops. rewrite !elem_of_cons, elem_of_nil. naive_solver. Qed.
(* the allocator takes the slot (11, 1), never used, and stops for (11, 2), past its segment *)
Example demo_check : ∃ c es,
  vrun demo_blk true (cont_init 2) demo_ops = Ok (c, es) ∧
  alloc_erase true (11, 1) (al c) ≠ Abort ∧ alloc_erase true (11, 2) (al c) = Abort.
Proof.
  eexists _, _. split; [vm_compute; reflexivity|]. split; [by vm_compute|vm_compute; reflexivity].
Qed.
Example demo_run : ∃ c es,
  vrun demo_blk true (cont_init 2) demo_ops = Ok (c, es) ∧
  first_uses [] es = [(3, 0); (3, 1); (7, 0); (7, 1); (11, 0)] ∧
  free_queue [] es = [(7, 1)] ∧
  cont_range obj_valid true c = Ok [((3, 0), (15, true)); ((3, 1), (11, true)); ((7, 0), (12, true)); ((11, 0), (14, true))] ∧
  cont_size c = 4%Z ∧ cont_capacity c = 6%Z ∧
  cont_index c 3 = Ok (7, 1) ∧ cont_index c 6 = Abort ∧
  vec_erase true (7, 1) c = Ok (c, false).
Proof.
  eexists _, _. split; [vm_compute; reflexivity|].
  split; [vm_compute; reflexivity|]. split; [vm_compute; reflexivity|].
  split; [vm_compute; reflexivity|]. split; [vm_compute; reflexivity|].
  split; [vm_compute; reflexivity|]. split; [vm_compute; reflexivity|].
  split; [vm_compute; reflexivity|]. vm_compute; reflexivity.
Qed.
(* C12: all slots in use, an iterator in the middle *)
Example demo_full : ∃ (c : cont (nat * bool)) es it,
  vrun demo_blk true (cont_init 2) [Emplace 1 true; Emplace 2 true; Emplace 3 true] = Ok (c, es) ∧
  free_queue [] es = [] ∧ cont_advance obj_valid 1 true c = Ok it ∧ iptr it ≠ aend (al c).
Proof.
  eexists _, _, _. split; [vm_compute; reflexivity|]. split; [vm_compute; reflexivity|].
  split; [vm_compute; reflexivity|]. vm_compute. congruence.
Qed.
(* C13: a move in the middle of a history, both containers used afterwards *)
Example demo_move : ∃ (c : cont (nat * bool)) es1 c1 es2 c0 es3,
  vrun demo_blk true (cont_init 2) demo_ops = Ok (c, es1) ∧
  vrun demo_blk true (cont_move c).1 [Emplace 16 true; Erase (11, 0)] = Ok (c1, es2) ∧
  vrun (λ k, 4 * k) true (cont_move c).2 [Emplace 17 true] = Ok (c0, es3) ∧
  cont_range obj_valid true c1 = Ok [((3, 0), (15, true)); ((3, 1), (11, true)); ((7, 0), (12, true)); ((7, 1), (16, true))] ∧
  cont_range obj_valid true c0 = Ok [((0, 0), (17, true))].
Proof.
  eexists _, _, _, _, _, _. split; [vm_compute; reflexivity|]. split; [vm_compute; reflexivity|].
  split; [vm_compute; reflexivity|]. split; vm_compute; reflexivity.
Qed.

Print Assumptions C05_iteration_in_slot_order.
Print Assumptions C05_iteration_exactly_live.
Print Assumptions C06_size_is_number_of_live.
Print Assumptions C06_capacity.
Print Assumptions C06_capacity_never_shrinks.
Print Assumptions C06_capacity_grows_when_full.
Print Assumptions C07_handle_stable.
Print Assumptions C07_no_alias_and_fifo_reuse.
Print Assumptions C08_index_is_order_of_first_use.
Print Assumptions C08_index_past_capacity_fails.
Print Assumptions C09_erase_repeatable.
Print Assumptions C09_defined.
Print Assumptions C09_allocator_check.
Print Assumptions C10_destroyed_exactly_once.
Print Assumptions C12_postfix_agrees_partial.
Print Assumptions C13_move.
Print Assumptions C06_size_after_copying_erased_refuted.
Print Assumptions C12_postfix_refuted.
