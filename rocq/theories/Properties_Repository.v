(* C11, C61-C63: repositories of reference counted resources. *)
From stdpp Require Import base gmap list.
From Coq Require Import Lia ZArith.
From Verif Require Import Base M_SegAlloc S_SegAlloc P_SegAlloc M_Repository S_Repository P_Repository.

Notation injective f := (∀ i j, f i = f j → i = j).

Section with_blocks.
  Context {V : Type}.
  Implicit Types (os : list (rop (V:=V))) (es : list (revent (V:=V))) (c : cont (V * Z)).

  (* C61: a range-for over a repository visits, once each and in slot order, the resources that were
     emplaced, not erased, and are held by at least one pointer, each with its number of holders. *)
  Theorem C61_iteration_visits_resources_in_use blk size debug os c es :
    injective blk → 0 < size →
    rrun blk false debug (cont_init size) os = Ok (c, es) → disciplined ∅ es →
    cont_range rsc_valid false c =
      Ok (omap (λ a, match held ∅ es !! a with
                     | Some (v, k) => if (0 <? k)%Z then Some (a, (v, k)) else None
                     | None => None
                     end) (rfirst_uses [] es)).
  Proof.
    intros Hb Hs Hr Hd. destruct (rrun_init_inv blk Hb size Hs debug os c es Hr Hd) as (xs & q & Hi).
    exact (repo_range blk Hb size Hs c es xs q Hi).
  Qed.

  (* size() counts the resources emplaced and not erased, held or not *)
  Theorem C61_size blk size debug os c es :
    injective blk → 0 < size →
    rrun blk false debug (cont_init size) os = Ok (c, es) → disciplined ∅ es →
    cont_size c = Z.of_nat (base.size (held ∅ es)).
  Proof.
    intros Hb Hs Hr Hd. destruct (rrun_init_inv blk Hb size Hs debug os c es Hr Hd) as (xs & q & Hi).
    exact (repo_size blk Hb size Hs c es xs q Hi).
  Qed.

  (* a resource that was not erased keeps its value and its count whatever else happens *)
  Theorem C61_handle_stable blk size debug os c es a v k :
    injective blk → 0 < size →
    rrun blk false debug (cont_init size) os = Ok (c, es) → disciplined ∅ es →
    held ∅ es !! a = Some (v, k) →
    read true c a = Ok (v, k).
  Proof.
    intros Hb Hs Hr Hd Hh. destruct (rrun_init_inv blk Hb size Hs debug os c es Hr Hd) as (xs & q & Hi).
    eapply repo_read; eassumption.
  Qed.

  (* C63: emplace never returns the location of a resource that is in the repository; it reuses the
     erased locations, first erased first, and only those: a location whose last pointer was dropped
     without an erase is never reused. *)
  Theorem C63_only_erased_locations_are_reused blk size debug os c es v :
    injective blk → 0 < size →
    rrun blk false debug (cont_init size) os = Ok (c, es) → disciplined ∅ es →
    ∃ c' a, repo_emplace blk false debug v c = Ok (c', a) ∧ held ∅ es !! a = None ∧
      match rfree_queue [] es with
      | b :: _ => a = b
      | [] => a ∉ rfirst_uses [] es
      end.
  Proof.
    intros Hb Hs Hr Hd. destruct (rrun_init_inv blk Hb size Hs debug os c es Hr Hd) as (xs & q & Hi).
    exact (repo_emplace_location blk Hb size Hs debug c es xs q v Hi).
  Qed.

  (* C11, what holds: every resource is destroyed once or twice, and exactly once for all of them
     precisely when every erased location was reused before the end. *)
  Theorem C11_once_iff_every_erased_location_reused_partial blk size debug os c es :
    injective blk → 0 < size →
    rrun blk false debug (cont_init size) os = Ok (c, es) → disciplined ∅ es →
    ∃ c', cont_destroy c = Ok c' ∧
      (∀ id, occurrences (Constructed id) (mlog c') = if decide (id < serial c) then 1 else 0) ∧
      ((∀ id, id < serial c → occurrences (Destroyed id) (mlog c') = 1) ↔ rfree_queue [] es = []) ∧
      (∀ id, id < serial c → 1 <= occurrences (Destroyed id) (mlog c') <= 2).
  Proof.
    intros Hb Hs Hr Hd. destruct (rrun_init_inv blk Hb size Hs debug os c es Hr Hd) as (xs & q & Hi).
    destruct (repo_lifetime blk Hb size Hs c es xs q Hi) as (c' & H1 & H2 & H3 & H4).
    exists c'. split; [done|]. split; [done|]. split; [|done]. rewrite H3.
    destruct Hi as (_ & _ & _ & (_ & -> & _) & _). by destruct q.
  Qed.
  Lemma rrun_snoc blk strict debug os c0 c es o c' e :
    rrun blk strict debug c0 os = Ok (c, es) → rstep blk strict debug c o = Ok (c', e) →
    rrun blk strict debug c0 (os ++ [o]) = Ok (c', es ++ [e]).
  Proof.
    revert c0 es. induction os as [|o' os IH]; intros c0 es Hr He; cbn [rrun app] in *.
    - injection Hr as <- <-. by rewrite He.
    - apply rbind_ok in Hr as ([c1 e1] & H1 & Hr). apply rbind_ok in Hr as ([c2 es2] & H2 & [= <- <-]).
      rewrite H1. cbn [rbind]. by rewrite (IH _ _ H2 He).
  Qed.
  Lemma disciplined_app m es es' : disciplined m (es ++ es') ↔ disciplined m es ∧ disciplined (held m es) es'.
  Proof.
    revert m. induction es as [|e es IH]; intros m; cbn [disciplined app held fold_left]; [tauto|].
    rewrite IH. unfold held. tauto.
  Qed.

  (* C62, as far as it holds: if resources are erased only through their last pointer, a pointer in use
     keeps designating its resource, in whatever way the other resources come and go *)
  Theorem C62_in_use_partial blk size debug os c es os' c' es' a v k :
    injective blk → 0 < size →
    rrun blk false debug (cont_init size) os = Ok (c, es) → rrun blk false debug c os' = Ok (c', es') →
    disciplined ∅ (es ++ es') → held ∅ es !! a = Some (v, k) → EvRErase a ∉ es' →
    ∃ k', held ∅ (es ++ es') !! a = Some (v, k') ∧ read true c' a = Ok (v, k').
  Proof.
    intros Hb Hs Hr Hr' Hd Hh Hno. revert c es os k Hr Hr' Hd Hh. revert es' Hno.
    induction os' as [|o os' IH]; intros es' Hno c es os k Hr Hr' Hd Hh; cbn [rrun] in Hr'.
    - injection Hr' as <- <-. rewrite app_nil_r in *. exists k. split; [done|]. by eapply C61_handle_stable.
    - apply rbind_ok in Hr' as ([c1 e] & H1 & Hr'). apply rbind_ok in Hr' as ([c2 es2] & H2 & [= <- <-]).
      pose proof (rrun_snoc _ _ _ _ _ _ _ _ _ _ Hr H1) as Hr1.
      replace (es ++ e :: es2) with ((es ++ [e]) ++ es2) in * by (by rewrite <- app_assoc).
      assert (∃ k', held ∅ (es ++ [e]) !! a = Some (v, k')) as (k' & Hk').
      { unfold held. rewrite fold_left_app. fold (held ∅ es). cbn [fold_left].
        assert (Hd1 : disciplined ∅ es) by (rewrite <- app_assoc in Hd; by apply disciplined_app in Hd as [? _]).
        destruct o as [w|b|b|b]; cbn [rstep] in H1.
        - apply rbind_ok in H1 as ([c3 b] & Hb' & [= <- <-]). cbn [held1].
          destruct (C63_only_erased_locations_are_reused blk size debug os c es w Hb Hs Hr Hd1) as (c4 & b' & Hb'' & Hn & _).
          rewrite Hb' in Hb''. injection Hb'' as <- <-. rewrite lookup_insert_ne by congruence. eauto.
        - apply rbind_ok in H1 as (c3 & _ & [= <- <-]). cbn [held1].
          destruct (decide (b = a)) as [->|]; [rewrite lookup_alter, Hh; cbn; eauto|rewrite lookup_alter_ne by done; eauto].
        - apply rbind_ok in H1 as (c3 & _ & [= <- <-]). cbn [held1].
          destruct (decide (b = a)) as [->|]; [rewrite lookup_alter, Hh; cbn; eauto|rewrite lookup_alter_ne by done; eauto].
        - apply rbind_ok in H1 as (c3 & _ & [= <- <-]). cbn [held1].
          rewrite lookup_delete_ne; [eauto|]. intros ->. apply Hno. left. }
      eapply (IH es2); [|exact Hr1|exact H2|exact Hd|exact Hk']. intros H. apply Hno. by right.
  Qed.
End with_blocks.
Print Assumptions C61_iteration_visits_resources_in_use.
Print Assumptions C62_in_use_partial.
Print Assumptions C61_size.
Print Assumptions C61_handle_stable.
Print Assumptions C63_only_erased_locations_are_reused.
Print Assumptions C11_once_iff_every_erased_location_reused_partial.

(* ---- counterexamples ---- *)

(* C11: emplace, erase through the only pointer, end of the repository: destroyed twice. *)
Theorem C11_destroyed_twice_refuted :
  ∃ (os : list (rop (V:=nat))) c es c',
    rrun (λ k, k) false true (cont_init 2) os = Ok (c, es) ∧ disciplined ∅ es ∧
    cont_destroy c = Ok c' ∧
    mlog c' = [Constructed 0; Destroyed 0; Destroyed 0; Freed 0].
Proof.
  eexists [REmplace 7; RErase (0, 0)], _, _, _. split; [vm_compute; reflexivity|].
  split; [cbn; split; [done|]; split; [|done]; exists 7; by rewrite lookup_insert|].
  split; vm_compute; reflexivity.
Qed.
Print Assumptions C11_destroyed_twice_refuted.

(* C11: in the semantics of the standard every erase of a resource is undefined: after calling the
   destructor, erase releases the reference held in the destroyed object. *)
Theorem C11_erase_touches_destroyed_resource_refuted :
  ∀ {V} debug (c : cont (V * Z)) a c', repo_erase true debug a c ≠ Ok c'.
Proof.
  intros V debug c a c' H. unfold repo_erase in H.
  apply rbind_ok in H as (s & _ & H). cbn zeta in H. apply rbind_ok in H as (c1 & Hd & Ha).
  unfold destroy in Hd. apply rbind_ok in Hd as (x & _ & [= <-]).
  unfold add_ref in Ha. cbn [cells] in Ha. rewrite lookup_insert in Ha. discriminate Ha.
Qed.
Print Assumptions C11_erase_touches_destroyed_resource_refuted.

(* C62 is false: erase through one of two pointers erases the resource (the location is reused by
   the next emplace) although another pointer is in use; that pointer now designates the new
   resource, and dropping it makes the new resource, still held, invisible to iteration. *)
Theorem C62_erase_while_shared_refuted :
  ∃ (c c' c'' : cont (nat * Z)) es es' es'',
    rrun (λ k, k) false true (cont_init 2) [REmplace 7; RCopy (0, 0); RErase (0, 0)] = Ok (c, es) ∧
    (* the erased resource is still visited *)
    cont_range rsc_valid false c = Ok [((0, 0), (7, 1%Z))] ∧ cont_size c = 0%Z ∧
    (* its location is given to another resource while the second pointer designates it *)
    rrun (λ k, k) false true c [REmplace 8] = Ok (c', es') ∧ es' = [EvREmplace 8 (0, 0)] ∧
    (* the first owner drops its pointer: the new resource disappears from iteration *)
    rrun (λ k, k) false true c' [RDrop (0, 0)] = Ok (c'', es'') ∧
    cont_range rsc_valid false c'' = Ok [] ∧ cont_size c'' = 1%Z.
Proof.
  eexists _, _, _, _, _, _. split; [vm_compute; reflexivity|]. split; [vm_compute; reflexivity|].
  split; [vm_compute; reflexivity|]. split; [vm_compute; reflexivity|]. split; [vm_compute; reflexivity|].
  split; [vm_compute; reflexivity|]. split; vm_compute; reflexivity.
Qed.
Print Assumptions C62_erase_while_shared_refuted.

(* C63 as documented is false: nothing is in use, the next emplace takes a new location. *)
Theorem C63_unused_reused_refuted :
  ∃ (os : list (rop (V:=nat))) c es c' a,
    rrun (λ k, k) false true (cont_init 2) os = Ok (c, es) ∧ disciplined ∅ es ∧
    cont_range rsc_valid false c = Ok [] ∧ cont_size c = 1%Z ∧
    repo_emplace (λ k, k) false true 8 c = Ok (c', a) ∧ a ∉ rfirst_uses [] es.
Proof.
  eexists [REmplace 7; RDrop (0, 0)], _, _, _, _. split; [vm_compute; reflexivity|].
  split; [cbn; split; [done|]; split; [|done]; exists 7, 1%Z; by rewrite lookup_insert|].
  split; [vm_compute; reflexivity|]. split; [vm_compute; reflexivity|].
  split; [vm_compute; reflexivity|]. cbn. rewrite decide_False by (by apply not_elem_of_nil).
  rewrite elem_of_list_singleton. done.
Qed.
Print Assumptions C63_unused_reused_refuted.

(* ---- the hypotheses are met ---- *)
Definition demo_rops : list (rop (V:=nat)) :=
  [REmplace 10; REmplace 11; REmplace 12; RCopy (0, 1); RDrop (0, 0); RErase (1, 0); RCopy (0, 1);
   REmplace 13; RErase (1, 0); REmplace 14].
Example demo_repo : ∃ c es,
  rrun (λ k, k) false true (cont_init 2) demo_rops = Ok (c, es) ∧ disciplined ∅ es ∧
  rfirst_uses [] es = [(0, 0); (0, 1); (1, 0)] ∧
  cont_range rsc_valid false c = Ok [((0, 1), (11, 3%Z)); ((1, 0), (14, 1%Z))] ∧
  cont_size c = 3%Z ∧ rfree_queue [] es = [].
Proof.
  eexists _, _. split; [vm_compute; reflexivity|].
  split.
  { cbn [disciplined held1].
    repeat split; try done;
      first [eexists _, _; split; [vm_compute; reflexivity|lia] | eexists; vm_compute; reflexivity]. }
  split; [vm_compute; reflexivity|]. split; [vm_compute; reflexivity|].
  split; vm_compute; reflexivity.
Qed.
