(* Erasing simplices: the invariant is kept, and exactly what is not used any more is removed. *)
From stdpp Require Import base gmap list.
From Verif Require Import Base M_Perm S_Perm P_Perm M_Topology S_Topology P_Topology.

Local Ltac splits := repeat match goal with |- _ ∧ _ => split end.

Definition listed (st : topo) (k m : nat) : Prop :=
  ∃ f c, fps st !! (S k, f) = Some c ∧ m ∈ c.
Definition usedO (st : topo) (k m : nat) : Prop := 0 < held (hO st) (k, m) ∨ listed st k m.
Definition usedF (st : topo) (k f : nat) : Prop :=
  0 < held (hF st) (k, f) ∨ ∃ o s, ors st !! (k, o) = Some (f, s).

Lemma sum_list_with_pos {A} (f : A → nat) l : sum_list_with f l ≠ 0 → ∃ x, x ∈ l ∧ f x ≠ 0.
Proof.
  induction l as [|a l IH]; cbn [sum_list_with]; [done|]. intros H.
  destruct (decide (f a = 0)) as [Ha|Ha].
  - destruct IH as (x & ? & ?); [lia|]. exists x. split; [by right|done].
  - exists a. split; [by left|done].
Qed.

Lemma refsO_cases st N o : listed st N o ∨ refsO st N o = held (hO st) (N, o).
Proof.
  unfold refsO. destruct (decide (sum_list_with
    (λ '((d, _), c), if decide (d = S N) then count o c else 0) (map_to_list (fps st)) = 0))
    as [H|H]; [right; lia|left].
  apply sum_list_with_pos in H as ([[d f] c] & Hx & H).
  case_decide; [|done]. subst. apply elem_of_map_to_list in Hx. exists f, c. split; [done|].
  destruct (decide (o ∈ c)) as [|Hn]; [done|]. by apply count_0 in Hn.
Qed.
Lemma refsF_cases st N f :
  (∃ o s, ors st !! (N, o) = Some (f, s)) ∨ refsF st N f = held (hF st) (N, f).
Proof.
  unfold refsF. destruct (decide (sum_list_with
    (λ '((d, _), (g, _)), if decide (d = N ∧ g = f) then 1 else 0) (map_to_list (ors st)) = 0))
    as [H|H]; [right; lia|left].
  apply sum_list_with_pos in H as ([[d o] [g s]] & Hx & H).
  case_decide as Hd; [|done]. destruct Hd as [-> ->]. apply elem_of_map_to_list in Hx. eauto.
Qed.
Lemma refsO_listed_lt st N o : listed st N o → held (hO st) (N, o) < refsO st N o.
Proof.
  intros (f & c & Hf & Ho). pose proof (refsO_ge st N o).
  destruct (decide (refsO st N o = held (hO st) (N, o))) as [He|]; [|lia].
  by destruct (proj1 (refsO_listed st N o) He f c Hf).
Qed.
Lemma refsF_ridden_lt st N f o s : ors st !! (N, o) = Some (f, s) → held (hF st) (N, f) < refsF st N f.
Proof.
  intros Ho. pose proof (refsF_ge st N f).
  destruct (decide (refsF st N f = held (hF st) (N, f))) as [He|]; [|lia].
  by destruct (proj1 (refsF_ridden st N f) He o s).
Qed.

(* ---- one oriented simplex ---- *)
Lemma erase_oriented_spec st N o :
  Inv st → has st N o →
  (1 < refsO st N o ∧ erase_oriented N o st = Ok (st, false)) ∨
  (refsO st N o ≤ 1 ∧ ∃ f s st',
     ors st !! (N, o) = Some (f, s) ∧ erase_oriented N o st = Ok (st', true) ∧ Inv st' ∧
     ors st' = delete (N, o) (ors st) ∧
     held (hO st') (N, o) = 0 ∧
     (∀ k, k ≠ (N, o) → held (hO st') k = held (hO st) k) ∧
     (∀ k, held (hF st') k = held (hF st) k) ∧
     ((fps st' = fps st ∧
       (0 < held (hF st) (N, f) ∨ ∃ o' s', o' ≠ o ∧ ors st !! (N, o') = Some (f, s'))) ∨
      (fps st' = delete (N, f) (fps st) ∧ held (hF st) (N, f) = 0 ∧
       ∀ o' s', ors st !! (N, o') = Some (f, s') → o' = o))).
Proof.
  intros HI Hhas. unfold erase_oriented.
  destruct (Nat.ltb_spec 1 (refsO st N o)) as [Hr|Hr]; [by left|right]. split; [done|].
  destruct (i_hO _ HI _ _ Hhas) as [[f s] Ho]. unfold oriented. rewrite Ho. cbn [deref rbind].
  destruct (i_or _ HI _ _ _ _ Ho) as ([c Hc] & Hom & Hs).
  pose proof (refsO_ge st N o) as Hge. unfold has in Hhas.
  assert (Hh1 : held (hO st) (N, o) = 1) by lia.
  assert (Hnl : ∀ g d, fps st !! (S N, g) = Some d → o ∉ d) by (apply refsO_listed; lia).
  (* the state after the removal of the oriented simplex *)
  set (st2 := dropO N o _).
  assert (Hors2 : ors st2 = delete (N, o) (ors st)) by done.
  assert (Hfps2 : fps st2 = fps st) by done.
  assert (HhF2 : ∀ k, held (hF st2) k = held (hF (holdF N f st)) k) by done.
  assert (HI2 : Inv st2).
  { assert (Hrep : ∀ M c r, (∀ o', o' ∈ c → is_Some (ors st !! (pred M, o')) ∧ (pred M = N → o' ≠ o)) →
       representative st M c = Ok r → representative st2 M c = Ok r).
    { intros M d r Hd <-. apply representative_ext. intros x Hx. rewrite Hors2.
      rewrite lookup_delete_ne; [done|]. intros [= HM Hx']. by destruct (Hd x Hx) as [_ []]. }
    destruct HI. constructor.
    - intros M p g t. rewrite Hors2, Hfps2. intros [Hne Hp]%lookup_delete_Some.
      destruct (i_or _ _ _ _ Hp) as (? & Hm & ?). splits; try done.
      unfold st2, dropO, holdF, upd_hO, upd_hF. cbn [omap]. rewrite lookup_delete_ne; [done|].
      intros [= -> -> ->]. congruence.
    - intros M g t p. unfold st2, dropO, holdF, upd_hO, upd_hF. cbn [omap ors].
      intros [Hne Hp]%lookup_delete_Some. apply i_om in Hp. rewrite lookup_delete_ne; [done|].
      intros [= -> ->]. rewrite Ho in Hp. congruence.
    - intros g d. rewrite Hfps2. apply i_f0.
    - intros M g d. rewrite Hfps2, Hors2. intros Hg. destruct (i_fS _ _ _ Hg) as [? Hd].
      split; [done|]. intros x Hx. rewrite lookup_delete_ne; [by apply Hd|].
      intros [= -> ->]. by eapply Hnl.
    - intros M g d. rewrite Hfps2. intros Hg. destruct (i_cm _ _ _ Hg) as (r & Hr' & ?).
      exists r. split; [|done]. apply Hrep; [|done]. intros x Hx. cbn [pred].
      split; [by apply (i_fS _ _ _ Hg)|]. intros -> ->. by eapply Hnl.
    - intros M r g Hg. destruct (i_mc _ _ _ Hg) as (M' & d & -> & Hd & Hr').
      exists M', d. splits; [done|by rewrite Hfps2|]. apply Hrep; [|done]. intros x Hx. cbn [pred].
      split; [by apply (i_fS _ _ _ Hd)|]. intros -> ->. by eapply Hnl.
    - intros M p Hp. rewrite Hors2. unfold has, st2, dropO, holdF, upd_hO, upd_hF in Hp.
      cbn [hO] in Hp. rewrite held_dec in Hp. case_decide as Hd.
      + injection Hd as <- <-. lia.
      + rewrite lookup_delete_ne by done. by apply i_hO.
    - intros M g Hg. rewrite Hfps2. unfold hasF in Hg. rewrite HhF2 in Hg.
      unfold holdF, upd_hF in Hg. cbn [hF] in Hg. rewrite held_inc in Hg. case_decide as Hd.
      + injection Hd as <- <-. eauto.
      + by apply i_hF. }
  assert (HhF2f : held (hF st2) (N, f) = S (held (hF st) (N, f))).
  { rewrite HhF2. unfold holdF, upd_hF. cbn [hF]. rewrite held_inc. by rewrite decide_True. }
  assert (HhO2o : held (hO st2) (N, o) = 0).
  { unfold st2, dropO, holdF, upd_hO, upd_hF. cbn [hO]. rewrite held_dec, decide_True by done. lia. }
  assert (HhO2 : ∀ k, k ≠ (N, o) → held (hO st2) k = held (hO st) k).
  { intros k Hk. unfold st2, dropO, holdF, upd_hO, upd_hF. cbn [hO].
    rewrite held_dec, decide_False by done. done. }
  assert (HhFend : ∀ k h, (∀ k', held h k' = held (hF st2) k') → held (dec (N, f) h) k = held (hF st) k).
  { intros k h Hh. rewrite held_dec. case_decide as Hd.
    - rewrite Hh, <- Hd, HhF2f. done.
    - rewrite Hh, HhF2. unfold holdF, upd_hF. cbn [hF]. by rewrite held_inc, decide_False. }
  unfold erase_footprint. destruct (Nat.ltb_spec 1 (refsF st2 N f)) as [Hrf|Hrf].
  - (* the footprint is in use *)
    cbn [rbind]. eexists f, s, (dropF N f st2). splits; try done.
    + by apply Inv_dropF.
    + intros k. by apply HhFend.
    + left. split; [done|]. destruct (refsF_cases st2 N f) as [(o' & s' & Ho')|He].
      * right. rewrite Hors2 in Ho'. apply lookup_delete_Some in Ho' as [Hne Ho'].
        exists o', s'. split; [|done]. by intros ->.
      * left. lia.
  - (* it goes too *)
    pose proof (refsF_ge st2 N f) as Hgf.
    assert (Hnr : ∀ p t, ors st2 !! (N, p) ≠ Some (f, t)) by (apply refsF_ridden; lia).
    assert (Honly : ∀ p t, ors st !! (N, p) = Some (f, t) → p = o).
    { intros p t Hp. destruct (decide (p = o)) as [|Hne]; [done|]. exfalso. apply (Hnr p t).
      rewrite Hors2, lookup_delete_ne; [done|]. by intros [= ->]. }
    assert (HhF0 : held (hF st) (N, f) = 0) by lia.
    assert (Hfin : ∀ cm,
      (∀ M r g, cm !! (M, r) = Some g → cmap st2 !! (M, r) = Some g ∧ (M, g) ≠ (N, f)) →
      (∀ M r g, cmap st2 !! (M, r) = Some g → (M, g) ≠ (N, f) → cm !! (M, r) = Some g) →
      Inv (dropF N f (Topo (delete (N, f) (fps st2)) (ors st2) cm (omap st2) (hO st2) (hF st2) (clk st2)))).
    { intros cm Hcm1 Hcm2.
      assert (Hrep : ∀ M d, representative (dropF N f (Topo (delete (N, f) (fps st2)) (ors st2) cm
        (omap st2) (hO st2) (hF st2) (clk st2))) M d = representative st2 M d).
      { intros. by apply representative_ext. }
      destruct HI2. unfold dropF, upd_hF in *. cbn [fps ors cmap omap hO hF clk] in *.
      constructor; cbn [fps ors cmap omap hO hF clk]; try done.
      - intros M p g t Hp. destruct (i_or _ _ _ _ Hp) as (Hg & ? & ?). splits; try done.
        rewrite lookup_delete_ne; [done|]. intros [= -> ->]. by apply (Hnr p t).
      - intros g d [_ Hg]%lookup_delete_Some. eauto.
      - intros M g d [_ Hg]%lookup_delete_Some. eauto.
      - intros M g d [Hne Hg]%lookup_delete_Some. destruct (i_cm _ _ _ Hg) as (r & Hr' & ?).
        exists r. rewrite Hrep. split; [done|]. apply Hcm2; [done|]. congruence.
      - intros M r g Hg. apply Hcm1 in Hg as [Hg Hne].
        destruct (i_mc _ _ _ Hg) as (M' & d & -> & Hd & Hr'). exists M', d. rewrite Hrep.
        splits; [done| |done]. by rewrite lookup_delete_ne.
      - unfold hasF in *. cbn [hF] in *. intros M g. rewrite held_dec. case_decide as Hd.
        + injection Hd as <- <-. lia.
        + rewrite lookup_delete_ne by done. apply i_hF. }
    assert (∃ st3, (match N with
      | 0 => let! _ := fcomposition st2 N f in
          Ok (Topo (delete (N, f) (fps st2)) (ors st2) (cmap st2) (omap st2) (hO st2) (hF st2) (clk st2))
      | S _ => let! c := fcomposition st2 N f in let! r := representative st2 N c in
          Ok (Topo (delete (N, f) (fps st2)) (ors st2) (delete (N, r) (cmap st2)) (omap st2) (hO st2)
                (hF st2) (clk st2))
      end) = Ok st3 ∧ Inv (dropF N f st3) ∧ ors st3 = ors st2 ∧ fps st3 = delete (N, f) (fps st) ∧
      hO st3 = hO st2 ∧ hF st3 = hF st2) as (st3 & Hst3 & HI3 & Hors3 & Hfps3 & HhO3 & HhF3).
    { unfold fcomposition. rewrite Hfps2, Hc. cbn [deref rbind]. destruct N as [|N'].
      - eexists. splits; try done. apply Hfin; [|done]. intros M r g Hg. split; [done|].
        intros [= -> ->]. by apply (i_mc _ HI2) in Hg as (? & ? & ? & _).
      - rewrite <- Hfps2 in Hc. destruct (i_cm _ HI2 _ _ _ Hc) as (r & -> & Hr'). cbn [rbind].
        eexists. splits; try done. apply Hfin.
        + intros M r' g [Hne Hg]%lookup_delete_Some. split; [done|]. intros [= -> ->].
          apply (i_mc _ HI2) in Hg as (N1 & c1 & [= <-] & Hc1 & Hr1).
          rewrite Hc in Hc1. injection Hc1 as <-.
          destruct (i_cm _ HI2 _ _ _ Hc) as (r2 & Hr2 & Hr2').
          apply Hne. f_equal.
          destruct (i_mc _ HI2 _ _ _ Hr') as (N3 & c3 & [= <-] & Hc3 & Hr3).
          rewrite Hc in Hc3. injection Hc3 as <-. congruence.
        + intros M r' g Hg Hne. rewrite lookup_delete_ne; [done|]. intros [= <- <-]. congruence. }
    rewrite Hst3. cbn [rbind]. eexists f, s, _. splits; [done|done|exact HI3|..].
    + unfold dropF, upd_hF. cbn [ors]. by rewrite Hors3.
    + unfold dropF, upd_hF. cbn [hO]. by rewrite HhO3.
    + unfold dropF, upd_hF. cbn [hO]. by rewrite HhO3.
    + intros k. unfold dropF, upd_hF. cbn [hF]. apply HhFend. by rewrite HhF3.
    + right. by splits.
Qed.

(* ---- holding and releasing the entries of the local array ---- *)
Definition at_dim (N : nat) (l : list nat) (k : nat * nat) : nat :=
  if decide (k.1 = N) then count k.2 l else 0.

Lemma count_cons x y l : count x (y :: l) = (if decide (x = y) then 1 else 0) + count x l.
Proof. unfold count. rewrite filter_cons. by case_decide. Qed.
Lemma count_app x l l' : count x (l ++ l') = count x l + count x l'.
Proof. unfold count. by rewrite filter_app, app_length. Qed.
Lemma count_perm x l l' : l ≡ₚ l' → count x l = count x l'.
Proof. unfold count. by intros ->. Qed.
Lemma at_dim_app N l l' k : at_dim N (l ++ l') k = at_dim N l k + at_dim N l' k.
Proof. unfold at_dim. rewrite count_app. case_decide; lia. Qed.
Lemma at_dim_cons N x l k : at_dim N (x :: l) k = (if decide (k = (N, x)) then 1 else 0) + at_dim N l k.
Proof.
  unfold at_dim. rewrite count_cons. destruct k as [d y]; cbn [fst snd].
  destruct (decide (d = N)) as [->|Hd].
  - f_equal. destruct (decide (y = x)) as [->|Hy]; [by rewrite decide_True|].
    rewrite decide_False; [done|]. by intros [= ->].
  - rewrite decide_False; [done|]. by intros [= -> _].
Qed.
Lemma count_nodup x l : NoDup l → count x l ≤ 1.
Proof.
  induction 1 as [|y l Hy _ IH]; [change (count x []) with 0; lia|]. rewrite count_cons. case_decide as Hd; [|lia].
  subst. apply count_0 in Hy. lia.
Qed.

Lemma hold_all N c st :
  let st' := fold_left (λ st x, holdO N x st) c st in
  fps st' = fps st ∧ ors st' = ors st ∧ cmap st' = cmap st ∧ omap st' = omap st ∧ hF st' = hF st ∧
  (∀ k, held (hO st') k = held (hO st) k + at_dim N c k) ∧
  (Inv st → (∀ x, x ∈ c → is_Some (ors st !! (N, x))) → Inv st').
Proof.
  revert st. induction c as [|x c IH]; intros st; cbn [fold_left].
  - splits; try done. intros k. unfold at_dim, count. rewrite filter_nil. cbn. case_decide; lia.
  - specialize (IH (holdO N x st)). cbn zeta in IH.
    destruct IH as (H1 & H2 & H3 & H4 & H5 & H6 & H7). splits; try done.
    + intros k. rewrite H6, at_dim_cons. unfold holdO, upd_hO. cbn [hO]. rewrite held_inc.
      destruct (decide (k = (N, x))) as [->|Hk].
      * rewrite decide_True by done. lia.
      * rewrite decide_False by done. lia.
    + intros HI Hc. apply H7; [apply Inv_holdO; [done|apply Hc; left]|].
      intros y Hy. apply Hc. by right.
Qed.

Lemma drop_all N c st :
  let st' := fold_left (λ st x, dropO N x st) c st in
  fps st' = fps st ∧ ors st' = ors st ∧ hF st' = hF st ∧
  (∀ k n, held (hO st) k = n + at_dim N c k → held (hO st') k = n) ∧
  (Inv st → Inv st').
Proof.
  revert st. induction c as [|x c IH]; intros st; cbn [fold_left].
  - splits; try done. intros k n. unfold at_dim, count. rewrite filter_nil. cbn. case_decide; lia.
  - specialize (IH (dropO N x st)). cbn zeta in IH.
    destruct IH as (H1 & H2 & H3 & H4 & H5). splits; try done.
    + intros k n. rewrite at_dim_cons. intros Hk. apply H4. unfold dropO, upd_hO. cbn [hO].
      rewrite held_dec.
      destruct (decide (k = (N, x))) as [->|Hne].
      * rewrite decide_True by done. lia.
      * rewrite decide_False by done. lia.
    + intros HI. apply H5. by apply Inv_dropO.
Qed.

(* ---- the recursive erasure ---- *)
Definition nodup_comps (st : topo) : Prop := ∀ k f c, fps st !! (k, f) = Some c → NoDup c.

Record erased (N o : nat) (st st' : topo) (b : bool) : Prop := {
  e_inv : Inv st';
  e_fps_sub : fps st' ⊆ fps st;
  e_ors_sub : ors st' ⊆ ors st;
  e_fps_hi : ∀ k f, N < k → fps st' !! (k, f) = fps st !! (k, f);
  e_ors_hi : ∀ k p, N < k ∨ (k = N ∧ p ≠ o) → ors st' !! (k, p) = ors st !! (k, p);
  e_hF : ∀ k, held (hF st') k = held (hF st) k;
  e_hO : ∀ k, k ≠ (N, o) → held (hO st') k = held (hO st) k;
  e_gone : b = true → refsO st N o ≤ 1 ∧ ors st' !! (N, o) = None ∧ held (hO st') (N, o) = 0;
  e_kept : b = false → 1 < refsO st N o ∧ held (hO st') (N, o) = held (hO st) (N, o) ∧
             fps st' = fps st ∧ ors st' = ors st;
  e_J1 : ∀ k m, (k, m) ≠ (N, o) → is_Some (ors st !! (k, m)) → ors st' !! (k, m) = None →
           held (hO st) (k, m) = 0 ∧
           (∃ f c, fps st !! (S k, f) = Some c ∧ m ∈ c ∧ fps st' !! (S k, f) = None) ∧
           (∀ f c, fps st !! (S k, f) = Some c → m ∈ c → fps st' !! (S k, f) = None);
  e_J2 : ∀ k f, is_Some (fps st !! (k, f)) → fps st' !! (k, f) = None →
           held (hF st) (k, f) = 0 ∧
           (∃ p s, ors st !! (k, p) = Some (f, s) ∧ ors st' !! (k, p) = None) ∧
           (∀ p s, ors st !! (k, p) = Some (f, s) → ors st' !! (k, p) = None);
  e_C1 : ∀ k f c m, fps st !! (S k, f) = Some c → fps st' !! (S k, f) = None → m ∈ c →
           is_Some (ors st' !! (k, m)) → usedO st' k m;
  e_C2 : ∀ k p f s, ors st !! (k, p) = Some (f, s) → ors st' !! (k, p) = None →
           is_Some (fps st' !! (k, f)) → usedF st' k f
}.

(* the erasure of an oriented simplex alone, without its members *)
Lemma erase_oriented_erased0 st o :
  Inv st → has st 0 o → ∃ st' b, erase_oriented 0 o st = Ok (st', b) ∧ erased 0 o st st' b.
Proof.
  intros HI Hh. destruct (erase_oriented_spec st 0 o HI Hh) as
    [[Hr He]|(Hr & f & s & st' & Ho & He & HI' & Hors & HhO & HhO' & HhF & Hfps)].
  - exists st, false. split; [done|]. constructor; try done.
    + intros k m _ [x Hx]. congruence.
    + intros k g [x Hx]. congruence.
    + intros. congruence.
    + intros. congruence.
  - exists st', true. split; [done|].
    assert (Hfd : ∀ k g, is_Some (fps st !! (k, g)) → fps st' !! (k, g) = None →
      (k, g) = (0, f) ∧ held (hF st) (0, f) = 0 ∧ ∀ o' s', ors st !! (0, o') = Some (f, s') → o' = o).
    { intros k g [x Hx] Hn. destruct Hfps as [[Hfps _]|(Hfps & H0 & Hon)].
      - rewrite Hfps in Hn. congruence.
      - rewrite Hfps in Hn. apply lookup_delete_None in Hn as [Hn|Hn]; [|congruence]. done. }
    assert (Hod : ∀ k p, is_Some (ors st !! (k, p)) → ors st' !! (k, p) = None → (k, p) = (0, o)).
    { intros k p [x Hx] Hn. rewrite Hors in Hn.
      apply lookup_delete_None in Hn as [Hn|Hn]; [done|congruence]. }
    constructor; try done.
    + destruct Hfps as [[-> _]|[-> _]]; [done|apply delete_subseteq].
    + rewrite Hors. apply delete_subseteq.
    + intros k g Hk. destruct Hfps as [[-> _]|[-> _]]; [done|].
      rewrite lookup_delete_ne; [done|]. intros [= <- <-]. lia.
    + intros k p Hk. rewrite Hors, lookup_delete_ne; [done|]. intros [= <- <-]. naive_solver lia.
    + intros _. splits; [done| |done]. by rewrite Hors, lookup_delete.
    + intros k m Hne Hm Hn. by destruct (Hod k m Hm Hn).
    + intros k g Hg Hn. destruct (Hfd k g Hg Hn) as ([= -> ->] & H0 & Hon). splits; [done| |].
      * exists o, s. split; [done|]. by rewrite Hors, lookup_delete.
      * intros p t Hp. rewrite (Hon _ _ Hp). by rewrite Hors, lookup_delete.
    + intros k g c m Hg Hn. destruct (Hfd (S k) g ltac:(eauto) Hn) as ([=] & _).
    + intros k p g t Hp Hn [c Hc]. pose proof (Hod k p ltac:(eauto) Hn) as [= -> ->].
      rewrite Ho in Hp. injection Hp as <- <-.
      destruct Hfps as [[_ [H0|(o' & s' & Hne & Ho')]]|(Hfps & H0 & Hon)].
      * left. by rewrite HhF.
      * right. exists o', s'. rewrite Hors, lookup_delete_ne; [done|]. by intros [= ->].
      * rewrite Hfps, lookup_delete in Hc. done.
Qed.

(* the state of the loop over the members of the erased simplex, after the members [c1] *)
Record looping (N o : nat) (st0 cur : topo) (b : bool) (c1 c2 kept : list nat) : Prop := {
  l_inv : Inv cur;
  l_fps_sub : fps cur ⊆ fps st0;
  l_ors_sub : ors cur ⊆ ors st0;
  l_fps_hi : ∀ k f, S N < k → fps cur !! (k, f) = fps st0 !! (k, f);
  l_ors_hi : ∀ k p, S N < k ∨ (k = S N ∧ p ≠ o) → ors cur !! (k, p) = ors st0 !! (k, p);
  l_hF : ∀ k, held (hF cur) k = held (hF st0) k;
  l_hO : ∀ k, k ≠ (S N, o) → held (hO cur) k = held (hO st0) k + at_dim N (kept ++ c2) k;
  l_kept_sub : ∀ x, x ∈ kept → x ∈ c1;
  l_gone : b = true → refsO st0 (S N) o ≤ 1 ∧ ors cur !! (S N, o) = None ∧ held (hO cur) (S N, o) = 0;
  l_kept : b = false → 1 < refsO st0 (S N) o ∧ held (hO cur) (S N, o) = held (hO st0) (S N, o) ∧
             fps cur = fps st0 ∧ ors cur = ors st0;
  l_J1 : ∀ k m, (k, m) ≠ (S N, o) → is_Some (ors st0 !! (k, m)) → ors cur !! (k, m) = None →
           held (hO st0) (k, m) = 0 ∧
           (∃ f c, fps st0 !! (S k, f) = Some c ∧ m ∈ c ∧ fps cur !! (S k, f) = None) ∧
           (∀ f c, fps st0 !! (S k, f) = Some c → m ∈ c → fps cur !! (S k, f) = None);
  l_J2 : ∀ k f, is_Some (fps st0 !! (k, f)) → fps cur !! (k, f) = None →
           held (hF st0) (k, f) = 0 ∧
           (∃ p s, ors st0 !! (k, p) = Some (f, s) ∧ ors cur !! (k, p) = None) ∧
           (∀ p s, ors st0 !! (k, p) = Some (f, s) → ors cur !! (k, p) = None);
  l_C1 : ∀ k f c m, fps st0 !! (S k, f) = Some c → fps cur !! (S k, f) = None → m ∈ c →
           is_Some (ors cur !! (k, m)) →
           0 < held (hO st0) (k, m) ∨ listed cur k m ∨ (k = N ∧ m ∈ c2);
  l_C2 : ∀ k p f s, ors st0 !! (k, p) = Some (f, s) → ors cur !! (k, p) = None →
           is_Some (fps cur !! (k, f)) → usedF cur k f
}.

Lemma sub_none {A} (m m' : gmap (nat * nat) A) k : m' ⊆ m → m !! k = None → m' !! k = None.
Proof.
  intros Hs Hn. destruct (m' !! k) as [x|] eqn:E; [|done].
  eapply lookup_weaken in E; [|exact Hs]. congruence.
Qed.
Lemma sub_cases {A} (m m' : gmap (nat * nat) A) k x :
  m' ⊆ m → m !! k = Some x → m' !! k = Some x ∨ m' !! k = None.
Proof.
  intros Hs Hn. destruct (m' !! k) as [y|] eqn:E; [|by right].
  eapply lookup_weaken in E; [|exact Hs]. left. congruence.
Qed.

Lemma looping_step N o st0 cur b c1 x c2 kept cur' bx f0 s0 cF :
  Inv st0 → nodup_comps st0 →
  ors st0 !! (S N, o) = Some (f0, s0) → fps st0 !! (S N, f0) = Some cF → c1 ++ x :: c2 ≡ₚ cF →
  looping N o st0 cur b c1 (x :: c2) kept →
  erased N x cur cur' bx →
  looping N o st0 cur' b (c1 ++ [x]) c2 (if bx then kept else kept ++ [x]).
Proof.
  intros HI Hnd Ho0 Hf0 Hperm L E.
  assert (Hndc : NoDup (c1 ++ x :: c2)) by (rewrite Hperm; by eapply Hnd).
  assert (HxF : x ∈ cF) by (rewrite <- Hperm; set_solver).
  assert (Hx_c1 : x ∉ c1) by (apply NoDup_app in Hndc as (_ & H & _); intros Hx; apply (H x Hx); left).
  assert (Hx_c2 : x ∉ c2).
  { apply NoDup_app in Hndc as (_ & _ & H). by apply NoDup_cons in H as [? _]. }
  assert (Hx_kept : x ∉ kept) by (intros Hx; by apply Hx_c1, (l_kept_sub _ _ _ _ _ _ _ _ L)).
  assert (Hheldx : held (hO cur) (N, x) = S (held (hO st0) (N, x))).
  { rewrite (l_hO _ _ _ _ _ _ _ _ L) by (intros [= ? ?]; lia).
    rewrite at_dim_app, at_dim_cons, decide_True by done. unfold at_dim; cbn [fst snd].
    rewrite !decide_True by done. apply count_0 in Hx_kept, Hx_c2. lia. }
  assert (Hsubf : fps cur' ⊆ fps st0) by (etrans; [apply E|apply L]).
  assert (Hsubo : ors cur' ⊆ ors st0) by (etrans; [apply E|apply L]).
  assert (Hremf : ∀ k f c, fps cur !! (k, f) = Some c → fps cur' !! (k, f) = None → k ≤ N).
  { intros k f c Hf Hn. destruct (decide (N < k)) as [Hk|]; [|lia].
    rewrite (e_fps_hi _ _ _ _ _ E k f Hk) in Hn. congruence. }
  (* pointers to members of low order held at the end are pointers held before *)
  assert (Hlow : ∀ k m, k < N → held (hO cur') (k, m) = held (hO st0) (k, m)).
  { intros k m Hk. rewrite (e_hO _ _ _ _ _ E) by (intros [= ? ?]; lia).
    rewrite (l_hO _ _ _ _ _ _ _ _ L) by (intros [= ? ?]; lia).
    unfold at_dim; cbn [fst]. rewrite decide_False by lia. lia. }
  assert (Hrefx : bx = true → held (hO st0) (N, x) = 0 ∧ ∀ f c, fps cur !! (S N, f) = Some c → x ∉ c).
  { intros Hb. destruct (e_gone _ _ _ _ _ E Hb) as (Hr & _ & _).
    pose proof (refsO_ge cur N x). split; [lia|]. apply refsO_listed. lia. }
  constructor.
  - apply E.
  - done.
  - done.
  - intros k f Hk. rewrite (e_fps_hi _ _ _ _ _ E) by lia. by apply L.
  - intros k p Hk. rewrite (e_ors_hi _ _ _ _ _ E) by lia. by apply L.
  - intros k. rewrite (e_hF _ _ _ _ _ E). apply L.
  - intros k Hk. destruct (decide (k = (N, x))) as [->|Hkx].
    + destruct bx.
      * destruct (e_gone _ _ _ _ _ E eq_refl) as (_ & _ & ->). destruct (Hrefx eq_refl) as [-> _].
        unfold at_dim; cbn [fst snd]. rewrite decide_True by done. rewrite count_app.
        apply count_0 in Hx_kept, Hx_c2. lia.
      * destruct (e_kept _ _ _ _ _ E eq_refl) as (_ & -> & _). rewrite Hheldx.
        unfold at_dim; cbn [fst snd]. rewrite decide_True by done.
        rewrite !count_app, count_cons, decide_True by done.
        apply count_0 in Hx_kept, Hx_c2. change (count x []) with 0. lia.
    + rewrite (e_hO _ _ _ _ _ E) by done. rewrite (l_hO _ _ _ _ _ _ _ _ L) by done. f_equal.
      rewrite at_dim_app, at_dim_cons, decide_False by done. destruct bx.
      * rewrite at_dim_app. lia.
      * rewrite !at_dim_app, at_dim_cons, decide_False by done.
        assert (at_dim N [] k = 0) as -> by (unfold at_dim; case_decide; done). lia.
  - intros y Hy. rewrite elem_of_app. destruct bx.
    + left. by apply (l_kept_sub _ _ _ _ _ _ _ _ L).
    + apply elem_of_app in Hy as [Hy|Hy]; [left|by right]. by apply (l_kept_sub _ _ _ _ _ _ _ _ L).
  - intros Hb. destruct (l_gone _ _ _ _ _ _ _ _ L Hb) as (Hr & Hn & Hh). splits; [done| |].
    + eapply sub_none; [apply E|done].
    + by rewrite (e_hO _ _ _ _ _ E) by (intros [= ? ?]; lia).
  - intros Hb. destruct (l_kept _ _ _ _ _ _ _ _ L Hb) as (Hr & Hh & Hfe & Hoe).
    assert (bx = false) as Hbx.
    { destruct bx; [|done]. destruct (Hrefx eq_refl) as [_ Hl]. exfalso.
      apply (Hl f0 cF); [by rewrite Hfe|done]. }
    destruct (e_kept _ _ _ _ _ E Hbx) as (_ & _ & Hfe' & Hoe').
    splits; [done| |congruence..].
    rewrite (e_hO _ _ _ _ _ E) by (intros [= ? ?]; lia). done.
  - (* J1 *)
    intros k m Hkm Hm Hn.
    destruct (ors cur !! (k, m)) as [y|] eqn:Hcur.
    + destruct (decide ((k, m) = (N, x))) as [[= -> ->]|Hne].
      * assert (bx = true) as Hbx.
        { destruct bx; [done|]. destruct (e_kept _ _ _ _ _ E eq_refl) as (_ & _ & _ & Hoe).
          congruence. }
        destruct (Hrefx Hbx) as [Hh Hl].
        assert (Hall : ∀ f c, fps st0 !! (S N, f) = Some c → x ∈ c → fps cur' !! (S N, f) = None).
        { intros f c Hf Hxc.
          destruct (sub_cases _ _ _ _ (l_fps_sub _ _ _ _ _ _ _ _ L) Hf) as [Hc|Hc].
          - by destruct (Hl f c Hc).
          - eapply sub_none; [apply E|done]. }
        splits; [done| |done]. exists f0, cF. splits; [done..|]. by eapply Hall.
      * destruct (e_J1 _ _ _ _ _ E k m Hne ltac:(eauto) Hn) as (Hh & (f & c & Hf & Hmc & Hfn) & Hall).
        splits.
        -- destruct (decide (N < k)) as [Hk|Hk].
           { rewrite (e_ors_hi _ _ _ _ _ E) in Hn by lia. congruence. }
           rewrite (l_hO _ _ _ _ _ _ _ _ L) in Hh by (intros [= ? ?]; lia). lia.
        -- exists f, c. splits; [|done|done]. eapply lookup_weaken; [exact Hf|apply L].
        -- intros g d Hg Hmd.
           destruct (sub_cases _ _ _ _ (l_fps_sub _ _ _ _ _ _ _ _ L) Hg) as [Hc|Hc]; [eauto|].
           eapply sub_none; [apply E|done].
    + destruct (l_J1 _ _ _ _ _ _ _ _ L k m Hkm Hm Hcur) as (Hh & (f & c & Hf & Hmc & Hfn) & Hall).
      splits; [done| |].
      * exists f, c. splits; [done..|]. eapply sub_none; [apply E|done].
      * intros g d Hg Hmd. eapply sub_none; [apply E|eauto].
  - (* J2 *)
    intros k f Hf Hn. destruct (fps cur !! (k, f)) as [y|] eqn:Hcur.
    + destruct (e_J2 _ _ _ _ _ E k f ltac:(eauto) Hn) as (Hh & (p & s & Hp & Hpn) & Hall).
      splits.
      * by rewrite <- (l_hF _ _ _ _ _ _ _ _ L).
      * exists p, s. split; [|done]. eapply lookup_weaken; [exact Hp|apply L].
      * intros q t Hq.
        destruct (sub_cases _ _ _ _ (l_ors_sub _ _ _ _ _ _ _ _ L) Hq) as [Hc|Hc]; [eauto|].
        eapply sub_none; [apply E|done].
    + destruct (l_J2 _ _ _ _ _ _ _ _ L k f Hf Hcur) as (Hh & (p & s & Hp & Hpn) & Hall).
      splits; [done| |].
      * exists p, s. split; [done|]. eapply sub_none; [apply E|done].
      * intros q t Hq. eapply sub_none; [apply E|eauto].
  - (* C1 *)
    intros k f c m Hf Hn Hmc Hm.
    assert (Hm' : is_Some (ors cur !! (k, m))).
    { destruct Hm as [y Hy]. exists y. eapply lookup_weaken; [exact Hy|apply E]. }
    assert (Hconv : k < N → usedO cur' k m →
              0 < held (hO st0) (k, m) ∨ listed cur' k m ∨ (k = N ∧ m ∈ c2)).
    { intros Hk [H|H]; [left|by right; left]. by rewrite Hlow in H. }
    destruct (fps cur !! (S k, f)) as [d|] eqn:Hcur.
    + assert (d = c) as ->.
      { pose proof (lookup_weaken _ _ _ _ Hcur (l_fps_sub _ _ _ _ _ _ _ _ L)). congruence. }
      pose proof (Hremf _ _ _ Hcur Hn). apply Hconv; [lia|]. by eapply (e_C1 _ _ _ _ _ E).
    + destruct (l_C1 _ _ _ _ _ _ _ _ L k f c m Hf Hcur Hmc Hm') as [H|[(g & d & Hg & Hmd)|[-> H]]].
      * by left.
      * destruct (sub_cases _ _ _ _ (e_fps_sub _ _ _ _ _ E) Hg) as [Hc|Hc].
        -- right; left. by exists g, d.
        -- pose proof (Hremf _ _ _ Hg Hc). apply Hconv; [lia|]. by eapply (e_C1 _ _ _ _ _ E).
      * apply elem_of_cons in H as [->|H]; [|by right; right].
        assert (bx = false) as Hbx.
        { destruct bx; [|done]. destruct (e_gone _ _ _ _ _ E eq_refl) as (_ & Hnn & _).
          rewrite Hnn in Hm. by destruct Hm. }
        destruct (e_kept _ _ _ _ _ E Hbx) as (Hr & _ & Hfe & _).
        destruct (refsO_cases cur N x) as [(g & d & Hg & Hmd)|He].
        -- right; left. exists g, d. by rewrite Hfe.
        -- left. lia.
  - (* C2 *)
    intros k p f s Hp Hn Hf.
    assert (Hf' : is_Some (fps cur !! (k, f))).
    { destruct Hf as [y Hy]. exists y. eapply lookup_weaken; [exact Hy|apply E]. }
    destruct (sub_cases _ _ _ _ (l_ors_sub _ _ _ _ _ _ _ _ L) Hp) as [Hc|Hc].
    + by eapply (e_C2 _ _ _ _ _ E).
    + destruct (l_C2 _ _ _ _ _ _ _ _ L k p f s Hp Hc Hf') as [H|(q & t & Hq)].
      * left. by rewrite (e_hF _ _ _ _ _ E).
      * destruct (sub_cases _ _ _ _ (e_ors_sub _ _ _ _ _ E) Hq) as [Hc'|Hc'].
        -- right. by exists q, t.
        -- by eapply (e_C2 _ _ _ _ _ E).
Qed.

Lemma erase_spec N : ∀ o st,
  Inv st → nodup_comps st → has st N o →
  ∃ st' b, erase_ N o st = Ok (st', b) ∧ erased N o st st' b.
Proof.
  induction N as [|N IH]; intros o st0 HI Hnd Hh; [by apply erase_oriented_erased0|].
  cbn [erase_].
  destruct (composition_ok st0 N o HI) as (f0 & s0 & cF & c & Ho0 & Hf0 & -> & Hperm & _);
    [by apply (i_hO _ HI)|]. cbn [rbind].
  destruct (i_fS _ HI _ _ _ Hf0) as [_ HcF].
  assert (Hc : ∀ x, x ∈ c → is_Some (ors st0 !! (N, x))) by (intros x; rewrite Hperm; apply HcF).
  destruct (hold_all N c st0) as (Hf1 & Ho1 & _ & _ & HhF1 & HhO1 & HI1).
  set (st1 := fold_left _ c st0) in *. specialize (HI1 HI Hc).
  assert (Hh1 : has st1 (S N) o).
  { unfold has. rewrite HhO1. unfold at_dim; cbn [fst]. rewrite decide_False by lia.
    unfold has in Hh. lia. }
  assert (HhO1' : held (hO st1) (S N, o) = held (hO st0) (S N, o)).
  { rewrite HhO1. unfold at_dim; cbn [fst]. rewrite decide_False by lia. lia. }
  assert (Hrefs : refsO st1 (S N) o = refsO st0 (S N) o).
  { unfold refsO. by rewrite Hf1, HhO1'. }
  (* the oriented simplex alone *)
  assert (∃ st2 b, erase_oriented (S N) o st1 = Ok (st2, b) ∧ looping N o st0 st2 b [] c []) as
    (st2 & b & -> & L).
  { destruct (erase_oriented_spec st1 (S N) o HI1 Hh1) as
      [[Hr He]|(Hr & f & s & st2 & Ho & He & HI2 & Hors & HhO & HhO' & HhF & Hfps)].
    - exists st1, false. split; [done|]. constructor; try done; rewrite ?Hf1, ?Ho1, ?HhF1; try done.
      + intros _. splits; [by rewrite <- Hrefs|done..].
      + intros k m _ [x Hx]. congruence.
      + intros k g [x Hx]. congruence.
      + intros. congruence.
      + intros. congruence.
    - exists st2, true. split; [done|].
      rewrite Ho1 in Ho, Hors, Hfps. rewrite Hf1 in Hfps. rewrite HhF1 in HhF, Hfps.
      rewrite Ho0 in Ho. injection Ho as <- <-.
      assert (Hfd : ∀ k g, is_Some (fps st0 !! (k, g)) → fps st2 !! (k, g) = None →
        (k, g) = (S N, f0) ∧ held (hF st0) (S N, f0) = 0 ∧
        ∀ o' s', ors st0 !! (S N, o') = Some (f0, s') → o' = o).
      { intros k g [x Hx] Hn. destruct Hfps as [[Hfps _]|(Hfps & H0 & Hon)].
        - rewrite Hfps in Hn. congruence.
        - rewrite Hfps in Hn. apply lookup_delete_None in Hn as [Hn|Hn]; [|congruence]. done. }
      assert (Hod : ∀ k p, is_Some (ors st0 !! (k, p)) → ors st2 !! (k, p) = None → (k, p) = (S N, o)).
      { intros k p [x Hx] Hn. rewrite Hors in Hn.
        apply lookup_delete_None in Hn as [Hn|Hn]; [done|congruence]. }
      constructor; try done.
      + destruct Hfps as [[-> _]|[-> _]]; [done|apply delete_subseteq].
      + rewrite Hors. apply delete_subseteq.
      + intros k g Hk. destruct Hfps as [[-> _]|[-> _]]; [done|].
        rewrite lookup_delete_ne; [done|]. intros [= <- <-]. lia.
      + intros k p Hk. rewrite Hors, lookup_delete_ne; [done|]. intros [= <- <-]. naive_solver lia.
      + intros k Hk. rewrite HhO' by done. rewrite HhO1. done.
      + intros _. splits; [by rewrite <- Hrefs| |done]. by rewrite Hors, lookup_delete.
      + intros k m Hne Hm Hn. by destruct (Hod k m Hm Hn).
      + intros k g Hg Hn. destruct (Hfd k g Hg Hn) as ([= -> ->] & H0 & Hon). splits; [done| |].
        * exists o, s0. split; [done|]. by rewrite Hors, lookup_delete.
        * intros p t Hp. rewrite (Hon _ _ Hp). by rewrite Hors, lookup_delete.
      + intros k g d m Hg Hn Hmd _. destruct (Hfd (S k) g ltac:(eauto) Hn) as ([= -> ->] & _).
        right; right. split; [done|]. rewrite Hperm. rewrite Hf0 in Hg. by injection Hg as <-.
      + intros k p g t Hp Hn [d Hd]. pose proof (Hod k p ltac:(eauto) Hn) as [= -> ->].
        rewrite Ho0 in Hp. injection Hp as <- <-.
        destruct Hfps as [[_ [H0|(o' & s' & Hne & Ho')]]|(Hfps & H0 & Hon)].
        * left. by rewrite HhF.
        * right. exists o', s'. rewrite Hors, lookup_delete_ne; [done|]. by intros [= ->].
        * rewrite Hfps, lookup_delete in Hd. done. }
  cbn [rbind].
  (* the loop *)
  assert (∀ c2 c1 kept cur, c1 ++ c2 ≡ₚ cF → looping N o st0 cur b c1 c2 kept →
    ∃ cur' kept', rfold (λ '(st, kept) x,
        let! (st, b) := erase_ N x st in
        Ok (st, if b : bool then kept else kept ++ [x])) (cur, kept) c2 = Ok (cur', kept') ∧
      looping N o st0 cur' b (c1 ++ c2) [] kept') as Hloop.
  { induction c2 as [|x c2 IHc]; intros c1 kept cur Hp Lc; cbn [rfold].
    - exists cur, kept. split; [done|]. by rewrite app_nil_r.
    - destruct (IH x cur) as (cur' & bx & -> & E).
      + apply Lc.
      + intros k f d Hf. eapply Hnd, lookup_weaken; [exact Hf|apply Lc].
      + unfold has. rewrite (l_hO _ _ _ _ _ _ _ _ Lc) by (intros [= ? ?]; lia).
        rewrite at_dim_app, at_dim_cons, decide_True by done. lia.
      + cbn [rbind].
        assert (L' : looping N o st0 cur' b (c1 ++ [x]) c2 (if bx then kept else kept ++ [x]))
          by (by eapply looping_step).
        destruct (IHc (c1 ++ [x]) (if bx then kept else kept ++ [x]) cur') as (cur'' & kept' & -> & L''); [|exact L'|].
        { by rewrite <- app_assoc. }
        exists cur'', kept'. split; [done|]. by rewrite <- app_assoc in L''. }
  destruct (Hloop c [] [] st2 ltac:(by rewrite app_nil_l) L) as (cur & kept & -> & Lc).
  cbn [rbind]. clear Hloop.
  destruct (drop_all N kept cur) as (Hfd & Hod & HhFd & HhOd & HId).
  set (fin := fold_left _ kept cur) in *.
  exists fin, b. split; [done|].
  assert (HhOfin : ∀ k, k ≠ (S N, o) → held (hO fin) k = held (hO st0) k).
  { intros k Hk. apply HhOd. rewrite (l_hO _ _ _ _ _ _ _ _ Lc) by done. by rewrite app_nil_r. }
  assert (HhOo : held (hO fin) (S N, o) = held (hO cur) (S N, o)).
  { apply HhOd. unfold at_dim; cbn [fst]. rewrite decide_False by lia. lia. }
  destruct Lc as [? ? ? ? ? ? ? ? G K J1 J2 C1 C2].
  constructor; rewrite ?Hfd, ?Hod, ?HhOo; try done.
  - by apply HId.
  - by rewrite HhFd.
  - intros k f d m Hf Hn Hm Ho. destruct (C1 k f d m Hf Hn Hm Ho) as [H|[H|[_ H]]].
    + left. rewrite HhOfin; [done|]. intros [= -> ->].
      rewrite l_fps_hi0 in Hn by lia. congruence.
    + right. unfold listed. by rewrite Hfd.
    + inversion H.
  - intros k p f s Hp Hn Hf. unfold usedF. rewrite Hod, HhFd. by apply (C2 k p f s).
Qed.

(* ---- without the hypothesis on compositions: erasing is defined and keeps the invariant ---- *)
Lemma erase_safe N : ∀ o st,
  Inv st → has st N o →
  ∃ st' b, erase_ N o st = Ok (st', b) ∧ Inv st' ∧
    fps st' ⊆ fps st ∧ ors st' ⊆ ors st ∧
    (∀ k, k ≠ (N, o) → held (hO st') k = held (hO st) k) ∧
    (∀ k, held (hF st') k = held (hF st) k) ∧
    (b = true → refsO st N o ≤ 1 ∧ held (hO st') (N, o) = 0) ∧
    (b = false → held (hO st') (N, o) = held (hO st) (N, o)).
Proof.
  induction N as [|N IH]; intros o st0 HI Hh.
  { destruct (erase_oriented_erased0 st0 o HI Hh) as (st' & b & He & []).
    exists st', b. split; [exact He|]. splits; try done; intros ->; naive_solver. }
  cbn [erase_].
  destruct (composition_ok st0 N o HI) as (f0 & s0 & cF & c & Ho0 & Hf0 & -> & Hperm & _);
    [by apply (i_hO _ HI)|]. cbn [rbind].
  destruct (i_fS _ HI _ _ _ Hf0) as [_ HcF].
  assert (Hc : ∀ x, x ∈ c → is_Some (ors st0 !! (N, x))) by (intros x; rewrite Hperm; apply HcF).
  destruct (hold_all N c st0) as (Hf1 & Ho1 & _ & _ & HhF1 & HhO1 & HI1).
  set (st1 := fold_left _ c st0) in *. specialize (HI1 HI Hc).
  assert (HhO1' : held (hO st1) (S N, o) = held (hO st0) (S N, o)).
  { rewrite HhO1. unfold at_dim; cbn [fst]. rewrite decide_False by lia. lia. }
  assert (Hh1 : has st1 (S N) o) by (unfold has; by rewrite HhO1').
  assert (Hrefs : refsO st1 (S N) o = refsO st0 (S N) o) by (unfold refsO; by rewrite Hf1, HhO1').
  assert (∃ st2 b, erase_oriented (S N) o st1 = Ok (st2, b) ∧ Inv st2 ∧
    fps st2 ⊆ fps st0 ∧ ors st2 ⊆ ors st0 ∧
    (∀ k, k ≠ (S N, o) → held (hO st2) k = held (hO st0) k + at_dim N c k) ∧
    (∀ k, held (hF st2) k = held (hF st0) k) ∧
    (b = true → refsO st0 (S N) o ≤ 1 ∧ held (hO st2) (S N, o) = 0) ∧
    (b = false → held (hO st2) (S N, o) = held (hO st0) (S N, o))) as
    (st2 & b & -> & HI2 & Hsf2 & Hso2 & HhO2 & HhF2 & Hb1 & Hb2).
  { destruct (erase_oriented_spec st1 (S N) o HI1 Hh1) as
      [[Hr He]|(Hr & f & s & st2 & Ho & He & HI2 & Hors & HhO & HhO' & HhF & Hfps)].
    - exists st1, false. splits; try done; rewrite ?Hf1, ?Ho1, ?HhF1; done.
    - exists st2, true. splits; try done.
      + rewrite <- Hf1. destruct Hfps as [[-> _]|[-> _]]; [done|apply delete_subseteq].
      + rewrite Hors, Ho1. apply delete_subseteq.
      + intros k Hk. by rewrite HhO', HhO1.
      + intros k. by rewrite HhF, HhF1.
      + intros _. by rewrite <- Hrefs. }
  cbn [rbind].
  assert (∀ c2 kept cur, Inv cur → fps cur ⊆ fps st0 → ors cur ⊆ ors st0 →
    (∀ k, k ≠ (S N, o) → held (hO cur) k = held (hO st0) k + at_dim N (kept ++ c2) k) →
    (∀ k, held (hF cur) k = held (hF st0) k) →
    held (hO cur) (S N, o) = held (hO st2) (S N, o) →
    ∃ cur' kept', rfold (λ '(st, kept) x,
        let! (st, b) := erase_ N x st in
        Ok (st, if b : bool then kept else kept ++ [x])) (cur, kept) c2 = Ok (cur', kept') ∧
      Inv cur' ∧ fps cur' ⊆ fps st0 ∧ ors cur' ⊆ ors st0 ∧
      (∀ k, k ≠ (S N, o) → held (hO cur') k = held (hO st0) k + at_dim N kept' k) ∧
      (∀ k, held (hF cur') k = held (hF st0) k) ∧
      held (hO cur') (S N, o) = held (hO st2) (S N, o)) as Hloop.
  { induction c2 as [|x c2 IHc]; intros kept cur HIc Hsf Hso HhO HhF Hroot; cbn [rfold].
    - rewrite app_nil_r in HhO. by exists cur, kept.
    - assert (Hx : held (hO cur) (N, x) = S (held (hO st0) (N, x) + at_dim N (kept ++ c2) (N, x))).
      { rewrite HhO by (intros [= ? ?]; lia).
        rewrite !at_dim_app, at_dim_cons, decide_True by done. lia. }
      destruct (IH x cur HIc) as (cur' & bx & -> & HIc' & Hsf' & Hso' & HhO' & HhF' & Hbx1 & Hbx2).
      { unfold has. lia. }
      cbn [rbind]. apply IHc; [done|by etrans..| | |].
      + intros k Hk. destruct (decide (k = (N, x))) as [->|Hkx].
        * destruct bx.
          -- destruct (Hbx1 eq_refl) as [Hr ->]. pose proof (refsO_ge cur N x). lia.
          -- rewrite (Hbx2 eq_refl), Hx. rewrite !at_dim_app, at_dim_cons, decide_True by done.
             assert (at_dim N [] (N, x) = 0) as -> by (unfold at_dim; case_decide; done). lia.
        * rewrite HhO', HhO by done. rewrite !at_dim_app, at_dim_cons, decide_False by done.
          destruct bx; [done|]. rewrite at_dim_app, at_dim_cons, decide_False by done.
          assert (at_dim N [] k = 0) as -> by (unfold at_dim; case_decide; done). lia.
      + intros k. by rewrite HhF'.
      + by rewrite HhO' by (intros [= ? ?]; lia). }
  destruct (Hloop c [] st2 HI2 Hsf2 Hso2 HhO2 HhF2 eq_refl) as
    (cur & kept & -> & HIc & Hsf & Hso & HhOc & HhFc & Hroot).
  cbn [rbind]. clear Hloop.
  destruct (drop_all N kept cur) as (Hfd & Hod & HhFd & HhOd & HId).
  set (fin := fold_left _ kept cur) in *.
  assert (HhOo : held (hO fin) (S N, o) = held (hO st2) (S N, o)).
  { rewrite <- Hroot. apply HhOd. unfold at_dim; cbn [fst]. rewrite decide_False by lia. lia. }
  exists fin, b. rewrite Hfd, Hod, HhFd, HhOo. splits; try done.
  - by apply HId.
  - intros k Hk. by apply HhOd, HhOc.
Qed.

(* ---- reachable states ---- *)
Section reachable.
  Context (al : alloc) (Hal : good_alloc al) (debug : bool).

  (* what a step does to the registered objects *)
  Definition evolves (st st' : topo) : Prop :=
    Inv st' ∧
    ((∃ st1, atoms debug st st1 ∧ fps st' = fps st1 ∧ ors st' = ors st1) ∨
     (fps st' ⊆ fps st ∧ ors st' ⊆ ors st)).

  Lemma evolves_grows st st' : Inv st' → growsd debug st st' → evolves st st'.
  Proof. intros HI (_&_&_&_&_&_&Ha). split; [done|]. left. by exists st'. Qed.
  Lemma evolves_same st st' : Inv st' → fps st' = fps st → ors st' = ors st → evolves st st'.
  Proof. intros HI Hf Ho. split; [done|]. right. by rewrite Hf, Ho. Qed.

  Lemma wp_keepO N (m : act nat) st :
    wp m st (created debug N st) (thrown debug st) →
    wp (keepO N m) st (λ _ st', evolves st st') (λ st', evolves st st').
  Proof.
    intros H. unfold keepO. apply wp_bind. eapply wp_mono; [exact H| |].
    - intros o st' (HI & (_&_&_&_&_&_&Ha) & Ho). unfold wp. split; [by apply Inv_holdO|].
      left. by exists st'.
    - intros st' (HI & Hg). by apply evolves_grows.
  Qed.
  Lemma wp_keepF N (m : act nat) st :
    wp m st (λ f st', Inv st' ∧ growsd debug st st' ∧ is_Some (fps st' !! (N, f))) (evolves st) →
    wp (keepF N m) st (λ _ st', evolves st st') (λ st', evolves st st').
  Proof.
    intros H. unfold keepF. apply wp_bind. eapply wp_mono; [exact H| |done].
    intros f st' (HI & (_&_&_&_&_&_&Ha) & Hf). unfold wp. split; [by apply Inv_holdF|].
    left. by exists st'.
  Qed.

  Lemma step_safe st x :
    Inv st → legal st x → wp (step al debug x) st (λ _ st', evolves st st') (λ st', evolves st st').
  Proof.
    intros HI Hl. destruct x; cbn [step legal] in *.
    - (* vertex *) apply wp_keepF. eapply wp_mono; [by apply (wp_vertex al Hal debug st (λ _, False))| |done].
      intros f st' (? & ? & Hf & _). eauto.
    - (* simplex<0> *) apply wp_keepO. unfold simplex0. apply wp_bind.
      eapply wp_mono; [by apply (wp_vertex al Hal debug st (λ _, False))| |done].
      intros f st1 (HI1 & Hg1 & Hf & _). cbn beta.
      eapply wp_mono; [apply (wp_oriented al Hal debug _ _ _ _ (λ _, False)); [done|eauto|done]| |done].
      intros o st' (HI' & Hg' & Ho & _). split; [done|]. split; [by eapply grows_trans|eauto].
    - (* simplex(footprint, orientation) *) destruct Hl as [Hf Hs]. apply wp_keepO.
      eapply wp_mono; [apply (wp_oriented al Hal debug _ _ _ _ (λ _, False)); [done|by apply (i_hF _ HI)|done]| |done].
      intros o st' (HI' & Hg' & Ho & _). split; [done|]. split; [done|eauto].
    - (* simplex(composition) *) destruct Hl as (HN & Hlen & Hc). apply wp_keepO.
      destruct N as [|N]; [lia|]. cbn [pred] in Hc.
      eapply wp_mono; [apply (wp_simplex al Hal debug st N c); [done|done|]| |].
      + intros o Ho. apply (i_hO _ HI). rewrite Forall_forall in Hc. by apply Hc.
      + intros o st' (_ & HI' & Hg' & f & s & c' & r & Ho & _). split; [done|]. split; [done|eauto].
      + intros st' [-> _]. split; [done|apply grows_refl].
    - destruct Hl as (? & ?). apply wp_keepO. apply wp_segment_safe; [done|done|by apply (i_hF _ HI)..].
    - destruct Hl as (? & ? & ?). apply wp_keepO.
      apply wp_triangle_safe; [done|done|by apply (i_hF _ HI)..].
    - destruct Hl as (? & ? & ? & ?). apply wp_keepO.
      apply wp_tetrahedron_safe; [done|done|by apply (i_hF _ HI)..].
    - apply wp_keepO. apply wp_flip_safe; [done|done|by apply (i_hO _ HI)].
    - unfold wp, erase. destruct (erase_safe N o st HI Hl) as (st' & b & -> & HI' & ? & ? & _).
      split; [done|by right].
    - unfold wp, keepO, abind, aret. apply evolves_same; [|done..].
      apply Inv_holdO; [done|by apply (i_hO _ HI)].
    - unfold wp. apply evolves_same; [by apply Inv_dropO|done..].
    - unfold wp, keepF, abind, aret. apply evolves_same; [|done..].
      apply Inv_holdF; [done|by apply (i_hF _ HI)].
    - unfold wp. apply evolves_same; [by apply Inv_dropF|done..].
    - apply wp_keepF. destruct (i_hO _ HI _ _ Hl) as [[f s] Ho].
      apply wp_read; unfold footprint, oriented; rewrite Ho; cbn; [|done..].
      intros g [= <-]. split; [done|]. split; [apply grows_refl|]. by destruct (i_or _ HI _ _ _ _ Ho).
    - destruct Hl as (Ho & HN & Hi). apply wp_keepO. destruct N as [|N]; [lia|].
      destruct (composition_ok st N o HI) as (f & s & c & c' & _ & Hf & Hc & Hp & _);
        [by apply (i_hO _ HI)|].
      destruct (i_fS _ HI _ _ _ Hf) as [Hlen Hm].
      destruct (entry_ok c' i) as (y & Hy & Hy').
      { rewrite (Permutation_length Hp). lia. }
      apply wp_read; rewrite Hc; cbn [rbind]; rewrite ?Hy; [|done..].
      intros z [= <-]. split; [done|]. split; [apply grows_refl|]. cbn [pred]. apply Hm.
      rewrite <- Hp. by eapply elem_of_list_lookup_2.
  Qed.

  Lemma reach_Inv st : reach al debug st → Inv st.
  Proof.
    induction 1 as [|st x a st' _ IH Hl Hs|st x st' _ IH Hl Hs]; [apply Inv0|..];
      pose proof (step_safe st x IH Hl) as Hw; unfold wp in Hw; rewrite Hs in Hw; by destruct Hw.
  Qed.

  (* an invariant of the registered objects *)
  Lemma reach_invariant (J : topo → Prop) :
    J topo0 →
    (∀ st st', Inv st → Inv st' → J st → atom debug st st' → J st') →
    (∀ st st', Inv st → Inv st' → J st → fps st' ⊆ fps st → ors st' ⊆ ors st → J st') →
    ∀ st, reach al debug st → J st.
  Proof.
    intros HJ0 Hatom Hsub.
    assert (Hev : ∀ st st', Inv st → J st → evolves st st' → J st').
    { intros st st' HI HJ (HI' & [(st1 & Ha & Hf & Ho)|[Hf Ho]]); [|by apply (Hsub st)].
      assert (Inv st1 ∧ J st1) as [HI1 HJ1].
      { clear -Ha HI HJ Hatom. induction Ha as [|st st1 st' ? HI1 Ha _ IH]; [done|].
        apply IH; [done|]. by apply (Hatom st). }
      eapply (Hsub st1); [done|done|done|by rewrite Hf|by rewrite Ho]. }
    induction 1 as [|st x a st' Hr IH Hl Hs|st x st' Hr IH Hl Hs]; [done|..];
      pose proof (reach_Inv st Hr) as HI;
      pose proof (step_safe st x HI Hl) as Hw; unfold wp in Hw; rewrite Hs in Hw; eauto.
  Qed.

  Lemma reach_defined st x : reach al debug st → legal st x → step al debug x st ≠ Undef.
  Proof.
    intros Hr Hl He. pose proof (step_safe st x (reach_Inv st Hr) Hl) as Hw.
    unfold wp in Hw. by rewrite He in Hw.
  Qed.
End reachable.

(* ---- exactly what is not used any more is removed ---- *)
Scheme goneO_min := Minimality for goneO Sort Prop
  with goneF_min := Minimality for goneF Sort Prop.
Combined Scheme gone_min from goneO_min, goneF_min.

Lemma erased_sound N o st st' b :
  erased N o st st' b →
  ∀ n k, k + n = N →
    (∀ p, is_Some (ors st !! (k, p)) → ors st' !! (k, p) = None → goneO st N o k p) ∧
    (∀ f, is_Some (fps st !! (k, f)) → fps st' !! (k, f) = None → goneF st N o k f).
Proof.
  intros E. induction n as [|n IH]; intros k Hk.
  - assert (k = N) as -> by lia.
    assert (Hroot : ∀ p, is_Some (ors st !! (N, p)) → ors st' !! (N, p) = None → goneO st N o N p).
    { intros p [x Hp] Hn. destruct (decide (p = o)) as [->|Hne]; [constructor|].
      rewrite (e_ors_hi _ _ _ _ _ E) in Hn by auto. congruence. }
    split; [done|]. intros f Hf Hn.
    destruct (e_J2 _ _ _ _ _ E N f Hf Hn) as (Hh & (p & s & Hp & Hpn) & Hall).
    econstructor; [apply Hroot; eauto|done|done|].
    intros p' s' Hp'. apply Hroot; eauto.
  - destruct (IH (S k) ltac:(lia)) as [_ IHf].
    assert (HO : ∀ p, is_Some (ors st !! (k, p)) → ors st' !! (k, p) = None → goneO st N o k p).
    { intros p Hp Hn. destruct (e_J1 _ _ _ _ _ E k p) as (Hh & (f & c & Hf & Hm & Hfn) & Hall);
        [intros [= ? ?]; lia|done..|].
      econstructor; [apply IHf; eauto|done|done|done|]. intros f' c' Hf' Hm'. apply IHf; eauto. }
    split; [done|]. intros f Hf Hn.
    destruct (e_J2 _ _ _ _ _ E k f Hf Hn) as (Hh & (p & s & Hp & Hpn) & Hall).
    econstructor; [apply HO; eauto|done|done|].
    intros p' s' Hp'. apply HO; eauto.
Qed.

Lemma erased_complete N o st st' :
  erased N o st st' true →
  (∀ k p, goneO st N o k p → ors st' !! (k, p) = None) ∧
  (∀ k f, goneF st N o k f → fps st' !! (k, f) = None).
Proof.
  intros E. destruct (e_gone _ _ _ _ _ E eq_refl) as (_ & Hroot & Hroot').
  apply gone_min.
  - done.
  - intros k f c m _ Hfn Hf Hm Hh _ Hall.
    destruct (ors st' !! (k, m)) as [x|] eqn:Hx; [|done]. exfalso.
    destruct (decide ((k, m) = (N, o))) as [[= -> ->]|Hne]; [congruence|].
    destruct (e_C1 _ _ _ _ _ E k f c m Hf Hfn Hm ltac:(eauto)) as [H|(g & d & Hg & Hmd)].
    + rewrite (e_hO _ _ _ _ _ E) in H by done. lia.
    + rewrite (Hall g d) in Hg; [done| |done]. eapply lookup_weaken; [exact Hg|apply E].
  - intros k f p s _ Hpn Hp Hh _ Hall.
    destruct (fps st' !! (k, f)) as [x|] eqn:Hx; [|done]. exfalso.
    destruct (e_C2 _ _ _ _ _ E k p f s Hp Hpn ltac:(eauto)) as [H|(q & t & Hq)].
    + rewrite (e_hF _ _ _ _ _ E) in H. lia.
    + rewrite (Hall q t) in Hq; [done|]. eapply lookup_weaken; [exact Hq|apply E].
Qed.

Lemma erased_hi N o st st' b :
  erased N o st st' b →
  (∀ k p, is_Some (ors st !! (k, p)) → ors st' !! (k, p) = None → k ≤ N) ∧
  (∀ k f, is_Some (fps st !! (k, f)) → fps st' !! (k, f) = None → k ≤ N).
Proof.
  intros E. split.
  - intros k p [x Hx] Hn. destruct (decide (N < k)) as [Hk|]; [|lia].
    rewrite (e_ors_hi _ _ _ _ _ E) in Hn by auto. congruence.
  - intros k p [x Hx] Hn. destruct (decide (N < k)) as [Hk|]; [|lia].
    rewrite (e_fps_hi _ _ _ _ _ E) in Hn by auto. congruence.
Qed.

Lemma erase_exact N o st :
  Inv st → nodup_comps st → has st N o →
  (used_elsewhere st N o ∧ ∃ st', erase_ N o st = Ok (st', false) ∧ Inv st' ∧
     fps st' = fps st ∧ ors st' = ors st ∧
     (∀ k, held (hO st') k = held (hO st) k) ∧ (∀ k, held (hF st') k = held (hF st) k)) ∨
  (¬ used_elsewhere st N o ∧ ∃ st', erase_ N o st = Ok (st', true) ∧ Inv st' ∧
     fps st' ⊆ fps st ∧ ors st' ⊆ ors st ∧
     (∀ k p, is_oriented st k p → (ors st' !! (k, p) = None ↔ goneO st N o k p)) ∧
     (∀ k f, is_footprint st k f → (fps st' !! (k, f) = None ↔ goneF st N o k f)) ∧
     held (hO st') (N, o) = 0 ∧
     (∀ k, k ≠ (N, o) → held (hO st') k = held (hO st) k) ∧
     (∀ k, held (hF st') k = held (hF st) k)).
Proof.
  intros HI Hnd Hh. destruct (erase_spec N o st HI Hnd Hh) as (st' & b & He & E).
  destruct b.
  - right. destruct (e_gone _ _ _ _ _ E eq_refl) as (Hr & _ & Hh0). split.
    + pose proof (refsO_ge st N o). unfold has in Hh. intros [H'|H']; [|lia].
      apply refsO_listed_lt in H'. lia.
    + exists st'. destruct (erased_complete _ _ _ _ E) as [HcO HcF].
      destruct (erased_hi _ _ _ _ _ E) as [HhiO HhiF].
      split; [done|]. split; [apply E|]. split; [apply E|]. split; [apply E|].
      split; [|split; [|split; [done|split; apply E]]].
      * intros k p Hp. split; [|apply HcO]. intros Hn. pose proof (HhiO k p Hp Hn).
        apply (erased_sound _ _ _ _ _ E (N - k) k); [lia|done|done].
      * intros k p Hp. split; [|apply HcF]. intros Hn. pose proof (HhiF k p Hp Hn).
        apply (erased_sound _ _ _ _ _ E (N - k) k); [lia|done|done].
  - left. destruct (e_kept _ _ _ _ _ E eq_refl) as (Hr & Hh0 & Hf & Ho). split.
    + destruct (refsO_cases st N o) as [H|H]; [by left|right; lia].
    + exists st'. split; [done|]. split; [apply E|]. split; [done|]. split; [done|].
      split; [|apply E]. intros k. destruct (decide (k = (N, o))) as [->|Hk]; [done|by apply E].
Qed.
