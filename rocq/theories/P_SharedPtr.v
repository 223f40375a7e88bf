From stdpp Require Import base gmap.
From Coq Require Import Lia.
From Verif Require Import Base M_SharedPtr S_SharedPtr.
Local Open Scope Z_scope.

Definition one (b : option handle) (h : handle) : Z := if decide (b = Some h) then 1 else 0.

Definition count (m : gmap var (option handle)) (h : handle) : Z :=
  Z.of_nat (length (filter (λ xh, xh.2 = Some h) (map_to_list m))).

Lemma count_empty h : count ∅ h = 0.
Proof. unfold count. by rewrite map_to_list_empty. Qed.

Lemma count_fresh m x v h : m !! x = None → count (<[x := v]> m) h = count m h + one v h.
Proof.
  intros Hx. unfold count, one.
  rewrite (filter_Permutation _ _ _ (map_to_list_insert m x v Hx)).
  rewrite filter_cons. cbn. destruct (decide (v = Some h)); cbn [length]; lia.
Qed.

Lemma count_delete m x v h : m !! x = Some v → count (delete x m) h = count m h - one v h.
Proof.
  intros Hx. rewrite <- (insert_delete m x v Hx) at 2.
  rewrite count_fresh by apply lookup_delete. lia.
Qed.

Lemma count_insert m x v w h :
  m !! x = Some v → count (<[x := w]> m) h = count m h - one v h + one w h.
Proof.
  intros Hx. rewrite <- (insert_delete_insert m x w).
  rewrite count_fresh by apply lookup_delete. by rewrite (count_delete m x v).
Qed.

Lemma count_nonneg m h : 0 <= count m h.
Proof. unfold count. lia. Qed.

Lemma one_nonneg v h : 0 <= one v h.
Proof. unfold one. destruct (decide _); lia. Qed.

Lemma one_None h : one None h = 0.
Proof. unfold one. by rewrite decide_False. Qed.

Lemma one_same h : one (Some h) h = 1.
Proof. unfold one. by rewrite decide_True. Qed.

Lemma one_diff h h' : h ≠ h' → one (Some h) h' = 0.
Proof. intros. unfold one. rewrite decide_False by congruence. done. Qed.

Lemma count_pos m x h : m !! x = Some (Some h) → 1 <= count m h.
Proof.
  intros Hx. pose proof (count_delete m x _ h Hx). rewrite one_same in H.
  pose proof (count_nonneg (delete x m) h). lia.
Qed.

(* The invariant: [leak h] is the surplus of the counter over the number of pointers. *)
Definition pinv (leak : handle → Z) (s : pstate) : Prop :=
  (∀ x h, vars s !! x = Some (Some h) → is_Some (counts s !! h)) ∧
  (∀ h c, counts s !! h = Some c → c = count (vars s) h + leak h) ∧
  (∀ h, 0 <= leak h) ∧ (∀ h, counts s !! h = None → leak h = 0).

Lemma acquire_ok h s s' :
  acquire h s = Ok s' →
  ∃ a c, h = Some a ∧ counts s !! a = Some c ∧ s' = PState (vars s) (<[a := c + 1]> (counts s)).
Proof.
  destruct h as [a|]; cbn [acquire]; [|done].
  destruct (counts s !! a) as [c|] eqn:E; cbn; [|done]. intros [= <-]. eauto.
Qed.

Lemma release_ok h s s' :
  release h s = Ok s' →
  (h = None ∧ s' = s) ∨
  ∃ a c, h = Some a ∧ counts s !! a = Some c ∧ s' = PState (vars s) (<[a := c - 1]> (counts s)).
Proof.
  destruct h as [a|]; cbn [release].
  - destruct (counts s !! a) as [c|] eqn:E; cbn; [|done]. intros [= <-]. right. eauto.
  - intros [= <-]. by left.
Qed.

Lemma release_counts h s s' a :
  release h s = Ok s' → vars s' = vars s ∧ counts s' !! a = (λ c, c - one h a) <$> counts s !! a.
Proof.
  intros [[-> ->]|(b & c & -> & Hc & ->)]%release_ok.
  - split; [done|]. destruct (counts s !! a); cbn; [|done]. rewrite one_None. f_equal. lia.
  - split; [done|]. cbn [counts].
    destruct (decide (a = b)) as [->|Hne].
    + rewrite lookup_insert, Hc. cbn. by rewrite one_same.
    + rewrite lookup_insert_ne by done. destruct (counts s !! a); cbn; [|done].
      rewrite one_diff by done. f_equal. lia.
Qed.

Lemma acquire_counts h s s' a :
  acquire h s = Ok s' → vars s' = vars s ∧ counts s' !! a = (λ c, c + one h a) <$> counts s !! a.
Proof.
  intros (b & c & -> & Hc & ->)%acquire_ok.
  split; [done|]. cbn [counts].
  destruct (decide (a = b)) as [->|Hne].
  + rewrite lookup_insert, Hc. cbn. by rewrite one_same.
  + rewrite lookup_insert_ne by done. destruct (counts s !! a); cbn; [|done].
    rewrite one_diff by done. f_equal. lia.
Qed.

(* General form of a step that does not create a resource: the counters and the numbers of
   pointers change by the same amount, except for a surplus [d]. *)
Lemma pinv_step leak s s' d :
  pinv leak s →
  (∀ h, counts s' !! h = (λ c, c + (count (vars s') h - count (vars s) h) + d h) <$> counts s !! h) →
  (∀ x h, vars s' !! x = Some (Some h) → is_Some (counts s !! h)) →
  (∀ h, 0 <= d h) → (∀ h, counts s !! h = None → d h = 0) →
  pinv (λ h, leak h + d h) s'.
Proof.
  intros (H1 & H2 & H3 & H4) Hc Hv Hd Hd0. split_and!.
  - intros x h Hx%Hv. rewrite Hc. by apply fmap_is_Some.
  - intros h c. rewrite Hc. destruct (counts s !! h) as [c0|] eqn:E; cbn; [|done].
    intros [= <-]. rewrite (H2 _ _ E). lia.
  - intros h. specialize (H3 h). specialize (Hd h). lia.
  - intros h. rewrite Hc. destruct (counts s !! h) eqn:E; [done|]. intros _.
    rewrite (H4 _ E), (Hd0 _ E). lia.
Qed.

Definition aliased (s : pstate) (o : pop) : option handle :=
  match o with
  | MoveAssign x y =>
      match vars s !! x, vars s !! y with
      | Some (Some a), Some (Some b) => if decide (a = b) then Some a else None
      | _, _ => None
      end
  | _ => None
  end.

Ltac ok_inv H :=
  repeat match type of H with
  | rbind ?m _ = Ok _ => let E := fresh "E" in let v := fresh "v" in destruct m as [v| |] eqn:E; cbn [rbind] in H; [|discriminate H..]
  end.

Lemma deref_ok {A} (o : option A) a : deref o = Ok a ↔ o = Some a.
Proof. destruct o; cbn; split; intros H; congruence. Qed.

Lemma declare_ok x s u : declare x s = Ok u → vars s !! x = None.
Proof. unfold declare. by destruct (vars s !! x). Qed.

Lemma pstep_inv leak s o s' :
  pinv leak s → pstep s o = Ok s' →
  pinv (λ h, leak h + one (aliased s o) h) s'.
Proof.
  intros Hinv Hstep. pose proof Hinv as (H1 & H2 & H3 & H4).
  destruct o as [h|x h|x|x y|x y|x y|x y|x|x]; cbn [pstep] in Hstep.
  - (* NewResource *)
    destruct (counts s !! h) eqn:E; [done|]. injection Hstep as <-.
    cbn [aliased]. unfold pinv; cbn [vars counts]. split_and!.
    + intros x a Hx. destruct (decide (a = h)) as [->|]; [by rewrite lookup_insert|].
      rewrite lookup_insert_ne by done. eauto.
    + intros a c. destruct (decide (a = h)) as [->|].
      * rewrite lookup_insert. intros [= <-]. rewrite one_None, (H4 _ E).
        assert (count (vars s) h = 0) as ->; [|lia].
        unfold count. destruct (filter _ _) as [|[x v] l] eqn:F; [done|].
        assert ((x, v) ∈ filter (λ xh, xh.2 = Some h) (map_to_list (vars s))) as Hin.
        { rewrite F. by left. }
        apply elem_of_list_filter in Hin as [Hv Hin]. cbn in Hv. subst v.
        apply elem_of_map_to_list in Hin. apply H1 in Hin as [? Hin]. congruence.
      * rewrite lookup_insert_ne by done. rewrite one_None. intros Hc.
        rewrite (H2 _ _ Hc). lia.
    + intros a. rewrite one_None. specialize (H3 a). lia.
    + intros a. rewrite lookup_insert_None. intros [Ha _]. rewrite one_None, (H4 _ Ha). lia.
  - (* CtorHandle *)
    ok_inv Hstep. apply declare_ok in E. cbn [aliased].
    apply (pinv_step leak s); [done| | |intros; rewrite one_None; lia..].
    + intros a. destruct (acquire_counts _ _ _ a Hstep) as [-> ->]. cbn [set_handle vars counts].
      rewrite count_fresh by done. rewrite one_None. destruct (counts s !! a); cbn; [|done].
      f_equal. lia.
    + intros z a Hz. destruct (acquire_counts _ _ _ a Hstep) as [Hv Hca]. rewrite Hv in Hz.
      cbn [set_handle vars] in Hz. apply lookup_insert_Some in Hz as [[-> ->]|[_ Hz]].
      * apply acquire_ok in Hstep as (b & c & [= <-] & Hc & _). cbn in Hc. eauto.
      * eauto.
  - (* CtorDefault *)
    ok_inv Hstep. apply declare_ok in E. injection Hstep as <-. cbn [aliased].
    apply (pinv_step leak s); [done| | |intros; rewrite one_None; lia..]; cbn [set_handle vars counts].
    + intros a. rewrite count_fresh by done. rewrite !one_None. destruct (counts s !! a); cbn; [|done].
      f_equal. lia.
    + intros z a [[-> ?]|[_ Hz]]%lookup_insert_Some; [done|eauto].
  - (* CopyCtor *)
    ok_inv Hstep. apply declare_ok in E. apply deref_ok in E0. cbn [aliased].
    apply (pinv_step leak s); [done| | |intros; rewrite one_None; lia..].
    + intros b. destruct (acquire_counts _ _ _ b Hstep) as [-> ->]. cbn [set_handle vars counts].
      rewrite count_fresh by done. rewrite one_None. destruct (counts s !! b); cbn; [|done].
      f_equal. lia.
    + intros z b Hz. destruct (acquire_counts _ _ _ b Hstep) as [Hv Hca]. rewrite Hv in Hz.
      cbn [set_handle vars] in Hz. apply lookup_insert_Some in Hz as [[-> ->]|[_ Hz]]; eauto.
  - (* MoveCtor *)
    ok_inv Hstep. apply declare_ok in E. apply deref_ok in E0. injection Hstep as <-. cbn [aliased].
    assert (x ≠ y) as Hxy by congruence.
    apply (pinv_step leak s); [done| | |intros; rewrite one_None; lia..]; cbn [set_handle vars counts].
    + intros b. rewrite (count_insert _ _ v0) by (by rewrite lookup_insert_ne).
      rewrite count_fresh by done. rewrite !one_None. destruct (counts s !! b); cbn; [|done].
      f_equal. lia.
    + intros z b [[-> ?]|[_ [[-> ->]|[_ Hz]]%lookup_insert_Some]]%lookup_insert_Some; [done|eauto..].
  - (* CopyAssign *)
    ok_inv Hstep. apply deref_ok in E, E0. cbn [aliased]. rename v into hx. rename v0 into hy.
    destruct (decide (hy = hx)) as [->|Hne].
    { injection Hstep as <-.
      apply (pinv_step leak s); [done| |done|intros; rewrite one_None; lia..].
      intros b. rewrite one_None. destruct (counts s !! b); cbn; [|done]. f_equal. lia. }
    ok_inv Hstep.
    apply (pinv_step leak s); [done| | |intros; rewrite one_None; lia..].
    + intros b. destruct (acquire_counts _ _ _ b Hstep) as [-> ->]. cbn [set_handle vars counts].
      destruct (release_counts _ _ _ b E1) as [-> ->].
      rewrite (count_insert _ _ hx) by done. rewrite one_None.
      destruct (counts s !! b); cbn; [|done]. f_equal. lia.
    + intros z b Hz. destruct (acquire_counts _ _ _ b Hstep) as [Hv Hca]. rewrite Hv in Hz.
      cbn [set_handle vars] in Hz. destruct (release_counts _ _ _ b E1) as [Hv' _]. rewrite Hv' in Hz.
      apply lookup_insert_Some in Hz as [[-> ->]|[_ Hz]]; eauto.
  - (* MoveAssign *)
    ok_inv Hstep. apply deref_ok in E, E0. rename v into hx. rename v0 into hy.
    destruct (decide (hy = hx)) as [->|Hne].
    + injection Hstep as <-.
      assert (aliased s (MoveAssign x y) = hx) as ->.
      { cbn [aliased]. rewrite E, E0. destruct hx; [|done]. by rewrite decide_True. }
      apply (pinv_step leak s); [done| | | |]; cbn [set_handle vars counts].
      * intros b. rewrite (count_insert _ _ hx) by done. rewrite one_None.
        destruct (counts s !! b); cbn; [|done]. f_equal. lia.
      * intros z b [[-> ?]|[_ Hz]]%lookup_insert_Some; [done|eauto].
      * intros b. apply one_nonneg.
      * intros b Hb. unfold one. destruct (decide (hx = Some b)) as [->|]; [|done].
        apply H1 in E as [? E]. congruence.
    + ok_inv Hstep. injection Hstep as <-.
      assert (aliased s (MoveAssign x y) = None) as ->.
      { cbn [aliased]. rewrite E, E0. destruct hx, hy; try done. rewrite decide_False; [done|congruence]. }
      assert (x ≠ y) as Hxy by congruence.
      apply (pinv_step leak s); [done| | |intros; rewrite one_None; lia..].
      * intros b. cbn [set_handle vars counts].
        destruct (release_counts _ _ _ b E1) as [-> ->].
        rewrite (count_insert _ _ hy) by (by rewrite lookup_insert_ne).
        rewrite (count_insert _ _ hx) by done. rewrite !one_None.
        destruct (counts s !! b); cbn; [|done]. f_equal. lia.
      * intros z b Hz. cbn [set_handle vars] in Hz.
        destruct (release_counts _ _ _ b E1) as [Hv' _]. rewrite Hv' in Hz.
        apply lookup_insert_Some in Hz as [[-> ?]|[_ [[-> ->]|[_ Hz]]%lookup_insert_Some]]; [done|eauto..].
  - (* Reset *)
    ok_inv Hstep. apply deref_ok in E. injection Hstep as <-. cbn [aliased].
    apply (pinv_step leak s); [done| | |intros; rewrite one_None; lia..].
    + intros b. cbn [set_handle vars counts]. destruct (release_counts _ _ _ b E0) as [-> ->].
      rewrite (count_insert _ _ v) by done. rewrite !one_None.
      destruct (counts s !! b); cbn; [|done]. f_equal. lia.
    + intros z b Hz. cbn [set_handle vars] in Hz. destruct (release_counts _ _ _ b E0) as [Hv' _].
      rewrite Hv' in Hz. apply lookup_insert_Some in Hz as [[-> ?]|[_ Hz]]; [done|eauto].
  - (* Destroy *)
    ok_inv Hstep. apply deref_ok in E. injection Hstep as <-. cbn [aliased].
    apply (pinv_step leak s); [done| | |intros; rewrite one_None; lia..].
    + intros b. cbn [vars counts]. destruct (release_counts _ _ _ b E0) as [-> ->].
      rewrite (count_delete _ _ v) by done. rewrite !one_None.
      destruct (counts s !! b); cbn; [|done]. f_equal. lia.
    + intros z b Hz. cbn [vars] in Hz. destruct (release_counts _ _ _ b E0) as [Hv' _].
      rewrite Hv' in Hz. apply lookup_delete_Some in Hz as [_ Hz]. eauto.
Qed.

Lemma pinv_init : pinv (λ _, 0) pinit.
Proof.
  split_and!; cbn.
  - intros x h. by rewrite lookup_empty.
  - intros h c. by rewrite lookup_empty.
  - done.
  - done.
Qed.

Lemma prun_app s os1 os2 : prun s (os1 ++ os2) = rbind (prun s os1) (λ s', prun s' os2).
Proof.
  revert s. induction os1 as [|o os1 IH]; intros s; [done|].
  cbn [app prun]. destruct (pstep s o); cbn [rbind]; done.
Qed.

Lemma prun_inv os s :
  prun pinit os = Ok s → ∃ leak, pinv leak s ∧ (¬ aliased_move os → ∀ h, leak h = 0).
Proof.
  revert s. induction os as [|o os IH] using rev_ind; intros s Hrun.
  { injection Hrun as <-. exists (λ _, 0). split; [apply pinv_init|done]. }
  rewrite prun_app in Hrun. destruct (prun pinit os) as [s1| |] eqn:E; cbn [rbind] in Hrun; [|done..].
  cbn [prun] in Hrun. destruct (pstep s1 o) as [s2| |] eqn:E2; cbn [rbind] in Hrun; [|done..].
  injection Hrun as <-.
  destruct (IH s1) as (leak & Hinv & Hleak); [done|].
  exists (λ h, leak h + one (aliased s1 o) h). split; [by apply pstep_inv|].
  intros Hna h. rewrite Hleak.
  2:{ intros (pre & x & y & post & s' & a & -> & Hpre & Hx & Hy).
      apply Hna. exists pre, x, y, (post ++ [o]), s', a. by rewrite <- app_assoc. }
  assert (aliased s1 o = None) as ->; [|by rewrite one_None].
  destruct (aliased s1 o) as [a|] eqn:Ea; [|done]. exfalso. apply Hna.
  destruct o as [| | | | | |x y| |]; cbn [aliased] in Ea; try done.
  destruct (vars s1 !! x) as [[b|]|] eqn:Hx; try done.
  destruct (vars s1 !! y) as [[c|]|] eqn:Hy; try done.
  destruct (decide (b = c)) as [->|]; [|done]. injection Ea as ->.
  exists os, x, y, [], s1, a. done.
Qed.

Lemma prun_exact os s h c :
  prun pinit os = Ok s → ¬ aliased_move os → counts s !! h = Some c → c = pointers_to s h.
Proof.
  intros Hrun Hna Hc. destruct (prun_inv os s Hrun) as (leak & (_ & H2 & _) & Hl).
  rewrite (H2 _ _ Hc), Hl by done. unfold pointers_to. fold (count (vars s) h). lia.
Qed.

Lemma prun_safe os s h c :
  prun pinit os = Ok s → counts s !! h = Some c → pointers_to s h <= c.
Proof.
  intros Hrun Hc. destruct (prun_inv os s Hrun) as (leak & (_ & H2 & H3 & _) & _).
  rewrite (H2 _ _ Hc). unfold pointers_to. fold (count (vars s) h). specialize (H3 h). lia.
Qed.

Lemma prun_no_dangling os s x h :
  prun pinit os = Ok s → vars s !! x = Some (Some h) →
  ∃ c, counts s !! h = Some c ∧ references s x = Ok c ∧ 1 <= c ∧ is_valid c = true.
Proof.
  intros Hrun Hx. pose proof (prun_inv os s Hrun) as (leak & (H1 & H2 & H3 & _) & _).
  destruct (H1 _ _ Hx) as [c Hc]. exists c.
  assert (1 <= c).
  { rewrite (H2 _ _ Hc). specialize (H3 h). pose proof (count_pos _ _ _ Hx). lia. }
  split_and!; [done| |done|].
  - unfold references. rewrite Hx. cbn. rewrite Hc. done.
  - unfold is_valid. lia.
Qed.

Lemma release_defined h s :
  (∀ a, h = Some a → is_Some (counts s !! a)) → ∃ s', release h s = Ok s'.
Proof.
  destruct h as [a|]; cbn [release]; [|eauto]. intros H. destruct (H a eq_refl) as [c ->]. cbn. eauto.
Qed.

Lemma acquire_defined a s : is_Some (counts s !! a) → ∃ s', acquire (Some a) s = Ok s'.
Proof. intros [c Hc]. cbn. rewrite Hc. cbn. eauto. Qed.

Lemma prun_defined os s o :
  prun pinit os = Ok s → (∃ s', pstep s o = Ok s') ↔ ¬ misuse s o.
Proof.
  intros Hrun. destruct (prun_inv os s Hrun) as (leak & (H1 & _) & _). clear Hrun.
  destruct o as [h|x h|x|x y|x y|x y|x y|x|x]; cbn [pstep misuse]; unfold declare.
  - destruct (counts s !! h); split; [intros [? ?]; done|intros []; eauto|intros _ []; done|eauto].
  - destruct (vars s !! x) eqn:E; cbn [rbind].
    { split; [by intros [? ?]|]. intros []. eauto. }
    destruct h as [a|]; cbn [acquire set_handle counts].
    + destruct (counts s !! a) eqn:Ea; cbn; split; [|eauto| |].
      * intros _ [[? ?]|[?|(b & [= <-] & Hb)]]; congruence.
      * by intros [? ?].
      * intros []. right. right. eauto.
    + split; [by intros [? ?]|]. intros []. eauto.
  - destruct (vars s !! x) eqn:E; cbn [rbind].
    { split; [by intros [? ?]|]. intros []. eauto. }
    split; [|eauto]. intros _ [? ?]. done.
  - destruct (vars s !! x) eqn:E; cbn [rbind].
    { split; [by intros [? ?]|]. intros []. eauto. }
    destruct (vars s !! y) as [[a|]|] eqn:Ey; cbn [deref rbind].
    + split; [|intros _; apply acquire_defined; cbn; eauto].
      intros _ [[? ?]|[?|?]]; done.
    + cbn. split; [by intros [? ?]|]. intros []. eauto.
    + split; [by intros [? ?]|]. intros []. eauto.
  - destruct (vars s !! x) eqn:E; cbn [rbind].
    { split; [by intros [? ?]|]. intros []. eauto. }
    destruct (vars s !! y) eqn:Ey; cbn [deref rbind].
    + split; [|eauto]. intros _ [[? ?]|?]; done.
    + split; [by intros [? ?]|]. intros []. eauto.
  - destruct (vars s !! x) as [hx|] eqn:E; cbn [deref rbind].
    2:{ split; [by intros [? ?]|]. intros []. eauto. }
    destruct (vars s !! y) as [hy|] eqn:Ey; cbn [deref rbind].
    2:{ split; [by intros [? ?]|]. intros []. eauto. }
    destruct (decide (hy = hx)) as [->|Hne].
    { split; [|eauto]. intros _ [?|[?|([= ->] & a & [=])]]; done. }
    destruct (release_defined hx s) as [s1 Hs1].
    { intros a ->. eauto. }
    rewrite Hs1. cbn [rbind].
    destruct hy as [b|].
    + split.
      * intros _ [?|[?|([=] & _)]]; done.
      * intros _. apply acquire_defined. cbn [set_handle counts].
        destruct (release_counts _ _ _ b Hs1) as [_ ->]. apply fmap_is_Some. eauto.
    + cbn. split; [by intros [? ?]|]. intros []. right. right.
      destruct hx; [eauto|done].
  - destruct (vars s !! x) as [hx|] eqn:E; cbn [deref rbind].
    2:{ split; [by intros [? ?]|]. intros []. eauto. }
    destruct (vars s !! y) as [hy|] eqn:Ey; cbn [deref rbind].
    2:{ split; [by intros [? ?]|]. intros []. eauto. }
    split; [by intros _ [?|?]|intros _].
    destruct (decide (hy = hx)); [eauto|].
    destruct (release_defined hx s) as [s1 ->]; [|cbn; eauto].
    intros a ->. eauto.
  - destruct (vars s !! x) as [hx|] eqn:E; cbn [deref rbind].
    2:{ split; [by intros [? ?]|]. intros []. eauto. }
    split; [done|intros _].
    destruct (release_defined hx s) as [s1 ->]; [|cbn; eauto]. intros a ->. eauto.
  - destruct (vars s !! x) as [hx|] eqn:E; cbn [deref rbind].
    2:{ split; [by intros [? ?]|]. intros []. eauto. }
    split; [done|intros _].
    destruct (release_defined hx s) as [s1 ->]; [|cbn; eauto]. intros a ->. eauto.
Qed.
