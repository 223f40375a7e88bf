(* Requests repeated, reordered and flipped; what exists answers; what isValid rejects. *)
From stdpp Require Import base gmap list.
From Verif Require Import Base M_Perm S_Perm P_Perm M_Topology S_Topology P_Topology P_TopologyErase
  P_TopologyValid P_TopologyOrder P_TopologyVertices P_TopologyCanonical.

Local Ltac splits := repeat match goal with |- _ ∧ _ => split end.

Lemma extends_refl st : extends st st.
Proof. done. Qed.
Lemma extends_trans st1 st2 st3 : extends st1 st2 → extends st2 st3 → extends st1 st3.
Proof. intros [? ?] [? ?]. split; by etrans. Qed.
Lemma grows_extends debug st st' : growsd debug st st' → extends st st'.
Proof. intros (? & ? & _). done. Qed.
Lemma extends_or st st' k x : extends st st' → ors st !! k = Some x → ors st' !! k = Some x.
Proof. intros [_ H] Hk. by eapply lookup_weaken. Qed.
Lemma extends_fp st st' k x : extends st st' → fps st !! k = Some x → fps st' !! k = Some x.
Proof. intros [H _] Hk. by eapply lookup_weaken. Qed.
Lemma extends_or_some st st' k : extends st st' → is_Some (ors st !! k) → is_Some (ors st' !! k).
Proof. intros H [x Hx]. exists x. by eapply extends_or. Qed.
Lemma extends_fp_some st st' k : extends st st' → is_Some (fps st !! k) → is_Some (fps st' !! k).
Proof. intros H [x Hx]. exists x. by eapply extends_fp. Qed.
Lemma extends_agree st st' : extends st st' → agree st st'.
Proof. intros [? ?]. by apply agree_sym, agree_sub. Qed.
Lemma extends_holdO st st' N o : extends st st' ↔ extends (holdO N o st) st'.
Proof. done. Qed.

(* ---- reading is monotone ---- *)
Lemma rfold_mono {A B} (f g : A → B → res A) a l r :
  (∀ a b r, f a b = Ok r → g a b = Ok r) → rfold f a l = Ok r → rfold g a l = Ok r.
Proof.
  intros H. revert a. induction l as [|b l IH]; intros a; [done|]. cbn [rfold].
  intros (x & Hx & Hr)%rbind_ok. rewrite (H _ _ _ Hx). cbn [rbind]. by apply IH.
Qed.
Lemma rmap_mono {A B} (f g : A → res B) l r :
  (∀ a r, f a = Ok r → g a = Ok r) → rmap f l = Ok r → rmap g l = Ok r.
Proof.
  intros H. revert r. induction l as [|b l IH]; intros r; [done|]. cbn [rmap].
  intros (x & Hx & (xs & Hxs & Hr)%rbind_ok)%rbind_ok. rewrite (H _ _ Hx). cbn [rbind].
  rewrite (IH _ Hxs). done.
Qed.
Lemma deref_ok {A} (x : option A) a : deref x = Ok a ↔ x = Some a.
Proof. destruct x; cbn; split; congruence. Qed.
Lemma oriented_mono st st' N o x : extends st st' → oriented st N o = Ok x → oriented st' N o = Ok x.
Proof. unfold oriented. rewrite !deref_ok. apply extends_or. Qed.
Lemma footprint_mono st st' N o x : extends st st' → footprint st N o = Ok x → footprint st' N o = Ok x.
Proof.
  intros He. unfold footprint. intros (y & Hy & H)%rbind_ok. by rewrite (oriented_mono _ _ _ _ _ He Hy).
Qed.
Lemma fcomposition_mono st st' N o x :
  extends st st' → fcomposition st N o = Ok x → fcomposition st' N o = Ok x.
Proof. unfold fcomposition. rewrite !deref_ok. apply extends_fp. Qed.
Lemma fvertex_set_mono st st' N f vs r :
  extends st st' → fvertex_set st N f vs = Ok r → fvertex_set st' N f vs = Ok r.
Proof.
  intros He. revert f vs r. induction N as [|N IH]; intros f vs r; [done|].
  destruct N as [|N].
  - cbn [fvertex_set]. intros (c & Hc & H)%rbind_ok. rewrite (fcomposition_mono _ _ _ _ _ He Hc). cbn [rbind].
    eapply rfold_mono; [|exact H]. intros a b x (g & Hg & Hx)%rbind_ok.
    by rewrite (footprint_mono _ _ _ _ _ He Hg).
  - rewrite !fvertex_set_SS. intros (c & Hc & H)%rbind_ok.
    rewrite (fcomposition_mono _ _ _ _ _ He Hc). cbn [rbind].
    eapply rfold_mono; [|exact H]. intros a b x (g & Hg & Hx)%rbind_ok.
    rewrite (footprint_mono _ _ _ _ _ He Hg). cbn [rbind]. by apply IH.
Qed.
Lemma fvertex_list_mono debug st st' N f vs r :
  extends st st' → fvertex_list debug st N f vs = Ok r → fvertex_list debug st' N f vs = Ok r.
Proof.
  intros He. revert f vs r. induction N as [|N IH]; intros f vs r; [done|].
  destruct N as [|N].
  - cbn [fvertex_list]. intros (c & Hc & (o0 & H0 & (o1 & H1 & ([g0 s0] & Hg0 & (g1 & Hg1 & H)%rbind_ok)%rbind_ok)%rbind_ok)%rbind_ok)%rbind_ok.
    rewrite (fcomposition_mono _ _ _ _ _ He Hc). cbn [rbind]. rewrite H0, H1. cbn [rbind].
    rewrite (oriented_mono _ _ _ _ _ He Hg0). cbn [rbind].
    by rewrite (footprint_mono _ _ _ _ _ He Hg1).
  - rewrite !fvertex_list_SS.
    intros (c & Hc & (o0 & H0 & (o1 & H1 & ([g0 s0] & Hg0 & (l & Hl & (u & Hu & (g1 & Hg1 & (new & Hnew & H)%rbind_ok)%rbind_ok)%rbind_ok)%rbind_ok)%rbind_ok)%rbind_ok)%rbind_ok)%rbind_ok.
    rewrite (fcomposition_mono _ _ _ _ _ He Hc). cbn [rbind]. rewrite H0, H1. cbn [rbind].
    rewrite (oriented_mono _ _ _ _ _ He Hg0). cbn [rbind]. rewrite (IH _ _ _ Hl). cbn [rbind].
    rewrite Hu. cbn [rbind]. rewrite (footprint_mono _ _ _ _ _ He Hg1). cbn [rbind].
    by rewrite (fvertex_set_mono _ _ _ _ _ _ He Hnew).
Qed.
Lemma vertices_mono debug st st' N o r :
  extends st st' → vertices debug st N o = Ok r → vertices debug st' N o = Ok r.
Proof.
  intros He. unfold vertices. intros ([f s] & Ho & (l & Hl & H)%rbind_ok)%rbind_ok.
  rewrite (oriented_mono _ _ _ _ _ He Ho). cbn [rbind]. by rewrite (fvertex_list_mono _ _ _ _ _ _ _ He Hl).
Qed.

Section api.
  Context (al : alloc) (Hal : good_alloc al) (debug : bool).
  Local Notation grows := (growsd debug).

  (* what [m] does in [st] is done again, with the same answer and no effect, in any state that still
     has what was registered after [m] *)
  Definition repeats {A} (m : act A) (st : topo) : Prop :=
    wp m st (λ x st1, Inv st1 ∧ extends st st1 ∧
               ∀ st', Inv st' → extends st1 st' → m st' = Ret x st') (λ _, True).

  Lemma repeats_bind {A B} (a : act A) (b : A → act B) st :
    repeats a st → (∀ x st1, Inv st1 → extends st st1 → a st = Ret x st1 → repeats (b x) st1) →
    repeats (abind a b) st.
  Proof.
    intros Ha Hb. unfold repeats. unfold repeats, wp in Ha. unfold wp, abind.
    destruct (a st) as [x st1|st1|] eqn:E; [|done|done]. destruct Ha as (HI1 & He1 & Hr1).
    specialize (Hb x st1 HI1 He1 eq_refl). unfold repeats, wp in Hb.
    destruct (b x st1) as [y st2|st2|]; [|done|done]. destruct Hb as (HI2 & He2 & Hr2).
    splits; [done|by eapply extends_trans|]. intros st' HI' He'. rewrite Hr1; [by apply Hr2|done|].
    by eapply extends_trans.
  Qed.
  Lemma repeats_read {A} (f : topo → res A) st :
    Inv st → f st ≠ Ub → (∀ x st', Inv st' → f st = Ok x → extends st st' → f st' = Ok x) →
    repeats (aread f) st.
  Proof.
    intros HI Hd Hf. unfold repeats, wp, aread. destruct (f st) as [x| |] eqn:E; [|done|done].
    splits; [done|apply extends_refl|]. intros st' HI' He. by rewrite (Hf x st' HI' eq_refl He).
  Qed.
  Lemma repeats_ret {A} (x : A) st : Inv st → repeats (aret x) st.
  Proof. intros HI. unfold repeats, wp, aret. splits; [done|apply extends_refl|done]. Qed.

  Lemma repeats_oriented st N f s :
    Inv st → is_Some (fps st !! (N, f)) → sign s → repeats (oriented_simplex al N f s) st.
  Proof.
    intros HI Hf Hs. eapply wp_mono; [by apply (wp_oriented al Hal debug _ _ _ _ (λ _, False))| |done].
    intros o st1 (HI1 & Hg & Ho & Hfe & _). splits; [done|by eapply grows_extends|].
    intros st' HI' He. pose proof (extends_or _ _ _ _ He Ho) as Ho'.
    destruct (i_or _ HI' _ _ _ _ Ho') as (_ & Hom & _).
    unfold oriented_simplex, abind, aread, find_oriented. by rewrite Hom.
  Qed.

  Lemma repeats_simplex st N c :
    Inv st → length c = S (S N) → (∀ o, o ∈ c → is_Some (ors st !! (N, o))) →
    repeats (simplex al debug (S N) c) st.
  Proof.
    intros HI Hlen Hreg. eapply wp_mono; [by apply (wp_simplex al Hal debug st N c)| |done].
    intros o st1 (Hv & HI1 & Hg & f & s & c' & r & Ho & Hs & Hf & Hr' & Hr & Hor & _).
    splits; [done|by eapply grows_extends|]. intros st' HI' He.
    pose proof (grows_extends _ _ _ Hg) as Hg'. pose proof (extends_trans _ _ _ Hg' He) as He'.
    assert (Hreg' : ∀ o, o ∈ c → is_Some (ors st' !! (N, o)))
      by (intros p Hp; eapply extends_or_some; [exact He'|by apply Hreg]).
    assert (Hreg1 : ∀ o, o ∈ c → is_Some (ors st1 !! (N, o)))
      by (intros p Hp; eapply extends_or_some; [exact Hg'|by apply Hreg]).
    assert (Hv' : is_valid debug st' (S N) c = Ok true).
    { rewrite <- Hv. apply is_valid_agree; try done. apply agree_sym. by apply extends_agree. }
    assert (Hcx : ∀ d, (∀ p, p ∈ d → is_Some (ors st1 !! (N, p))) →
      footprints st' (S N) d = footprints st1 (S N) d).
    { intros d Hd. apply footprints_ext. cbn [pred]. intros p Hp. destruct (Hd p Hp) as [x Hx].
      rewrite Hx. exact (extends_or _ _ _ _ He Hx). }
    destruct (i_fS _ HI1 _ _ _ Hf) as [_ Hm].
    assert (Hfs : cmap st' !! (S N, r) = Some f).
    { destruct (i_cm _ HI' N f c' (extends_fp _ _ _ _ He Hf)) as (r2 & Hr2 & Hcm).
      unfold representative in Hr2, Hr'. rewrite Hcx in Hr2 by done. congruence. }
    assert (Hrep : representative st' (S N) c = Ok r).
    { unfold representative in *. by rewrite Hcx. }
    assert (Hor' : orientation debug st' (S N) c f = Ok s).
    { unfold orientation in *. rewrite Hcx by done.
      assert (fcomposition st' (S N) f = fcomposition st1 (S N) f) as ->.
      { unfold fcomposition. rewrite Hf. by rewrite (extends_fp _ _ _ _ He Hf). }
      unfold fcomposition in *. rewrite Hf in *. cbn [deref rbind] in *. by rewrite Hcx. }
    pose proof (extends_or _ _ _ _ He Ho) as Ho'. destruct (i_or _ HI' _ _ _ _ Ho') as (_ & Hom & _).
    unfold simplex, abind, aread. rewrite Hv'. unfold simplex_f, abind, aread. rewrite Hrep. rewrite Hfs.
    unfold aret. rewrite Hor'. unfold oriented_simplex, abind, aread, find_oriented. by rewrite Hom.
  Qed.

  Lemma repeats_assert st N o vs :
    Inv st → is_Some (ors st !! (S N, o)) → length vs = S (S N) →
    repeats (assert_vertices debug (S N) o vs) st.
  Proof.
    intros HI Ho Hlen.
    assert (H : wp (assert_vertices debug (S N) o vs) st (λ _ st1, st1 = st) (λ _, True))
      by (by apply (wp_assert_vertices debug)).
    unfold repeats, wp in *. destruct (assert_vertices debug (S N) o vs st) as [x st1|st1|] eqn:E; [|done|done].
    subst st1. splits; [done|apply extends_refl|]. intros st' HI' He.
    unfold assert_vertices in *. destruct debug; [|by destruct x].
    unfold abind, aread in *. destruct (vertices true st (S N) o) as [ws| |] eqn:Hv; [|done|done].
    rewrite (vertices_mono _ _ _ _ _ _ He Hv).
    destruct (permutation_sign Nat.leb true ws vs) as [s| |]; [|done|done].
    case_decide; [|done]. unfold aret in *. by destruct x.
  Qed.

  Lemma wp_ret {A} (m : act A) st Q E x st1 : wp m st Q E → m st = Ret x st1 → Q x st1.
  Proof. unfold wp. intros H Hm. by rewrite Hm in H. Qed.

  Lemma repeats_segment st v0 v1 :
    Inv st → is_Some (fps st !! (0, v0)) → is_Some (fps st !! (0, v1)) →
    repeats (segment al debug v0 v1) st.
  Proof.
    intros HI H0 H1. unfold segment.
    apply repeats_bind; [apply repeats_oriented; [done..|by right]|]. intros t st1 HI1 He1 E1.
    eapply wp_ret in E1; [|apply (wp_oriented al Hal debug _ _ _ _ (λ _, False)); [done..|by right]].
    destruct E1 as (_ & _ & Ht & _).
    apply repeats_bind; [apply repeats_oriented; [done|by apply (extends_fp_some st)|by left]|].
    intros h st2 HI2 He2 E2.
    eapply wp_ret in E2; [|apply (wp_oriented al Hal debug _ _ _ _ (λ _, False));
      [done|by apply (extends_fp_some st)|by left]].
    destruct E2 as (_ & _ & Hh & _).
    assert (Hreg : ∀ o, o ∈ [t; h] → is_Some (ors st2 !! (0, o))).
    { intros o [-> |[-> |Ho]%elem_of_cons]%elem_of_cons; [|eauto|inversion Ho].
      rewrite (extends_or _ _ _ _ He2 Ht). by eexists. }
    apply repeats_bind; [by apply repeats_simplex|]. intros o st3 HI3 He3 E3.
    eapply wp_ret in E3; [|by apply (wp_simplex al Hal debug st2 0 [t; h])].
    destruct E3 as (_ & _ & _ & f & s & c' & r & Ho & _).
    apply repeats_bind; [apply repeats_assert; [done|by eexists|done]|]. intros _ st4 HI4 He4 _.
    by apply repeats_ret.
  Qed.

  Lemma repeats_faces st N c vs :
    Inv st → (∀ o, o ∈ c → is_Some (ors st !! (N, o))) → length c = S (S N) → length vs = S (S N) →
    repeats (do! o := simplex al debug (S N) c in
             do! _ := assert_vertices debug (S N) o vs in aret o) st.
  Proof.
    intros HI Hreg Hlen Hlen'.
    apply repeats_bind; [by apply repeats_simplex|]. intros o st3 HI3 He3 E3.
    eapply wp_ret in E3; [|by apply (wp_simplex al Hal debug st N c)].
    destruct E3 as (_ & _ & _ & f & s & c' & r & Ho & _).
    apply repeats_bind; [apply repeats_assert; [done|by eexists|done]|]. intros _ st4 HI4 He4 _.
    by apply repeats_ret.
  Qed.

  Lemma repeats_triangle st v0 v1 v2 :
    Inv st → is_Some (fps st !! (0, v0)) → is_Some (fps st !! (0, v1)) → is_Some (fps st !! (0, v2)) →
    repeats (triangle al debug v0 v1 v2) st.
  Proof.
    intros HI H0 H1 H2. unfold triangle.
    apply repeats_bind; [by apply repeats_segment|]. intros a st1 HI1 He1 E1.
    eapply wp_ret in E1; [|by apply (wp_segment_safe al Hal debug)]. destruct E1 as (_ & _ & Ha).
    apply repeats_bind; [apply repeats_segment; [done|by apply (extends_fp_some st)..]|].
    intros b st2 HI2 He2 E2.
    eapply wp_ret in E2; [|apply (wp_segment_safe al Hal debug); [done|by apply (extends_fp_some st)..]].
    destruct E2 as (_ & _ & Hb).
    assert (He02 : extends st st2) by (by eapply extends_trans).
    apply repeats_bind; [apply repeats_segment; [done|by apply (extends_fp_some st)..]|].
    intros c st3 HI3 He3 E3.
    eapply wp_ret in E3; [|apply (wp_segment_safe al Hal debug); [done|by apply (extends_fp_some st)..]].
    destruct E3 as (_ & _ & Hc).
    assert (He13 : extends st1 st3) by (by eapply extends_trans).
    apply repeats_faces; try done.
    intros o [-> |[-> |[-> |Ho]%elem_of_cons]%elem_of_cons]%elem_of_cons; [| |done|inversion Ho].
    - by apply (extends_or_some st1).
    - by apply (extends_or_some st2).
  Qed.

  Lemma repeats_tetrahedron st v0 v1 v2 v3 :
    Inv st → is_Some (fps st !! (0, v0)) → is_Some (fps st !! (0, v1)) → is_Some (fps st !! (0, v2)) →
    is_Some (fps st !! (0, v3)) → repeats (tetrahedron al debug v0 v1 v2 v3) st.
  Proof.
    intros HI H0 H1 H2 H3. unfold tetrahedron.
    apply repeats_bind; [by apply repeats_triangle|]. intros a st1 HI1 He1 E1.
    eapply wp_ret in E1; [|by apply (wp_triangle_safe al Hal debug)]. destruct E1 as (_ & _ & Ha).
    apply repeats_bind; [apply repeats_triangle; [done|by apply (extends_fp_some st)..]|].
    intros b st2 HI2 He2 E2.
    eapply wp_ret in E2; [|apply (wp_triangle_safe al Hal debug); [done|by apply (extends_fp_some st)..]].
    destruct E2 as (_ & _ & Hb).
    assert (He02 : extends st st2) by (by eapply extends_trans).
    apply repeats_bind; [apply repeats_triangle; [done|by apply (extends_fp_some st)..]|].
    intros c st3 HI3 He3 E3.
    eapply wp_ret in E3; [|apply (wp_triangle_safe al Hal debug); [done|by apply (extends_fp_some st)..]].
    destruct E3 as (_ & _ & Hc).
    assert (He03 : extends st st3) by (by eapply extends_trans).
    apply repeats_bind; [apply repeats_triangle; [done|by apply (extends_fp_some st)..]|].
    intros d st4 HI4 He4 E4.
    eapply wp_ret in E4; [|apply (wp_triangle_safe al Hal debug); [done|by apply (extends_fp_some st)..]].
    destruct E4 as (_ & _ & Hd).
    assert (He24 : extends st2 st4) by (by eapply extends_trans).
    assert (He14 : extends st1 st4) by (by eapply extends_trans).
    apply repeats_faces; try done.
    intros o [-> |[-> |[-> |[-> |Ho]%elem_of_cons]%elem_of_cons]%elem_of_cons]%elem_of_cons;
      [| | |done|inversion Ho].
    - by apply (extends_or_some st1).
    - by apply (extends_or_some st2).
    - by apply (extends_or_some st3).
  Qed.

  Lemma repeats_flip st N o : Inv st → is_Some (ors st !! (N, o)) → repeats (flip al N o) st.
  Proof.
    intros HI [[f s] Ho]. unfold flip. destruct (i_or _ HI _ _ _ _ Ho) as (Hf & _ & Hs).
    apply repeats_bind.
    - apply repeats_read; [done|unfold oriented; by rewrite Ho|]. intros x st' _ Hx He.
      by eapply oriented_mono.
    - intros [f' s'] st1 HI1 He1 E1. unfold aread, oriented in E1. rewrite Ho in E1.
      cbn [deref] in E1. injection E1 as <- <- <-. apply repeats_oriented; [done|done|].
      destruct Hs as [-> | ->]; [by right|by left].
  Qed.
End api.
