(* C14-C24, C64, C65: the topology. *)
From stdpp Require Import base gmap list.
From Verif Require Import Base M_Perm S_Perm P_Perm M_Topology S_Topology P_Topology P_TopologyErase
  P_TopologyValid P_TopologyOrder P_TopologyVertices P_TopologyCanonical P_TopologyApi P_TopologyApi2.

Local Ltac splits := repeat match goal with |- _ ∧ _ => split end.

Section topology.
  Context (al : alloc) (Hal : good_alloc al) (debug : bool).

  (* C14: one footprint per set of sub-simplex footprints *)
  Theorem C14_one_footprint st N f f' c c' l l' :
    reach al debug st →
    fps st !! (S N, f) = Some c → fps st !! (S N, f') = Some c' →
    footprints_are st N c l → footprints_are st N c' l' → l ≡ₚ l' → f = f'.
  Proof. intros Hr. apply footprint_unique. by eapply reach_Inv. Qed.

  (* C14: one oriented simplex per footprint and orientation *)
  Theorem C14_one_oriented_simplex st N o o' f s :
    reach al debug st →
    ors st !! (N, o) = Some (f, s) → ors st !! (N, o') = Some (f, s) → o = o'.
  Proof. intros Hr. apply oriented_unique. by eapply reach_Inv. Qed.

  Lemma keepO_ret N (m : act nat) st a st1 :
    keepO N m st = Ret a st1 → ∃ o st0, m st = Ret o st0 ∧ a = AOriented N o ∧ st1 = holdO N o st0.
  Proof.
    unfold keepO, abind. destruct (m st) as [o st0|st0|]; [|done|done]. intros [= <- <-]. eauto.
  Qed.

  Lemma request_repeats st x :
    Inv st → legal st x → is_request x → ∃ N m, step al debug x = keepO N m ∧ repeats m st.
  Proof.
    intros HI Hl Hx. destruct x; try done; cbn [legal step] in *.
    - destruct Hl as [? ?]. eexists _, _. split; [reflexivity|].
      apply (repeats_oriented al Hal debug); [done|by apply (i_hF _ HI)|done].
    - destruct Hl as (HN & Hlen & Hc). eexists _, _. split; [reflexivity|]. destruct N as [|N]; [lia|].
      apply (repeats_simplex al Hal debug); try done. intros o Ho. apply (i_hO _ HI).
      rewrite Forall_forall in Hc. by apply Hc.
    - destruct Hl as (? & ?). eexists _, _. split; [reflexivity|].
      apply (repeats_segment al Hal debug); [done|by apply (i_hF _ HI)..].
    - destruct Hl as (? & ? & ?). eexists _, _. split; [reflexivity|].
      apply (repeats_triangle al Hal debug); [done|by apply (i_hF _ HI)..].
    - destruct Hl as (? & ? & ? & ?). eexists _, _. split; [reflexivity|].
      apply (repeats_tetrahedron al Hal debug); [done|by apply (i_hF _ HI)..].
    - eexists _, _. split; [reflexivity|]. apply (repeats_flip al Hal debug); [done|by apply (i_hO _ HI)].
  Qed.

  (* C14: asking twice. In any later state that still has what was registered after the first
     request, the same request returns the same object and creates nothing. *)
  Theorem C14_asking_twice st x a st1 st' :
    reach al debug st → legal st x → is_request x → step al debug x st = Ret a st1 →
    reach al debug st' → extends st1 st' →
    ∃ st2, step al debug x st' = Ret a st2 ∧ same_objects st' st2.
  Proof.
    intros Hr Hl Hx E Hr' He. pose proof (reach_Inv al Hal debug _ Hr) as HI.
    pose proof (reach_Inv al Hal debug _ Hr') as HI'.
    destruct (request_repeats st x HI Hl Hx) as (N & m & Hm & Hrep). rewrite Hm in *.
    apply keepO_ret in E as (o & st0 & E & -> & ->). unfold repeats, wp in Hrep. rewrite E in Hrep.
    destruct Hrep as (_ & _ & Hrep). exists (holdO N o st'). split; [|done].
    unfold keepO, abind. by rewrite (Hrep st' HI' He).
  Qed.

  (* C15 *)
  Theorem C15_reordered_composition st N c o st1 st' c' o' st2 l l' :
    reach al debug st → legal st (OComposition (S N) c) →
    step al debug (OComposition (S N) c) st = Ret (AOriented (S N) o) st1 →
    reach al debug st' → extends st1 st' → legal st' (OComposition (S N) c') →
    step al debug (OComposition (S N) c') st' = Ret (AOriented (S N) o') st2 →
    footprints_are st' N c l → footprints_are st' N c' l' → NoDup l →
    (even_reordering l l' → o = o') ∧
    (odd_reordering l l' →
       ∃ f s, ors st2 !! (S N, o) = Some (f, s) ∧ ors st2 !! (S N, o') = Some (f, (- s)%Z)).
  Proof.
    intros Hr Hl E Hr' He Hl' E' Hfp Hfp' Hnd. pose proof (reach_Inv al Hal debug _ Hr) as HI.
    pose proof (reach_Inv al Hal debug _ Hr') as HI'. cbn [step] in E, E'.
    apply keepO_ret in E as (p & st0 & E & [= <-] & ->).
    apply keepO_ret in E' as (p' & st0' & E' & [= <-] & ->).
    destruct Hl as (_ & Hlen & Hc). destruct Hl' as (_ & Hlen' & Hc').
    rewrite Forall_forall in Hc, Hc'. cbn [pred] in Hc, Hc'.
    assert (H : ∀ b, reord b l l' → ∃ f s, ors st0' !! (S N, o) = Some (f, s) ∧
      ors st0' !! (S N, o') = Some (f, if b then s else (- s)%Z) ∧ (b = true → o = o')).
    { intros b. eapply (simplex_reorder al Hal debug st N c o st0 st' c' o' st0'); try done.
      - intros q Hq. apply (i_hO _ HI). by apply Hc.
      - intros q Hq. apply (i_hO _ HI'). by apply Hc'. }
    split.
    - intros Hb%even_reord. destruct (H true Hb) as (_ & _ & _ & _ & ?). auto.
    - intros Hb%odd_reord. destruct (H false Hb) as (f & s & ? & ? & _). eauto.
  Qed.

  (* C15: a reordering of an accepted composition is accepted too *)
  Theorem C15_reordering_is_accepted st N c c' :
    reach al debug st → legal st (OComposition (S N) c) → c ≡ₚ c' →
    (∃ a st1, step al debug (OComposition (S N) c) st = Ret a st1) →
    ∃ a st1, step al debug (OComposition (S N) c') st = Ret a st1.
  Proof.
    intros Hr (HN & Hlen & Hc) Hp (a & st1 & E). pose proof (reach_Inv al Hal debug _ Hr) as HI.
    rewrite Forall_forall in Hc. cbn [pred] in Hc.
    assert (Hreg : ∀ o, o ∈ c → is_Some (ors st !! (N, o))) by (intros o Ho; by apply (i_hO _ HI), Hc).
    assert (Hreg' : ∀ o, o ∈ c' → is_Some (ors st !! (N, o))) by (intros o; rewrite <- Hp; apply Hreg).
    assert (Hlen' : length c' = S (S N)) by (by rewrite <- Hp).
    cbn [step] in *. apply keepO_ret in E as (p & st0 & E & _ & _).
    pose proof (wp_simplex al Hal debug st N c' HI Hlen' Hreg') as Hw. unfold wp in Hw.
    destruct (simplex_result al Hal debug st N c p st0 HI Hlen Hreg E) as (_ & _ & Hv & _).
    rewrite (is_valid_perm _ _ _ _ _ HI Hlen Hreg Hp) in Hv. unfold keepO, abind.
    destruct (simplex al debug (S N) c' st) as [o' st'|st'|]; [by eexists _, _| |done].
    destruct Hw as (_ & [H|H]); congruence.
  Qed.

  (* C65, as far as it holds: the members of the simplex returned for a composition ride, in an even
     reordering, on the footprints of the composition; they are the composition itself when no simplex
     rode on these footprints before *)
  Theorem C65_members_partial st N c o st1 l :
    reach al debug st → legal st (OComposition (S N) c) →
    step al debug (OComposition (S N) c) st = Ret (AOriented (S N) o) st1 →
    footprints_are st N c l → NoDup l →
    ∃ c' l', composition st1 (S N) o = Ok c' ∧ footprints_are st1 N c' l' ∧ even_reordering l l' ∧
      ((∀ f d k, fps st !! (S N, f) = Some d → footprints_are st N d k → ¬ l ≡ₚ k) → c' = c).
  Proof.
    intros Hr (_ & Hlen & Hc) E Hl Hnd. pose proof (reach_Inv al Hal debug _ Hr) as HI.
    rewrite Forall_forall in Hc. cbn [pred] in Hc. cbn [step] in E.
    assert (Hreg : ∀ o, o ∈ c → is_Some (ors st !! (N, o))) by (intros q Hq; by apply (i_hO _ HI), Hc).
    apply keepO_ret in E as (p & st0 & E & [= <-] & ->).
    pose proof E as E2. eapply wp_ret in E2; [|by apply (wp_simplex al Hal debug st N c)].
    destruct E2 as (_ & _ & _ & f' & s' & c2 & r & Ho' & _ & Hf' & _ & _ & _ & _ & Hnew & _).
    destruct (simplex_result al Hal debug st N c o st0 HI Hlen Hreg E) as
      (HI1 & He1 & _ & f & s & d & k & kd & Ho & Hf & Hk & Hkd & Hp & Hs).
    rewrite Ho in Ho'. injection Ho' as <- <-. rewrite Hf in Hf'. injection Hf' as <-.
    assert (k = l) as -> by (eapply footprints_are_det; [exact Hk|by eapply footprints_are_mono]).
    assert (Hll : length l = S (S N)) by (rewrite <- Hlen; by eapply footprints_length).
    assert (Hlk : length kd = S (S N)) by (by rewrite <- Hp).
    assert (Hne : l ≠ []) by (by intros ->).
    destruct (permutation_sign_iff _ nat_total debug l kd Hne Hnd Hp) as (s1 & Hs1 & H1 & Hev & Hod).
    rewrite Hs in Hs1. injection Hs1 as <-.
    assert (Hd : footprints_are (holdO (S N) o st0) N d kd) by exact Hkd.
    assert (Hn : (∀ f d k, fps st !! (S N, f) = Some d → footprints_are st N d k → ¬ l ≡ₚ k) → d = c).
    { intros Hno. destruct (find_simplex st (S N) c) as [[g|]| |] eqn:Ef.
      - exfalso. unfold find_simplex in Ef. apply rbind_ok in Ef as (r' & Hr' & [= Hg]).
        destruct (i_mc _ HI _ _ _ Hg) as (? & d' & _ & Hd' & Hrd').
        destruct (representative_perm _ _ _ _ _ Hr' Hrd') as (a & b & Ha & Hb & Hab).
        apply footprints_spec in Ha, Hb.
        assert (a = l) as -> by (by eapply footprints_are_det). by eapply Hno.
      - destruct (Hnew eq_refl) as (H & _). rewrite H, lookup_insert in Hf. by injection Hf.
      - exfalso. destruct (proj2 (footprints_spec st N c l) Hl). unfold find_simplex, representative in Ef.
        by rewrite (proj2 (footprints_spec st N c l) Hl) in Ef.
      - exfalso. unfold find_simplex, representative in Ef. by rewrite (proj2 (footprints_spec st N c l) Hl) in Ef. }
    assert (Hcomp : composition (holdO (S N) o st0) (S N) o = Ok (if decide (s = (-1)%Z) then swap01 d else d)).
    { unfold composition, oriented, fcomposition. cbn [holdO upd_hO ors fps]. rewrite Ho. cbn [deref rbind]. by rewrite Hf. }
    rewrite Hcomp. case_decide as Hd1.
    - exists (swap01 d), (swap01 kd). splits; [done| | |].
      + clear -Hd Hlk. unfold footprints_are in *. destruct Hd as [|x u d k Hx [|y v d' k' Hy H]]; [done..|].
        cbn [swap01]. by repeat constructor.
      + apply even_reord. destruct (proj1 Hod Hd1) as (n & Hn' & Hx).
        eapply (reord_trans false false); [|apply reord_sym, swap01_reord; lia].
        exists n. split; [|done]. rewrite <- Nat.negb_odd. by apply Nat.odd_spec in Hn' as ->.
      + intros Hno%Hn. subst d. exfalso.
        assert (kd = l) as -> by (eapply footprints_are_det; [exact Hkd|exact Hk]).
        rewrite (permutation_sign_refl _ nat_total) in Hs by done. by rewrite Hd1 in Hs.
    - exists d, kd. splits; [done|done| |done]. apply even_reord. destruct H1 as [H1|H1]; [|done].
      destruct (proj1 Hev H1) as (n & Hn' & Hx). exists n. split; [by apply Nat.even_spec|done].
  Qed.

  (* C16 *)
  Theorem C16_flip st N o :
    reach al debug st → has st N o →
    ∃ f s o' st1, ors st !! (N, o) = Some (f, s) ∧
      step al debug (OFlip N o) st = Ret (AOriented N o') st1 ∧
      ors st1 !! (N, o) = Some (f, s) ∧ ors st1 !! (N, o') = Some (f, (- s)%Z) ∧ o' ≠ o ∧
      exists_flipped st1 N o = Ok true ∧
      (∀ M us, N = S M → vertices debug st1 N o = Ok us →
         ∃ us', vertices debug st1 N o' = Ok us' ∧ odd_reordering us us') ∧
      ∃ st2, step al debug (OFlip N o') st1 = Ret (AOriented N o) st2 ∧ same_objects st1 st2.
  Proof.
    intros Hr Hh. pose proof (reach_Inv al Hal debug _ Hr) as HI.
    destruct (i_hO _ HI _ _ Hh) as [[f s] Ho]. destruct (i_or _ HI _ _ _ _ Ho) as (Hf & _ & Hs).
    assert (Hs' : sign (- s)) by (destruct Hs as [-> | ->]; [by right|by left]).
    pose proof (wp_oriented al Hal debug st N f (- s)%Z (λ _, False) HI Hf Hs') as Hw. unfold wp in Hw.
    destruct (oriented_simplex al N f (- s) st) as [o' st1|st1|] eqn:E; [|done|done].
    destruct Hw as (HI1 & Hg & Ho' & _). pose proof (grows_or _ _ _ _ _ Hg Ho) as Ho1.
    destruct (i_or _ HI1 _ _ _ _ Ho1) as (_ & Hom & _). destruct (i_or _ HI1 _ _ _ _ Ho') as (_ & Hom' & _).
    exists f, s, o', (holdO N o' st1). splits; [done| |done|done| | | |].
    - cbn [step]. unfold keepO, flip, abind, aread, oriented. rewrite Ho. cbn [deref]. by rewrite E.
    - intros ->. rewrite Ho1 in Ho'. injection Ho' as Ho'. destruct Hs as [-> | ->]; discriminate.
    - unfold exists_flipped, oriented, exists_oriented, find_oriented. cbn [holdO upd_hO ors omap].
      rewrite Ho1. cbn [deref rbind]. by rewrite Hom'.
    - intros M us -> Hus. setoid_rewrite odd_reord.
      eapply (vertices_flip debug (holdO (S M) o' st1) M o o' f s us); done.
    - exists (holdO N o (holdO N o' st1)). split; [|done].
      cbn [step]. unfold keepO, flip, abind, aread, oriented. cbn [holdO upd_hO ors]. rewrite Ho'.
      cbn [deref]. rewrite Z.opp_involutive. unfold oriented_simplex, abind, aread, find_oriented.
      cbn [holdO upd_hO omap]. by rewrite Hom.
  Qed.

  Lemma request_vertices st x N vs :
    reach_listed al debug st → legal st x → built_from x = Some (N, vs) →
    (1 ≤ N ≤ 3) ∧ length vs = S N ∧ ∃ m, step al debug x = keepO N m ∧
    wp m st (λ o st', NoDup vs ∧ good debug st N vs o st') (refused debug st vs).
  Proof.
    intros Hr Hl Hx. destruct (listed_fine al Hal debug st Hr) as [HI HC].
    destruct x; try done; cbn [built_from legal step] in *; injection Hx as <- <-.
    - destruct Hl as (? & ?). splits; [lia|lia|done|]. eexists. split; [reflexivity|].
      apply (wp_segment_can al Hal debug); [done|done|by apply (i_hF _ HI)..].
    - destruct Hl as (? & ? & ?). splits; [lia|lia|done|]. eexists. split; [reflexivity|].
      apply (wp_triangle_can al Hal debug); [done|done|by apply (i_hF _ HI)..].
    - destruct Hl as (? & ? & ? & ?). splits; [lia|lia|done|]. eexists. split; [reflexivity|].
      apply (wp_tetrahedron_can al Hal debug); [done|done|by apply (i_hF _ HI)..].
  Qed.

  Lemma good_step st x N vs :
    reach_listed al debug st → legal st x → built_from x = Some (N, vs) → NoDup vs →
    ∃ o st1, step al debug x st = Ret (AOriented N o) st1 ∧ Inv st1 ∧ extends st st1 ∧
      spans st1 N o vs.
  Proof.
    intros Hr Hl Hx Hnd. destruct (request_vertices st x N vs Hr Hl Hx) as (_ & _ & m & -> & Hw).
    unfold wp in Hw. unfold keepO, abind. destruct (m st) as [o st'|st'|]; [| |done].
    - destruct Hw as (_ & HI & HC & Hg & Hsp). eexists _, _. split; [reflexivity|].
      assert (Ho : is_Some (ors st' !! (N, o))).
      { destruct Hsp as (f & b & ws & Ho & _). by eexists. }
      pose proof (Inv_holdO _ _ _ HI Ho) as HI'. splits; [done|exact (grows_extends _ _ _ Hg)|].
      apply (order_agree st' (holdO N o st') N); try done. by apply extends_agree.
    - destruct Hw as (_ & _ & _ & Hn). done.
  Qed.

  (* C17, for clients that list the compositions they give as the vertex-based requests do; any
     tuple of distinct vertices is accepted *)
  Theorem C17_vertices_partial st x N vs :
    reach_listed al debug st → legal st x → built_from x = Some (N, vs) → NoDup vs →
    ∃ o st1 us, step al debug x st = Ret (AOriented N o) st1 ∧
      vertices debug st1 N o = Ok us ∧ even_reordering us vs.
  Proof.
    intros Hr Hl Hx Hnd. destruct (good_step st x N vs Hr Hl Hx Hnd) as (o & st1 & E & HI & _ & Hsp).
    destruct (vertices_spans debug st1 N o vs Hsp) as (us & Hus & Hre). exists o, st1, us.
    splits; [done|done|by apply even_reord].
  Qed.

  (* a tuple with a repeated vertex is refused *)
  Theorem C17_repeated_vertices_refused st x N vs :
    reach_listed al debug st → legal st x → built_from x = Some (N, vs) → ¬ NoDup vs →
    ∃ st1, step al debug x st = Throw st1.
  Proof.
    intros Hr Hl Hx Hnd. destruct (request_vertices st x N vs Hr Hl Hx) as (_ & _ & m & -> & Hw).
    unfold wp in Hw. unfold keepO, abind. destruct (m st) as [o st'|st'|]; [| |done].
    - by destruct Hw as [? _].
    - by exists st'.
  Qed.

  (* C18, same hypothesis on the client *)
  Theorem C18_vertices_determine_simplex_partial st x N vs o st1 st' x' ws o' st2 :
    reach_listed al debug st → legal st x → built_from x = Some (N, vs) →
    step al debug x st = Ret (AOriented N o) st1 →
    reach_listed al debug st' → extends st1 st' → legal st' x' → built_from x' = Some (N, ws) →
    step al debug x' st' = Ret (AOriented N o') st2 →
    (even_reordering vs ws → o = o') ∧
    (odd_reordering vs ws →
       ∃ f s, ors st2 !! (N, o) = Some (f, s) ∧ ors st2 !! (N, o') = Some (f, (- s)%Z)) ∧
    (¬ vs ≡ₚ ws →
       ∃ f s f' s', ors st2 !! (N, o) = Some (f, s) ∧ ors st2 !! (N, o') = Some (f', s') ∧ f ≠ f').
  Proof.
    intros Hr Hl Hx E Hr' He Hl' Hx' E'.
    assert (Hsp : spans st1 N o vs ∧ Inv st1).
    { destruct (request_vertices st x N vs Hr Hl Hx) as (_ & _ & m & Hm & Hw). rewrite Hm in E.
      apply keepO_ret in E as (p & st0 & E & [= <-] & ->). unfold wp in Hw. rewrite E in Hw.
      destruct Hw as (_ & HI & HC & Hg & Hsp). pose proof Hsp as (f & b & us & Ho & _).
      pose proof (Inv_holdO _ _ _ HI ltac:(by eexists)) as HI'. split; [|exact HI'].
      apply (order_agree st0 (holdO N o st0) N); try done. by apply extends_agree. }
    assert (Hsp' : spans st2 N o' ws ∧ Inv st2 ∧ extends st' st2).
    { destruct (request_vertices st' x' N ws Hr' Hl' Hx') as (_ & _ & m & Hm & Hw). rewrite Hm in E'.
      apply keepO_ret in E' as (p & st0 & E' & [= <-] & ->). unfold wp in Hw. rewrite E' in Hw.
      destruct Hw as (_ & HI & HC & Hg & Hsp'). pose proof Hsp' as (f & b & us & Ho & _).
      pose proof (Inv_holdO _ _ _ HI ltac:(by eexists)) as HI'. splits; [|exact HI'|exact (grows_extends _ _ _ Hg)].
      apply (order_agree st0 (holdO N o' st0) N); try done. by apply extends_agree. }
    destruct Hsp as [Hsp HI1]. destruct Hsp' as (Hsp' & HI2 & He2).
    assert (Hsp2 : spans st2 N o vs).
    { assert (He3 : extends st1 st2) by (by eapply extends_trans).
      apply (order_agree st1 st2 N); try done; [by apply extends_agree|].
      destruct Hsp as (f & b & us & Ho & _). exists (f, zs b). exact (extends_or _ _ _ _ He3 Ho). }
    splits.
    - intros Hb%even_reord. by destruct (spans_unique st2 N o o' true vs ws HI2 Hsp2 Hsp' Hb) as (_ & _ & _ & _ & ?); auto.
    - intros Hb%odd_reord. destruct (spans_unique st2 N o o' false vs ws HI2 Hsp2 Hsp' Hb) as (f & s & ? & ? & _).
      by exists f, s.
    - intros Hp. destruct Hsp2 as (f & b & us & Ho & Hord & Hre). destruct Hsp' as (f' & b' & us' & Ho' & Hord' & Hre').
      exists f, (zs b), f', (zs b'). splits; [done|done|]. intros <-. apply Hp.
      rewrite <- (reord_perm _ _ _ Hre), <- (reord_perm _ _ _ Hre').
      by eapply (order_unique st2 N HI2).
  Qed.

  (* C18: rebuilding a simplex from its own vertices returns it *)
  Theorem C18_rebuild_partial st x N us o :
    reach_listed al debug st → is_oriented st N o → vertices debug st N o = Ok us →
    legal st x → built_from x = Some (N, us) →
    ∃ st1, step al debug x st = Ret (AOriented N o) st1 ∧ extends st st1.
  Proof.
    intros Hr Ho Hus Hl Hx. destruct (listed_fine al Hal debug st Hr) as [HI HC].
    destruct (request_vertices st x N us Hr Hl Hx) as (HN & Hlen & _).
    pose proof (Can_spans debug st N o us HI HC HN Ho Hus) as Hsp.
    assert (Hnd : NoDup us).
    { destruct Hsp as (f & b & ws & _ & Hord & Hre). destruct (order_shape _ _ _ _ Hord) as (_ & Hnd & _).
      by rewrite <- (reord_perm _ _ _ Hre). }
    destruct (good_step st x N us Hr Hl Hx Hnd) as (o' & st1 & E & HI1 & He & Hsp').
    assert (Hsp1 : spans st1 N o us).
    { apply (order_agree st st1 N); try done; [by apply extends_agree|].
      by apply (extends_or_some st). }
    destruct (spans_unique st1 N o o' true us us HI1 Hsp1 Hsp' (reord_refl us)) as (_ & _ & _ & _ & Heq).
    specialize (Heq eq_refl) as <-. by exists st1.
  Qed.

  (* C19: exists(composition) *)
  Theorem C19_exists_composition st N c l :
    reach al debug st → legal st (OComposition (S N) c) → footprints_are st N c l → NoDup l →
    ∃ b : bool, exists_composition debug st (S N) c = Ok b ∧
      (b = true ↔ ∃ o f s c' l', ors st !! (S N, o) = Some (f, s) ∧ fps st !! (S N, f) = Some c' ∧
         footprints_are st N c' l' ∧
         ((s = 1%Z ∧ even_reordering l l') ∨ (s = (-1)%Z ∧ odd_reordering l l'))).
  Proof.
    intros Hr (_ & Hlen & _) Hl Hnd. pose proof (reach_Inv al Hal debug _ Hr) as HI.
    setoid_rewrite even_reord. setoid_rewrite odd_reord. by apply exists_composition_spec.
  Qed.
  Theorem C19_exists_iff_request_creates_nothing st N c :
    reach al debug st → legal st (OComposition (S N) c) → is_valid debug st (S N) c = Ok true →
    exists_composition debug st (S N) c = Ok true ↔
    ∃ a st', step al debug (OComposition (S N) c) st = Ret a st' ∧ same_objects st st'.
  Proof.
    intros Hr (_ & Hlen & Hc) Hv. pose proof (reach_Inv al Hal debug _ Hr) as HI.
    rewrite Forall_forall in Hc. cbn [pred] in Hc.
    assert (Hreg : ∀ o, o ∈ c → is_Some (ors st !! (N, o))) by (intros o Ho; by apply (i_hO _ HI), Hc).
    rewrite (exists_composition_request al Hal debug st N c HI Hlen Hreg Hv). cbn [step]. split.
    - intros (o & st' & E & Hs). exists (AOriented (S N) o), (holdO (S N) o st'). unfold keepO, abind.
      by rewrite E.
    - intros (a & st' & (o & st0 & E & -> & ->)%keepO_ret & Hs). by exists o, st0.
  Qed.
  (* C19: exists({v0, v1}). The request may throw in a debug build after a segment was registered
     from a composition listed head first (see C17); it creates nothing in that case too. *)
  Theorem C19_exists_segment st v0 v1 :
    reach al debug st → legal st (OSegment v0 v1) → v0 ≠ v1 →
    ∃ b : bool, exists_segment debug st v0 v1 = Ok b ∧
      (b = true ↔ match step al debug (OSegment v0 v1) st with
                  | Ret _ st' | Throw st' => same_objects st st'
                  | Undef => False
                  end).
  Proof.
    intros Hr [H0 H1] Hne. pose proof (reach_Inv al Hal debug _ Hr) as HI.
    destruct (exists_segment_request al Hal debug st v0 v1 HI) as (b & Hb & Hiff);
      [by apply (i_hF _ HI)..|done|].
    exists b. split; [done|]. rewrite Hiff. cbn [step]. unfold keepO, abind.
    destruct (segment al debug v0 v1 st); done.
  Qed.

  (* C20: every operation of a client that only uses pointers it holds is defined *)
  Theorem C20_operations_defined st x :
    reach al debug st → legal st x → step al debug x st ≠ Undef.
  Proof. apply reach_defined. exact Hal. Qed.
  (* C20: what a client holds, what a registered oriented simplex rides on, and what a registered
     footprint lists, is registered *)
  Theorem C20_no_dangling st :
    reach al debug st →
    (∀ N o, has st N o → is_oriented st N o) ∧ (∀ N f, hasF st N f → is_footprint st N f) ∧
    (∀ N o f s, ors st !! (N, o) = Some (f, s) → is_footprint st N f ∧ sign s) ∧
    (∀ N f c o, fps st !! (S N, f) = Some c → o ∈ c → is_oriented st N o) ∧
    (∀ N f c, fps st !! (S N, f) = Some c → length c = S (S N)).
  Proof.
    intros Hr. pose proof (reach_Inv al Hal debug _ Hr) as HI. splits.
    - apply (i_hO _ HI).
    - apply (i_hF _ HI).
    - intros N o f s Ho. by destruct (i_or _ HI _ _ _ _ Ho) as (? & _ & ?).
    - intros N f c o Hf Ho. destruct (i_fS _ HI _ _ _ Hf) as [_ H]. by apply H.
    - intros N f c Hf. by destruct (i_fS _ HI _ _ _ Hf).
  Qed.
  (* C20: no operation changes a registered object; one that the client still holds, or that is
     part of an object still registered, stays registered *)
  Theorem C20_objects_stay st x st' :
    reach al debug st → legal st x →
    (step al debug x st = Throw st' ∨ ∃ a, step al debug x st = Ret a st') →
    (∀ N o y, ors st !! (N, o) = Some y → has st' N o → ors st' !! (N, o) = Some y) ∧
    (∀ N f c, fps st !! (N, f) = Some c → hasF st' N f → fps st' !! (N, f) = Some c).
  Proof.
    intros Hr Hl E. pose proof (reach_Inv al Hal debug _ Hr) as HI.
    pose proof (step_safe al Hal debug st x HI Hl) as Hw. unfold wp in Hw.
    assert (Hev : evolves debug st st') by (destruct E as [E|[a E]]; by rewrite E in Hw).
    destruct Hev as [HI' Hev]. clear Hw E.
    assert (Hag : agree st st').
    { destruct Hev as [(st1 & Ha & Hf & Ho)|[Hf Ho]]; [|by apply agree_sub].
      assert (Hsub : fps st ⊆ fps st1 ∧ ors st ⊆ ors st1).
      { clear -Ha. induction Ha as [|st st1 st' _ _ Ha _ [IH1 IH2]]; [done|].
        apply atom_sub in Ha as [? ?]. split; by etrans. }
      apply agree_sym, agree_sub; rewrite ?Hf, ?Ho; apply Hsub. }
    split.
    - intros N o y Ho Hh. destruct (i_hO _ HI' _ _ Hh) as [z Hz]. rewrite Hz.
      f_equal. symmetry. by apply (proj1 Hag _ _ _ Ho Hz).
    - intros N f c Hf Hh. destruct (i_hF _ HI' _ _ Hh) as [z Hz]. rewrite Hz.
      f_equal. symmetry. by apply (proj2 Hag _ _ _ Hf Hz).
  Qed.

  (* C20: what can be read from a simplex the client holds is defined; vertices() in a debug build *)
  Theorem C20_reading_defined_partial st N o :
    reach al debug st → has st (S N) o →
    (∃ f s, oriented st (S N) o = Ok (f, s)) ∧ (∃ c, composition st (S N) o = Ok c) ∧
    (∃ b, sanity_check st (S N) o = Ok b) ∧
    (∃ f vs, footprint st (S N) o = Ok f ∧ fvertex_set st (S N) f [] = Ok vs) ∧
    (0 < N → ∃ es, edges st (S N) o = Ok es) ∧
    (N = 0 → ∃ t h, tail st o = Ok t ∧ head st o = Ok h) ∧
    (debug = true → vertices debug st (S N) o ≠ Ub).
  Proof.
    intros Hr Hh. pose proof (reach_Inv al Hal debug _ Hr) as HI.
    destruct (i_hO _ HI _ _ Hh) as [[f s] Ho]. destruct (i_or _ HI _ _ _ _ Ho) as (Hf & _ & Hs).
    assert (Hfo : footprint st (S N) o = Ok f) by (unfold footprint, oriented; by rewrite Ho).
    splits.
    - exists f, s. unfold oriented. by rewrite Ho.
    - destruct (composition_ok st N o HI) as (? & ? & ? & c & ? & ? & Hc & _); [by eexists|]. by exists c.
    - unfold sanity_check. rewrite Hfo. cbn [rbind]. by apply fsanity_ok.
    - exists f. destruct (fvertex_set_ok st N f [] HI Hf) as [vs Hvs]. by exists vs.
    - intros HN. unfold edges. rewrite Hfo. cbn [rbind]. destruct N as [|N]; [lia|]. by apply fedges_ok.
    - intros ->. apply tail_head_ok; [done|by eexists].
    - intros Hd. apply vertices_not_ub; [done|done|by eexists].
  Qed.
  (* C20: in a release build vertices() is defined for clients that list compositions as the
     vertex-based requests do *)
  Theorem C20_vertices_defined_listed st N o :
    reach_listed al debug st → 1 ≤ N ≤ 3 → has st N o → ∃ us, vertices debug st N o = Ok us.
  Proof.
    intros Hr HN Hh. destruct (listed_fine al Hal debug st Hr) as [HI HC].
    destruct (Can_vertices debug st N o HI HC HN (i_hO _ HI _ _ Hh)) as (us & Hus & _). by exists us.
  Qed.

  (* C21 *)
  Lemma erase_step st N o :
    Inv st → nodup_comps st → has st N o →
    (used_elsewhere st N o →
       ∃ st', step al debug (OErase N o) st = Ret ANone st' ∧ fps st' = fps st ∧ ors st' = ors st ∧
         (∀ k, held (hO st') k = held (hO st) k) ∧ (∀ k, held (hF st') k = held (hF st) k)) ∧
    (¬ used_elsewhere st N o →
       ∃ st', step al debug (OErase N o) st = Ret ANone st' ∧
         (∀ k p, is_oriented st k p →
            (goneO st N o k p → ors st' !! (k, p) = None) ∧
            (¬ goneO st N o k p → ors st' !! (k, p) = ors st !! (k, p))) ∧
         (∀ k f, is_footprint st k f →
            (goneF st N o k f → fps st' !! (k, f) = None) ∧
            (¬ goneF st N o k f → fps st' !! (k, f) = fps st !! (k, f))) ∧
         (∀ k p, ¬ is_oriented st k p → ¬ is_oriented st' k p) ∧
         (∀ k f, ¬ is_footprint st k f → ¬ is_footprint st' k f) ∧
         held (hO st') (N, o) = 0 ∧
         (∀ k, k ≠ (N, o) → held (hO st') k = held (hO st) k) ∧
         (∀ k, held (hF st') k = held (hF st) k)).
  Proof.
    intros HI Hnd Hh. cbn [step]. unfold erase.
    destruct (erase_exact N o st HI Hnd Hh) as [(Hu & st' & -> & _ & Hf & Ho & H1 & H2)|
      (Hu & st' & -> & _ & Hf & Ho & HgO & HgF & H0 & H1 & H2)]; (split; [intros Hu'|intros Hu']); try done.
    - by exists st'.
    - exists st'. splits; try done.
      + intros k p Hp. destruct (HgO k p Hp) as [Ha Hb]. split; [done|]. intros Hn.
        destruct Hp as [x Hx]. rewrite Hx.
        destruct (sub_cases _ _ _ _ Ho Hx) as [?|Hnone]; [done|]. by apply Ha in Hnone.
      + intros k p Hp. destruct (HgF k p Hp) as [Ha Hb]. split; [done|]. intros Hn.
        destruct Hp as [x Hx]. rewrite Hx.
        destruct (sub_cases _ _ _ _ Hf Hx) as [?|Hnone]; [done|]. by apply Ha in Hnone.
      + intros k p Hp [x Hx]. apply Hp. exists x. exact (lookup_weaken _ _ _ _ Hx Ho).
      + intros k p Hp [x Hx]. apply Hp. exists x. exact (lookup_weaken _ _ _ _ Hx Hf).
  Qed.

  (* C22: the answer does not depend on the order *)
  Theorem C22_order_independent st N c c' :
    reach al debug st → legal st (OComposition (S N) c) → c ≡ₚ c' →
    is_valid debug st (S N) c = is_valid debug st (S N) c'.
  Proof.
    intros Hr (_ & Hlen & Hc) Hp. pose proof (reach_Inv al Hal debug _ Hr) as HI.
    rewrite Forall_forall in Hc. apply is_valid_perm; try done. intros o Ho. by apply (i_hO _ HI), Hc.
  Qed.
  (* C22: the composition of a registered simplex is accepted, in every order *)
  Theorem C22_registered_accepted st N o c c' :
    reach al debug st → composition st (S N) o = Ok c → c ≡ₚ c' →
    is_valid debug st (S N) c' = Ok true.
  Proof.
    intros Hr Hc Hp. pose proof (reach_Inv al Hal debug _ Hr) as HI.
    unfold composition, oriented, fcomposition in Hc.
    destruct (ors st !! (S N, o)) as [[f s]|]; [|done]. cbn [deref rbind] in Hc.
    destruct (fps st !! (S N, f)) as [d|] eqn:Hf; [|done]. cbn [deref rbind] in Hc. injection Hc as <-.
    destruct (i_fS _ HI _ _ _ Hf) as [Hlen Hreg].
    rewrite <- (is_valid_perm debug st N d c'); [by eapply reach_valid|done|done|done|].
    rewrite <- Hp. case_decide; [symmetry; apply swap01_perm|done].
  Qed.
  (* C22: flipping one member of an accepted composition is rejected: orders 1, 2 and the odd ones *)
  Theorem C22_flipped_member_rejected st N c1 m c2 m' f s :
    reach al debug st → legal st (OComposition (S N) (c1 ++ m :: c2)) →
    S N = 2 ∨ Nat.Odd (S N) →
    is_valid debug st (S N) (c1 ++ m :: c2) = Ok true →
    ors st !! (N, m) = Some (f, s) → ors st !! (N, m') = Some (f, (- s)%Z) →
    is_valid debug st (S N) (c1 ++ m' :: c2) = Ok false.
  Proof.
    intros Hr (_ & Hlen & Hc) HN Hv Hm Hm'. pose proof (reach_Inv al Hal debug _ Hr) as HI.
    pose proof (reach_valid al Hal debug st Hr) as Hall. rewrite Forall_forall in Hc. cbn [pred] in Hc.
    assert (Hreg : ∀ o, o ∈ c1 ++ m :: c2 → is_Some (ors st !! (N, o)))
      by (intros o Ho; by apply (i_hO _ HI), Hc).
    destruct N as [|K]; [by eapply valid_flip_1|].
    assert (∃ g, zsum g (member_entries st K m) ≠ 0%Z) as [g Hg].
    { destruct HN as [[= ->]|HN].
      - eapply unbalanced_segment; [done|exact Hall|by eexists].
      - apply unbalanced_odd; [done|by eexists|]. destruct HN as [k Hk]. exists (pred k). lia. }
    by eapply (valid_flip debug st K c1 m c2 m' f s g).
  Qed.
  (* C22: even orders above 2, when the member's own faces are distinct *)
  Theorem C22_flipped_member_rejected_distinct_faces st N c1 m c2 m' f s d l :
    reach al debug st → legal st (OComposition (S (S N)) (c1 ++ m :: c2)) →
    is_valid debug st (S (S N)) (c1 ++ m :: c2) = Ok true →
    ors st !! (S N, m) = Some (f, s) → ors st !! (S N, m') = Some (f, (- s)%Z) →
    fps st !! (S N, f) = Some d → footprints_are st N d l → NoDup l →
    is_valid debug st (S (S N)) (c1 ++ m' :: c2) = Ok false.
  Proof.
    intros Hr (_ & Hlen & Hc) Hv Hm Hm' Hd Hl Hnd. pose proof (reach_Inv al Hal debug _ Hr) as HI.
    rewrite Forall_forall in Hc. cbn [pred] in Hc.
    assert (Hreg : ∀ o, o ∈ c1 ++ m :: c2 → is_Some (ors st !! (S N, o)))
      by (intros o Ho; by apply (i_hO _ HI), Hc).
    destruct (unbalanced_nodup st N m f s d l HI Hm Hd Hl Hnd) as [g Hg].
    by eapply (valid_flip debug st N c1 m c2 m' f s g).
  Qed.

  (* C23 *)
  Theorem C23_segment_tail_head st a b o st1 :
    reach_listed al debug st → legal st (OSegment a b) →
    step al debug (OSegment a b) st = Ret (AOriented 1 o) st1 →
    tail st1 o = Ok a ∧ head st1 o = Ok b ∧
    ∀ o' st2, step al debug (OFlip 1 o) st1 = Ret (AOriented 1 o') st2 →
      tail st2 o' = Ok b ∧ head st2 o' = Ok a.
  Proof.
    intros Hr Hl E.
    destruct (request_vertices st _ 1 [a; b] Hr Hl eq_refl) as (_ & _ & m & Hm & Hw).
    rewrite Hm in E. apply keepO_ret in E as (p & st0 & E & [= <-] & ->).
    unfold wp in Hw. rewrite E in Hw. destruct Hw as (Hnd & HI & HC & Hg & Hsp).
    pose proof Hsp as (f & t & ws & Ho & Hord & Hre).
    assert (HI' : Inv (holdO 1 o st0)) by (apply Inv_holdO; [done|by eexists]).
    assert (Hsp' : spans (holdO 1 o st0) 1 o [a; b]).
    { apply (order_agree st0 _ 1); try done. by apply extends_agree. }
    destruct (tail_head_spans _ _ _ _ HI' Hsp') as [Ht Hh]. splits; [done|done|].
    intros o' st2 E2. cbn [step] in E2. apply keepO_ret in E2 as (p & st3 & E2 & [= <-] & ->).
    unfold flip, abind, aread, oriented in E2. cbn [holdO upd_hO ors] in E2. rewrite Ho in E2. cbn [deref] in E2.
    assert (Hs : sign (- zs t)) by (destruct t; [by right|by left]).
    eapply wp_ret in E2; [|apply (wp_oriented al Hal debug _ _ _ _ (λ _, False)); [done| |done]].
    2: { destruct (i_or _ HI _ _ _ _ Ho) as (Hf & _). exact Hf. }
    destruct E2 as (HI3 & Hg3 & Ho' & Hfe & _).
    assert (Hord3 : order st3 1 f ws).
    { apply (order_agree st0 st3 1); try done.
      - split; intros k x y Hx Hy; [pose proof (grows_or _ _ _ k x Hg3 Hx)|pose proof (grows_fp _ _ _ k x Hg3 Hx)]; congruence.
      - rewrite Hfe. destruct (i_or _ HI _ _ _ _ Ho) as (Hf & _). exact Hf. }
    assert (Hsp3 : spans st3 1 o' [b; a]).
    { exists f, (negb t), ws. splits; [by destruct t|done|].
      replace (negb t) with (eqb t false) by (by destruct t). eapply reord_trans; [exact Hre|].
      apply (reord_swap [] a [] b []). }
    assert (HI4 : Inv (holdO 1 o' st3)) by (apply Inv_holdO; [done|by eexists]).
    apply tail_head_spans; [done|]. apply (order_agree st3 _ 1); try done. by apply extends_agree.
  Qed.

  (* C23: around a triangle. The members of the composition are head-tail connected in cyclic order
     when the orientation of the triangle is that of its footprint; otherwise they are connected in
     the reverse order: they are the segments of the footprint, not their flips. *)
  Theorem C23_triangle_head_tail_partial st o c s f :
    reach_listed al debug st → ors st !! (2, o) = Some (f, s) → composition st 2 o = Ok c →
    ∃ x y z, c = [x; y; z] ∧
      if decide (s = 1%Z)
      then head_tail_connected st x y = Ok true ∧ head_tail_connected st y z = Ok true ∧
           head_tail_connected st z x = Ok true
      else head_tail_connected st y x = Ok true ∧ head_tail_connected st z y = Ok true ∧
           head_tail_connected st x z = Ok true.
  Proof.
    intros Hr Ho Hc. destruct (listed_fine al Hal debug st Hr) as [HI HC].
    destruct (i_or _ HI _ _ _ _ Ho) as (Hf & _ & Hs).
    destruct (HC 2 f) as (ws & Hord); [lia|done|]. apply order_SS in Hord as (_ & Hlen & Hnd & d & Hd & HF).
    destruct ws as [|a [|b [|e [|]]]]; try done. cbn [faces] in HF.
    inversion HF as [|x ? ? ? Hx HF1]; subst. inversion HF1 as [|y ? ? ? Hy HF2]; subst.
    inversion HF2 as [|z ? ? ? Hz HF3]; subst. inversion HF3; subst.
    destruct (tail_head_spans _ _ _ _ HI Hx) as [Htx Hhx].
    destruct (tail_head_spans _ _ _ _ HI Hy) as [Hty Hhy].
    destruct (tail_head_spans _ _ _ _ HI Hz) as [Htz Hhz].
    unfold composition, oriented, fcomposition in Hc. rewrite Ho in Hc. cbn [deref rbind] in Hc.
    rewrite Hd in Hc. cbn [deref rbind] in Hc. injection Hc as <-.
    unfold head_tail_connected. destruct Hs as [-> | ->]; cbn [decide_rel]; cbn.
    - exists x, y, z. rewrite Htx, Hhx, Hty, Hhy, Htz, Hhz. cbn [rbind]. by rewrite !Nat.eqb_refl.
    - exists y, x, z. rewrite Htx, Hhx, Hty, Hhy, Htz, Hhz. cbn [rbind]. by rewrite !Nat.eqb_refl.
  Qed.

  (* C24 *)
  Theorem C24_simplex_from_vertices_partial st x N vs :
    reach_listed al debug st → legal st x → built_from x = Some (N, vs) → NoDup vs →
    ∃ o f st1, step al debug x st = Ret (AOriented N o) st1 ∧ footprint st1 N o = Ok f ∧
      sanity_check st1 N o = Ok true ∧
      (∃ us, fvertex_set st1 N f [] = Ok us ∧ us ≡ₚ vs) ∧
      (1 < N → ∃ es, edges st1 N o = Ok es ∧
         (∀ e, e ∈ es → ∃ a b, a ∈ vs ∧ b ∈ vs ∧ a ≠ b ∧
            (tail st1 e = Ok a ∧ head st1 e = Ok b)) ∧
         (∀ a b, a ∈ vs → b ∈ vs → a ≠ b → ∃ e, e ∈ es ∧
            ((tail st1 e = Ok a ∧ head st1 e = Ok b) ∨ (tail st1 e = Ok b ∧ head st1 e = Ok a)))).
  Proof.
    intros Hr Hl Hx Hnd. destruct (good_step st x N vs Hr Hl Hx Hnd) as (o & st1 & E & HI & _ & Hsp).
    pose proof Hsp as (f & b & ws & Ho & Hord & Hre). exists o, f, st1.
    destruct (order_shape _ _ _ _ Hord) as (Hlen & Hndw & HN). apply reord_perm in Hre.
    assert (Hfo : footprint st1 N o = Ok f) by (unfold footprint, oriented; by rewrite Ho).
    splits; [done|done| | |].
    - unfold sanity_check. rewrite Hfo. cbn [rbind]. by eapply fsanity_order.
    - destruct (fvertex_set_order st1 N f ws [] Hord) as (r & Hrs & Hin). exists r. split; [done|].
      apply NoDup_Permutation; [|done|].
      + apply sorted_nodup. eapply fvertex_set_sorted; [|exact Hrs]. constructor.
      + intros u. rewrite Hin, Hre, elem_of_nil. tauto.
    - intros HN1. unfold edges. rewrite Hfo. cbn [rbind].
      assert (∃ es, fedges st1 N f [] = Ok es ∧ edges_are st1 ws [] es) as (es & Hes & _ & H1 & H2).
      { destruct N as [|[|[|[|]]]]; try lia; [by apply fedges_2|by apply fedges_3]. }
      exists es. splits; [done| |].
      + intros e He. destruct (H1 e He) as [Hn|(p & q & Hp & Hq & Hpq & [Hs|Hs])]; [inversion Hn| |];
          rewrite Hre in Hp, Hq; apply tail_head_spans in Hs as [? ?]; try done.
        * by exists p, q.
        * exists q, p. splits; done.
      + intros p q Hp Hq Hpq. rewrite <- Hre in Hp, Hq. destruct (H2 p q Hp Hq Hpq) as (e & He & [Hs|Hs]);
          apply tail_head_spans in Hs as [? ?]; try done; exists e; auto.
  Qed.
End topology.

(* C21: erasing, in a debug build *)
Theorem C21_erase_exact al st N o :
  good_alloc al → reach al true st → has st N o →
  (used_elsewhere st N o →
     ∃ st', step al true (OErase N o) st = Ret ANone st' ∧ fps st' = fps st ∧ ors st' = ors st ∧
       (∀ k, held (hO st') k = held (hO st) k) ∧ (∀ k, held (hF st') k = held (hF st) k)) ∧
  (¬ used_elsewhere st N o →
     ∃ st', step al true (OErase N o) st = Ret ANone st' ∧
       (∀ k p, is_oriented st k p →
          (goneO st N o k p → ors st' !! (k, p) = None) ∧
          (¬ goneO st N o k p → ors st' !! (k, p) = ors st !! (k, p))) ∧
       (∀ k f, is_footprint st k f →
          (goneF st N o k f → fps st' !! (k, f) = None) ∧
          (¬ goneF st N o k f → fps st' !! (k, f) = fps st !! (k, f))) ∧
       (∀ k p, ¬ is_oriented st k p → ¬ is_oriented st' k p) ∧
       (∀ k f, ¬ is_footprint st k f → ¬ is_footprint st' k f) ∧
       held (hO st') (N, o) = 0 ∧
       (∀ k, k ≠ (N, o) → held (hO st') k = held (hO st) k) ∧
       (∀ k, held (hF st') k = held (hF st) k)).
Proof.
  intros Hal Hr. apply erase_step; [by eapply reach_Inv|by eapply reach_nodup].
Qed.
(* C21: the same in any build when no registered composition lists a member twice *)
Theorem C21_erase_exact_release_partial al debug st N o :
  good_alloc al → reach al debug st → has st N o →
  (∀ M f c, fps st !! (M, f) = Some c → NoDup c) →
  (used_elsewhere st N o →
     ∃ st', step al debug (OErase N o) st = Ret ANone st' ∧ fps st' = fps st ∧ ors st' = ors st ∧
       (∀ k, held (hO st') k = held (hO st) k) ∧ (∀ k, held (hF st') k = held (hF st) k)) ∧
  (¬ used_elsewhere st N o →
     ∃ st', step al debug (OErase N o) st = Ret ANone st' ∧
       (∀ k p, is_oriented st k p →
          (goneO st N o k p → ors st' !! (k, p) = None) ∧
          (¬ goneO st N o k p → ors st' !! (k, p) = ors st !! (k, p))) ∧
       (∀ k f, is_footprint st k f →
          (goneF st N o k f → fps st' !! (k, f) = None) ∧
          (¬ goneF st N o k f → fps st' !! (k, f) = fps st !! (k, f))) ∧
       (∀ k p, ¬ is_oriented st k p → ¬ is_oriented st' k p) ∧
       (∀ k f, ¬ is_footprint st k f → ¬ is_footprint st' k f) ∧
       held (hO st') (N, o) = 0 ∧
       (∀ k, k ≠ (N, o) → held (hO st') k = held (hO st) k) ∧
       (∀ k, held (hF st') k = held (hF st) k)).
Proof.
  intros Hal Hr Hh Hnd. apply erase_step; [by eapply reach_Inv|exact Hnd|done].
Qed.

Print Assumptions C14_one_footprint.
Print Assumptions C14_one_oriented_simplex.
Print Assumptions C14_asking_twice.
Print Assumptions C15_reordered_composition.
Print Assumptions C15_reordering_is_accepted.
Print Assumptions C65_members_partial.
Print Assumptions C16_flip.
Print Assumptions C17_vertices_partial.
Print Assumptions C17_repeated_vertices_refused.
Print Assumptions C18_vertices_determine_simplex_partial.
Print Assumptions C18_rebuild_partial.
Print Assumptions C19_exists_composition.
Print Assumptions C19_exists_iff_request_creates_nothing.
Print Assumptions C19_exists_segment.
Print Assumptions C20_operations_defined.
Print Assumptions C20_no_dangling.
Print Assumptions C20_objects_stay.
Print Assumptions C20_reading_defined_partial.
Print Assumptions C20_vertices_defined_listed.
Print Assumptions C22_order_independent.
Print Assumptions C22_registered_accepted.
Print Assumptions C22_flipped_member_rejected.
Print Assumptions C22_flipped_member_rejected_distinct_faces.
Print Assumptions C23_segment_tail_head.
Print Assumptions C23_triangle_head_tail_partial.
Print Assumptions C24_simplex_from_vertices_partial.
Print Assumptions C21_erase_exact.
Print Assumptions C21_erase_exact_release_partial.
