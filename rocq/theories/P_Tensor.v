(* Proofs about forms. *)
From Coq Require Import Reals List Bool Lia Lra.
From Verif Require Import M_Tensor S_Tensor.
Import ListNotations.
Open Scope R_scope.

Lemma dummies_le args : (dummies args <= length args)%nat.
Proof. induction args as [|[v|] args IH]; cbn; lia. Qed.

Lemma dummies_some vs : dummies (map Some vs) = 0%nat.
Proof. induction vs; cbn; auto. Qed.

Lemma fill_some vs us : fill (map Some vs) us = vs.
Proof. induction vs; cbn; congruence. Qed.

Lemma fill_length args vs :
  length vs = dummies args -> length (fill args vs) = length args.
Proof.
  revert vs; induction args as [|[v|] args IH]; intros vs H; cbn in *.
  - reflexivity.
  - f_equal. apply IH, H.
  - destruct vs as [|u vs]; cbn in H; [discriminate|]. cbn. f_equal. apply IH. congruence.
Qed.

Lemma fill_all args vs :
  dummies args = length args -> length vs = length args -> fill args vs = vs.
Proof.
  revert vs; induction args as [|[v|] args IH]; intros vs H L; cbn in *.
  - destruct vs; [reflexivity|discriminate].
  - pose proof (dummies_le args). lia.
  - destruct vs as [|u vs]; [discriminate|]. cbn in *. f_equal. apply IH; lia.
Qed.

Lemma app_act P f args :
  length args = P -> (dummies args < P)%nat -> app (Fm P f) args = f args.
Proof.
  intros L H. cbn. rewrite L, Nat.eqb_refl.
  destruct P as [|[|[|P]]]; try reflexivity.
  - destruct args as [|[v|] [|]]; try discriminate L; try reflexivity. cbn in H. lia.
  - destruct args as [|[v|] [|[w|] [|]]]; try discriminate L; try reflexivity. cbn in H. lia.
Qed.

Lemma app_all P f args :
  length args = P -> dummies args = P -> (0 < P <= 2)%nat -> app (Fm P f) args = Some (Fm P f).
Proof.
  intros L H HP. cbn. rewrite L, Nat.eqb_refl.
  destruct P as [|[|[|P]]]; try lia.
  - destruct args as [|[v|] [|]]; try discriminate L; try discriminate H; reflexivity.
  - destruct args as [|[v|] [|[w|] [|]]]; try discriminate L; try discriminate H; reflexivity.
Qed.

Lemma behaves_evaluates n F P phi : behaves n F P phi -> evaluates F P phi.
Proof. destruct n; intros [H _]; exact H. Qed.

Lemma evaluates_ext F P phi psi :
  (forall vs, length vs = P -> phi vs = psi vs) -> evaluates F P phi -> evaluates F P psi.
Proof.
  intros E. destruct F as [r|Q f]; cbn [evaluates].
  - intros [-> ->]. split; [reflexivity|]. apply E. reflexivity.
  - intros (-> & HP & H). repeat split; auto.
    intros vs L. rewrite H by exact L. rewrite E by exact L. reflexivity.
Qed.

Lemma behaves_ext n F P phi psi :
  (forall vs, length vs = P -> phi vs = psi vs) -> behaves n F P phi -> behaves n F P psi.
Proof.
  revert F P phi psi; induction n as [|n IH]; intros F P phi psi E [H1 H2].
  - split; [|exact I]. eapply evaluates_ext; eauto.
  - split; [eapply evaluates_ext; eauto|].
    intros args L D0 D1. destruct (H2 args L D0 D1) as (G & HG & HB).
    exists G. split; [exact HG|]. eapply IH; [|exact HB].
    intros vs Lv. apply E. rewrite fill_length by exact Lv. exact L.
Qed.

Lemma behaves_less n F P phi : behaves (S n) F P phi -> behaves n F P phi.
Proof.
  revert F P phi; induction n as [|n IH]; intros F P phi [H1 H2].
  - split; [exact H1|exact I].
  - split; [exact H1|]. intros args L D0 D1. destruct (H2 args L D0 D1) as (G & HG & HB).
    exists G. split; [exact HG|]. apply IH, HB.
Qed.

(* How to show that a form behaves: its action on arguments with at least one vector. *)
Lemma behaves_form n P f phi :
  (0 < P)%nat ->
  (forall vs, length vs = P -> f (map Some vs) = Some (Sc (phi vs))) ->
  (forall m args, (m < n)%nat -> length args = P -> (0 < dummies args < P)%nat ->
     exists G, f args = Some G /\ behaves m G (dummies args) (fun vs => phi (fill args vs))) ->
  behaves n (Fm P f) P phi.
Proof.
  intros HP H1. induction n as [|n IH]; intros H2.
  - split; [|exact I]. cbn [evaluates]. repeat split; auto.
    intros vs L. rewrite app_act; [auto|rewrite map_length; exact L|rewrite dummies_some; lia].
  - split.
    + cbn [evaluates]. repeat split; auto.
      intros vs L. rewrite app_act; [auto|rewrite map_length; exact L|rewrite dummies_some; lia].
    + intros args L D0 D1.
      destruct (Nat.lt_ge_cases (dummies args) P) as [D|D].
      * rewrite app_act by auto. apply H2; auto.
      * pose proof (dummies_le args) as Dl.
        assert (DP : dummies args = P) by lia.
        exists (Fm P f). rewrite app_all by lia. split; [reflexivity|].
        rewrite DP. eapply behaves_ext; [|apply IH].
        -- intros vs Lv. cbn. rewrite fill_all; congruence.
        -- intros m args' Hm. apply H2. lia.
Qed.

(* What a form that behaves does on arguments with at least one vector. *)
Lemma behaves_act n P f phi args :
  behaves n (Fm P f) P phi -> length args = P -> (0 < dummies args < P)%nat ->
  forall m, (m < n)%nat -> exists G, f args = Some G /\
    behaves m G (dummies args) (fun vs => phi (fill args vs)).
Proof.
  intros HB L D m Hm.
  assert (HB' : behaves (S m) (Fm P f) P phi).
  { replace n with (S m + (n - S m))%nat in HB by lia.
    induction (n - S m)%nat as [|k IH].
    - rewrite Nat.add_0_r in HB. exact HB.
    - apply IH. apply behaves_less. rewrite <- Nat.add_succ_r. exact HB. }
  destruct HB' as [_ H]. destruct (H args L) as (G & HG & HBG); [lia|lia|].
  rewrite app_act in HG by (auto; lia). eauto.
Qed.

Lemma behaves_act0 n P f phi vs :
  behaves n (Fm P f) P phi -> length vs = P -> f (map Some vs) = Some (Sc (phi vs)).
Proof.
  intros HB L. apply behaves_evaluates in HB. cbn [evaluates] in HB. destruct HB as (_ & HP & H).
  specialize (H vs L). rewrite app_act in H; auto.
  - rewrite map_length. exact L.
  - rewrite dummies_some. exact HP.
Qed.

Lemma behaves_scalar n r phi : r = phi [] -> behaves n (Sc r) 0 phi.
Proof.
  intros H. destruct n; (split; [split; [reflexivity|exact H]|]).
  - exact I.
  - intros args L D. destruct args; [cbn in D; lia|discriminate].
Qed.

Lemma behaves_scalar_inv n r P phi : behaves n (Sc r) P phi -> P = 0%nat /\ r = phi [].
Proof. intros H. apply behaves_evaluates in H. exact H. Qed.

Lemma behaves_form_inv n Q f P phi : behaves n (Fm Q f) P phi -> Q = P /\ (0 < P)%nat.
Proof. intros H. apply behaves_evaluates in H. cbn [evaluates] in H. tauto. Qed.

Lemma behaves_add n F G P phi psi :
  behaves n F P phi -> behaves n G P psi ->
  exists H, add F G = Some H /\ behaves n H P (fun vs => phi vs + psi vs).
Proof.
  revert F G P phi psi; induction n as [n IH] using lt_wf_ind; intros F G P phi psi HF HG.
  destruct F as [r|P1 f].
  - apply behaves_scalar_inv in HF. destruct HF as [-> ->].
    destruct G as [s|Q g]; [|apply behaves_form_inv in HG; lia].
    apply behaves_scalar_inv in HG. destruct HG as [_ ->].
    eexists; split; [reflexivity|]. apply behaves_scalar. reflexivity.
  - destruct (behaves_form_inv _ _ _ _ _ HF) as [-> HP].
    destruct G as [s|Q g]; [apply behaves_scalar_inv in HG; lia|].
    destruct (behaves_form_inv _ _ _ _ _ HG) as [-> _].
    cbn [add]. rewrite Nat.eqb_refl. eexists; split; [reflexivity|].
    apply behaves_form; [exact HP| |].
    + intros vs L. rewrite (behaves_act0 _ _ _ _ _ HF L), (behaves_act0 _ _ _ _ _ HG L).
      reflexivity.
    + intros m args Hm L D.
      destruct (behaves_act _ _ _ _ _ HF L D m Hm) as (F' & -> & HF').
      destruct (behaves_act _ _ _ _ _ HG L D m Hm) as (G' & -> & HG').
      apply (IH m Hm); assumption.
Qed.

Lemma behaves_scale n F P phi a :
  behaves n F P phi -> behaves n (scale a F) P (fun vs => a * phi vs).
Proof.
  revert F P phi; induction n as [n IH] using lt_wf_ind; intros F P phi HF.
  destruct F as [r|P1 f].
  - apply behaves_scalar_inv in HF. destruct HF as [-> ->]. apply behaves_scalar. reflexivity.
  - destruct (behaves_form_inv _ _ _ _ _ HF) as [-> HP].
    cbn [scale]. apply behaves_form; [exact HP| |].
    + intros vs L. rewrite (behaves_act0 _ _ _ _ _ HF L). reflexivity.
    + intros m args Hm L D.
      destruct (behaves_act _ _ _ _ _ HF L D m Hm) as (F' & -> & HF').
      eexists; split; [reflexivity|]. apply (IH m Hm). exact HF'.
Qed.

Lemma behaves_sub n F G P phi psi :
  behaves n F P phi -> behaves n G P psi ->
  exists H, sub F G = Some H /\ behaves n H P (fun vs => phi vs - psi vs).
Proof.
  intros HF HG.
  destruct (behaves_add n F (opp G) P phi _ HF (behaves_scale n G P psi (-1) HG)) as (H & E & HB).
  exists H. split; [exact E|]. eapply behaves_ext; [|exact HB]. intros vs _. cbn. lra.
Qed.

Lemma behaves_one n f : behaves n (one_form f) 1 (fun vs => f (nth 0 vs vzero)).
Proof.
  apply behaves_form; [lia| |].
  - intros [|v [|]] L; try discriminate. reflexivity.
  - intros m args _ L D. lia.
Qed.

Lemma behaves_is_one n a phi : behaves n a 1 phi -> is_one a = true.
Proof.
  intros H. destruct a as [r|P f].
  - apply behaves_scalar_inv in H. lia.
  - apply behaves_form_inv in H. destruct H as [-> _]. reflexivity.
Qed.

(* One slot of a one-form, filled or left open. *)
Lemma behaves_slot n a phi x :
  behaves n a 1 phi ->
  exists G, app a [x] = Some G /\ behaves n G (dummies [x]) (fun vs => phi (fill [x] vs)).
Proof.
  intros H. destruct a as [r|P f]; [apply behaves_scalar_inv in H; lia|].
  destruct (behaves_form_inv _ _ _ _ _ H) as [-> _].
  destruct x as [v|].
  - exists (Sc (phi [v])). split.
    + rewrite app_act by (cbn; lia). apply (behaves_act0 _ _ _ _ [v] H). reflexivity.
    + apply behaves_scalar. reflexivity.
  - exists (Fm 1 f). split; [reflexivity|]. eapply behaves_ext; [|exact H].
    intros [|v [|]] L; try discriminate. reflexivity.
Qed.

(* Two slots of a two-form. *)
Lemma behaves_slots n a phi x y m :
  behaves n a 2 phi -> (m < n)%nat ->
  exists G, app a [x; y] = Some G /\
    behaves m G (dummies [x; y]) (fun vs => phi (fill [x; y] vs)).
Proof.
  intros H Hm. destruct a as [r|P f]; [apply behaves_scalar_inv in H; lia|].
  destruct (behaves_form_inv _ _ _ _ _ H) as [-> _].
  destruct (Nat.eq_dec (dummies [x; y]) 0) as [D0|D0].
  - destruct x as [x|]; [|discriminate]. destruct y as [y|]; [|discriminate].
    exists (Sc (phi [x; y])). split.
    + rewrite app_act by (cbn; lia). apply (behaves_act0 _ _ _ _ [x; y] H). reflexivity.
    + apply behaves_scalar. reflexivity.
  - assert (HB' : behaves (S m) (Fm 2 f) 2 phi).
    { replace n with (S m + (n - S m))%nat in H by lia.
      induction (n - S m)%nat as [|k IH].
      - rewrite Nat.add_0_r in H. exact H.
      - apply IH. apply behaves_less. rewrite <- Nat.add_succ_r. exact H. }
    destruct HB' as [_ HB']. apply HB'; [reflexivity|lia|right; lia].
Qed.

(* The action of the product of a P-form and a Q-form. *)
Definition prod (P : nat) (phi psi : action) : action :=
  fun vs => phi (firstn P vs) * psi (skipn P vs).

Lemma behaves_smul n a b P Q phi psi :
  behaves n a P phi -> behaves n b Q psi -> P = 0%nat \/ Q = 0%nat ->
  exists c, smul a b = Some c /\ behaves n c (P + Q) (prod P phi psi).
Proof.
  intros Ha Hb Z. destruct a as [r|P1 f].
  - apply behaves_scalar_inv in Ha. destruct Ha as [-> ->]. cbn [smul].
    eexists; split; [reflexivity|]. cbn [plus].
    eapply behaves_ext; [|apply behaves_scale, Hb]. reflexivity.
  - destruct (behaves_form_inv _ _ _ _ _ Ha) as [-> HP].
    destruct b as [s|Q1 g].
    + apply behaves_scalar_inv in Hb. destruct Hb as [-> ->]. cbn [smul].
      eexists; split; [reflexivity|]. rewrite Nat.add_0_r.
      eapply behaves_ext; [|apply behaves_scale, Ha].
      intros vs L. cbn. unfold prod. rewrite <- L, firstn_all, skipn_all. apply Rmult_comm.
    + apply behaves_form_inv in Hb. lia.
Qed.

Lemma behaves_tensor2 n a b phi psi :
  behaves n a 1 phi -> behaves n b 1 psi ->
  exists c, tensor2 a b = Some c /\ behaves n c 2 (prod 1 phi psi).
Proof.
  intros Ha Hb. unfold tensor2.
  rewrite (behaves_is_one _ _ _ Ha), (behaves_is_one _ _ _ Hb). cbn [andb].
  eexists; split; [reflexivity|]. apply behaves_form; [lia| |].
  - intros [|x [|y [|]]] L; try discriminate. cbn [map].
    destruct (behaves_slot n a phi (Some x) Ha) as (G & -> & HG).
    destruct (behaves_slot n b psi (Some y) Hb) as (K & -> & HK).
    cbn in HG, HK. cbn [both].
    destruct (behaves_smul n G K 0 0 _ _ HG HK (or_introl eq_refl)) as (c & -> & Hc).
    destruct c as [r|P f]; [|apply behaves_form_inv in Hc; lia].
    apply behaves_scalar_inv in Hc. destruct Hc as [_ ->]. reflexivity.
  - intros m args Hm L D. destruct args as [|x [|y [|]]]; try discriminate.
    assert (Ha' : behaves m a 1 phi).
    { clear - Ha Hm. replace n with (m + (n - m))%nat in Ha by lia.
      induction (n - m)%nat as [|k IH]; [rewrite Nat.add_0_r in Ha; exact Ha|].
      apply IH, behaves_less. rewrite <- Nat.add_succ_r. exact Ha. }
    assert (Hb' : behaves m b 1 psi).
    { clear - Hb Hm. replace n with (m + (n - m))%nat in Hb by lia.
      induction (n - m)%nat as [|k IH]; [rewrite Nat.add_0_r in Hb; exact Hb|].
      apply IH, behaves_less. rewrite <- Nat.add_succ_r. exact Hb. }
    destruct (behaves_slot m a phi x Ha') as (G & -> & HG).
    destruct (behaves_slot m b psi y Hb') as (K & -> & HK).
    cbn [both].
    destruct (behaves_smul m G K _ _ _ _ HG HK) as (c & -> & Hc).
    { destruct x, y; cbn in *; lia. }
    exists c. split; [reflexivity|].
    destruct x as [x|], y as [y|]; cbn in D, Hc |- *; try lia.
    + eapply behaves_ext; [|exact Hc]. intros [|u [|]] Lv; try discriminate. reflexivity.
    + eapply behaves_ext; [|exact Hc]. intros [|u [|]] Lv; try discriminate. reflexivity.
Qed.

Lemma behaves_mul n a b P Q phi psi :
  behaves n a P phi -> behaves n b Q psi -> P = 0%nat \/ Q = 0%nat \/ (P = 1%nat /\ Q = 1%nat) ->
  exists c, mul a b = Some c /\ behaves n c (P + Q) (prod P phi psi).
Proof.
  intros Ha Hb Z.
  destruct a as [r|P1 f]; [|destruct b as [s|Q1 g]].
  - apply (behaves_smul n (Sc r) b); auto. apply behaves_scalar_inv in Ha. lia.
  - apply (behaves_smul n (Fm P1 f) (Sc s)); auto. apply behaves_scalar_inv in Hb. lia.
  - destruct (behaves_form_inv _ _ _ _ _ Ha) as [-> HP].
    destruct (behaves_form_inv _ _ _ _ _ Hb) as [-> HQ].
    assert (P = 1%nat /\ Q = 1%nat) as [-> ->] by lia.
    apply behaves_tensor2; assumption.
Qed.

Lemma behaves_leq n m F P phi : (m <= n)%nat -> behaves n F P phi -> behaves m F P phi.
Proof.
  intros Hm H. replace n with (m + (n - m))%nat in H by lia.
  induction (n - m)%nat as [|k IH]; [rewrite Nat.add_0_r in H; exact H|].
  apply IH, behaves_less. rewrite <- Nat.add_succ_r. exact H.
Qed.

Lemma form_one f : is_form (one_form f) 1 (fun vs => f (nth 0 vs vzero)).
Proof. intros n. apply behaves_one. Qed.

Lemma form_ext F P phi psi :
  (forall vs, length vs = P -> phi vs = psi vs) -> is_form F P phi -> is_form F P psi.
Proof. intros E H n. eapply behaves_ext; [exact E|apply H]. Qed.

(* From "for each n some value" to "some value for all n". *)
Lemma form_some (o : option val) P phi :
  (forall n, exists c, o = Some c /\ behaves n c P phi) -> exists c, o = Some c /\ is_form c P phi.
Proof.
  intros H. destruct o as [c|].
  - exists c. split; [reflexivity|]. intros n. destruct (H n) as (c' & E & HB). congruence.
  - destruct (H 0%nat) as (c & E & _). discriminate.
Qed.

Lemma form_add F G P phi psi :
  is_form F P phi -> is_form G P psi ->
  exists H, add F G = Some H /\ is_form H P (fun vs => phi vs + psi vs).
Proof. intros HF HG. apply form_some. intros n. apply behaves_add; auto. Qed.

Lemma form_sub F G P phi psi :
  is_form F P phi -> is_form G P psi ->
  exists H, sub F G = Some H /\ is_form H P (fun vs => phi vs - psi vs).
Proof. intros HF HG. apply form_some. intros n. apply behaves_sub; auto. Qed.

Lemma form_scale F P phi a : is_form F P phi -> is_form (scale a F) P (fun vs => a * phi vs).
Proof. intros H n. apply behaves_scale, H. Qed.

Lemma form_tensor2 a b phi psi :
  is_form a 1 phi -> is_form b 1 psi ->
  exists c, tensor2 a b = Some c /\ is_form c 2 (prod 1 phi psi).
Proof. intros HF HG. apply form_some. intros n. apply behaves_tensor2; auto. Qed.

Lemma form_is_one a phi : is_form a 1 phi -> is_one a = true.
Proof. intros H. eapply behaves_is_one, (H 0%nat). Qed.

Ltac lists :=
  repeat match goal with
  | L : length ?l = _ |- _ => is_var l; destruct l as [|? ?]; cbn [length] in L; try discriminate L;
      try (injection L as L)
  | L : 0%nat = _ |- _ => clear L
  end.

Lemma form_tensor3 a b c phi psi chi :
  is_form a 1 phi -> is_form b 1 psi -> is_form c 1 chi ->
  exists t, tensor3 a b c = Some t /\
    is_form t 3 (fun vs => phi (firstn 1 vs) * psi (firstn 1 (skipn 1 vs)) * chi (skipn 2 vs)).
Proof.
  intros Ha Hb Hc. unfold tensor3.
  rewrite (form_is_one _ _ Ha), (form_is_one _ _ Hb), (form_is_one _ _ Hc). cbn [andb].
  eexists; split; [reflexivity|]. intros n.
  assert (step : forall m x y z, (dummies [x; y; z] < 3)%nat ->
    exists G, both (both (app a [x]) (app b [y]) mul) (app c [z]) mul = Some G /\
      behaves m G (dummies [x; y; z]) (fun vs =>
        phi (firstn 1 (fill [x; y; z] vs)) * psi (firstn 1 (skipn 1 (fill [x; y; z] vs)))
        * chi (skipn 2 (fill [x; y; z] vs)))).
  { intros m x y z D.
    destruct (behaves_slot m a phi x (Ha m)) as (A & -> & HA).
    destruct (behaves_slot m b psi y (Hb m)) as (B & -> & HB).
    destruct (behaves_slot m c chi z (Hc m)) as (C & -> & HC).
    cbn [both].
    destruct (behaves_mul m A B _ _ _ _ HA HB) as (AB & -> & HAB).
    { destruct x, y; cbn; lia. }
    cbn [both].
    destruct (behaves_mul m AB C _ _ _ _ HAB HC) as (ABC & -> & HABC).
    { destruct x, y, z; cbn in *; lia. }
    exists ABC. split; [reflexivity|].
    destruct x as [x|], y as [y|], z as [z|]; cbn in D, HABC |- *; try lia;
      (eapply behaves_ext; [|exact HABC]); intros vs L; lists; reflexivity. }
  apply behaves_form; [lia| |].
  - intros vs L. lists. cbn [map].
    destruct (step 0%nat (Some v) (Some v0) (Some v1)) as (G & -> & HG); [cbn; lia|].
    destruct G as [r|P f]; [|apply behaves_form_inv in HG; cbn in HG; lia].
    apply behaves_scalar_inv in HG. destruct HG as [_ ->]. reflexivity.
  - intros m args Hm L D. lists. apply step. cbn in D |- *. lia.
Qed.

Lemma form_wedge2 a b phi psi :
  is_form a 1 phi -> is_form b 1 psi ->
  exists w, wedge2 a b = Some w /\
    is_form w 2 (fun vs => prod 1 phi psi vs - prod 1 psi phi vs).
Proof.
  intros Ha Hb. unfold wedge2.
  destruct (form_tensor2 a b phi psi Ha Hb) as (t & -> & Ht).
  destruct (form_tensor2 b a psi phi Hb Ha) as (s & -> & Hs).
  cbn [both]. apply form_sub; assumption.
Qed.

Lemma form_wedge3 a b c phi psi chi :
  is_form a 1 phi -> is_form b 1 psi -> is_form c 1 chi ->
  exists w, wedge3 a b c = Some w /\
    is_form w 3 (fun vs =>
      phi (firstn 1 vs) * (prod 1 psi chi (skipn 1 vs) - prod 1 chi psi (skipn 1 vs))
      + psi (firstn 1 vs) * (prod 1 chi phi (skipn 1 vs) - prod 1 phi chi (skipn 1 vs))
      + chi (firstn 1 vs) * (prod 1 phi psi (skipn 1 vs) - prod 1 psi phi (skipn 1 vs))).
Proof.
  intros Ha Hb Hc. unfold wedge3.
  rewrite (form_is_one _ _ Ha), (form_is_one _ _ Hb), (form_is_one _ _ Hc). cbn [andb].
  eexists; split; [reflexivity|]. intros n.
  destruct (form_wedge2 b c psi chi Hb Hc) as (bc & Ebc & Hbc).
  destruct (form_wedge2 c a chi phi Hc Ha) as (ca & Eca & Hca).
  destruct (form_wedge2 a b phi psi Ha Hb) as (ab & Eab & Hab).
  rewrite Ebc, Eca, Eab. cbn [app_of].
  assert (term : forall m f w alpha beta x y z,
    is_form f 1 alpha -> is_form w 2 beta -> (dummies [x; y; z] < 3)%nat ->
    exists G, both (app f [x]) (app w [y; z]) mul = Some G /\
      behaves m G (dummies [x; y; z]) (fun vs =>
        alpha (firstn 1 (fill [x; y; z] vs)) * beta (skipn 1 (fill [x; y; z] vs)))).
  { intros m f w alpha beta x y z Hf Hw D.
    destruct (behaves_slot m f alpha x (Hf m)) as (F & -> & HF).
    destruct (behaves_slots (S m) w beta y z m (Hw (S m))) as (W & -> & HW); [lia|].
    cbn [both].
    destruct (behaves_mul m F W _ _ _ _ HF HW) as (FW & -> & HFW).
    { destruct x, y, z; cbn in *; lia. }
    exists FW. split; [reflexivity|].
    destruct x as [x|], y as [y|], z as [z|]; cbn in D, HFW |- *; try lia;
      (eapply behaves_ext; [|exact HFW]); intros vs L; lists; reflexivity. }
  assert (step : forall m x y z, (dummies [x; y; z] < 3)%nat ->
    exists G,
      both (both (both (app a [x]) (app bc [y; z]) mul) (both (app b [x]) (app ca [y; z]) mul) add)
        (both (app c [x]) (app ab [y; z]) mul) add = Some G /\
      behaves m G (dummies [x; y; z]) (fun ws => (fun vs =>
      phi (firstn 1 vs) * (prod 1 psi chi (skipn 1 vs) - prod 1 chi psi (skipn 1 vs))
      + psi (firstn 1 vs) * (prod 1 chi phi (skipn 1 vs) - prod 1 phi chi (skipn 1 vs))
      + chi (firstn 1 vs) * (prod 1 phi psi (skipn 1 vs) - prod 1 psi phi (skipn 1 vs)))
      (fill [x; y; z] ws))).
  { intros m x y z D.
    destruct (term m a bc _ _ x y z Ha Hbc D) as (A & -> & HA).
    destruct (term m b ca _ _ x y z Hb Hca D) as (B & -> & HB).
    destruct (term m c ab _ _ x y z Hc Hab D) as (C & -> & HC).
    cbn [both].
    destruct (behaves_add m A B _ _ _ HA HB) as (AB & -> & HAB). cbn [both].
    destruct (behaves_add m AB C _ _ _ HAB HC) as (ABC & -> & HABC).
    exists ABC. split; [reflexivity|]. exact HABC. }
  apply behaves_form; [lia| |].
  - intros vs L. lists. cbn [map].
    destruct (step 0%nat (Some v) (Some v0) (Some v1)) as (G & -> & HG); [cbn; lia|].
    destruct G as [r|P f]; [|apply behaves_form_inv in HG; cbn in HG; lia].
    apply behaves_scalar_inv in HG. destruct HG as [_ ->]. reflexivity.
  - intros m args Hm L D. lists. apply step. cbn in D |- *. lia.
Qed.

(* Wedge products of one-forms given by functions of a vector are determinants. *)
Lemma wedge2_det f g :
  exists w, wedge [one_form f; one_form g] = Some w /\
    is_form w 2 (fun vs => det_of2 f g (nth 0 vs vzero) (nth 1 vs vzero)).
Proof.
  destruct (form_wedge2 _ _ _ _ (form_one f) (form_one g)) as (w & E & H).
  exists w. split; [exact E|]. eapply form_ext; [|exact H].
  intros vs L. lists. cbn. unfold prod, det_of2. cbn. ring.
Qed.

Lemma wedge3_det f g h :
  exists w, wedge [one_form f; one_form g; one_form h] = Some w /\
    is_form w 3
      (fun vs => det_of3 f g h (nth 0 vs vzero) (nth 1 vs vzero) (nth 2 vs vzero)).
Proof.
  destruct (form_wedge3 _ _ _ _ _ _ (form_one f) (form_one g) (form_one h)) as (w & E & H).
  exists w. split; [exact E|]. eapply form_ext; [|exact H].
  intros vs L. lists. cbn. unfold prod, det_of3. cbn. ring.
Qed.

Lemma wedge1_id f :
  wedge [one_form f] = Some (one_form f) /\
  is_form (one_form f) 1 (fun vs => f (nth 0 vs vzero)).
Proof. split; [reflexivity|]. apply form_one. Qed.

(* Two actions of one form agree. *)
Lemma is_form_unique F P phi psi vs :
  is_form F P phi -> is_form F P psi -> length vs = P -> phi vs = psi vs.
Proof.
  intros H1 H2 L. specialize (H1 0%nat). specialize (H2 0%nat).
  destruct F as [r|Q f].
  - apply behaves_scalar_inv in H1, H2. destruct H1 as [-> E1], H2 as [_ E2].
    destruct vs; [congruence|discriminate].
  - destruct (behaves_form_inv _ _ _ _ _ H1) as [-> _].
    pose proof (behaves_act0 _ _ _ _ _ H1 L) as E1.
    pose proof (behaves_act0 _ _ _ _ _ H2 L) as E2. congruence.
Qed.

Lemma is_form_app F P phi vs :
  is_form F P phi -> (0 < P)%nat -> length vs = P -> app F (map Some vs) = Some (Sc (phi vs)).
Proof.
  intros H HP L. specialize (H 0%nat). apply behaves_evaluates in H.
  destruct F as [r|Q f]; cbn [evaluates] in H; [lia|]. apply H, L.
Qed.

(* Every slot left to fill: contraction, then evaluation. *)
Lemma is_form_contract F P phi args vs :
  is_form F P phi -> length args = P -> (0 < dummies args < P)%nat -> length vs = dummies args ->
  exists G, app F args = Some G /\ is_form G (dummies args) (fun ws => phi (fill args ws)) /\
    app G (map Some vs) = app F (map Some (fill args vs)).
Proof.
  intros H L D Lv.
  assert (HG : exists G, app F args = Some G /\
    is_form G (dummies args) (fun ws => phi (fill args ws))).
  { apply form_some. intros n. destruct (H (S n)) as [_ H']. apply H'; auto; lia. }
  destruct HG as (G & E & HG). exists G. split; [exact E|]. split; [exact HG|].
  rewrite (is_form_app _ _ _ vs HG) by (auto; lia).
  rewrite (is_form_app F P phi) by (auto; try lia; rewrite fill_length; auto). reflexivity.
Qed.
