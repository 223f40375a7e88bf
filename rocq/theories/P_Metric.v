(* Proofs about metrics, volume forms, coordinate systems and volumes. *)
From Coq Require Import Reals Lra Lia List Nsatz Permutation.
From Verif Require Import Base M_Tensor S_Tensor P_Tensor M_Geometry S_Geometry P_Atan2 P_Geometry.
Import ListNotations.
Open Scope R_scope.

Lemma proper_regular c x : proper c x -> regular c x.
Proof. destruct c; cbn; [auto|lra|]. intros [H1 H2]. split; lra. Qed.

Lemma principal_proper c x : principal c x -> proper c x.
Proof.
  destruct c; cbn; [auto|tauto|]. intros (H1 & H2 & _). split; [exact H1|].
  apply sin_gt_0; lra.
Qed.

(* The lengths of the coordinate basis vectors. *)
Definition scale_factor (c : chart) (I : nat) (x : vec) : R :=
  match c, I with
  | Cartesian _, _ => 1
  | _, 0%nat => 1
  | Polar, _ => x 0%nat
  | Spherical, 1%nat => x 0%nat
  | Spherical, _ => x 0%nat * sin (x 1%nat)
  end.

Ltac reduce_metric :=
  unfold metric_inv, metric, minv, minor, skip, sgn, det1, det2, det3, madd, mscale, mdiag, mid,
    pow2, component, mmul, mvec, dot, mdet in *; cbn in *; unfold det1, det2, det3 in *; cbn in *.

Lemma metric_inverse c x :
  supported c -> regular c x ->
  forall i j, (i < dim c)%nat -> (j < dim c)%nat ->
    mmul (dim c) (metric c x) (metric_inv c x) i j = mid i j /\
    mmul (dim c) (metric_inv c x) (metric c x) i j = mid i j.
Proof.
  intros Hc Hx i j Hi Hj.
  destruct c as [D| |]; cbn in Hc, Hx, Hi, Hj.
  - destruct D as [|[|[|[|D]]]]; try lia;
      destruct i as [|[|[|i]]]; try lia; destruct j as [|[|[|j]]]; try lia;
      reduce_metric; split; field.
  - destruct i as [|[|i]]; try lia; destruct j as [|[|j]]; try lia;
      reduce_metric; split; field; auto.
  - destruct Hx as [Hr Hs].
    destruct i as [|[|[|i]]]; try lia; destruct j as [|[|[|j]]]; try lia;
      reduce_metric; split; field; auto.
Qed.

Lemma dx_value c I x u :
  supported c -> regular c x -> (I < dim c)%nat ->
  dot (dim c) (mvec (dim c) (metric_inv c x) (e c I x)) u = u I / scale_factor c I x.
Proof.
  intros Hc Hx HI.
  destruct c as [D| |]; cbn in Hc, Hx, HI.
  - destruct D as [|[|[|[|D]]]]; try lia; destruct I as [|[|[|I]]]; try lia;
      unfold e, unitv, scale_factor; reduce_metric; field.
  - destruct I as [|[|I]]; try lia; unfold e, unitv, vscale, scale_factor; reduce_metric;
      field; auto.
  - destruct Hx as [Hr Hs].
    destruct I as [|[|[|I]]]; try lia; unfold e, unitv, vscale, scale_factor; reduce_metric;
      field; auto.
Qed.

Lemma e_value c I x i :
  (I < dim c)%nat -> e c I x i = if Nat.eqb i I then scale_factor c I x else 0.
Proof.
  destruct c as [D| |]; cbn [dim]; intros HI.
  - cbn. unfold unitv. destruct (Nat.eqb i I); reflexivity.
  - destruct I as [|[|I]]; try lia; unfold e, vscale, unitv; cbn; destruct i as [|[|i]]; cbn;
      unfold component; ring.
  - destruct I as [|[|[|I]]]; try lia; unfold e, vscale, unitv; cbn;
      destruct i as [|[|[|i]]]; cbn; unfold component; ring.
Qed.

Lemma scale_factor_nonzero c I x : regular c x -> scale_factor c I x <> 0.
Proof.
  destruct c as [D| |]; cbn.
  - intros _. lra.
  - destruct I as [|I]; [lra|auto].
  - intros [H1 H2]. destruct I as [|[|I]]; [lra|auto|]. apply Rmult_integral_contrapositive; auto.
Qed.

Lemma volume_density c x :
  supported c -> proper c x ->
  sqrt (mdet (dim c) (metric c x))
  = fold_right Rmult 1 (map (fun I => scale_factor c I x) (seq 0 (dim c))).
Proof.
  intros Hc Hx. destruct c as [D| |]; cbn in Hc, Hx.
  - destruct D as [|[|[|[|D]]]]; try lia; reduce_metric;
      match goal with |- sqrt ?a = _ => replace a with 1 by ring end; rewrite sqrt_1; ring.
  - reduce_metric.
    match goal with |- sqrt ?a = _ => replace a with (x 0%nat * x 0%nat) by ring end.
    rewrite sqrt_square by lra. ring.
  - destruct Hx as [Hr Hs]. reduce_metric.
    match goal with |- sqrt ?a = _ =>
      replace a with ((x 0%nat * x 0%nat * sin (x 1%nat)) * (x 0%nat * x 0%nat * sin (x 1%nat)))
        by ring end.
    rewrite sqrt_square; [ring|]. apply Rmult_le_pos; [nra|lra].
Qed.

(* The metric volume form is the determinant of the components in the orthonormal frame. *)
Lemma volume_form_det c x :
  supported c -> proper c x ->
  exists f, volume_form c x = Some f /\ is_form f (dim c) det_vecs.
Proof.
  intros Hc Hx. pose proof (proper_regular c x Hx) as Hr.
  unfold volume_form. rewrite (volume_density c x Hc Hx).
  assert (one : forall I u, (I < dim c)%nat ->
    dot (dim c) (mvec (dim c) (metric_inv c x) (e c I x)) u = u I / scale_factor c I x)
    by (intros; apply dx_value; assumption).
  assert (nz : forall I, scale_factor c I x <> 0)
    by (intros; apply scale_factor_nonzero; assumption).
  assert (HD : (1 <= dim c <= 3)%nat) by (destruct c; cbn in *; lia).
  unfold dx, one_form_of.
  remember (dim c) as D eqn:ED.
  destruct D as [|[|[|[|D]]]]; try lia; cbn [seq map].
  - destruct (wedge1_id (fun u => dot 1 (mvec 1 (metric_inv c x) (e c 0 x)) u)) as (-> & H).
    cbn [mul smul fold_right]. eexists; split; [reflexivity|].
    eapply form_ext; [|apply form_scale, H].
    intros vs L. lists. cbn [List.nth det_vecs]. rewrite one by lia.
    field. apply nz.
  - match goal with |- context [wedge [one_form ?f; one_form ?g]] =>
      destruct (wedge2_det f g) as (w & -> & H) end.
    cbn [mul smul fold_right]. eexists; split; [reflexivity|].
    eapply form_ext; [|apply form_scale, H].
    intros vs L. lists. cbn [List.nth det_vecs]. unfold det_of2. rewrite !one by lia.
    field. split; apply nz.
  - match goal with |- context [wedge [one_form ?f; one_form ?g; one_form ?h]] =>
      destruct (wedge3_det f g h) as (w & -> & H) end.
    cbn [mul smul fold_right]. eexists; split; [reflexivity|].
    eapply form_ext; [|apply form_scale, H].
    intros vs L. lists. cbn [List.nth det_vecs]. unfold det_of3. rewrite !one by lia.
    field. repeat split; apply nz.
Qed.

Lemma same_det D us vs :
  length us = D -> Forall2 (same D) us vs -> det_vecs us = det_vecs vs.
Proof.
  intros L H. destruct H as [|u1 v1 us vs H1 H]; [reflexivity|].
  destruct H as [|u2 v2 us vs H2 H]; [cbn in L |- *; apply H1; lia|].
  destruct H as [|u3 v3 us vs H3 H]; cbn in L.
  - cbn. rewrite (H1 0%nat), (H1 1%nat), (H2 0%nat), (H2 1%nat) by lia. reflexivity.
  - destruct H; cbn in L; [|reflexivity].
    cbn. rewrite (H1 0%nat), (H1 1%nat), (H1 2%nat), (H2 0%nat), (H2 1%nat), (H2 2%nat),
      (H3 0%nat), (H3 1%nat), (H3 2%nat) by lia. reflexivity.
Qed.

Lemma in_frame_det c A vs :
  length vs = dim c -> det_vecs (map (in_frame c A) vs) = det_vecs vs.
Proof.
  destruct c as [D| |]; cbn [dim]; intros L.
  - f_equal. clear L. induction vs as [|v vs IH]; cbn; [reflexivity|]. f_equal. exact IH.
  - lists. apply in_frame_det2.
  - lists. apply in_frame_det3.
Qed.

(* The positions of the corners determine the contraction of the volume form with the directors. *)
Lemma directors_det c x0 xs :
  supported c -> proper c x0 -> length xs = dim c ->
  det_vecs (map (fun x => csub c x x0) xs)
  = det_vecs (map (fun p => vsub p (position c x0)) (map (position c) xs)).
Proof.
  intros Hc Hx L. rewrite <- (in_frame_det c x0) by (rewrite map_length; exact L).
  rewrite !map_map. apply (same_det (dim c)); [rewrite map_length; exact L|].
  clear L. induction xs as [|x xs IH]; cbn [map]; constructor; [|exact IH].
  apply sub_position, proper_regular, Hx.
Qed.
