(* The two-argument arctangent: it gives the angle of a plane vector, in (-PI, PI]. *)
From Coq Require Import Reals Lra Lia.
From Verif Require Import M_Tensor M_Geometry.
Open Scope R_scope.

Lemma sqrt_sum_pos x y : 0 <= x * x + y * y.
Proof. nra. Qed.

Lemma sqrt_one_plus t x : 0 < x -> sqrt (1 + (t / x)²) = sqrt (x * x + t * t) / x.
Proof.
  intros Hx. replace (1 + (t / x)²) with ((x * x + t * t) / (x * x)).
  - rewrite sqrt_div_alt by nra. rewrite sqrt_square by lra. reflexivity.
  - unfold Rsqr. field. lra.
Qed.

Lemma atan_pos x y : 0 < x ->
  sqrt (x * x + y * y) * cos (atan (y / x)) = x /\ sqrt (x * x + y * y) * sin (atan (y / x)) = y.
Proof.
  intros Hx. rewrite cos_atan, sin_atan, (sqrt_one_plus y x Hx).
  assert (0 < sqrt (x * x + y * y)) by (apply sqrt_lt_R0; nra).
  split; field; lra.
Qed.

Theorem atan2_polar x y :
  sqrt (x * x + y * y) * cos (atan2 y x) = x /\ sqrt (x * x + y * y) * sin (atan2 y x) = y.
Proof.
  unfold atan2. destruct (Rlt_dec 0 x) as [Hx|Hx]; [apply atan_pos, Hx|].
  destruct (Rlt_dec x 0) as [Hx'|Hx'].
  - assert (E : y / x = (- y) / (- x)) by (field; lra).
    assert (Hm : 0 < - x) by lra.
    pose proof (atan_pos (- x) (- y) Hm) as [H1 H2]. rewrite <- E in H1, H2.
    replace (- x * - x + - y * - y) with (x * x + y * y) in H1, H2 by ring.
    destruct (Rle_dec 0 y).
    + rewrite neg_cos, neg_sin. split; lra.
    + assert (Ec : cos (atan (y / x) - PI) = - cos (atan (y / x))).
      { rewrite <- neg_cos. replace (atan (y / x) + PI) with (atan (y / x) - PI + 2 * PI) by ring.
        rewrite cos_plus, cos_2PI, sin_2PI. ring. }
      assert (Es : sin (atan (y / x) - PI) = - sin (atan (y / x))).
      { rewrite <- neg_sin. replace (atan (y / x) + PI) with (atan (y / x) - PI + 2 * PI) by ring.
        rewrite sin_plus, cos_2PI, sin_2PI. ring. }
      rewrite Ec, Es. split; lra.
  - assert (x = 0) as -> by lra.
    replace (0 * 0 + y * y) with (y * y) by ring.
    destruct (Rlt_dec 0 y) as [Hy|Hy]; [|destruct (Rlt_dec y 0) as [Hy'|Hy']].
    + rewrite sqrt_square by lra. rewrite cos_PI2, sin_PI2. split; ring.
    + replace (y * y) with (- y * - y) by ring. rewrite sqrt_square by lra.
      rewrite cos_neg, sin_neg, cos_PI2, sin_PI2. split; ring.
    + assert (y = 0) as -> by lra. replace (0 * 0) with 0 by ring. rewrite sqrt_0. split; ring.
Qed.

Theorem atan2_range x y : - PI < atan2 y x <= PI.
Proof.
  pose proof PI_RGT_0 as HPI. pose proof (atan_bound (y / x)) as HB. unfold atan2.
  destruct (Rlt_dec 0 x) as [Hx|Hx]; [lra|].
  destruct (Rlt_dec x 0) as [Hx'|Hx'].
  - assert (Hs : (0 <= y -> atan (y / x) <= 0) /\ (~ 0 <= y -> 0 < atan (y / x))).
    { assert (Hix : / x < 0) by (apply Rinv_lt_0_compat, Hx').
      pose proof atan_0 as A0. split; intros Hy.
      - destruct (Req_dec y 0) as [->|Hy0].
        + unfold Rdiv. rewrite Rmult_0_l. lra.
        + left. rewrite <- A0. apply atan_increasing. unfold Rdiv. nra.
      - rewrite <- A0. apply atan_increasing. unfold Rdiv. nra. }
    destruct (Rle_dec 0 y) as [Hy|Hy]; [destruct Hs as [Hs _]; specialize (Hs Hy); lra|].
    destruct Hs as [_ Hs]. specialize (Hs Hy). lra.
  - destruct (Rlt_dec 0 y); [lra|]. destruct (Rlt_dec y 0); lra.
Qed.

(* An angle of (-PI, PI] is determined by its cosine and sine. *)
Lemma angle_unique s t :
  - PI < s <= PI -> - PI < t <= PI -> cos s = cos t -> sin s = sin t -> s = t.
Proof.
  intros Hs Ht Hc Hn.
  assert (same_side : forall a b, 0 <= a <= PI -> - PI < b <= PI ->
    cos a = cos b -> sin a = sin b -> a = b).
  { intros a b Ha Hb C S. destruct (Rle_dec 0 b) as [Hb0|Hb0].
    - apply cos_inj; lra.
    - assert (0 <= sin a) by (apply sin_ge_0; lra).
      assert (0 < sin (- b)) by (apply sin_gt_0; lra). rewrite sin_neg in *. lra. }
  destruct (Rle_dec 0 s) as [Hs0|Hs0]; [apply same_side; lra|].
  destruct (Rle_dec 0 t) as [Ht0|Ht0]; [symmetry; apply same_side; lra|].
  assert (- s = - t); [|lra].
  apply cos_inj; try lra. rewrite !cos_neg. exact Hc.
Qed.

Theorem atan2_angle r t : 0 < r -> - PI < t <= PI -> atan2 (r * sin t) (r * cos t) = t.
Proof.
  intros Hr Ht.
  pose proof (atan2_polar (r * cos t) (r * sin t)) as [H1 H2].
  pose proof (atan2_range (r * cos t) (r * sin t)) as HB.
  assert (Hs : sqrt (r * cos t * (r * cos t) + r * sin t * (r * sin t)) = r).
  { replace (r * cos t * (r * cos t) + r * sin t * (r * sin t)) with (r * r).
    - apply sqrt_square. lra.
    - pose proof (sin2_cos2 t) as E. unfold Rsqr in E. nra. }
  rewrite Hs in H1, H2.
  apply angle_unique; auto; nra.
Qed.
