(* Proofs about the three coordinate systems. *)
From Coq Require Import Reals Lra Lia List Nsatz.
From Verif Require Import M_Tensor S_Tensor P_Tensor M_Geometry S_Geometry P_Atan2.
Import ListNotations.
Open Scope R_scope.

Ltac comps :=
  let i := fresh "i" in let Hi := fresh "Hi" in
  intros i Hi; destruct i as [|[|[|i]]]; try (cbn in Hi; lia); clear Hi.

Lemma sc2 t : sin t * sin t + cos t * cos t = 1.
Proof. pose proof (sin2_cos2 t) as H. unfold Rsqr in H. exact H. Qed.

(* A cosine and a sine of a difference, rotated back. *)
Lemma rotate_back a b : cos a * cos (b - a) - sin a * sin (b - a) = cos b.
Proof. rewrite <- cos_plus. f_equal. ring. Qed.
Lemma rotate_back' a b : sin a * cos (b - a) + cos a * sin (b - a) = sin b.
Proof. rewrite <- sin_plus. f_equal. ring. Qed.

(* Polar components of B - A and of the coordinates of A + v. *)
Lemma polar_sub_comps B A :
  A 0%nat <> 0 ->
  polar_sub B A 0%nat = B 0%nat * cos (B 1%nat - A 1%nat) - A 0%nat /\
  polar_sub B A 1%nat = B 0%nat * sin (B 1%nat - A 1%nat).
Proof.
  intros HA. unfold polar_sub, vadd, vscale, vdiv, e, unitv, component. cbn.
  unfold vscale. cbn. split; field; exact HA.
Qed.

Lemma polar_add_comps A v :
  A 0%nat <> 0 ->
  polar_add A v 0%nat
    = sqrt ((A 0%nat + v 0%nat) * (A 0%nat + v 0%nat) + v 1%nat * v 1%nat) /\
  polar_add A v 1%nat = A 1%nat + atan2 (v 1%nat) (A 0%nat + v 0%nat).
Proof.
  intros HA. unfold polar_add, dot, e, unitv, component. cbn. unfold vscale. cbn.
  replace (0 + v 0%nat * 1 + v 1%nat * 0) with (v 0%nat) by ring.
  replace ((0 + v 0%nat * (A 0%nat * 0) + v 1%nat * (A 0%nat * 1)) /
    (0 + A 0%nat * 0 * (A 0%nat * 0) + A 0%nat * 1 * (A 0%nat * 1))) with (v 1%nat / A 0%nat)
    by (field; exact HA).
  replace (v 1%nat / A 0%nat * A 0%nat) with (v 1%nat) by (field; exact HA).
  split; [|reflexivity]. f_equal. f_equal. field. exact HA.
Qed.

Lemma polar_add_position A v :
  A 0%nat <> 0 ->
  same 2 (position Polar (polar_add A v)) (vadd (position Polar A) (in_frame Polar A v)).
Proof.
  intros HA. destruct (polar_add_comps A v HA) as [Er Et].
  pose proof (atan2_polar (A 0%nat + v 0%nat) (v 1%nat)) as [C S].
  set (D := atan2 (v 1%nat) (A 0%nat + v 0%nat)) in *.
  set (B := polar_add A v) in *. clearbody B.
  comps; unfold position, vadd, in_frame; cbn; rewrite Er, Et;
    set (r := sqrt _) in *.
  - rewrite cos_plus.
    replace (r * (cos (A 1%nat) * cos D - sin (A 1%nat) * sin D))
      with (cos (A 1%nat) * (r * cos D) - sin (A 1%nat) * (r * sin D)) by ring.
    rewrite C, S. ring.
  - rewrite sin_plus.
    replace (r * (sin (A 1%nat) * cos D + cos (A 1%nat) * sin D))
      with (sin (A 1%nat) * (r * cos D) + cos (A 1%nat) * (r * sin D)) by ring.
    rewrite C, S. ring.
Qed.

Lemma polar_sub_position B A :
  A 0%nat <> 0 ->
  same 2 (in_frame Polar A (polar_sub B A)) (vsub (position Polar B) (position Polar A)).
Proof.
  intros HA. destruct (polar_sub_comps B A HA) as [E0 E1].
  set (V := polar_sub B A) in *. clearbody V.
  comps; unfold position, vsub, in_frame; cbn; rewrite E0, E1.
  - rewrite <- (rotate_back (A 1%nat) (B 1%nat)). ring.
  - rewrite <- (rotate_back' (A 1%nat) (B 1%nat)). ring.
Qed.

(* Spherical components. *)
Lemma spherical_sub_comps B A :
  A 0%nat <> 0 -> sin (A 1%nat) <> 0 ->
  spherical_sub B A 0%nat = B 0%nat * (sin (A 1%nat) * sin (B 1%nat) * cos (B 2%nat - A 2%nat)
    + cos (A 1%nat) * cos (B 1%nat)) - A 0%nat /\
  spherical_sub B A 1%nat = B 0%nat * (sin (B 1%nat) * cos (A 1%nat) * cos (B 2%nat - A 2%nat)
    - sin (A 1%nat) * cos (B 1%nat)) /\
  spherical_sub B A 2%nat = B 0%nat * sin (B 1%nat) * sin (B 2%nat - A 2%nat).
Proof.
  intros HA Hs. unfold spherical_sub, vadd, vscale, vdiv, e, unitv, component. cbn.
  unfold vscale. cbn. repeat split; field; auto.
Qed.

Lemma spherical_sub_position B A :
  A 0%nat <> 0 -> sin (A 1%nat) <> 0 ->
  same 3 (in_frame Spherical A (spherical_sub B A))
    (vsub (position Spherical B) (position Spherical A)).
Proof.
  intros HA Hs. destruct (spherical_sub_comps B A HA Hs) as (E0 & E1 & E2).
  pose proof (sc2 (A 1%nat)) as S1. pose proof (sc2 (A 2%nat)) as S2.
  pose proof (rotate_back (A 2%nat) (B 2%nat)) as C.
  pose proof (rotate_back' (A 2%nat) (B 2%nat)) as S.
  set (V := spherical_sub B A) in *. clearbody V.
  comps; unfold position, vsub, in_frame; cbn; rewrite E0, E1, ?E2.
  - rewrite <- C. set (c := cos (B 2%nat - A 2%nat)) in *. set (s := sin (B 2%nat - A 2%nat)) in *.
    clearbody c s. clear C S E0 E1 E2. nsatz.
  - rewrite <- S. set (c := cos (B 2%nat - A 2%nat)) in *. set (s := sin (B 2%nat - A 2%nat)) in *.
    clearbody c s. clear C S E0 E1 E2. nsatz.
  - set (c := cos (B 2%nat - A 2%nat)) in *. clearbody c. clear C S E0 E1 E2. nsatz.
Qed.

Lemma proj_back rho t P Q :
  rho * cos t = P -> rho * sin t = Q -> Q * sin t + P * cos t = rho.
Proof. intros <- <-. pose proof (sc2 t). nsatz. Qed.

(* The coordinates of A + v in spherical coordinates. *)
Lemma spherical_add_comps A v :
  A 0%nat <> 0 -> sin (A 1%nat) <> 0 ->
  let sA := sin (A 1%nat) in let cA := cos (A 1%nat) in
  let P := (A 0%nat + v 0%nat) * sA + v 1%nat * cA in
  let Q := v 2%nat in
  let Z := (A 0%nat + v 0%nat) * cA - v 1%nat * sA in
  let rho := sqrt (P * P + Q * Q) in
  let B := spherical_add A v in
  B 2%nat = A 2%nat + atan2 Q P /\
  B 1%nat = atan2 rho Z /\
  B 0%nat = sqrt (Z * Z + rho * rho).
Proof.
  intros HA Hs sA cA P Q Z rho B.
  assert (E2 : B 2%nat = A 2%nat + atan2 Q P).
  { unfold B, spherical_add, dot, e, unitv, component. cbn. unfold vscale. cbn.
    f_equal. f_equal.
    - unfold Q. field. split; auto.
    - unfold P, sA, cA. field. auto. }
  pose proof (atan2_polar P Q) as [C S]. fold rho in C, S.
  assert (E1 : B 1%nat = atan2 rho Z).
  { assert (E2' : B 2%nat - A 2%nat = atan2 Q P) by (rewrite E2; ring).
    unfold B, spherical_add, dot, e, unitv, component in E2' |- *. cbn in E2' |- *.
    unfold vscale in E2' |- *. cbn in E2' |- *.
    match type of E2' with ?a = _ => set (delta := a) in * end.
    clearbody delta. subst delta. fold sA cA.
    f_equal.
    - set (t := atan2 Q P) in *. clearbody t.
      transitivity (Q * sin t + P * cos t).
      + unfold Q, P, sA, cA. field. auto.
      + apply proj_back; assumption.
    - unfold Z, sA, cA. field. auto. }
  split; [exact E2|]. split; [exact E1|].
  pose proof (atan2_polar Z rho) as [C1 S1].
  set (r := sqrt (Z * Z + rho * rho)) in *.
  assert (E2' : B 2%nat - A 2%nat = atan2 Q P) by (rewrite E2; ring).
  transitivity (rho * sin (B 1%nat) + Z * cos (B 1%nat)).
  - transitivity (sin (B 1%nat) * (P * cos (B 2%nat - A 2%nat) + Q * sin (B 2%nat - A 2%nat))
                  + cos (B 1%nat) * Z).
    + set (s1 := sin (B 1%nat)). set (c1 := cos (B 1%nat)).
      set (c2 := cos (B 2%nat - A 2%nat)). set (s2 := sin (B 2%nat - A 2%nat)).
      assert (H : exists f0, (forall s1 c1 s2 c2,
         f0 s1 c1 s2 c2 = s1 * (P * c2 + Q * s2) + c1 * Z) /\
         B 0%nat = f0 (sin (B 1%nat)) (cos (B 1%nat)) (sin (B 2%nat - A 2%nat))
                     (cos (B 2%nat - A 2%nat))).
      { unfold B at 1. unfold spherical_add at 1. cbv zeta.
        exists (fun s1 c1 s2 c2 =>
          (dot 3 v (e Spherical 0 A) + A 0%nat)
            * (sin (A 1%nat) * s1 * c2 + cos (A 1%nat) * c1)
          + dot 3 v (e Spherical 1 A) / dot 3 (e Spherical 1 A) (e Spherical 1 A) * A 0%nat
            * (cos (A 1%nat) * s1 * c2 - sin (A 1%nat) * c1)
          + dot 3 v (e Spherical 2 A) / dot 3 (e Spherical 2 A) (e Spherical 2 A) * A 0%nat
            * sin (A 1%nat) * s1 * s2).
        split; [|reflexivity].
        intros a1 b1 a2 b2. unfold P, Q, Z, sA, cA, dot, e, unitv, component. cbn.
        unfold vscale. cbn. field. auto. }
      destruct H as (f0 & Hf & ->). apply Hf.
    + rewrite E2'. rewrite <- (proj_back _ _ _ _ C S) at 1. ring.
  - rewrite E1. apply (proj_back _ _ _ _ C1 S1).
Qed.

Lemma spherical_add_position A v :
  A 0%nat <> 0 -> sin (A 1%nat) <> 0 ->
  same 3 (position Spherical (spherical_add A v))
    (vadd (position Spherical A) (in_frame Spherical A v)).
Proof.
  intros HA Hs. pose proof (spherical_add_comps A v HA Hs) as H. cbv zeta in H.
  destruct H as (E2 & E1 & E0).
  set (B := spherical_add A v) in *. clearbody B.
  set (P := (A 0%nat + v 0%nat) * sin (A 1%nat) + v 1%nat * cos (A 1%nat)) in *.
  set (Z := (A 0%nat + v 0%nat) * cos (A 1%nat) - v 1%nat * sin (A 1%nat)) in *.
  set (rho := sqrt (P * P + v 2%nat * v 2%nat)) in *.
  pose proof (atan2_polar P (v 2%nat)) as [C S]. fold rho in C, S.
  pose proof (atan2_polar Z rho) as [C1 S1]. rewrite <- E0, <- E1 in C1, S1.
  set (t := atan2 (v 2%nat) P) in *. clearbody t rho. clear E0 E1.
  comps; unfold position, vadd, in_frame; cbn.
  - rewrite S1, E2, cos_plus.
    replace (rho * (cos (A 2%nat) * cos t - sin (A 2%nat) * sin t))
      with (cos (A 2%nat) * (rho * cos t) - sin (A 2%nat) * (rho * sin t)) by ring.
    rewrite C, S. unfold P. ring.
  - rewrite S1, E2, sin_plus.
    replace (rho * (sin (A 2%nat) * cos t + cos (A 2%nat) * sin t))
      with (sin (A 2%nat) * (rho * cos t) + cos (A 2%nat) * (rho * sin t)) by ring.
    rewrite C, S. unfold P. ring.
  - rewrite C1. unfold Z. ring.
Qed.

(* The two facts about every coordinate system. *)
Lemma add_position c A v :
  regular c A -> same (dim c) (position c (cadd c A v)) (vadd (position c A) (in_frame c A v)).
Proof.
  destruct c as [D| |]; cbn [regular cadd].
  - intros _ i _. reflexivity.
  - apply polar_add_position.
  - intros [H1 H2]. apply spherical_add_position; assumption.
Qed.

Lemma sub_position c A B :
  regular c A ->
  same (dim c) (in_frame c A (csub c B A)) (vsub (position c B) (position c A)).
Proof.
  destruct c as [D| |]; cbn [regular csub].
  - intros _ i _. reflexivity.
  - apply polar_sub_position.
  - intros [H1 H2]. apply spherical_sub_position; assumption.
Qed.

(* Linearity of the frame, and its orthonormality. *)
Lemma in_frame_scale c A a v i : in_frame c A (vscale a v) i = a * in_frame c A v i.
Proof.
  destruct c as [D| |]; unfold in_frame, vscale; cbn; [reflexivity| |];
    destruct i as [|[|[|i]]]; cbn; ring.
Qed.

Lemma in_frame_add c A u v i : in_frame c A (vadd u v) i = in_frame c A u i + in_frame c A v i.
Proof.
  destruct c as [D| |]; unfold in_frame, vadd; cbn; [reflexivity| |];
    destruct i as [|[|[|i]]]; cbn; ring.
Qed.

Lemma in_frame_dot c A u v : dot (dim c) (in_frame c A u) (in_frame c A v) = dot (dim c) u v.
Proof.
  destruct c as [D| |]; [reflexivity| |]; unfold dot, in_frame; cbn.
  - pose proof (sc2 (A 1%nat)). nsatz.
  - pose proof (sc2 (A 1%nat)). pose proof (sc2 (A 2%nat)). nsatz.
Qed.

Lemma in_frame_det2 A u v :
  det_vecs [in_frame Polar A u; in_frame Polar A v] = det_vecs [u; v].
Proof. unfold in_frame, det_vecs; cbn. pose proof (sc2 (A 1%nat)). nsatz. Qed.

Lemma in_frame_det3 A u v w :
  det_vecs [in_frame Spherical A u; in_frame Spherical A v; in_frame Spherical A w]
  = det_vecs [u; v; w].
Proof.
  unfold in_frame, det_vecs; cbn. pose proof (sc2 (A 1%nat)). pose proof (sc2 (A 2%nat)).
  set (a := sin (A 1%nat)) in *. set (b := cos (A 1%nat)) in *.
  set (p := sin (A 2%nat)) in *. set (q := cos (A 2%nat)) in *.
  clearbody a b p q.
  transitivity ((a * a + b * b) * (p * p + q * q) *
    (u 0%nat * (v 1%nat * w 2%nat - v 2%nat * w 1%nat)
      - u 1%nat * (v 0%nat * w 2%nat - v 2%nat * w 0%nat)
      + u 2%nat * (v 0%nat * w 1%nat - v 1%nat * w 0%nat))).
  - ring.
  - rewrite H, H0. ring.
Qed.

Lemma radius2 r t : r * r = r * cos t * (r * cos t) + r * sin t * (r * sin t).
Proof. transitivity (r * r * (sin t * sin t + cos t * cos t)); [rewrite sc2|]; ring. Qed.

(* Coordinates that name the same position are equal when they are principal. *)
Lemma principal_unique c A B :
  principal c A -> principal c B -> same (dim c) (position c A) (position c B) ->
  same (dim c) A B.
Proof.
  destruct c as [D| |]; cbn [principal dim].
  - intros _ _ H. exact H.
  - intros [rA tA] [rB tB] H.
    pose proof (H 0%nat ltac:(lia)) as H0. pose proof (H 1%nat ltac:(lia)) as H1. cbn in H0, H1.
    assert (Er : A 0%nat = B 0%nat).
    { assert (A 0%nat * A 0%nat = B 0%nat * B 0%nat); [|nra].
      rewrite (radius2 (A 0%nat) (A 1%nat)), H0, H1, <- radius2. reflexivity. }
    comps; [exact Er|].
    rewrite <- Er in H0, H1. apply angle_unique; auto.
    + apply Rmult_eq_reg_l with (A 0%nat); [exact H0|lra].
    + apply Rmult_eq_reg_l with (A 0%nat); [exact H1|lra].
  - intros (rA & tA & pA) (rB & tB & pB) H.
    pose proof (H 0%nat ltac:(lia)) as H0. pose proof (H 1%nat ltac:(lia)) as H1.
    pose proof (H 2%nat ltac:(lia)) as H2. cbn in H0, H1, H2.
    assert (sA : 0 < sin (A 1%nat)) by (apply sin_gt_0; lra).
    assert (sB : 0 < sin (B 1%nat)) by (apply sin_gt_0; lra).
    assert (Er : A 0%nat = B 0%nat).
    { assert (A 0%nat * A 0%nat = B 0%nat * B 0%nat); [|nra].
      rewrite (radius2 (A 0%nat) (A 1%nat)), (radius2 (A 0%nat * sin (A 1%nat)) (A 2%nat)).
      rewrite H0, H1, H2, <- !radius2. reflexivity. }
    rewrite <- Er in H0, H1, H2.
    assert (Et : A 1%nat = B 1%nat).
    { apply cos_inj; try lra. apply Rmult_eq_reg_l with (A 0%nat); [exact H2|lra]. }
    rewrite <- Et in H0, H1.
    comps; [exact Er|exact Et|].
    apply angle_unique; auto; apply Rmult_eq_reg_l with (A 0%nat * sin (A 1%nat)); try nra.
Qed.
