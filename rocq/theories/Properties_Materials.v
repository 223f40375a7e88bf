(* C56: the material laws. C71: the consistency test of materials. *)
From Coq Require Import Reals List Bool Arith Lia Lra.
From Verif Require Import Base M_Tensor M_Materials S_Materials P_Materials P_Gent P_Consistency.
Import ListNotations.
Open Scope R_scope.

(* ------------------------------------------------------------------------------------------- *)
(* C56. *)

(* The stress is the derivative of the energy, the tangents are the derivative of the stress: along
   every motion, dW/dt = P : dF/dt and dP_ij/dt = C_ijkl dF_kl/dt. *)
Theorem C56_linear_stress m F : is_derivative (le_energy m) F (le_stress m F).
Proof. apply le_energy_derivative. Qed.

Theorem C56_linear_tangents m F i j : (i < 3)%nat -> (j < 3)%nat ->
  is_derivative (fun F => le_stress m F i j) F (le_tangents m F i j).
Proof. apply le_stress_derivative. Qed.

(* The Gent material, where the energy is defined: the determinant is positive and so is the argument
   of the logarithm. *)
Theorem C56_gent_stress m F :
  0 < det3 F -> g_Jm m <> 0 -> 0 < 1 - (invariant1 F - 3) / g_Jm m ->
  is_derivative (g_energy m) F (g_stress m F).
Proof. intros. apply g_energy_derivative. repeat split; assumption. Qed.

Theorem C56_gent_tangents m F i j : (i < 3)%nat -> (j < 3)%nat ->
  0 < det3 F -> g_Jm m <> 0 -> 0 < 1 - (invariant1 F - 3) / g_Jm m ->
  is_derivative (fun F => g_stress m F i j) F (g_tangents m F i j).
Proof. intros. apply g_stress_derivative; try assumption. repeat split; assumption. Qed.

(* In components: every partial derivative. *)
Theorem C56_partial_derivatives i j k l :
  (i < 3)%nat -> (j < 3)%nat -> (k < 3)%nat -> (l < 3)%nat ->
  (forall m F, is_partial_entry (le_energy m) F i j (le_stress m F i j) /\
     is_partial_entry (fun F => le_stress m F i j) F k l (le_tangents m F i j k l)) /\
  (forall m F, 0 < det3 F -> g_Jm m <> 0 -> 0 < 1 - (invariant1 F - 3) / g_Jm m ->
     is_partial_entry (g_energy m) F i j (g_stress m F i j) /\
     is_partial_entry (fun F => g_stress m F i j) F k l (g_tangents m F i j k l)).
Proof.
  intros Hi Hj Hk Hl. split; intros m F.
  - split; apply derivative_partial; try assumption.
    + apply C56_linear_stress.
    + apply C56_linear_tangents; assumption.
  - intros. split; apply derivative_partial; try assumption.
    + apply C56_gent_stress; assumption.
    + apply C56_gent_tangents; assumption.
Qed.

(* The tangents do not change when the first two and the last two indices are exchanged. *)
Theorem C56_major_symmetry i j k l :
  (i < 3)%nat -> (j < 3)%nat -> (k < 3)%nat -> (l < 3)%nat ->
  (forall m F, le_tangents m F i j k l = le_tangents m F k l i j) /\
  (forall m F, g_tangents m F i j k l = g_tangents m F k l i j).
Proof.
  intros Hi Hj Hk Hl.
  assert (S : forall a b, delta a b = delta b a)
    by (intros a b; unfold delta; rewrite (Nat.eqb_sym a b); reflexivity).
  split; intros m F.
  - rewrite !le_tangents_value by assumption.
    rewrite (S k i), (S l j), (S k j), (S l i). ring.
  - rewrite !g_tangents_value by assumption. rewrite (S k i), (S l j).
    set (a := g_mu m * _). set (b := 2 * g_mu m * _ / _). set (c := g_mu m - _). set (d := 2 * g_kappa m * _).
    set (v := minv 3 F). ring.
Qed.

(* The linear elastic stress is symmetric, its tangents are symmetric in each pair of indices and do
   not depend on the deformation. *)
Theorem C56_linear_symmetric m i j k l :
  (i < 3)%nat -> (j < 3)%nat -> (k < 3)%nat -> (l < 3)%nat ->
  (forall F, le_stress m F i j = le_stress m F j i) /\
  (forall F, le_tangents m F i j k l = le_tangents m F j i k l /\
             le_tangents m F i j k l = le_tangents m F i j l k) /\
  (forall F F', le_tangents m F i j k l = le_tangents m F' i j k l).
Proof.
  intros Hi Hj Hk Hl.
  assert (S : forall a b, delta a b = delta b a)
    by (intros a b; unfold delta; rewrite (Nat.eqb_sym a b); reflexivity).
  split; [|split].
  - intros F. rewrite !le_stress_value. rewrite (S j i). ring.
  - intros F. rewrite !le_tangents_value by assumption. rewrite (S j i), (S l k). split; ring.
  - reflexivity.
Qed.

(* Young's modulus and Poisson's ratio mean what their names say: in uniaxial stress the stress is E
   times the strain, and the lateral contraction is nu times the extension; a shear stress is
   E / (2 (1 + nu)) times the shear angle. Conversely, uniaxial stress comes from these strains only. *)
Theorem C56_linear_moduli E nu F e : E <> 0 -> -1 < nu < / 2 ->
  let P := le_stress (make_linear_elastic E nu) F in
  (strain F 0 0 = e /\ strain F 1 1 = - nu * e /\ strain F 2 2 = - nu * e /\
   strain F 0 1 = 0 /\ strain F 0 2 = 0 /\ strain F 1 2 = 0)
  <->
  (P 0%nat 0%nat = E * e /\ P 1%nat 1%nat = 0 /\ P 2%nat 2%nat = 0 /\
   P 0%nat 1%nat = 0 /\ P 0%nat 2%nat = 0 /\ P 1%nat 2%nat = 0).
Proof.
  intros HE Hn. destruct (lame E nu Hn) as (M & L & K). cbv zeta.
  rewrite !le_stress_value, M, L. unfold strain, delta. cbn [Nat.eqb].
  set (a := F 0%nat 0%nat). set (b := F 1%nat 1%nat). set (c := F 2%nat 2%nat).
  assert (Q : E / (2 * (1 + nu)) <> 0)
    by (unfold Rdiv; apply Rmult_integral_contrapositive; split; [assumption|apply Rinv_neq_0_compat; lra]).
  assert (off : forall x y, (x - 0 + (y - 0)) / 2 = 0 <->
      E * nu / ((1 + nu) * (1 - 2 * nu)) * (a + b + c - 3) * 0 + E / (2 * (1 + nu)) * (x + y - 2 * 0) = 0).
  { intros x y. split; intros H.
    - replace (x + y - 2 * 0) with 0 by lra. ring.
    - rewrite Rmult_0_r, Rplus_0_l in H. apply Rmult_integral in H. destruct H; [contradiction|lra]. }
  rewrite <- !off.
  split; intros (A & B & C & D); (split; [|split; [|split; [|exact D]]]).
  - replace (a + b + c - 3) with (e + - nu * e + - nu * e) by lra.
    replace (a + a - 2 * 1) with (2 * e) by lra. field. lra.
  - replace (a + b + c - 3) with (e + - nu * e + - nu * e) by lra.
    replace (b + b - 2 * 1) with (2 * (- nu * e)) by lra. field. lra.
  - replace (a + b + c - 3) with (e + - nu * e + - nu * e) by lra.
    replace (c + c - 2 * 1) with (2 * (- nu * e)) by lra. field. lra.
  - assert (T : E / (1 - 2 * nu) * (a + b + c - 3 - (1 - 2 * nu) * e) = 0).
    { transitivity (E * e + 0 + 0 - E * e); [|ring]. rewrite <- A at 1. rewrite <- B at 1. rewrite <- C at 1.
      field. lra. }
    apply Rmult_integral in T. destruct T as [T|T].
    { exfalso. unfold Rdiv in T. apply Rmult_integral in T. destruct T as [T|T]; [contradiction|].
      apply (Rinv_neq_0_compat (1 - 2 * nu)); [lra|assumption]. }
    assert (T' : a + b + c - 3 = (1 - 2 * nu) * e) by lra. rewrite T' in A.
    assert (Z : E / (1 + nu) * (a - 1 - e) = 0).
    { transitivity (E * e - E * e); [|ring]. rewrite <- A at 1. field. lra. }
    apply Rmult_integral in Z. destruct Z as [Z|Z]; [|lra].
    exfalso. unfold Rdiv in Z. apply Rmult_integral in Z. destruct Z as [Z|Z]; [contradiction|].
    apply (Rinv_neq_0_compat (1 + nu)); [lra|assumption].
  - assert (T : E / (1 - 2 * nu) * (a + b + c - 3 - (1 - 2 * nu) * e) = 0).
    { transitivity (E * e + 0 + 0 - E * e); [|ring]. rewrite <- A at 1. rewrite <- B at 1. rewrite <- C at 1.
      field. lra. }
    apply Rmult_integral in T. destruct T as [T|T].
    { exfalso. unfold Rdiv in T. apply Rmult_integral in T. destruct T as [T|T]; [contradiction|].
      apply (Rinv_neq_0_compat (1 - 2 * nu)); [lra|assumption]. }
    assert (T' : a + b + c - 3 = (1 - 2 * nu) * e) by lra. rewrite T' in B.
    assert (Z : E / (1 + nu) * (b - 1 + nu * e) = 0).
    { transitivity 0; [|ring]. rewrite <- B at 1. field. lra. }
    apply Rmult_integral in Z. destruct Z as [Z|Z]; [|lra].
    exfalso. unfold Rdiv in Z. apply Rmult_integral in Z. destruct Z as [Z|Z]; [contradiction|].
    apply (Rinv_neq_0_compat (1 + nu)); [lra|assumption].
  - assert (T : E / (1 - 2 * nu) * (a + b + c - 3 - (1 - 2 * nu) * e) = 0).
    { transitivity (E * e + 0 + 0 - E * e); [|ring]. rewrite <- A at 1. rewrite <- B at 1. rewrite <- C at 1.
      field. lra. }
    apply Rmult_integral in T. destruct T as [T|T].
    { exfalso. unfold Rdiv in T. apply Rmult_integral in T. destruct T as [T|T]; [contradiction|].
      apply (Rinv_neq_0_compat (1 - 2 * nu)); [lra|assumption]. }
    assert (T' : a + b + c - 3 = (1 - 2 * nu) * e) by lra. rewrite T' in C.
    assert (Z : E / (1 + nu) * (c - 1 + nu * e) = 0).
    { transitivity 0; [|ring]. rewrite <- C at 1. field. lra. }
    apply Rmult_integral in Z. destruct Z as [Z|Z]; [|lra].
    exfalso. unfold Rdiv in Z. apply Rmult_integral in Z. destruct Z as [Z|Z]; [contradiction|].
    apply (Rinv_neq_0_compat (1 + nu)); [lra|assumption].
Qed.

Theorem C56_linear_shear E nu F i j : -1 < nu < / 2 -> i <> j ->
  le_stress (make_linear_elastic E nu) F i j = E / (2 * (1 + nu)) * (F i j + F j i).
Proof.
  intros Hn Hij. destruct (lame E nu Hn) as (M & L & _). rewrite le_stress_value, M, L.
  unfold delta. apply Nat.eqb_neq in Hij. rewrite Hij. ring.
Qed.

(* For the admissible moduli the energy is not negative, and vanishes exactly for infinitesimal
   rotations: deformations without strain. *)
Theorem C56_linear_energy E nu F : 0 < E -> -1 < nu < / 2 ->
  let m := make_linear_elastic E nu in
  0 <= le_energy m F /\
  (le_energy m F = 0 <-> forall i j, (i < 3)%nat -> (j < 3)%nat -> strain F i j = 0).
Proof.
  intros HE Hn m. destruct (lame E nu Hn) as (M & L & K). fold m in M, L, K.
  assert (0 < le_mu m) by (rewrite M; apply Rdiv_lt_0_compat; lra).
  assert (0 < 3 * le_lambda m + 2 * le_mu m) by (rewrite K; apply Rdiv_lt_0_compat; lra).
  destruct (le_energy_pos m F) as (P & Z); [assumption..|].
  split; [exact P|]. split; [exact Z|].
  intros S. rewrite le_energy_value. unfold sum33, sum3. rewrite !S by lia. lra.
Qed.

(* Infinitesimal rotations change nothing: the law depends on the strain only. *)
Theorem C56_linear_strain_only m F F' :
  (forall i j, (i < 3)%nat -> (j < 3)%nat -> strain F i j = strain F' i j) ->
  le_energy m F = le_energy m F' /\
  forall i j, (i < 3)%nat -> (j < 3)%nat -> le_stress m F i j = le_stress m F' i j.
Proof.
  intros H.
  assert (E : forall F i j, le_stress m F i j =
    le_lambda m * sum3 (fun k => strain F k k) * delta i j + 2 * le_mu m * strain F i j).
  { intros F0 i j. rewrite le_stress_value. unfold sum3, strain, delta. cbn [Nat.eqb].
    rewrite (Nat.eqb_sym j i). destruct (Nat.eqb i j); field. }
  assert (S : forall i j, (i < 3)%nat -> (j < 3)%nat -> le_stress m F i j = le_stress m F' i j).
  { intros i j Hi Hj. rewrite !E. unfold sum3. rewrite !H by lia. reflexivity. }
  split; [|exact S].
  rewrite !le_energy_value. unfold sum33, sum3. rewrite !S, !H by lia. reflexivity.
Qed.

(* Frame indifference of the Gent material: a rotation of the deformed body leaves the energy and
   rotates the stress. *)
Theorem C56_gent_frame m Q F : rotation Q -> det3 F <> 0 ->
  g_energy m (product Q F) = g_energy m F /\
  forall i j, (i < 3)%nat -> (j < 3)%nat -> g_stress m (product Q F) i j = product Q (g_stress m F) i j.
Proof.
  intros HQ HF. split; [apply g_energy_left; assumption|intros; apply g_stress_left; assumption].
Qed.

(* Isotropy: so does a rotation of the reference configuration. *)
Theorem C56_gent_isotropic m Q F : rotation Q -> det3 F <> 0 ->
  g_energy m (product F Q) = g_energy m F /\
  forall i j, (i < 3)%nat -> (j < 3)%nat -> g_stress m (product F Q) i j = product (g_stress m F) Q i j.
Proof.
  intros HQ HF. split; [apply g_energy_right; assumption|intros; apply g_stress_right; assumption].
Qed.

(* Balance of angular momentum: P F^T is symmetric. *)
Theorem C56_gent_angular m F i j : det3 F <> 0 -> (i < 3)%nat -> (j < 3)%nat ->
  sum3 (fun k => g_stress m F i k * F j k) = sum3 (fun k => g_stress m F j k * F i k).
Proof. apply g_angular. Qed.

(* The energy is not negative, and vanishes for the rotations only. *)
Theorem C56_gent_energy m F : 0 < g_mu m -> 0 <= g_kappa m -> 0 < g_Jm m ->
  0 < det3 F -> 0 < 1 - (invariant1 F - 3) / g_Jm m ->
  0 <= g_energy m F /\ (g_energy m F = 0 <-> rotation F).
Proof.
  intros Hm Hk HJ HF Hl.
  destruct (g_energy_positive m F Hm Hk HJ) as (P & Z); [repeat split; lra|].
  split; [exact P|]. split; [exact Z|]. intros R. apply rotation_energy; [exact R|lra].
Qed.

(* The rotations are free of stress. *)
Theorem C56_gent_natural m F i j : rotation F -> g_Jm m <> 0 -> (i < 3)%nat -> (j < 3)%nat ->
  g_stress m F i j = 0.
Proof.
  intros R HJ Hi Hj. rewrite g_stress_value. unfold gs. cbv zeta.
  rewrite minv_adj, rotation_adj by assumption. destruct R as (O & D). rewrite D, ln_1.
  rewrite invariant_cols. unfold col. rewrite !O by lia. cbn [Nat.eqb].
  field. lra.
Qed.

(* In the reference configuration the tangents are those of a linear elastic material with the shear
   modulus mu. *)
Theorem C56_gent_small m i j k l : g_Jm m <> 0 ->
  (i < 3)%nat -> (j < 3)%nat -> (k < 3)%nat -> (l < 3)%nat ->
  g_tangents m mid i j k l =
    2 * g_mu m / g_Jm m * delta i j * delta k l
    + g_mu m * (delta i k * delta j l + delta i l * delta j k).
Proof.
  intros HJ Hi Hj Hk Hl. rewrite g_tangents_value by assumption.
  assert (R : rotation mid).
  { split.
    - intros a b Ha Hb. three a; three b; unfold sum3, mid; cbn; ring.
    - unfold det3, mid. cbn. ring. }
  rewrite !minv_adj, !rotation_adj by assumption. unfold gA, gC.
  destruct R as (O & D). rewrite D, ln_1. rewrite invariant_cols. unfold col. rewrite !O by lia. cbn [Nat.eqb].
  replace (g_Jm m - (1 + 1 + 1) + 3) with (g_Jm m) by ring.
  change mid with delta.
  assert (S : forall a b, delta a b = delta b a)
    by (intros a b; unfold delta; rewrite (Nat.eqb_sym a b); reflexivity).
  rewrite (S k j). field. exact HJ.
Qed.

(* ------------------------------------------------------------------------------------------- *)
(* C71: the consistency test. *)

(* The change of W when the component (i, j) alone goes from F_ij - h to F_ij + h. *)
Definition difference (W : mat -> R) (F : mat) (h : R) (i j : nat) : R :=
  W (with_entry F i j (F i j + h)) - W (with_entry F i j (F i j - h)).

(* The verdict: the differences and the analytical derivatives times 2 h are less than the tolerance
   apart. Every component is perturbed alone, the others being those of F. *)
Theorem C71_verdict_stress m h tol F :
  test_stress m h tol F = true <->
  sqrt (sum33 (fun i j => (difference (energy m) F h i j - 2 * h * stress m F i j) ^ 2)) < tol.
Proof. apply verdict_stress. Qed.

Theorem C71_verdict_tangents m h tol F :
  test_tangents m h tol F = true <->
  sqrt (sum33 (fun i j => sum33 (fun k l =>
    (difference (fun F => stress m F i j) F h k l - 2 * h * tangents m F i j k l) ^ 2))) < tol.
Proof. apply verdict_tangents. Qed.

(* What a passed test says about each component. *)
Theorem C71_passed m h tol F i j : (i < 3)%nat -> (j < 3)%nat -> h <> 0 ->
  test_stress m h tol F = true ->
  Rabs (difference (energy m) F h i j / (2 * h) - stress m F i j) < tol / (2 * Rabs h).
Proof.
  intros Hi Hj Hh T. apply verdict_stress in T.
  pose proof (sqrt_term (fun i j => error (energy m) F (stress m F) h i j) i j Hi Hj) as B. cbn beta in B.
  assert (Pa : 0 < 2 * Rabs h) by (pose proof (Rabs_pos_lt h Hh); lra).
  apply (Rmult_lt_reg_l (2 * Rabs h)); [exact Pa|].
  replace (2 * Rabs h * (tol / (2 * Rabs h))) with tol by (field; lra).
  replace (2 * Rabs h) with (Rabs (2 * h)) by (rewrite Rabs_mult, (Rabs_pos_eq 2) by lra; reflexivity).
  rewrite <- Rabs_mult.
  replace (2 * h * (difference (energy m) F h i j / (2 * h) - stress m F i j))
    with (error (energy m) F (stress m F) h i j)
    by (unfold error, difference, central; field; exact Hh).
  lra.
Qed.

(* The linear elastic material passes for every perturbation and every positive tolerance. *)
Theorem C71_linear E nu h tol F :
  let m := linear_elastic_material (make_linear_elastic E nu) in
  test_stress m h tol F = true /\ test_tangents m h tol F = true <-> 0 < tol.
Proof.
  intros m.
  assert (S : sqrt (sum33 (fun i j => error (energy m) F (stress m F) h i j ^ 2)) = 0).
  { rewrite (sum33_ext _ (fun _ _ => 0)).
    - unfold sum33, sum3. rewrite !Rplus_0_r. apply sqrt_0.
    - intros i j Hi Hj. cbn [m linear_elastic_material energy stress].
      rewrite le_energy_central by assumption. ring. }
  assert (T : sqrt (sum33 (fun i j => sum33 (fun k l =>
      error (fun F => stress m F i j) F (tangents m F i j) h k l ^ 2))) = 0).
  { rewrite (sum33_ext _ (fun _ _ => 0)).
    - unfold sum33, sum3. rewrite !Rplus_0_r. apply sqrt_0.
    - intros i j Hi Hj. rewrite (sum33_ext _ (fun _ _ => 0)).
      + unfold sum33, sum3. ring.
      + intros k l Hk Hl. cbn [m linear_elastic_material stress tangents].
        rewrite le_stress_central by assumption. ring. }
  rewrite verdict_stress, verdict_tangents, S, T. split; [tauto|auto].
Qed.

(* A material whose energy has partial derivatives: the test passes for all small perturbations with
   tolerances proportional to them, however small the factor, if and only if the stress is the
   derivative of the energy. *)
Theorem C71_decides m F (P : mat) :
  (forall i j, (i < 3)%nat -> (j < 3)%nat -> is_partial_entry (energy m) F i j (P i j)) ->
  (forall eps, 0 < eps -> exists d, 0 < d /\
     forall h, 0 < h < d -> test_stress m h (eps * h) F = true) <->
  (forall i j, (i < 3)%nat -> (j < 3)%nat -> stress m F i j = P i j).
Proof.
  intros D. split.
  - intros A i j Hi Hj.
    destruct (Req_dec (stress m F i j) (P i j)) as [|N]; [assumption|exfalso].
    set (e := Rabs (stress m F i j - P i j)).
    assert (He : 0 < e) by (apply Rabs_pos_lt; lra).
    destruct (A (e / 2) ltac:(lra)) as (d1 & P1 & T).
    destruct (central_limit (energy m) F i j (P i j) (D i j Hi Hj) (e / 2) ltac:(lra)) as (d2 & P2 & C).
    set (h := Rmin d1 d2 / 2). assert (Rmin d1 d2 > 0) by (apply Rmin_glb_lt; assumption).
    assert (Hh : 0 < h) by (unfold h; lra).
    pose proof (Rmin_l d1 d2). pose proof (Rmin_r d1 d2).
    specialize (T h ltac:(unfold h in *; lra)). apply verdict_stress in T.
    pose proof (sqrt_term (fun i j => error (energy m) F (stress m F) h i j) i j Hi Hj) as B. cbn beta in B.
    specialize (C h ltac:(lra) ltac:(rewrite Rabs_pos_eq by lra; unfold h in *; lra)).
    rewrite (Rabs_pos_eq h) in C by lra.
    pose proof (Rle_lt_trans _ _ _ B T) as B'. unfold error in B'.
    set (c := central (energy m) F i j h) in C, B'.
    assert (E : 2 * h * e <= Rabs (c - 2 * h * P i j) + Rabs (c - 2 * h * stress m F i j)).
    { unfold e. replace (2 * h) with (Rabs (2 * h)) at 1 by (apply Rabs_pos_eq; lra).
      rewrite <- Rabs_mult.
      replace (2 * h * (stress m F i j - P i j))
        with ((c - 2 * h * P i j) + - (c - 2 * h * stress m F i j)) by ring.
      eapply Rle_trans; [apply Rabs_triang|]. rewrite Rabs_Ropp. lra. }
    assert (0 < h * e) by (apply Rmult_lt_0_compat; assumption). lra.
  - intros S eps He.
    destruct (errors_small (energy m) F (stress m F)) with (eps := eps / 2) as (d & Hd & B).
    + intros i j Hi Hj. rewrite S by assumption. apply D; assumption.
    + lra.
    + exists d. split; [exact Hd|]. intros h Hh. apply verdict_stress.
      specialize (B h ltac:(lra) ltac:(rewrite Rabs_pos_eq by lra; lra)).
      rewrite (Rabs_pos_eq h) in B by lra.
      assert (0 < eps * h) by (apply Rmult_lt_0_compat; lra). lra.
Qed.

(* In particular the Gent material passes. *)
Theorem C71_gent m F :
  0 < det3 F -> g_Jm m <> 0 -> 0 < 1 - (invariant1 F - 3) / g_Jm m ->
  forall eps, 0 < eps -> exists d, 0 < d /\
    forall h, 0 < h < d -> test_stress (gent_material m) h (eps * h) F = true.
Proof.
  intros HF HJ Hl. apply (C71_decides (gent_material m) F (g_stress m F)).
  - intros i j Hi Hj. apply derivative_partial; [assumption..|]. apply C56_gent_stress; assumption.
  - reflexivity.
Qed.

(* With a tolerance that does not depend on the perturbation the test accepts every stress: the
   residual is not divided by the perturbation. *)
Theorem C71_fixed_tolerance_refuted :
  ~ (forall m F tol P, 0 < tol ->
       (forall i j, (i < 3)%nat -> (j < 3)%nat -> is_partial_entry (energy m) F i j (P i j)) ->
       (exists d, 0 < d /\ forall h, 0 < h < d -> test_stress m h tol F = true) ->
       forall i j, (i < 3)%nat -> (j < 3)%nat -> stress m F i j = P i j).
Proof.
  intros A.
  specialize (A (Material (fun F => F 0%nat 0%nat) (fun _ _ _ => 0) (fun _ _ _ _ _ => 0)) mid 1
    (fun i j => delta i 0 * delta j 0) ltac:(lra)).
  assert (E : 0 = delta 0 0 * delta 0 0); [|unfold delta in E; cbn in E; lra].
  apply A; [| |lia|lia].
  - intros i j Hi Hj. cbn [energy]. unfold is_partial_entry, with_entry, delta.
    destruct i as [|i], j as [|j]; cbn [Nat.eqb andb].
    + rewrite Rmult_1_l. apply derivable_pt_lim_id.
    + rewrite Rmult_0_r. apply derivable_pt_lim_const.
    + rewrite Rmult_0_l. apply derivable_pt_lim_const.
    + rewrite Rmult_0_l. apply derivable_pt_lim_const.
  - exists (/ 2). split; [lra|]. intros h Hh. apply verdict_stress.
    rewrite (sum33_ext _ (fun i j => (2 * h * (delta i 0 * delta j 0)) ^ 2)).
    + unfold sum33, sum3, delta. cbn [Nat.eqb].
      replace (_ + _ + _) with (Rsqr (2 * h)) by (unfold Rsqr; ring).
      rewrite sqrt_Rsqr by lra. lra.
    + intros i j Hi Hj. f_equal. unfold error, central. cbn [energy stress].
      unfold with_entry, delta. destruct i as [|i], j as [|j]; cbn [Nat.eqb andb]; ring.
Qed.

(* ------------------------------------------------------------------------------------------- *)
(* Examples: the hypotheses are met by deformations that are not the identity. *)

(* Extension by a half in the first direction, with shear. *)
Definition sheared : mat := fun i j =>
  match i, j with
  | 0%nat, 0%nat => 3 / 2 | 0%nat, 1%nat => 1 / 2 | 1%nat, 1%nat => 1 | 2%nat, 2%nat => 1
  | _, _ => 0
  end.
Example ex_domain : 0 < det3 sheared /\ g_Jm (Gent 1 2 10) <> 0 /\
  0 < 1 - (invariant1 sheared - 3) / g_Jm (Gent 1 2 10).
Proof. cbv [det3 invariant1 sum33 sum3 sheared g_Jm]. repeat split; lra. Qed.

(* The energy depends on it: it is positive there. *)
Example ex_sheared : 0 < g_energy (Gent 1 2 10) sheared.
Proof.
  destruct ex_domain as (A & B & C).
  destruct (C56_gent_energy (Gent 1 2 10) sheared) as (P & Z); cbn [g_mu g_kappa]; try lra; try assumption.
  { cbn [g_Jm]. lra. }
  destruct (Rle_lt_or_eq_dec _ _ P) as [|E]; [assumption|exfalso].
  destruct Z as (Z & _). destruct (Z (eq_sym E)) as (_ & D).
  unfold det3, sheared in D. lra.
Qed.

(* A rotation about the third axis. *)
Definition turn : mat := fun i j =>
  match i, j with
  | 0%nat, 0%nat => 3 / 5 | 0%nat, 1%nat => - (4 / 5) | 1%nat, 0%nat => 4 / 5 | 1%nat, 1%nat => 3 / 5
  | 2%nat, 2%nat => 1 | _, _ => 0
  end.
Example ex_rotation : rotation turn.
Proof.
  split.
  - intros i j Hi Hj. three i; three j; unfold sum3, turn; cbn [Nat.eqb]; lra.
  - unfold det3, turn. lra.
Qed.

(* Steel: E = 210, nu = 3 / 10. *)
Example ex_steel : le_stress (make_linear_elastic 210 (3 / 10)) sheared 0%nat 1%nat = 210 / (2 * (1 + 3 / 10)) * (1 / 2).
Proof. rewrite C56_linear_shear by (lra || lia). unfold sheared. lra. Qed.
Example ex_consistency : test_stress (linear_elastic_material (make_linear_elastic 210 (3 / 10))) (/ 1000) (/ 100) sheared = true.
Proof. apply (C71_linear 210 (3 / 10) (/ 1000) (/ 100) sheared). lra. Qed.

Print Assumptions C56_linear_stress.
Print Assumptions C56_linear_tangents.
Print Assumptions C56_gent_stress.
Print Assumptions C56_gent_tangents.
Print Assumptions C56_partial_derivatives.
Print Assumptions C56_major_symmetry.
Print Assumptions C56_linear_symmetric.
Print Assumptions C56_linear_moduli.
Print Assumptions C56_linear_shear.
Print Assumptions C56_linear_energy.
Print Assumptions C56_linear_strain_only.
Print Assumptions C56_gent_frame.
Print Assumptions C56_gent_isotropic.
Print Assumptions C56_gent_angular.
Print Assumptions C56_gent_energy.
Print Assumptions C56_gent_natural.
Print Assumptions C56_gent_small.
Print Assumptions C71_verdict_stress.
Print Assumptions C71_verdict_tangents.
Print Assumptions C71_passed.
Print Assumptions C71_linear.
Print Assumptions C71_decides.
Print Assumptions C71_gent.
Print Assumptions C71_fixed_tolerance_refuted.
