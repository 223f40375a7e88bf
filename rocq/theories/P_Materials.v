(* Proofs about the material laws. *)
From Coq Require Import Reals List Bool Arith Lia Lra.
From Coquelicot Require Import Rbar Hierarchy Derive AutoDerive.
From Verif Require Import Base M_Tensor M_Materials S_Materials.
Import ListNotations.
Open Scope R_scope.

Ltac three i := destruct i as [|[|[|i]]]; [| | |exfalso; lia].

Lemma derive_of f x l : derivable_pt_lim f x l -> is_derive f x l.
Proof. apply is_derive_Reals. Qed.
Lemma derive_to f x l : is_derive f x l -> derivable_pt_lim f x l.
Proof. apply is_derive_Reals. Qed.

Definition invf (F : mat) : mat := minv 3 F.

Lemma trC_value F : trace (mmul 3 (transpose F) F) = invariant1 F.
Proof. unfold trace, mmul, transpose, invariant1, sum33, sum3, rsum. cbn. ring. Qed.

(* ------------------------------------------------------------------------------------------- *)
(* The linear elastic material. *)

Lemma le_stress_value m F i j :
  le_stress m F i j = le_lambda m * (F 0%nat 0%nat + F 1%nat 1%nat + F 2%nat 2%nat - 3) * delta i j
    + le_mu m * (F i j + F j i - 2 * delta i j).
Proof.
  unfold le_stress, symmetric, trace, mplus, mscale, mminus, mid, delta, rsum. cbn.
  rewrite (Nat.eqb_sym j i). destruct (Nat.eqb i j); lra.
Qed.

Lemma le_energy_value m F :
  le_energy m F = 0.5 * sum33 (fun i j => le_stress m F i j * strain F i j).
Proof.
  unfold le_energy, mdot, sum33, sum3, rsum, symmetric, mminus, mid, strain, delta. cbn -[le_stress].
  lra.
Qed.

Lemma le_tangents_value m F i j k l : (i < 3)%nat -> (j < 3)%nat -> (k < 3)%nat -> (l < 3)%nat ->
  le_tangents m F i j k l = le_lambda m * delta i j * delta k l
    + le_mu m * (delta i k * delta j l + delta i l * delta j k).
Proof.
  intros. three i; three j; three k; three l;
    unfold le_tangents, for3, add_at, delta; cbn; lra.
Qed.

Lemma le_energy_short m F :
  le_energy m F =
    le_lambda m / 2 * (F 0%nat 0%nat + F 1%nat 1%nat + F 2%nat 2%nat - 3) ^ 2
    + le_mu m * ((F 0%nat 0%nat - 1) ^ 2 + (F 1%nat 1%nat - 1) ^ 2 + (F 2%nat 2%nat - 1) ^ 2)
    + le_mu m / 2 * ((F 0%nat 1%nat + F 1%nat 0%nat) ^ 2 + (F 0%nat 2%nat + F 2%nat 0%nat) ^ 2
                     + (F 1%nat 2%nat + F 2%nat 1%nat) ^ 2).
Proof.
  rewrite le_energy_value. unfold sum33, sum3, strain. rewrite !le_stress_value. unfold delta. cbn.
  replace 0.5 with (/ 2) by lra. field.
Qed.

(* The nine components of a motion are differentiable. *)
Lemma derive_entry (q : nat -> nat -> R -> R) t (G : mat) :
  (forall i j, (i < 3)%nat -> (j < 3)%nat -> is_derive (q i j) t (G i j)) ->
  forall i j, (i < 3)%nat -> (j < 3)%nat -> Derive (fun x : R => q i j x) t = G i j.
Proof. intros V i j Hi Hj. apply is_derive_unique, V; assumption. Qed.
Ltac entries q t G V := rewrite ?(derive_entry q t G V) by lia.
Ltac exist q G V :=
  repeat split; trivial;
  match goal with
  | |- ex_derive (fun s => q ?i ?j s) _ => exists (G i j); apply V; lia
  | |- ex_derive (q ?i ?j) _ => exists (G i j); apply V; lia
  end.

Lemma by_entries W F P :
  (forall (q : nat -> nat -> R -> R) t G,
     (forall i j, q i j t = F i j) ->
     (forall i j, (i < 3)%nat -> (j < 3)%nat -> is_derive (q i j) t (G i j)) ->
     is_derive (fun s => W (fun i j => q i j s)) t (sum33 (fun i j => P i j * G i j))) ->
  is_derivative W F P.
Proof.
  intros H p t G Hp Hv. apply derive_to.
  apply (H (fun i j s => p s i j) t G Hp). intros. apply derive_of, Hv; assumption.
Qed.

Lemma le_energy_derivative m F : is_derivative (le_energy m) F (le_stress m F).
Proof.
  apply by_entries. intros q t G Q V.
  eapply is_derive_ext.
  { intros s. symmetry. apply le_energy_short. }
  unfold sum33, sum3. rewrite !le_stress_value, <- !Q. unfold delta. cbn [Nat.eqb].
  auto_derive; [exist q G V|].
  entries q t G V. field.
Qed.

Lemma le_stress_derivative m F i j : (i < 3)%nat -> (j < 3)%nat ->
  is_derivative (fun F => le_stress m F i j) F (le_tangents m F i j).
Proof.
  intros Hi Hj. apply by_entries. intros q t G Q V.
  eapply is_derive_ext.
  { intros s. symmetry. apply le_stress_value. }
  unfold sum33, sum3. rewrite !le_tangents_value by lia.
  three i; three j; unfold delta; cbn [Nat.eqb];
  (auto_derive; [exist q G V|]; entries q t G V; ring).
Qed.

(* ------------------------------------------------------------------------------------------- *)
(* The Gent material: the determinant, the first invariant and the inverse along a motion. *)

Lemma det_derivative F : det3 F <> 0 ->
  is_derivative (mdet 3) F (fun i j => det3 F * minv 3 F j i).
Proof.
  intros H. apply by_entries. intros q t G Q V.
  unfold mdet, det3 at 1, sum33, sum3, minv, minor, sgn, skip, det2, det1. cbn [Nat.even Nat.ltb Nat.leb Nat.add].
  auto_derive; [exist q G V|].
  entries q t G V. rewrite !Q.
  unfold det3 in *. field. exact H.
Qed.

Lemma invariant_derivative F : is_derivative invariant1 F (fun i j => 2 * F i j).
Proof.
  apply by_entries. intros q t G Q V.
  unfold invariant1, sum33, sum3, sum33, sum3.
  auto_derive; [exist q G V|].
  entries q t G V. rewrite !Q. ring.
Qed.

Lemma inverse_derivative F i j : (i < 3)%nat -> (j < 3)%nat -> det3 F <> 0 ->
  is_derivative (fun F => minv 3 F i j) F (fun k l => - (minv 3 F i k * minv 3 F l j)).
Proof.
  intros Hi Hj H. apply by_entries. intros q t G Q V.
  unfold minv, minor, sgn, skip, det2, det1, det3, sum33, sum3, minv, minor, sgn, skip, det2, det1.
  three i; three j; cbn [Nat.even Nat.ltb Nat.leb Nat.add].
  all: auto_derive; [repeat split; trivial; try (rewrite !Q; exact H); exist q G V|];
    entries q t G V; rewrite !Q; unfold det3 in *; field; exact H.
Qed.

(* ------------------------------------------------------------------------------------------- *)
(* Derivatives and partial derivatives. *)

Lemma entry_motion F i j : (i < 3)%nat -> (j < 3)%nat ->
  (forall a b, with_entry F i j (F i j) a b = F a b) /\
  velocity (with_entry F i j) (F i j) (fun a b => delta a i * delta b j).
Proof.
  intros Hi Hj. split.
  - intros a b. unfold with_entry.
    destruct (Nat.eqb_spec a i), (Nat.eqb_spec b j); subst; reflexivity.
  - intros a b Ha Hb. unfold with_entry, delta.
    destruct (Nat.eqb a i), (Nat.eqb b j); cbn.
    + replace (1 * 1) with 1 by ring. apply derivable_pt_lim_id.
    + replace (1 * 0) with 0 by ring. apply derivable_pt_lim_const.
    + replace (0 * 1) with 0 by ring. apply derivable_pt_lim_const.
    + replace (0 * 0) with 0 by ring. apply derivable_pt_lim_const.
Qed.

Lemma derivative_partial W F P i j : (i < 3)%nat -> (j < 3)%nat ->
  is_derivative W F P -> is_partial_entry W F i j (P i j).
Proof.
  intros Hi Hj D. destruct (entry_motion F i j Hi Hj) as (E & V).
  unfold is_partial_entry.
  replace (P i j) with (sum33 (fun a b => P a b * (delta a i * delta b j))).
  - exact (D (with_entry F i j) (F i j) _ E V).
  - three i; three j; unfold sum33, sum3, delta; cbn; ring.
Qed.

(* ------------------------------------------------------------------------------------------- *)
(* More about the linear elastic material. *)

Lemma lame E nu : -1 < nu < / 2 ->
  let m := make_linear_elastic E nu in
  le_mu m = E / (2 * (1 + nu)) /\
  le_lambda m = E * nu / ((1 + nu) * (1 - 2 * nu)) /\
  3 * le_lambda m + 2 * le_mu m = E / (1 - 2 * nu).
Proof.
  intros H m. unfold m, make_linear_elastic. cbn.
  replace 1.0 with 1 by lra. replace 2.0 with 2 by lra.
  repeat split; try reflexivity; field; lra.
Qed.

Lemma le_energy_split m F :
  le_energy m F =
    (3 * le_lambda m + 2 * le_mu m) / 6 * (sum3 (fun i => strain F i i)) ^ 2
    + le_mu m * sum33 (fun i j =>
        (strain F i j - sum3 (fun k => strain F k k) / 3 * delta i j) ^ 2).
Proof.
  rewrite le_energy_short. unfold sum33, sum3, strain, delta. cbn [Nat.eqb]. field.
Qed.

Lemma le_energy_pos m F : 0 < le_mu m -> 0 < 3 * le_lambda m + 2 * le_mu m ->
  0 <= le_energy m F /\
  (le_energy m F = 0 -> forall i j, (i < 3)%nat -> (j < 3)%nat -> strain F i j = 0).
Proof.
  intros Hm Hk. rewrite le_energy_split.
  set (T := sum3 (fun k => strain F k k)).
  set (K := (3 * le_lambda m + 2 * le_mu m) / 6). assert (0 < K) by (unfold K; lra).
  set (D := fun i j => strain F i j - T / 3 * delta i j).
  change (sum33 (fun i j => (strain F i j - T / 3 * delta i j) ^ 2)) with (sum33 (fun i j => D i j ^ 2)).
  assert (S : forall i j, 0 <= D i j ^ 2) by (intros; apply pow2_ge_0).
  assert (ST : 0 <= T ^ 2) by apply pow2_ge_0.
  assert (P1 : 0 <= K * T ^ 2) by (apply Rmult_le_pos; lra).
  assert (Q : 0 <= sum33 (fun i j => D i j ^ 2)).
  { unfold sum33, sum3. repeat apply Rplus_le_le_0_compat; apply S. }
  assert (P2 : 0 <= le_mu m * sum33 (fun i j => D i j ^ 2)) by (apply Rmult_le_pos; lra).
  split; [lra|].
  intros Z i j Hi Hj.
  assert (Z1 : K * T ^ 2 = 0) by lra.
  assert (Z2 : le_mu m * sum33 (fun i j => D i j ^ 2) = 0) by lra.
  apply Rmult_integral in Z1, Z2. destruct Z1 as [Z1|Z1]; [lra|]. destruct Z2 as [Z2|Z2]; [lra|].
  assert (T0 : T = 0). { apply Rsqr_0_uniq. unfold Rsqr. lra. }
  assert (Dij : D i j ^ 2 = 0).
  { unfold sum33, sum3 in Z2.
    pose proof (S 0 0)%nat. pose proof (S 0 1)%nat. pose proof (S 0 2)%nat.
    pose proof (S 1 0)%nat. pose proof (S 1 1)%nat. pose proof (S 1 2)%nat.
    pose proof (S 2 0)%nat. pose proof (S 2 1)%nat. pose proof (S 2 2)%nat.
    clear - Hi Hj Z2 H0 H1 H2 H3 H4 H5 H6 H7 H8. three i; three j; lra. }
  assert (D0 : D i j = 0). { apply Rsqr_0_uniq. unfold Rsqr. lra. }
  unfold D in D0. rewrite T0 in D0. lra.
Qed.
