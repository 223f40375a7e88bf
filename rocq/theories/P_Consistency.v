(* Proofs about the consistency test of materials. *)
From Coq Require Import Reals List Bool Arith Lia Lra FunctionalExtensionality.
From Verif Require Import Base M_Tensor M_Materials S_Materials P_Materials.
Import ListNotations.
Open Scope R_scope.

Lemma set_at_entry F i j x : set_at F i j x = with_entry F i j x.
Proof. reflexivity. Qed.
Lemma entry_same F i j x : with_entry F i j x i j = x.
Proof. unfold with_entry. rewrite !Nat.eqb_refl. reflexivity. Qed.
Lemma entry_twice F i j x y : with_entry (with_entry F i j x) i j y = with_entry F i j y.
Proof.
  do 2 (apply functional_extensionality; intro). unfold with_entry.
  destruct (_ && _)%bool; reflexivity.
Qed.
Lemma entry_back F i j : with_entry F i j (F i j) = F.
Proof.
  do 2 (apply functional_extensionality; intro). unfold with_entry.
  destruct (Nat.eqb_spec x i), (Nat.eqb_spec x0 j); subst; reflexivity.
Qed.

(* The central difference of a function with respect to a component. *)
Definition central (W : mat -> R) (F : mat) (i j : nat) (h : R) : R :=
  W (with_entry F i j (F i j + h)) - W (with_entry F i j (F i j - h)).

Definition energy_step (m : material) (h : R) (F : mat) (i j : nat) (state : mat * mat) : mat * mat :=
  let '(F_perturbed, increment) := state in
  let F_perturbed := set_at F_perturbed i j (F_perturbed i j + h) in
  let q_plus := energy m F_perturbed in
  let F_perturbed := set_at F_perturbed i j (F_perturbed i j - 2.0 * h) in
  let q_minus := energy m F_perturbed in
  (set_at F_perturbed i j (F i j), set_at increment i j (q_plus - q_minus)).

Lemma energy_step_value m h F i j inc :
  energy_step m h F i j (F, inc) = (F, set_at inc i j (central (energy m) F i j h)).
Proof.
  unfold energy_step. rewrite !set_at_entry, entry_same, !entry_twice, entry_back. unfold central.
  replace (F i j + h - 2.0 * h) with (F i j - h) by lra. reflexivity.
Qed.

Lemma energy_increment_value m h F i j : (i < 3)%nat -> (j < 3)%nat ->
  energy_increment m h F i j = central (energy m) F i j h.
Proof.
  intros Hi Hj.
  change (energy_increment m h F) with
    (snd (for3 (fun i => for3 (fun j => energy_step m h F i j)) (F, fun _ _ => 0))).
  unfold for3. cbn [fold_left]. rewrite !energy_step_value. cbn [snd].
  three i; three j; reflexivity.
Qed.

Definition stress_step (m : material) (h : R) (F : mat) (k l : nat) (state : mat * tensor4)
    : mat * tensor4 :=
  let '(F_perturbed, increment) := state in
  let F_perturbed := set_at F_perturbed k l (F_perturbed k l + h) in
  let P_plus := stress m F_perturbed in
  let F_perturbed := set_at F_perturbed k l (F_perturbed k l - 2.0 * h) in
  let P_minus := stress m F_perturbed in
  let increment := for3 (fun i => for3 (fun j T => set_at4 T i j k l (P_plus i j - P_minus i j))) increment in
  (set_at F_perturbed k l (F k l), increment).

Definition put (inc : tensor4) (k l : nat) (v : mat) : tensor4 := fun a b c d =>
  if (Nat.eqb c k && Nat.eqb d l)%bool then
    if (Nat.ltb a 3 && Nat.ltb b 3)%bool then v a b else inc a b c d
  else inc a b c d.

Lemma set_loop inc k l (v : mat) :
  for3 (fun i => for3 (fun j T => set_at4 T i j k l (v i j))) inc = put inc k l v.
Proof.
  do 4 (apply functional_extensionality; intro). unfold for3. cbn [fold_left]. unfold set_at4, put.
  rename x into a, x0 into b, x1 into c, x2 into d.
  destruct (Nat.eqb c k), (Nat.eqb d l); rewrite ?andb_true_r, ?andb_false_r; cbn [andb];
    try reflexivity.
  destruct a as [|[|[|a]]], b as [|[|[|b]]]; reflexivity.
Qed.

Lemma stress_step_value m h F k l inc :
  stress_step m h F k l (F, inc) =
    (F, put inc k l (fun i j => central (fun F => stress m F i j) F k l h)).
Proof.
  unfold stress_step.
  rewrite (set_loop inc k l (fun i j => stress m _ i j - stress m _ i j)).
  rewrite !set_at_entry, entry_same, !entry_twice, entry_back. unfold central.
  replace (F k l + h - 2.0 * h) with (F k l - h) by lra. reflexivity.
Qed.

Lemma stress_increment_value m h F i j k l :
  (i < 3)%nat -> (j < 3)%nat -> (k < 3)%nat -> (l < 3)%nat ->
  stress_increment m h F i j k l = central (fun F => stress m F i j) F k l h.
Proof.
  intros Hi Hj Hk Hl.
  change (stress_increment m h F) with
    (snd (for3 (fun k => for3 (fun l => stress_step m h F k l)) (F, fun _ _ _ _ => 0))).
  unfold for3. cbn [fold_left]. rewrite !stress_step_value. cbn [snd].
  assert (A : Nat.ltb i 3 = true) by (apply Nat.ltb_lt; exact Hi).
  assert (B : Nat.ltb j 3 = true) by (apply Nat.ltb_lt; exact Hj).
  unfold put. rewrite A, B. cbn [andb].
  three k; three l; reflexivity.
Qed.

Definition error (W : mat -> R) (F : mat) (P : mat) (h : R) (i j : nat) : R :=
  central W F i j h - 2 * h * P i j.

Lemma stress_residual_value m h F :
  stress_residual m h F = sqrt (sum33 (fun i j => error (energy m) F (stress m F) h i j ^ 2)).
Proof.
  unfold stress_residual, mnorm, mminus, sum33, sum3, rsum.
  cbn -[energy_increment pow error]. rewrite !energy_increment_value by lia.
  replace 2.0 with 2 by lra. f_equal. unfold error. ring.
Qed.

Lemma tangents_residual_value m h F :
  tangents_residual m h F =
    sqrt (sum33 (fun i j => sum33 (fun k l =>
      error (fun F => stress m F i j) F (tangents m F i j) h k l ^ 2))).
Proof.
  unfold tangents_residual, norm4. f_equal. unfold sum33, sum3, rsum.
  cbn -[stress_increment pow error].
  replace 2.0 with 2 by lra. rewrite !stress_increment_value by lia. unfold error. ring.
Qed.

(* ------------------------------------------------------------------------------------------- *)

Lemma sum33_nonneg f : (forall i j, (i < 3)%nat -> (j < 3)%nat -> 0 <= f i j) -> 0 <= sum33 f.
Proof. intros H. unfold sum33, sum3. repeat apply Rplus_le_le_0_compat; apply H; lia. Qed.
Lemma sum33_le f g : (forall i j, (i < 3)%nat -> (j < 3)%nat -> f i j <= g i j) -> sum33 f <= sum33 g.
Proof. intros H. unfold sum33, sum3. repeat apply Rplus_le_compat; apply H; lia. Qed.
Lemma sum33_term f i j : (forall i j, (i < 3)%nat -> (j < 3)%nat -> 0 <= f i j) ->
  (i < 3)%nat -> (j < 3)%nat -> f i j <= sum33 f.
Proof.
  intros H Hi Hj. unfold sum33, sum3.
  pose proof (H 0 0 ltac:(lia) ltac:(lia))%nat. pose proof (H 0 1 ltac:(lia) ltac:(lia))%nat.
  pose proof (H 0 2 ltac:(lia) ltac:(lia))%nat. pose proof (H 1 0 ltac:(lia) ltac:(lia))%nat.
  pose proof (H 1 1 ltac:(lia) ltac:(lia))%nat. pose proof (H 1 2 ltac:(lia) ltac:(lia))%nat.
  pose proof (H 2 0 ltac:(lia) ltac:(lia))%nat. pose proof (H 2 1 ltac:(lia) ltac:(lia))%nat.
  pose proof (H 2 2 ltac:(lia) ltac:(lia))%nat. three i; three j; lra.
Qed.

Lemma sqrt_term f i j : (i < 3)%nat -> (j < 3)%nat -> Rabs (f i j) <= sqrt (sum33 (fun i j => f i j ^ 2)).
Proof.
  intros Hi Hj. rewrite <- sqrt_Rsqr_abs. apply sqrt_le_1_alt. unfold Rsqr.
  replace (f i j * f i j) with (f i j ^ 2) by ring.
  apply (sum33_term (fun i j => f i j ^ 2)); [intros; apply pow2_ge_0|assumption..].
Qed.

(* Nine components each at most e: the norm is at most 3 e. *)
Lemma sqrt_bound f e : 0 <= e -> (forall i j, (i < 3)%nat -> (j < 3)%nat -> Rabs (f i j) <= e) ->
  sqrt (sum33 (fun i j => f i j ^ 2)) <= 3 * e.
Proof.
  intros He H. rewrite <- (sqrt_Rsqr (3 * e)) by lra. apply sqrt_le_1_alt.
  eapply Rle_trans; [apply (sum33_le _ (fun _ _ => e ^ 2))|unfold sum33, sum3, Rsqr; lra].
  intros i j Hi Hj. rewrite <- (pow2_abs (f i j)).
  apply pow_incr. split; [apply Rabs_pos|apply H; assumption].
Qed.

(* Central differences of a differentiable function. *)
Lemma central_limit W F i j l : is_partial_entry W F i j l ->
  forall eps, 0 < eps -> exists d, 0 < d /\ forall h, h <> 0 -> Rabs h < d ->
    Rabs (central W F i j h - 2 * h * l) <= eps * Rabs h.
Proof.
  intros D eps He. destruct (D (eps / 2) ltac:(lra)) as (d & Hd).
  exists d. split; [apply cond_pos|]. intros h H0 Hh.
  pose proof (Hd h H0 Hh) as A.
  pose proof (Hd (- h) ltac:(lra) ltac:(rewrite Rabs_Ropp; exact Hh)) as B.
  rewrite entry_back in A, B. unfold central.
  set (Wp := W (with_entry F i j (F i j + h))) in *.
  replace (F i j + - h) with (F i j - h) in B by ring.
  set (Wm := W (with_entry F i j (F i j - h))) in *. set (W0 := W F) in *.
  replace (Wp - Wm - 2 * h * l) with (h * ((Wp - W0) / h - l) + h * ((Wm - W0) / - h - l))
    by (field; exact H0).
  eapply Rle_trans; [apply Rabs_triang|]. rewrite !Rabs_mult.
  pose proof (Rabs_pos h).
  assert (Rabs h * Rabs ((Wp - W0) / h - l) <= Rabs h * (eps / 2)) by (apply Rmult_le_compat_l; lra).
  assert (Rabs h * Rabs ((Wm - W0) / - h - l) <= Rabs h * (eps / 2)) by (apply Rmult_le_compat_l; lra).
  lra.
Qed.

(* One radius for nine components. *)
Lemma nine (R9 : nat -> nat -> R -> Prop) :
  (forall i j d d', 0 < d' -> d' <= d -> R9 i j d -> R9 i j d') ->
  (forall i j, (i < 3)%nat -> (j < 3)%nat -> exists d, 0 < d /\ R9 i j d) ->
  exists d, 0 < d /\ forall i j, (i < 3)%nat -> (j < 3)%nat -> R9 i j d.
Proof.
  intros M H.
  assert (row : forall i, (i < 3)%nat -> exists d, 0 < d /\ forall j, (j < 3)%nat -> R9 i j d).
  { intros i Hi.
    destruct (H i 0%nat Hi ltac:(lia)) as (a & Ha & A). destruct (H i 1%nat Hi ltac:(lia)) as (b & Hb & B).
    destruct (H i 2%nat Hi ltac:(lia)) as (c & Hc & C).
    exists (Rmin a (Rmin b c)). assert (P : 0 < Rmin a (Rmin b c)) by (repeat apply Rmin_glb_lt; assumption).
    split; [exact P|].
    pose proof (Rmin_l a (Rmin b c)). pose proof (Rmin_r a (Rmin b c)).
    pose proof (Rmin_l b c). pose proof (Rmin_r b c).
    intros j Hj. three j; [apply (M _ _ a)|apply (M _ _ b)|apply (M _ _ c)]; try assumption; lra. }
  destruct (row 0%nat ltac:(lia)) as (a & Ha & A). destruct (row 1%nat ltac:(lia)) as (b & Hb & B).
  destruct (row 2%nat ltac:(lia)) as (c & Hc & C).
  exists (Rmin a (Rmin b c)). assert (P : 0 < Rmin a (Rmin b c)) by (repeat apply Rmin_glb_lt; assumption).
  split; [exact P|].
  pose proof (Rmin_l a (Rmin b c)). pose proof (Rmin_r a (Rmin b c)).
  pose proof (Rmin_l b c). pose proof (Rmin_r b c).
  intros i j Hi Hj.
  three i; [apply (M _ _ a)|apply (M _ _ b)|apply (M _ _ c)]; try assumption; try lra;
    [apply A|apply B|apply C]; assumption.
Qed.

Lemma errors_small W F P :
  (forall i j, (i < 3)%nat -> (j < 3)%nat -> is_partial_entry W F i j (P i j)) ->
  forall eps, 0 < eps -> exists d, 0 < d /\ forall h, h <> 0 -> Rabs h < d ->
    sqrt (sum33 (fun i j => error W F P h i j ^ 2)) <= eps * Rabs h.
Proof.
  intros D eps He.
  destruct (nine (fun i j d => forall h, h <> 0 -> Rabs h < d ->
    Rabs (error W F P h i j) <= eps / 3 * Rabs h)) as (d & Hd & A).
  - intros i j d d' _ Hle Q h H0 Hh. apply Q; [exact H0|lra].
  - intros i j Hi Hj. apply (central_limit W F i j (P i j) (D i j Hi Hj)). lra.
  - exists d. split; [exact Hd|]. intros h H0 Hh.
    eapply Rle_trans; [apply (sqrt_bound (fun i j => error W F P h i j) (eps / 3 * Rabs h))|].
    + apply Rmult_le_pos; [lra|apply Rabs_pos].
    + intros i j Hi Hj. apply A; assumption.
    + lra.
Qed.

Lemma verdict_stress m h tol F :
  test_stress m h tol F = true <->
  sqrt (sum33 (fun i j => error (energy m) F (stress m F) h i j ^ 2)) < tol.
Proof.
  unfold test_stress. rewrite stress_residual_value. destruct (Rlt_dec _ _); split; intros; auto; try discriminate; tauto.
Qed.
Lemma verdict_tangents m h tol F :
  test_tangents m h tol F = true <->
  sqrt (sum33 (fun i j => sum33 (fun k l =>
      error (fun F => stress m F i j) F (tangents m F i j) h k l ^ 2))) < tol.
Proof.
  unfold test_tangents. rewrite tangents_residual_value. destruct (Rlt_dec _ _); split; intros; auto; try discriminate; tauto.
Qed.

(* ------------------------------------------------------------------------------------------- *)
(* The linear elastic material: quadratic energy, linear stress. *)

Ltac entry := unfold with_entry; cbn [Nat.eqb andb].

Lemma le_energy_central m F h i j : (i < 3)%nat -> (j < 3)%nat ->
  error (le_energy m) F (le_stress m F) h i j = 0.
Proof.
  intros Hi Hj. unfold error, central. rewrite !le_energy_short, le_stress_value.
  three i; three j; entry; unfold delta; cbn [Nat.eqb]; field.
Qed.
Lemma le_stress_central m F h i j k l : (i < 3)%nat -> (j < 3)%nat -> (k < 3)%nat -> (l < 3)%nat ->
  error (fun F => le_stress m F i j) F (le_tangents m F i j) h k l = 0.
Proof.
  intros Hi Hj Hk Hl. unfold error, central. rewrite !le_stress_value, le_tangents_value by assumption.
  three i; three j; three k; three l; entry; unfold delta; cbn [Nat.eqb]; ring.
Qed.
