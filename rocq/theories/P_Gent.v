(* Proofs about the Gent material. *)
From Coq Require Import Reals List Bool Arith Lia Lra.
From Coquelicot Require Import Rbar Hierarchy Derive AutoDerive.
From Verif Require Import Base M_Tensor M_Materials S_Materials P_Materials.
Import ListNotations.
Open Scope R_scope.

(* The laws as functions of the determinant, the first invariant and the components. *)
Definition ge (m : gent) (J c : R) : R :=
  let A := / 2 * (J * J - 1) - ln J in
  - / 2 * g_mu m * (g_Jm m * ln (1 - (c - 3) / g_Jm m) + 2 * ln J) + / 2 * g_kappa m * A ^ 4.
Definition gs (m : gent) (J c f v : R) : R :=
  let A := / 2 * (J * J - 1) - ln J in
  g_mu m * (g_Jm m / (g_Jm m - c + 3)) * f
    + (2 * g_kappa m * A ^ 3 * (J * J - 1) - g_mu m) * v.

Lemma g_energy_value m F : g_energy m F = ge m (det3 F) (invariant1 F).
Proof.
  unfold g_energy. cbv zeta. rewrite trC_value. unfold ge, mdet.
  replace 0.5 with (/ 2) by lra. replace (-0.5) with (- / 2) by lra.
  set (A := / 2 * (det3 F * det3 F - 1) - ln (det3 F)). cbv zeta. ring.
Qed.

Lemma g_stress_value m F i j : g_stress m F i j = gs m (det3 F) (invariant1 F) (F i j) (minv 3 F j i).
Proof.
  unfold g_stress, mplus, mscale, transpose at 2. cbv zeta. rewrite trC_value. unfold gs, mdet.
  replace 0.5 with (/ 2) by lra.
  set (A := / 2 * (det3 F * det3 F - 1) - ln (det3 F)). cbv zeta.
  set (v := minv 3 F j i). ring.
Qed.

Definition gC (m : gent) (F : mat) : R := g_Jm m - invariant1 F + 3.
Definition gA (F : mat) : R := / 2 * (det3 F * det3 F - 1) - ln (det3 F).

Lemma g_tangents_value m F i j k l : (i < 3)%nat -> (j < 3)%nat -> (k < 3)%nat -> (l < 3)%nat ->
  g_tangents m F i j k l =
    g_mu m * (g_Jm m / gC m F) * delta i k * delta j l
    + 2 * g_mu m * g_Jm m / (gC m F * gC m F) * F i j * F k l
    + (g_mu m - 2 * g_kappa m * gA F ^ 3 * (det3 F * det3 F - 1)) * minv 3 F j k * minv 3 F l i
    + 2 * g_kappa m * (3 * gA F ^ 2 * (det3 F * det3 F - 1) ^ 2
                       + 2 * det3 F * det3 F * gA F ^ 3) * minv 3 F j i * minv 3 F l k.
Proof.
  intros Hi Hj Hk Hl. unfold g_tangents. cbv zeta. rewrite trC_value.
  change (g_Jm m - invariant1 F + 3) with (gC m F).
  replace (0.5 * (mdet 3 F * mdet 3 F - 1) - ln (mdet 3 F)) with (gA F)
    by (unfold gA, mdet; lra).
  change (mdet 3 F) with (det3 F).
  set (A := gA F). set (C := gC m F). set (J := det3 F). set (v := minv 3 F).
  replace 2.0 with 2 by lra. replace 3.0 with 3 by lra.
  set (c0 := g_mu m * (g_Jm m / C)). set (c1 := 2 * g_mu m * g_Jm m / (C * C)).
  set (c2 := g_mu m - 2 * g_kappa m * A * A * A * (J * J - 1)).
  set (c3 := 2 * g_kappa m * (3 * A * A * (J * J - 1) * (J * J - 1) + 2 * J * J * A * A * A)).
  replace (g_mu m - 2 * g_kappa m * A ^ 3 * (J * J - 1)) with c2 by (unfold c2; ring).
  replace (2 * g_kappa m * (3 * A ^ 2 * (J * J - 1) ^ 2 + 2 * J * J * A ^ 3)) with c3
    by (unfold c3; ring).
  clearbody c0 c1 c2 c3 v. unfold delta.
  three i; three j; three k; three l; unfold for3, add_at; cbn; ring.
Qed.

(* The conditions under which the law is defined. *)
Definition g_domain (m : gent) (F : mat) : Prop :=
  0 < det3 F /\ g_Jm m <> 0 /\ 0 < 1 - (invariant1 F - 3) / g_Jm m.

Lemma g_domain_C m F : g_domain m F -> gC m F <> 0.
Proof.
  intros (_ & HJ & H) E. unfold gC in E.
  replace (invariant1 F - 3) with (g_Jm m) in H by lra.
  replace (g_Jm m / g_Jm m) with 1 in H by (field; exact HJ). lra.
Qed.

Lemma ge_derive m (d c : R -> R) t d' c' :
  is_derive d t d' -> is_derive c t c' -> 0 < d t -> g_Jm m <> 0 -> 0 < 1 - (c t - 3) / g_Jm m ->
  g_Jm m - c t + 3 <> 0 ->
  let A := / 2 * (d t * d t - 1) - ln (d t) in
  is_derive (fun s => ge m (d s) (c s)) t
    (/ 2 * g_mu m * (g_Jm m / (g_Jm m - c t + 3)) * c'
     + (2 * g_kappa m * A ^ 3 * (d t * d t - 1) - g_mu m) * (d' / d t)).
Proof.
  intros Hd Hc Jp HJ Hl HC A. unfold ge. cbv zeta.
  auto_derive.
  - repeat split; trivial; first [exists d'; exact Hd | exists c'; exact Hc].
  - rewrite (is_derive_unique (fun x : R => d x) t d' Hd : Derive (fun x : R => d x) t = d'), (is_derive_unique (fun x : R => c x) t c' Hc : Derive (fun x : R => c x) t = c').
    unfold A. set (L := ln (d t)). field. repeat split; try lra; try assumption.
Qed.

Lemma gs_derive m (d c f v : R -> R) t d' c' f' v' :
  is_derive d t d' -> is_derive c t c' -> is_derive f t f' -> is_derive v t v' ->
  0 < d t -> g_Jm m - c t + 3 <> 0 ->
  let A := / 2 * (d t * d t - 1) - ln (d t) in
  let C := g_Jm m - c t + 3 in
  is_derive (fun s => gs m (d s) (c s) (f s) (v s)) t
    (g_mu m * (g_Jm m / C) * f' + g_mu m * g_Jm m / (C * C) * c' * f t
     + (2 * g_kappa m * A ^ 3 * (d t * d t - 1) - g_mu m) * v'
     + 2 * g_kappa m * (3 * A ^ 2 * (d t * d t - 1) ^ 2 + 2 * d t * d t * A ^ 3)
       * (d' / d t) * v t).
Proof.
  intros Hd Hc Hf Hv Jp HC A C. unfold gs. cbv zeta.
  auto_derive.
  - repeat split; trivial;
      first [exists d'; exact Hd | exists c'; exact Hc | exists f'; exact Hf | exists v'; exact Hv].
  - rewrite (is_derive_unique (fun x : R => d x) t d' Hd : Derive (fun x : R => d x) t = d'), (is_derive_unique (fun x : R => c x) t c' Hc : Derive (fun x : R => c x) t = c'),
      (is_derive_unique (fun x : R => f x) t f' Hf : Derive (fun x : R => f x) t = f'), (is_derive_unique (fun x : R => v x) t v' Hv : Derive (fun x : R => v x) t = v').
    unfold A, C. set (L := ln (d t)). field. repeat split; try lra; try assumption.
Qed.

Lemma derive_eq (f : R -> R) (t l l' : R) : is_derive f t l -> l = l' -> is_derive f t l'.
Proof. intros H <-. exact H. Qed.

Lemma sum33_ext f g : (forall i j, (i < 3)%nat -> (j < 3)%nat -> f i j = g i j) -> sum33 f = sum33 g.
Proof. intros H. unfold sum33, sum3. rewrite !H by lia. reflexivity. Qed.

Lemma g_energy_derivative m F : g_domain m F -> is_derivative (g_energy m) F (g_stress m F).
Proof.
  intros D p t G Hp Hv. pose proof (g_domain_C m F D) as HC. destruct D as (Jp & HJ & Hl).
  assert (Hpt : p t = F) by (do 2 (apply FunctionalExtensionality.functional_extensionality; intro); apply Hp).
  apply derive_to.
  eapply is_derive_ext. { intros s. symmetry. apply g_energy_value. }
  assert (HF : det3 F <> 0) by lra.
  pose proof (derive_of _ _ _ (det_derivative F HF p t G Hp Hv)) as Hd.
  pose proof (derive_of _ _ _ (invariant_derivative F p t G Hp Hv)) as Hc.
  cbn [mdet] in Hd. unfold gC in HC.
  pose proof (ge_derive m (fun s => det3 (p s)) (fun s => invariant1 (p s)) t _ _ Hd Hc) as E.
  cbv beta zeta in E. rewrite Hpt in E. specialize (E Jp HJ Hl HC).
  refine (derive_eq _ _ _ _ E _).
  unfold sum33, sum3. rewrite !g_stress_value. unfold gs. cbv zeta.
  set (A := / 2 * _ - _). set (v := minv 3 F). clearbody A v. field. split; assumption.
Qed.

Lemma g_stress_derivative m F i j : (i < 3)%nat -> (j < 3)%nat -> g_domain m F ->
  is_derivative (fun F => g_stress m F i j) F (g_tangents m F i j).
Proof.
  intros Hi Hj D p t G Hp Hv. pose proof (g_domain_C m F D) as HC. destruct D as (Jp & HJ & Hl).
  assert (Hpt : p t = F) by (do 2 (apply FunctionalExtensionality.functional_extensionality; intro); apply Hp).
  apply derive_to.
  eapply is_derive_ext. { intros s. symmetry. apply g_stress_value. }
  assert (HF : det3 F <> 0) by lra.
  pose proof (derive_of _ _ _ (det_derivative F HF p t G Hp Hv)) as Hd.
  pose proof (derive_of _ _ _ (invariant_derivative F p t G Hp Hv)) as Hc.
  pose proof (derive_of _ _ _ (inverse_derivative F j i Hj Hi HF p t G Hp Hv)) as Hi'.
  pose proof (derive_of _ _ _ (Hv i j Hi Hj)) as Hf.
  cbn [mdet] in Hd. unfold gC in HC.
  pose proof (gs_derive m (fun s => det3 (p s)) (fun s => invariant1 (p s)) (fun s => p s i j)
    (fun s => minv 3 (p s) j i) t _ _ _ _ Hd Hc Hf Hi') as E.
  cbv beta zeta in E. rewrite Hpt in E. specialize (E Jp HC).
  refine (derive_eq _ _ _ _ E _).
  rewrite (sum33_ext (fun k l => g_tangents m F i j k l * G k l) _
    (fun k l Hk Hl => f_equal (fun x => x * G k l) (g_tangents_value m F i j k l Hi Hj Hk Hl))).
  unfold gC in *. change (/ 2 * (det3 F * det3 F - 1) - ln (det3 F)) with (gA F).
  set (A := gA F). set (v := minv 3 F). clearbody A v. unfold sum33, sum3.
  assert (Gij : G i j = sum33 (fun k l => delta i k * delta j l * G k l)).
  { three i; three j; unfold sum33, sum3, delta; cbn; ring. }
  rewrite Gij. unfold sum33, sum3. unfold delta. field. split; assumption.
Qed.

(* ------------------------------------------------------------------------------------------- *)
(* Rotations. *)

(* The squared lengths and the scalar products of the columns. *)
Definition col (F : mat) (a b : nat) : R := sum3 (fun k => F k a * F k b).

Definition row (F : mat) (a b : nat) : R := sum3 (fun k => F a k * F b k).

Definition adj (F : mat) : mat := fun i j => sgn (i + j) * det2 (minor j i F).

Lemma minv_adj F i j : minv 3 F i j = adj F i j / det3 F.
Proof. reflexivity. Qed.

Ltac cof := unfold adj, minor, sgn, skip, det2, det3, product, sum3; cbn [Nat.even Nat.ltb Nat.leb Nat.add].

Lemma det_product M N : det3 (product M N) = det3 M * det3 N.
Proof. cof. ring. Qed.

Lemma adj_product M N i j : (i < 3)%nat -> (j < 3)%nat ->
  adj (product M N) i j = sum3 (fun k => adj N i k * adj M k j).
Proof. intros Hi Hj. three i; three j; cof; ring. Qed.

Lemma adj_left M i j : (i < 3)%nat -> (j < 3)%nat -> product (adj M) M i j = det3 M * delta i j.
Proof. intros Hi Hj. three i; three j; unfold delta; cbn [Nat.eqb]; cof; ring. Qed.
Lemma adj_right M i j : (i < 3)%nat -> (j < 3)%nat -> product M (adj M) i j = det3 M * delta i j.
Proof. intros Hi Hj. three i; three j; unfold delta; cbn [Nat.eqb]; cof; ring. Qed.

Lemma rotation_adj Q i j : rotation Q -> (i < 3)%nat -> (j < 3)%nat -> adj Q i j = Q j i.
Proof.
  intros (O & D) Hi Hj.
  transitivity (sum3 (fun l => sum3 (fun k => Q k i * Q k l) * adj Q l j)).
  - pose proof (O i 0%nat Hi ltac:(lia)). pose proof (O i 1%nat Hi ltac:(lia)).
    pose proof (O i 2%nat Hi ltac:(lia)).
    unfold sum3 at 1. rewrite H, H0, H1. three i; cbn [Nat.eqb]; ring.
  - transitivity (sum3 (fun k => Q k i * product Q (adj Q) k j)).
    + unfold product, sum3. ring.
    + unfold sum3. rewrite !adj_right by lia. rewrite D. three j; unfold delta; cbn [Nat.eqb]; ring.
Qed.

(* The rows of a rotation are orthonormal as well. *)
Lemma rotation_rows Q i j : rotation Q -> (i < 3)%nat -> (j < 3)%nat ->
  sum3 (fun k => Q i k * Q j k) = delta i j.
Proof.
  intros H Hi Hj. transitivity (product Q (adj Q) i j).
  - unfold product, sum3. rewrite !rotation_adj by (assumption || lia). reflexivity.
  - rewrite adj_right by lia. destruct H as (_ & ->). ring.
Qed.

Lemma invariant_left Q F : rotation Q -> invariant1 (product Q F) = invariant1 F.
Proof.
  intros (O & _).
  transitivity (sum3 (fun j => sum33 (fun a b => F a j * F b j * col Q a b))).
  - unfold invariant1, product, col, sum33, sum3. ring.
  - assert (O' : forall a b, (a < 3)%nat -> (b < 3)%nat -> col Q a b = delta a b) by exact O.
    unfold sum33, sum3. rewrite !O' by lia. unfold delta. cbn [Nat.eqb].
    unfold invariant1, sum33, sum3. ring.
Qed.

Lemma invariant_right Q F : rotation Q -> invariant1 (product F Q) = invariant1 F.
Proof.
  intros H.
  transitivity (sum3 (fun j => sum33 (fun a b => F j a * F j b * row Q a b))).
  - unfold invariant1, product, row, sum33, sum3. ring.
  - assert (O' : forall a b, (a < 3)%nat -> (b < 3)%nat -> row Q a b = delta a b)
      by (intros; apply rotation_rows; assumption).
    unfold sum33, sum3. rewrite !O' by lia. unfold delta. cbn [Nat.eqb].
    unfold invariant1, sum33, sum3. ring.
Qed.

Lemma inverse_left Q F i j : rotation Q -> det3 F <> 0 -> (i < 3)%nat -> (j < 3)%nat ->
  minv 3 (product Q F) i j = sum3 (fun k => minv 3 F i k * Q j k).
Proof.
  intros H HF Hi Hj. rewrite minv_adj, det_product, adj_product by assumption.
  unfold sum3. rewrite !(rotation_adj Q) by (assumption || lia). rewrite !minv_adj.
  destruct H as (_ & ->). field. exact HF.
Qed.
Lemma inverse_right Q F i j : rotation Q -> det3 F <> 0 -> (i < 3)%nat -> (j < 3)%nat ->
  minv 3 (product F Q) i j = sum3 (fun k => Q k i * minv 3 F k j).
Proof.
  intros H HF Hi Hj. rewrite minv_adj, det_product, adj_product by assumption.
  unfold sum3. rewrite !(rotation_adj Q) by (assumption || lia). rewrite !minv_adj.
  destruct H as (_ & ->). field. exact HF.
Qed.

Lemma g_energy_left m Q F : rotation Q -> g_energy m (product Q F) = g_energy m F.
Proof.
  intros H. rewrite !g_energy_value, invariant_left, det_product by assumption.
  destruct H as (_ & ->). rewrite Rmult_1_l. reflexivity.
Qed.
Lemma g_energy_right m Q F : rotation Q -> g_energy m (product F Q) = g_energy m F.
Proof.
  intros H. rewrite !g_energy_value, invariant_right, det_product by assumption.
  destruct H as (_ & ->). rewrite Rmult_1_r. reflexivity.
Qed.
Lemma g_stress_left m Q F i j : rotation Q -> det3 F <> 0 -> (i < 3)%nat -> (j < 3)%nat ->
  g_stress m (product Q F) i j = product Q (g_stress m F) i j.
Proof.
  intros H HF Hi Hj. unfold product at 2, sum3.
  rewrite !g_stress_value, invariant_left, det_product, inverse_left by assumption.
  destruct H as (_ & ->). rewrite Rmult_1_l. unfold gs, product, sum3. cbv zeta.
  set (a := g_mu m * _). set (b := _ - g_mu m). set (v := minv 3 F). ring.
Qed.
Lemma g_stress_right m Q F i j : rotation Q -> det3 F <> 0 -> (i < 3)%nat -> (j < 3)%nat ->
  g_stress m (product F Q) i j = product (g_stress m F) Q i j.
Proof.
  intros H HF Hi Hj. unfold product at 2, sum3.
  rewrite !g_stress_value, invariant_right, det_product, inverse_right by assumption.
  destruct H as (_ & ->). rewrite Rmult_1_r. unfold gs, product, sum3. cbv zeta.
  set (a := g_mu m * _). set (b := _ - g_mu m). set (v := minv 3 F). ring.
Qed.

Lemma minv_right F i j : det3 F <> 0 -> (i < 3)%nat -> (j < 3)%nat ->
  sum3 (fun k => F i k * minv 3 F k j) = delta i j.
Proof.
  intros HF Hi Hj. transitivity (product F (adj F) i j / det3 F).
  - unfold product, sum3. rewrite !minv_adj. field. exact HF.
  - rewrite adj_right by assumption. field. exact HF.
Qed.

(* The balance of angular momentum: P F^T is symmetric. *)
Lemma g_angular m F i j : det3 F <> 0 -> (i < 3)%nat -> (j < 3)%nat ->
  sum3 (fun k => g_stress m F i k * F j k) = sum3 (fun k => g_stress m F j k * F i k).
Proof.
  intros HF Hi Hj.
  assert (E : forall a b, (a < 3)%nat -> (b < 3)%nat ->
    sum3 (fun k => g_stress m F a k * F b k) =
    g_mu m * (g_Jm m / gC m F) * sum3 (fun k => F a k * F b k)
    + (2 * g_kappa m * gA F ^ 3 * (det3 F * det3 F - 1) - g_mu m) * delta b a).
  { intros a b Ha Hb. rewrite <- (minv_right F b a) by assumption.
    unfold sum3. rewrite !g_stress_value. unfold gs, gC, gA. cbv zeta.
    set (x := g_mu m * _). set (y := _ - g_mu m). set (v := minv 3 F). ring. }
  rewrite !E by assumption. unfold delta. rewrite (Nat.eqb_sym j i). unfold sum3. ring.
Qed.

(* ------------------------------------------------------------------------------------------- *)
(* The energy is not negative and vanishes for rotations only. *)

Lemma ln_below x : 0 < x -> ln x <= x - 1.
Proof.
  intros H. destruct (Req_dec (ln x) 0) as [E|E].
  - rewrite E. rewrite <- (exp_ln x) by assumption. rewrite E, exp_0. lra.
  - pose proof (exp_ineq1 (ln x) E). rewrite exp_ln in H0 by assumption. lra.
Qed.
Lemma ln_strict x : 0 < x -> ln x = x - 1 -> x = 1.
Proof.
  intros H E. destruct (Req_dec (ln x) 0) as [Z|Z]; [lra|].
  pose proof (exp_ineq1 (ln x) Z). rewrite exp_ln in H0 by assumption. lra.
Qed.

Lemma col_nonneg F a : 0 <= col F a a.
Proof.
  unfold col, sum3. repeat apply Rplus_le_le_0_compat; apply Rle_0_sqr.
Qed.
Lemma invariant_cols F : invariant1 F = col F 0 0 + col F 1 1 + col F 2 2.
Proof. unfold invariant1, col, sum33, sum3. ring. Qed.

(* The square of the determinant is the determinant of the scalar products. *)
Lemma gram F : det3 F * det3 F =
  col F 0 0 * col F 1 1 * col F 2 2 + 2 * (col F 0 1 * col F 1 2 * col F 0 2)
  - col F 0 0 * col F 1 2 ^ 2 - col F 1 1 * col F 0 2 ^ 2 - col F 2 2 * col F 0 1 ^ 2.
Proof. unfold col, sum3. cof. ring. Qed.

Lemma gram_two F a b : (a < 3)%nat -> (b < 3)%nat -> 0 <= col F a a * col F b b - col F a b ^ 2.
Proof.
  intros Ha Hb.
  replace (col F a a * col F b b - col F a b ^ 2) with
    ((F 0%nat a * F 1%nat b - F 1%nat a * F 0%nat b) ^ 2
     + (F 0%nat a * F 2%nat b - F 2%nat a * F 0%nat b) ^ 2
     + (F 1%nat a * F 2%nat b - F 2%nat a * F 1%nat b) ^ 2)
    by (unfold col, sum3; ring).
  repeat apply Rplus_le_le_0_compat; apply pow2_ge_0.
Qed.

Lemma hadamard F : det3 F * det3 F <= col F 0 0 * col F 1 1 * col F 2 2.
Proof.
  (* det = f0 . (f1 x f2) *)
  set (n0 := F 1%nat 1%nat * F 2%nat 2%nat - F 2%nat 1%nat * F 1%nat 2%nat).
  set (n1 := F 2%nat 1%nat * F 0%nat 2%nat - F 0%nat 1%nat * F 2%nat 2%nat).
  set (n2 := F 0%nat 1%nat * F 1%nat 2%nat - F 1%nat 1%nat * F 0%nat 2%nat).
  set (N := n0 * n0 + n1 * n1 + n2 * n2).
  assert (E1 : det3 F * det3 F <= col F 0 0 * N).
  { assert (E : col F 0 0 * N - det3 F * det3 F =
      (F 0%nat 0%nat * n1 - F 1%nat 0%nat * n0) ^ 2 + (F 0%nat 0%nat * n2 - F 2%nat 0%nat * n0) ^ 2
      + (F 1%nat 0%nat * n2 - F 2%nat 0%nat * n1) ^ 2)
      by (unfold N, n0, n1, n2, col, sum3; cof; ring).
    pose proof (pow2_ge_0 (F 0%nat 0%nat * n1 - F 1%nat 0%nat * n0)).
    pose proof (pow2_ge_0 (F 0%nat 0%nat * n2 - F 2%nat 0%nat * n0)).
    pose proof (pow2_ge_0 (F 1%nat 0%nat * n2 - F 2%nat 0%nat * n1)). lra. }
  assert (E2 : N = col F 1 1 * col F 2 2 - col F 1 2 ^ 2) by (unfold N, n0, n1, n2, col, sum3; ring).
  eapply Rle_trans; [exact E1|]. rewrite Rmult_assoc. apply Rmult_le_compat_l; [apply col_nonneg|].
  pose proof (pow2_ge_0 (col F 1 2)). lra.
Qed.

Lemma cols_positive F : 0 < det3 F -> forall a, (a < 3)%nat -> 0 < col F a a.
Proof.
  intros H a Ha. destruct (Rle_lt_or_eq_dec 0 (col F a a) (col_nonneg F a)) as [|Z]; [assumption|].
  exfalso. pose proof (hadamard F). assert (0 < det3 F * det3 F) by (apply Rmult_lt_0_compat; assumption).
  three a; rewrite <- Z in H0; lra.
Qed.

Lemma log_bound F : 0 < det3 F -> 2 * ln (det3 F) <= invariant1 F - 3.
Proof.
  intros H. pose proof (cols_positive F H) as C.
  pose proof (C 0%nat ltac:(lia)). pose proof (C 1%nat ltac:(lia)). pose proof (C 2%nat ltac:(lia)).
  assert (E : 2 * ln (det3 F) = ln (det3 F * det3 F)) by (rewrite ln_mult by assumption; ring).
  rewrite E. eapply Rle_trans.
  - apply (Rcomplements.ln_le _ (col F 0 0 * col F 1 1 * col F 2 2)).
    + apply Rmult_lt_0_compat; assumption.
    + apply hadamard.
  - rewrite !ln_mult by (try apply Rmult_lt_0_compat; assumption).
    rewrite invariant_cols.
    pose proof (ln_below _ H0). pose proof (ln_below _ H1). pose proof (ln_below _ H2). lra.
Qed.

Lemma log_bound_eq F : 0 < det3 F -> 2 * ln (det3 F) = invariant1 F - 3 -> rotation F.
Proof.
  intros H Z. pose proof (cols_positive F H) as C.
  pose proof (C 0%nat ltac:(lia)). pose proof (C 1%nat ltac:(lia)). pose proof (C 2%nat ltac:(lia)).
  assert (E : 2 * ln (det3 F) = ln (det3 F * det3 F)) by (rewrite ln_mult by assumption; ring).
  assert (HH : ln (det3 F * det3 F) <= ln (col F 0 0 * col F 1 1 * col F 2 2)).
  { apply Rcomplements.ln_le; [apply Rmult_lt_0_compat; assumption|apply hadamard]. }
  rewrite !ln_mult in HH by (try apply Rmult_lt_0_compat; assumption).
  rewrite invariant_cols in Z.
  pose proof (ln_below _ H0) as L0. pose proof (ln_below _ H1) as L1. pose proof (ln_below _ H2) as L2.
  rewrite ln_mult in E by assumption.
  assert (C0 : col F 0 0 = 1) by (apply ln_strict; [assumption|lra]).
  assert (C1 : col F 1 1 = 1) by (apply ln_strict; [assumption|lra]).
  assert (C2 : col F 2 2 = 1) by (apply ln_strict; [assumption|lra]).
  assert (D : det3 F = 1).
  { rewrite C0, C1, C2 in Z. apply ln_inv; [assumption|lra|]. rewrite ln_1. lra. }
  pose proof (gram F) as G. rewrite D, C0, C1, C2 in G.
  pose proof (gram_two F 0 1 ltac:(lia) ltac:(lia)) as G01.
  pose proof (gram_two F 0 2 ltac:(lia) ltac:(lia)) as G02.
  pose proof (gram_two F 1 2 ltac:(lia) ltac:(lia)) as G12.
  rewrite ?C0, ?C1, ?C2 in *.
  set (x := col F 0 1) in *. set (y := col F 0 2) in *. set (z := col F 1 2) in *.
  (* x^2 + y^2 + z^2 = 2 x y z, with x, y, z at most one in absolute value *)
  assert (S : z ^ 2 + y ^ 2 + x ^ 2 = 2 * (x * z * y)) by lra.
  assert (x = 0 /\ y = 0 /\ z = 0) as (X & Y & Zz).
  { (* (z - x y)^2 + y^2 (1 - x^2) + x^2 = 0 *)
    assert (K : (z - x * y) ^ 2 + y ^ 2 * (1 - x ^ 2) + x ^ 2 = 0).
    { replace ((z - x * y) ^ 2 + y ^ 2 * (1 - x ^ 2) + x ^ 2)
        with (z ^ 2 + y ^ 2 + x ^ 2 - 2 * (x * z * y)) by ring. lra. }
    pose proof (pow2_ge_0 (z - x * y)). pose proof (pow2_ge_0 y). pose proof (pow2_ge_0 x).
    assert (0 <= y ^ 2 * (1 - x ^ 2)) by (apply Rmult_le_pos; lra).
    assert (X : x = 0) by (apply Rsqr_0_uniq; unfold Rsqr; lra).
    rewrite X in *. 
    assert (Y : y = 0) by (apply Rsqr_0_uniq; unfold Rsqr; lra).
    rewrite Y in *.
    repeat split. apply Rsqr_0_uniq; unfold Rsqr; lra. }
  split; [|exact D].
  intros i j Hi Hj. change (col F i j = delta i j).
  assert (Sy : forall a b, col F a b = col F b a) by (intros; unfold col, sum3; ring).
  three i; three j; unfold delta; cbn [Nat.eqb]; try assumption; rewrite Sy; assumption.
Qed.

Lemma rotation_energy m F : rotation F -> g_Jm m <> 0 -> g_energy m F = 0.
Proof.
  intros (O & D) HJ. rewrite g_energy_value. unfold ge. cbv zeta. rewrite D, ln_1.
  rewrite invariant_cols. unfold col. rewrite !O by lia. cbn [Nat.eqb].
  replace (1 - (1 + 1 + 1 - 3) / g_Jm m) with 1 by (field; assumption). rewrite ln_1. ring.
Qed.

Lemma g_energy_positive m F : 0 < g_mu m -> 0 <= g_kappa m -> 0 < g_Jm m -> g_domain m F ->
  0 <= g_energy m F /\ (g_energy m F = 0 -> rotation F).
Proof.
  intros Hm Hk HJ (Jp & _ & Hl). rewrite g_energy_value. unfold ge. cbv zeta.
  set (A := / 2 * _ - _).
  assert (A4 : 0 <= / 2 * g_kappa m * A ^ 4).
  { replace (A ^ 4) with ((A ^ 2) ^ 2) by ring. apply Rmult_le_pos; [lra|apply pow2_ge_0]. }
  pose proof (log_bound F Jp) as B.
  set (c := invariant1 F) in *. set (L := ln (det3 F)) in *.
  pose proof (ln_below _ Hl) as Q.
  assert (Q' : g_Jm m * ln (1 - (c - 3) / g_Jm m) <= - (c - 3)).
  { replace (- (c - 3)) with (g_Jm m * (1 - (c - 3) / g_Jm m - 1)) by (field; lra).
    apply Rmult_le_compat_l; lra. }
  set (q := g_Jm m * ln (1 - (c - 3) / g_Jm m)) in *.
  assert (W : 0 <= / 2 * g_mu m * (- (q + 2 * L))) by (apply Rmult_le_pos; lra).
  split; [lra|]. intros Z. apply log_bound_eq; [assumption|].
  assert (W0 : / 2 * g_mu m * (- (q + 2 * L)) = 0) by lra.
  apply Rmult_integral in W0. destruct W0; [lra|].
  change (2 * L = c - 3). lra.
Qed.
