(* The distance between a function and the line through its values at the ends of a segment. *)
From Coq Require Import Reals Lra.
From Coquelicot Require Import Rcomplements Hierarchy Derive AutoDerive Continuity.
Open Scope R_scope.

(* A function with a nonpositive second derivative that is zero at two points is not negative between them. *)
Lemma concave_nonnegative (G G' G'' : R -> R) a b : a < b ->
  (forall t, is_derive G t (G' t)) -> (forall t, is_derive G' t (G'' t)) ->
  (forall t, a <= t <= b -> G'' t <= 0) -> G a = 0 -> G b = 0 -> forall t, a <= t <= b -> 0 <= G t.
Proof.
  intros Hab D D' N Ga Gb t [Ht1 Ht2]. destruct (Rle_or_lt 0 (G t)) as [Y|Y]; [exact Y|exfalso].
  assert (A : a < t). { destruct Ht1 as [Z|Z]; [exact Z|]. subst t. lra. }
  assert (B : t < b). { destruct Ht2 as [Z|Z]; [exact Z|]. subst t. lra. }
  destruct (MVT_cor2 G G' a t A) as (c1 & X1 & [C1 C1']). { intros c _. apply is_derive_Reals, D. }
  destruct (MVT_cor2 G G' t b B) as (c2 & X2 & [C2 C2']). { intros c _. apply is_derive_Reals, D. }
  destruct (MVT_cor2 G' G'' c1 c2) as (c3 & X3 & [C3 C3']); [lra|intros c _; apply is_derive_Reals, D'|].
  assert (K1 : G' c1 < 0). { destruct (Rlt_or_le (G' c1) 0) as [Z|Z]; [exact Z|]. pose proof (Rmult_le_pos _ (t - a) Z ltac:(lra)). lra. }
  assert (K2 : 0 < G' c2). { destruct (Rlt_or_le 0 (G' c2)) as [Z|Z]; [exact Z|]. pose proof (Rmult_le_pos (- G' c2) (b - t) ltac:(lra) ltac:(lra)). lra. }
  pose proof (N c3 ltac:(lra)) as K3. pose proof (Rmult_le_pos (- G'' c3) (c2 - c1) ltac:(lra) ltac:(lra)). lra.
Qed.

Section chord.
  Context (U U' F : R -> R) (D : forall t, is_derive U t (U' t)) (D' : forall t, is_derive U' t (- F t)).
  Context (a b M : R) (Hab : a < b) (HM : forall t, a <= t <= b -> Rabs (F t) <= M).
  Let slope := (U b - U a) / (b - a).

  Lemma chord_side (sign : R) : sign = 1 \/ sign = -1 -> forall t, a <= t <= b ->
    0 <= M * ((t - a) * (b - t)) / 2 - sign * (U t - (U a + slope * (t - a))).
  Proof.
    intros S. apply (concave_nonnegative _ (fun t => M * (a + b - 2 * t) / 2 - sign * (U' t - slope)) (fun t => - M - sign * (- F t)) a b Hab).
    - intros t. apply (is_derive_minus (fun t : R => M * ((t - a) * (b - t)) / 2) (fun t : R => sign * (U t - (U a + slope * (t - a)))) t).
      + auto_derive; [exact I|]. lra.
      + apply (is_derive_scal (fun t => U t - (U a + slope * (t - a))) t sign).
        apply (is_derive_minus U (fun t : R => U a + slope * (t - a)) t); [apply D|]. auto_derive; [exact I|]. lra.
    - intros t. apply (is_derive_minus (fun t : R => M * (a + b - 2 * t) / 2) (fun t : R => sign * (U' t - slope)) t).
      + auto_derive; [exact I|]. lra.
      + apply (is_derive_scal (fun t => U' t - slope) t sign). replace (- F t) with (- F t - 0) by lra.
        apply (is_derive_minus U' (fun _ : R => slope) t); [apply D'|]. auto_derive; [exact I|]. lra.
    - intros t Ht. pose proof (HM t Ht) as B. apply Rabs_le_between in B. destruct S as [-> | ->]; lra.
    - unfold slope. destruct S as [-> | ->]; lra.
    - unfold slope. replace ((U b - U a) / (b - a) * (b - a)) with (U b - U a) by (field; lra). destruct S as [-> | ->]; lra.
  Qed.

  Lemma chord_value t : a <= t <= b -> Rabs (U t - (U a + slope * (t - a))) <= M * ((t - a) * (b - t)) / 2.
  Proof.
    intros Ht. pose proof (chord_side 1 ltac:(left; reflexivity) t Ht). pose proof (chord_side (-1) ltac:(right; reflexivity) t Ht).
    apply Rabs_le. lra.
  Qed.

  Lemma chord_slope t : a <= t <= b -> Rabs (U' t - slope) <= M * (b - a).
  Proof.
    intros Ht. assert (M0 : 0 <= M) by (pose proof (HM t Ht); pose proof (Rabs_pos (F t)); lra).
    destruct (MVT_cor2 U U' a b Hab) as (c & X & C). { intros c _. apply is_derive_Reals, D. }
    assert (S : slope = U' c) by (unfold slope; rewrite X; field; lra). rewrite S.
    assert (G : forall x y, a <= x -> x < y -> y <= b -> Rabs (U' y - U' x) <= M * (b - a)).
    { intros x y Hx Hxy Hy. destruct (MVT_cor2 U' (fun t => - F t) x y Hxy) as (z & Z & Cz). { intros k _. apply is_derive_Reals, D'. }
      rewrite Z, Rabs_mult, Rabs_Ropp, (Rabs_right (y - x)) by lra.
      apply Rmult_le_compat; [apply Rabs_pos|lra|apply HM; lra|lra]. }
    destruct (Rtotal_order t c) as [L|[->|L]].
    - rewrite Rabs_minus_sym. apply G; lra.
    - rewrite Rminus_diag_eq by reflexivity. rewrite Rabs_R0. apply Rmult_le_pos; lra.
    - apply G; lra.
  Qed.
End chord.

(* At most an eighth of the square of the length. *)
Lemma parabola_bound a b t : (t - a) * (b - t) <= (b - a) * (b - a) / 4.
Proof. pose proof (Rle_0_sqr (2 * t - a - b)) as S. unfold Rsqr in S. lra. Qed.
