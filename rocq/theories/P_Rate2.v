(* The error of an exact quadrature on the refined simplices, for a function that is nearly affine. *)
From Coq Require Import Reals List Bool Arith Lia Lra Psatz.
From Verif Require Import M_Tensor M_Geometry S_Geometry P_Volume M_Functions P_Functions.
From Verif Require Import M_Quadrature S_Quadrature P_Quadrature P_Poly P_Gauss P_Integrator P_TetraGeometry P_TetraTiling
  P_Refine S_Refine P_Bernstein P_Converge P_Rate S_Rate2.
Import ListNotations.
Open Scope R_scope.

Lemma accurate_le D r s q e : (s <= r)%nat -> accurate D r q e -> accurate D s q e.
Proof. intros Hs H es L S. apply H; [exact L|lia]. Qed.

Lemma weighted_close N q (F G : vec -> R) e : proper_rule N q ->
  (forall x, in_simplex N 1 x -> Rabs (F x - G x) <= e) ->
  Rabs (total (map (fun pw => snd pw * F (fst pw)) q) - total (map (fun pw => snd pw * G (fst pw)) q)) <= weight q * e.
Proof.
  intros Hq He. unfold weight. induction q as [|[x w] q IH].
  - unfold total. cbn [map fold_right]. rewrite Rminus_0_r, Rabs_R0. lra.
  - specialize (IH ltac:(intros pw H; apply Hq; right; exact H)). destruct (Hq (x, w) (or_introl eq_refl)) as [Hw Hx].
    specialize (He x Hx). unfold total in *. cbn [map fold_right fst snd] in *.
    match goal with |- Rabs (w * ?a + ?b - (w * ?c + ?d)) <= _ =>
      replace (w * a + b - (w * c + d)) with (w * (a - c) + (b - d)) by ring end.
    eapply Rle_trans; [apply Rabs_triang|]. rewrite Rabs_mult, (Rabs_pos_eq w) by exact Hw.
    rewrite Rmult_plus_distr_r. apply Rplus_le_compat; [|exact IH]. apply Rmult_le_compat_l; assumption.
Qed.

Lemma quadrature_close2 N q F h v e : proper_rule N q -> accurate N 1 q 0 -> weight q = 1 ->
  reference_integral N F v -> expressible N 1 h ->
  (forall x, in_simplex N 1 x -> Rabs (F x - h x) <= e) ->
  Rabs (total (map (fun pw => snd pw * F (fst pw)) q) - INR (fact N) * v) <= 2 * e.
Proof.
  intros Hq HA W Hv (p & Hp & Eh) He. set (vh := total (map (fun t => fst t * dirichlet (snd t)) p)).
  pose proof (poly_integral N 1 p Hp) as Hh. fold vh in Hh.
  pose proof (poly_error N 1 q 0 p vh HA Hp Hh) as E. rewrite Rmult_0_l in E. unfold quadrature, area in E.
  pose proof (INR_fact_lt_0 N) as HF.
  set (T := total (map (fun pw => snd pw * poly p (fst pw)) q)) in *.
  assert (ET : T = INR (fact N) * vh).
  { assert (Z : 1 / INR (fact N) * T - vh = 0).
    { destruct (Req_dec (1 / INR (fact N) * T - vh) 0) as [e0|e0]; [exact e0|]. pose proof (Rabs_pos_lt _ e0). lra. }
    apply (Rmult_eq_reg_l (1 / INR (fact N))).
    - replace (1 / INR (fact N) * (INR (fact N) * vh)) with vh by (field; lra). lra.
    - apply Rgt_not_eq. unfold Rdiv. rewrite Rmult_1_l. apply Rinv_0_lt_compat, HF. }
  assert (He' : forall x, in_simplex N 1 x -> Rabs (F x - poly p x) <= e) by (intros x Hx; rewrite <- Eh; apply He, Hx).
  pose proof (weighted_close N q F (poly p) e Hq He') as H1. fold T in H1. rewrite W, ET in H1.
  pose proof (is_integral_bound N 1 F (poly p) v vh e Rle_0_1 Hv Hh He') as H2. rewrite pow1 in H2.
  apply (Rmult_le_compat_l (INR (fact N))) in H2; [|lra].
  replace (INR (fact N) * (e * (1 / INR (fact N)))) with e in H2 by (field; lra).
  rewrite <- (Rabs_pos_eq (INR (fact N))) in H2 at 1 by lra. rewrite <- Rabs_mult, Rabs_minus_sym in H2 || rewrite <- Rabs_mult in H2.
  set (Q := total (map (fun pw => snd pw * F (fst pw)) q)) in *.
  replace (Q - INR (fact N) * v) with ((Q - INR (fact N) * vh) + - (INR (fact N) * (v - vh))) by ring.
  eapply Rle_trans; [apply Rabs_triang|]. rewrite Rabs_Ropp.
  assert (H3 : Rabs (INR (fact N) * (v - vh)) <= e) by (first [exact H2|rewrite Rabs_mult, Rabs_minus_sym, <- Rabs_mult; exact H2]).
  lra.
Qed.

Lemma refine_cell_rate2 N n ps f q v d K : (1 <= N <= 3)%nat -> length ps = S N -> nearly_affine N ps f K -> proper_rule N q ->
  accurate N 1 q 0 -> weight q = 1 -> cell_integral N ps f v ->
  (forall qs, In qs (refine N n ps) -> forall y z m, In y qs -> In z qs -> (m < N)%nat -> Rabs (y m - z m) <= d) ->
  Rabs (total (map (fun qs => simplex_volume qs * total (map (fun pw => snd pw * f (barycentric N qs (fst pw))) q)) (refine N n ps))
      - v) <= 2 * (K * (d * d)) * Rabs (simplex_volume ps).
Proof.
  intros HN L (Hc & HK & Hlip) Hq HA W (u & Hu & ->) Hd. set (V := simplex_volume ps).
  destruct (refine_integrals N N n ps f HN L Hc) as (vs & Hvs).
  pose proof (refine_integral N N n ps f u vs HN L Hc Hu Hvs) as Ht.
  destruct (refine_length N n HN ps L) as [LR _].
  pose proof (total_close _ (fun qs => total (map (fun pw => snd pw * f (barycentric N qs (fst pw))) q))
    (fun v => INR (fact N) * v) (2 * (K * (d * d))) _ _ Hvs) as HT.
  rewrite total_map_scal, map_id, Ht, LR, pow_INR in HT. change (INR 2) with (1 + 1) in HT. replace (1 + 1) with 2 in HT by ring.
  assert (H : Rabs (total (map (fun qs => total (map (fun pw => snd pw * f (barycentric N qs (fst pw))) q)) (refine N n ps))
      - 2 ^ (N * n) * (INR (fact N) * u)) <= 2 ^ (N * n) * (2 * (K * (d * d)))).
  { replace (2 ^ (N * n) * (INR (fact N) * u)) with (INR (fact N) * (2 ^ (N * n) * u)) by ring.
    apply HT. intros qs x Hin Hx. pose proof (refine_in_length N n ps qs HN L Hin) as Lq.
    assert (H0 : in_simplex N 1 (fun _ => 0)).
    { split; [intros; lra|]. clear. induction N as [|N IH]; cbn [rsum]; lra. }
    pose proof (barycentric_inside N N qs _ Lq H0) as I0. set (c := barycentric N qs (fun _ => 0)) in *.
    destruct (Hlip c) as [g Hg]; [apply (refine_inside N n HN ps N _ L); eauto|].
    apply (quadrature_close2 N q (fun x => f (barycentric N qs x))
      (fun x => f c + rsum N (fun k => g k * (barycentric N qs x k - c k)))); [exact Hq|exact HA|exact W|exact Hx| |].
    { apply (expressible_plus N 1 (fun _ => f c)); [apply expressible_const|].
      apply (expressible_rsum N 1 N (fun k x => g k * (barycentric N qs x k - c k))). intros k _.
      apply (expressible_mult N 0 1 (fun _ => g k)); [apply expressible_const|].
      apply (expressible_plus N 1 (fun x => barycentric N qs x k) (fun _ => - c k)); [apply expressible_barycentric|apply expressible_const]. }
    intros a Ha. pose proof (barycentric_inside N N qs a Lq Ha) as Ia.
    apply Hg; [apply (refine_inside N n HN ps N _ L); eauto|].
    intros m Hm. apply (inside_near N qs); [exact Hm|exact Ia|exact I0|]. intros; apply (Hd qs); assumption. }
  assert (HP : 0 < 2 ^ (N * n)) by (apply pow_lt; lra).
  rewrite (map_ext_in _ (fun qs => V / 2 ^ (N * n) * total (map (fun pw => snd pw * f (barycentric N qs (fst pw))) q))).
  2:{ intros qs Hin. rewrite (refine_volume N n HN ps qs L Hin). reflexivity. }
  rewrite total_map_scal. set (T := total (map (fun qs => total _) _)) in *.
  assert (HAr : / area N = INR (fact N)).
  { unfold area. destruct N as [|[|[|[|]]]]; try lia; cbn; field. }
  replace (V / 2 ^ (N * n) * T - V / area N * u)
    with (V / 2 ^ (N * n) * (T - 2 ^ (N * n) * (INR (fact N) * u))) by (unfold Rdiv; rewrite HAr; field; lra).
  rewrite Rabs_mult. eapply Rle_trans; [apply Rmult_le_compat_l; [apply Rabs_pos|exact H]|].
  unfold Rdiv. rewrite Rabs_mult, (Rabs_pos_eq (/ 2 ^ (N * n))) by (left; apply Rinv_0_lt_compat, HP).
  right. field. lra.
Qed.
