(* The error of a quadrature on the refined simplices, for a Lipschitz function. *)
From Coq Require Import Reals List Bool Arith Lia Lra Psatz.
From Coquelicot Require Import Rcomplements.
From Verif Require Import M_Tensor M_Geometry S_Geometry P_Volume M_Functions P_Functions.
From Verif Require Import M_Quadrature S_Quadrature P_Quadrature P_Poly P_Gauss P_TetraGeometry P_TetraTiling
  P_Refine S_Refine P_Bernstein P_Converge S_Rate.
Import ListNotations.
Open Scope R_scope.

Lemma lipschitz_continuous D ps f L : lipschitz_on D ps f L -> continuous_on D ps f.
Proof.
  intros [HL H] eps He. exists (eps / (L + 1)). split; [apply Rdiv_lt_0_compat; lra|].
  intros y z Hy Hz Hd. eapply Rle_trans; [apply (H y z _ Hy Hz Hd)|].
  apply (Rmult_le_reg_r (L + 1)); [lra|].
  replace (L * (eps / (L + 1)) * (L + 1)) with (L * eps) by (field; lra). nra.
Qed.

(* a point of a simplex is as near to [c] as the corners *)
Lemma combo_near (m : nat) c B : forall (ps : list vec) ws, length ws = length ps -> Forall (fun a => 0 <= a) ws ->
  (forall p, In p ps -> Rabs (c - p m) <= B) -> Rabs (c * total ws - combo ws ps m) <= B * total ws.
Proof.
  induction ps as [|p ps IH]; intros [|a ws] Hl Hw Hp; try discriminate Hl.
  - unfold combo, total. cbn. replace (c * 0 - 0) with 0 by ring. rewrite Rabs_R0. lra.
  - inversion Hw as [|? ? Ha Hws]; subst. injection Hl as Hl.
    specialize (IH ws Hl Hws ltac:(intros; apply Hp; right; assumption)).
    specialize (Hp p (or_introl eq_refl)). unfold combo, total in *. cbn [combine fold_right fst snd] in *.
    match goal with |- Rabs (c * (a + ?t) - (a * p m + ?s)) <= _ =>
      replace (c * (a + t) - (a * p m + s)) with (a * (c - p m) + (c * t - s)) by ring end.
    eapply Rle_trans; [apply Rabs_triang|]. rewrite Rabs_mult, (Rabs_pos_eq a) by exact Ha.
    rewrite Rmult_plus_distr_l. apply Rplus_le_compat; [|exact IH]. rewrite (Rmult_comm B a).
    apply Rmult_le_compat_l; assumption.
Qed.

(* two points of a simplex are as near as its corners *)
Lemma inside_near D ps y z m B : (m < D)%nat -> inside D ps y -> inside D ps z ->
  (forall p q, In p ps -> In q ps -> Rabs (p m - q m) <= B) -> Rabs (y m - z m) <= B.
Proof.
  intros Hm (ws & Lw & Hw & Tw & Ew) (vs & Lv & Hv & Tv & Ev) HB.
  rewrite (Ev m Hm).
  assert (H : forall q, In q ps -> Rabs (y m - q m) <= B).
  { intros q Hq. pose proof (combo_near m (q m) B ps ws Lw Hw (fun p Hp => HB q p Hq Hp)) as H.
    rewrite Tw, !Rmult_1_r, <- (Ew m Hm), Rabs_minus_sym in H. exact H. }
  pose proof (combo_near m (y m) B ps vs Lv Hv H) as H'. rewrite Tv, !Rmult_1_r in H'. exact H'.
Qed.

(* segments and triangles: the edges are divided by two at each level *)
Lemma refine_edges N n ps qs m B : (1 <= N <= 2)%nat -> length ps = S N -> In qs (refine N n ps) ->
  (forall p q, In p ps -> In q ps -> Rabs (p m - q m) <= B) ->
  forall p q, In p qs -> In q qs -> Rabs (p m - q m) <= B / 2 ^ n.
Proof.
  intros HN L Hq HB x y Hx Hy. destruct (refine_similar N n HN ps qs L Hq) as [Ll (t & s & Hs & Ht & _ & H)].
  apply (In_nth _ _ vzero) in Hx as (i & Hi & <-). apply (In_nth _ _ vzero) in Hy as (j & Hj & <-).
  rewrite Ll in Hi, Hj. specialize (H i j m Hi Hj). assert (HP : 0 < 2 ^ n) by (apply pow_lt; lra).
  specialize (HB (nth (t i) ps vzero) (nth (t j) ps vzero) ltac:(apply nth_In, Ht, Hi) ltac:(apply nth_In, Ht, Hj)).
  apply (Rmult_le_reg_l (2 ^ n)); [exact HP|].
  rewrite <- (Rabs_pos_eq (2 ^ n)) at 1 by lra. rewrite <- Rabs_mult, H, Rabs_mult.
  replace (2 ^ n * (B / 2 ^ n)) with B by (field; lra).
  destruct Hs as [-> | ->]; [rewrite Rabs_R1|rewrite (Rabs_left (-1)) by lra]; lra.
Qed.

(* any order: the squares of the edges are divided by two at each level *)
Lemma refine_edges_sqrt D N n ps qs m B : (1 <= N <= 3)%nat -> length ps = S N -> In qs (refine N n ps) ->
  0 <= B -> spread m ps <= B * B -> (m < D)%nat ->
  forall p q, In p qs -> In q qs -> Rabs (p m - q m) <= B / sqrt 2 ^ n.
Proof.
  intros HN L Hq HB Hs Hm x y Hx Hy. pose proof (refine_edge N n ps qs x y m HN L Hq Hx Hy) as H.
  assert (HP : 0 < sqrt 2 ^ n) by (apply pow_lt, sqrt_lt_R0; lra).
  assert (E : 2 ^ n = sqrt 2 ^ n * sqrt 2 ^ n) by (rewrite <- Rpow_mult_distr, sqrt_sqrt by lra; reflexivity).
  assert (HQ : 0 <= B / sqrt 2 ^ n) by (apply Rmult_le_pos; [exact HB|left; apply Rinv_0_lt_compat, HP]).
  assert (HS : sq (x m - y m) <= (B / sqrt 2 ^ n) * (B / sqrt 2 ^ n)).
  { apply (Rmult_le_reg_l (2 ^ n)); [apply pow_lt; lra|]. rewrite E at 2.
    replace (sqrt 2 ^ n * sqrt 2 ^ n * (B / sqrt 2 ^ n * (B / sqrt 2 ^ n))) with (B * B) by (field; lra). lra. }
  unfold sq in HS. apply Rabs_le_between. split; nra.
Qed.

Lemma refine_cell_rate D N n ps f q v d K : (1 <= N <= 3)%nat -> length ps = S N -> lipschitz_on D ps f K -> proper_rule N q ->
  cell_integral N ps f v ->
  (forall qs, In qs (refine N n ps) -> forall y z m, In y qs -> In z qs -> (m < D)%nat -> Rabs (y m - z m) <= d) ->
  Rabs (total (map (fun qs => simplex_volume qs * total (map (fun pw => snd pw * f (barycentric N qs (fst pw))) q)) (refine N n ps))
      - weight q * v) <= weight q * (K * d) * Rabs (simplex_volume ps).
Proof.
  intros HN L Hlip Hq (u & Hu & ->) Hd. set (V := simplex_volume ps). pose proof (lipschitz_continuous _ _ _ _ Hlip) as Hc.
  destruct (refine_integrals D N n ps f HN L Hc) as (vs & Hvs).
  pose proof (refine_integral D N n ps f u vs HN L Hc Hu Hvs) as Ht.
  destruct (refine_length N n HN ps L) as [LR _].
  pose proof (total_close _ (fun qs => total (map (fun pw => snd pw * f (barycentric N qs (fst pw))) q))
    (fun v => weight q * INR (fact N) * v) (weight q * (K * d)) _ _ Hvs) as HT.
  rewrite total_map_scal, map_id, Ht, LR, pow_INR in HT. change (INR 2) with (1 + 1) in HT. replace (1 + 1) with 2 in HT by ring.
  assert (H : Rabs (total (map (fun qs => total (map (fun pw => snd pw * f (barycentric N qs (fst pw))) q)) (refine N n ps))
      - 2 ^ (N * n) * (weight q * INR (fact N) * u)) <= 2 ^ (N * n) * (weight q * (K * d))).
  { replace (2 ^ (N * n) * (weight q * INR (fact N) * u)) with (weight q * INR (fact N) * (2 ^ (N * n) * u)) by ring.
    apply HT. intros qs x Hin Hx. pose proof (refine_in_length N n ps qs HN L Hin) as Lq.
    apply quadrature_close; [exact Lq|exact Hq|exact Hx|]. intros a b Ha Hb.
    pose proof (barycentric_inside D N qs a Lq Ha) as Ia. pose proof (barycentric_inside D N qs b Lq Hb) as Ib.
    destruct Hlip as [HK Hlip].
    apply Hlip; [apply (refine_inside N n HN ps D _ L); eauto|apply (refine_inside N n HN ps D _ L); eauto|].
    intros m Hm. apply (inside_near D qs); [exact Hm|exact Ia|exact Ib|]. intros; apply (Hd qs); assumption. }
  assert (HP : 0 < 2 ^ (N * n)) by (apply pow_lt; lra).
  rewrite (map_ext_in _ (fun qs => V / 2 ^ (N * n) * total (map (fun pw => snd pw * f (barycentric N qs (fst pw))) q))).
  2:{ intros qs Hin. rewrite (refine_volume N n HN ps qs L Hin). reflexivity. }
  rewrite total_map_scal. set (T := total (map (fun qs => total _) _)) in *.
  assert (HA : / area N = INR (fact N)).
  { unfold area. destruct N as [|[|[|[|]]]]; try lia; cbn; field. }
  replace (V / 2 ^ (N * n) * T - weight q * (V / area N * u))
    with (V / 2 ^ (N * n) * (T - 2 ^ (N * n) * (weight q * INR (fact N) * u))) by (unfold Rdiv; rewrite HA; field; lra).
  rewrite Rabs_mult. eapply Rle_trans; [apply Rmult_le_compat_l; [apply Rabs_pos|exact H]|].
  unfold Rdiv. rewrite Rabs_mult, (Rabs_pos_eq (/ 2 ^ (N * n))) by (left; apply Rinv_0_lt_compat, HP).
  right. field. lra.
Qed.
