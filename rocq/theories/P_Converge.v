(* The integrals and the quadratures of continuous functions on refined simplices. *)
From Coq Require Import Reals List Bool Arith Lia Lra Psatz FunctionalExtensionality.
From Coquelicot Require Import Rcomplements.
From Verif Require Import M_Tensor M_Geometry S_Geometry P_Volume M_Functions P_Functions.
From Verif Require Import M_Quadrature S_Quadrature P_Quadrature P_Poly P_Gauss P_TetraGeometry P_TetraTiling P_Refine S_Refine P_Bernstein.
Import ListNotations.
Open Scope R_scope.

(* ------------------------------------------------------------------------------------------- *)
(* The children of a simplex are the images of those of the reference simplex. *)

Lemma lin_map ps us : forall l k, lin (map (lin ps) us) l k = lin ps (lin us l) k.
Proof.
  induction us as [|u us IH]; intros l k; cbn [map lin].
  - symmetry. apply lin_zero.
  - rewrite IH. rewrite <- lin_scal, <- lin_plus. reflexivity.
Qed.

Lemma avg_lin ps u v : avg (lin ps u) (lin ps v) = lin ps (avg u v).
Proof.
  apply functional_extensionality. intros k. unfold avg.
  transitivity (/ 2 * (lin ps u k + lin ps v k)); [field|].
  rewrite <- lin_plus, <- lin_scal.
  replace (fun i => / 2 * (u i + v i)) with (fun k0 => (u k0 + v k0) / 2); [reflexivity|].
  apply functional_extensionality. intros i. field.
Qed.

Lemma kids_lin N last ps us : (1 <= N <= 3)%nat -> length us = S N ->
  kids N last (map (lin ps) us) = map (map (lin ps)) (kids N last us).
Proof.
  intros HN L. orders N.
  - destruct us as [|u0 [|u1 [|]]]; try discriminate L. cbn [map kids]. rewrite !avg_lin. reflexivity.
  - destruct us as [|u0 [|u1 [|u2 [|]]]]; try discriminate L. cbn [map kids]. rewrite !avg_lin. reflexivity.
  - destruct us as [|u0 [|u1 [|u2 [|u3 [|]]]]]; try discriminate L. cbn [map kids]. destruct last; cbn [map app]; rewrite !avg_lin; reflexivity.
Qed.

Lemma refine_lin N n ps : (1 <= N <= 3)%nat -> forall us, length us = S N ->
  refine N n (map (lin ps) us) = map (map (lin ps)) (refine N n us).
Proof.
  intros HN. induction n as [|n IH]; intros us L; cbn [refine]; [reflexivity|].
  rewrite kids_lin by assumption. rewrite concat_map, !map_map. f_equal. apply map_ext_in. intros c Hc.
  apply IH. eapply kids_in_length; eassumption.
Qed.

Lemma units_lin N ps : length ps = S N -> map (lin ps) (units N) = ps.
Proof.
  intros L. unfold units. rewrite map_map, <- L. transitivity (map (fun j => nth j ps vzero) (seq 0 (length ps))).
  - apply map_ext_in. intros j Hj. apply in_seq in Hj. apply functional_extensionality. intros k. apply lin_unit. lia.
  - clear. induction ps as [|p ps IH]; [reflexivity|]. cbn [length seq map nth]. f_equal. rewrite <- seq_shift, map_map. exact IH.
Qed.

Lemma refine_units N n ps : (1 <= N <= 3)%nat -> length ps = S N ->
  refine N n ps = map (map (lin ps)) (refine N n (units N)).
Proof.
  intros HN L. rewrite <- (units_lin N ps L) at 1. apply refine_lin; [exact HN|apply units_length].
Qed.

(* ------------------------------------------------------------------------------------------- *)
(* Weights of weights. *)

Lemma weights_unit N j : (j < S N)%nat -> weights (S N) (unit j).
Proof.
  intros Hj. split; [intros i _; unfold unit; destruct (i =? j)%nat; lra|].
  rewrite (rsum_ext (S N) (unit j) (fun I => (if Nat.eqb I j then 1 else 0) * 1)) by (intros; unfold unit; ring).
  apply (rsum_unit (S N) j (fun _ => 1) Hj).
Qed.

Lemma weights_combine M us l : (forall u, In u us -> weights M u) -> weights (length us) l -> weights M (lin us l).
Proof.
  intros Hu [H0 H1]. split.
  - intros i Hi. rewrite lin_wsum. clear H1. revert l H0. induction us as [|u us IH]; intros l H0; cbn [wsum]; [lra|].
    assert (0 <= l 0%nat) by (apply H0; cbn; lia). assert (0 <= u i) by (apply (Hu u); [left; reflexivity|exact Hi]).
    assert (0 <= wsum (fun i => l (S i)) us (fun x => x i)).
    { apply IH; [intros; apply Hu; right; assumption|]. intros j Hj. apply H0. cbn. lia. }
    assert (0 <= l 0%nat * u i) by (apply Rmult_le_pos; assumption). lra.
  - rewrite (rsum_ext _ (lin us l) (fun i => wsum l us (fun x => x i))) by (intros; apply lin_wsum).
    rewrite <- (wsum_rsum us M l (fun x => x)). rewrite (wsum_ext us l _ (fun _ => 1)); [rewrite wsum_const, H1; ring|].
    intros u H. apply (Hu u H).
Qed.

Lemma weights_avg M u v : weights M u -> weights M v -> weights M (avg u v).
Proof.
  intros [H0 H1] [H0' H1']. split.
  - intros i Hi. specialize (H0 i Hi). specialize (H0' i Hi). unfold avg. lra.
  - unfold avg. rewrite (rsum_ext M (fun k => (u k + v k) / 2) (fun k => /2 * (u k + v k))) by (intros; field).
    rewrite rsum_scale, rsum_plus, H1, H1'. field.
Qed.

Lemma kids_weights N last us M c : (1 <= N <= 3)%nat -> length us = S N -> (forall u, In u us -> weights M u) ->
  In c (kids N last us) -> forall v, In v c -> weights M v.
Proof.
  intros HN L Hu Hc v Hv. orders N.
  - destruct us as [|u0 [|u1 [|]]]; try discriminate L. cbn [kids] in Hc.
    repeat (destruct Hc as [<-|Hc]; [repeat (destruct Hv as [<-|Hv]; [repeat apply weights_avg; apply Hu; cbn; tauto|]); destruct Hv|]); destruct Hc.
  - destruct us as [|u0 [|u1 [|u2 [|]]]]; try discriminate L. cbn [kids] in Hc.
    repeat (destruct Hc as [<-|Hc]; [repeat (destruct Hv as [<-|Hv]; [repeat apply weights_avg; apply Hu; cbn; tauto|]); destruct Hv|]); destruct Hc.
  - destruct us as [|u0 [|u1 [|u2 [|u3 [|]]]]]; try discriminate L. cbn [kids] in Hc. destruct last; cbn [app] in Hc;
    repeat (destruct Hc as [<-|Hc]; [repeat (destruct Hv as [<-|Hv]; [repeat apply weights_avg; apply Hu; cbn; tauto|]); destruct Hv|]); destruct Hc.
Qed.

Lemma refine_weights N n M : (1 <= N <= 3)%nat -> forall us, length us = S N -> (forall u, In u us -> weights M u) ->
  forall c, In c (refine N n us) -> forall v, In v c -> weights M v.
Proof.
  intros HN. induction n as [|n IH]; intros us L Hu c Hc v Hv.
  - destruct Hc as [<-|[]]. apply Hu, Hv.
  - apply refine_S in Hc as (k & Hk & Hc). apply (IH k) with (c := c); try assumption.
    + eapply kids_in_length; eassumption.
    + intros u. eapply kids_weights; eassumption.
Qed.

(* ------------------------------------------------------------------------------------------- *)
(* The integrals of the children add up. *)

Lemma continuous_sub D xs ys f : (forall y, inside D ys y -> inside D xs y) -> continuous_on D xs f -> continuous_on D ys f.
Proof.
  intros Hs Hc eps He. destruct (Hc eps He) as (delta & Hd & H). exists delta. split; [exact Hd|].
  intros y z Hy Hz. apply H; apply Hs; assumption.
Qed.

Lemma refine_continuous D N n ps f qs : (1 <= N <= 3)%nat -> length ps = S N -> continuous_on D ps f ->
  In qs (refine N n ps) -> continuous_on D qs f.
Proof.
  intros HN L Hc Hq. apply (continuous_sub D ps); [|exact Hc]. intros y Hy. apply (refine_inside N n HN ps D y L). eauto.
Qed.

Lemma refine_in_length N n ps qs : (1 <= N <= 3)%nat -> length ps = S N -> In qs (refine N n ps) -> length qs = S N.
Proof.
  intros HN L Hq. destruct (refine_length N n HN ps L) as [_ F]. rewrite Forall_forall in F. auto.
Qed.

Lemma refine_integrals D N n ps f : (1 <= N <= 3)%nat -> length ps = S N -> continuous_on D ps f ->
  exists vs, Forall2 (fun qs v => reference_integral N (fun x => f (barycentric N qs x)) v) (refine N n ps) vs.
Proof.
  intros HN L Hc.
  assert (H : forall qs, In qs (refine N n ps) -> exists v, reference_integral N (fun x => f (barycentric N qs x)) v).
  { intros qs Hq. apply (continuous_integral D); [eapply refine_in_length|eapply refine_continuous]; eassumption. }
  revert H. generalize (refine N n ps). intros l. induction l as [|qs l IH]; intros H; [exists []; constructor|].
  destruct IH as [vs Hvs]; [intros; apply H; right; assumption|]. destruct (H qs (or_introl eq_refl)) as [v Hv].
  exists (v :: vs). constructor; assumption.
Qed.

Lemma total_close {A B} (P : A -> B -> Prop) (F : A -> R) (G : B -> R) e l vs : Forall2 P l vs ->
  (forall a b, In a l -> P a b -> Rabs (F a - G b) <= e) -> Rabs (total (map F l) - total (map G vs)) <= INR (length l) * e.
Proof.
  induction 1 as [|a b l vs HP HF IH]; intros H.
  - unfold total. cbn [map fold_right length INR]. rewrite Rminus_0_r, Rabs_R0. lra.
  - cbn [map length]. rewrite S_INR. unfold total in *. cbn [fold_right].
    specialize (IH ltac:(intros; apply H; [right|]; assumption)). specialize (H a b (or_introl eq_refl) HP).
    match goal with |- Rabs (?x + ?y - (?u + ?v)) <= _ => replace (x + y - (u + v)) with ((x - u) + (y - v)) by ring end.
    eapply Rle_trans; [apply Rabs_triang|]. lra.
Qed.

Lemma close_eq u v C : (forall eps, 0 < eps -> Rabs (u - v) <= C * eps) -> u = v.
Proof.
  intros H. destruct (Req_dec u v) as [|Hn]; [assumption|]. exfalso.
  assert (Hp : 0 < Rabs (u - v)) by (apply Rabs_pos_lt; lra).
  destruct (Rle_lt_dec C 0) as [HC|HC].
  - specialize (H 1 Rlt_0_1). lra.
  - specialize (H (Rabs (u - v) / (2 * C)) ltac:(apply Rdiv_lt_0_compat; lra)).
    replace (C * (Rabs (u - v) / (2 * C))) with (Rabs (u - v) / 2) in H by (field; lra). lra.
Qed.

Lemma refine_integral D N n ps f u vs : (1 <= N <= 3)%nat -> length ps = S N -> continuous_on D ps f ->
  reference_integral N (fun x => f (barycentric N ps x)) u ->
  Forall2 (fun qs v => reference_integral N (fun x => f (barycentric N qs x)) v) (refine N n ps) vs ->
  total vs = 2 ^ (N * n) * u.
Proof.
  intros HN L Hc Hu Hvs.
  set (A := 1 ^ N / INR (fact N)). assert (HA : 0 < INR (fact N)) by apply INR_fact_lt_0.
  apply (close_eq _ _ (2 * 2 ^ (N * n) * A)). intros eps He.
  destruct (approx_close D ps f eps Hc He) as (k & Hk). specialize (Hk k (le_n k)).
  set (p := approx ps f k) in *.
  assert (Hp : of_degree (S N) (S k) p) by (unfold p, approx; rewrite <- L; apply pbern_degree).
  pose proof (units_length N) as LU.
  assert (Hone : forall us v, length us = S N -> (forall w, In w us -> weights (S N) w) ->
    reference_integral N (fun x => f (barycentric N (map (lin ps) us) x)) v -> Rabs (Fl p us - v) <= eps * A).
  { intros us v Lus Hus Hv.
    apply (is_integral_bound N 1 (fun x => poly p (barycentric N us x)) _ (Fl p us) v eps Rle_0_1
      (Fl_integral (S N) N (S k) p us Hp Lus) Hv).
    intros x Hx. rewrite !barycentric_lin by (rewrite ?map_length; exact Lus).
    replace (lin (map (lin ps) us) (bary N 1 x)) with (lin ps (lin us (bary N 1 x)))
      by (apply functional_extensionality; intros m; symmetry; apply lin_map).
    apply Hk. rewrite L. apply weights_combine; [exact Hus|]. rewrite Lus. apply bary_weights, Hx. }
  assert (HU : forall w, In w (units N) -> weights (S N) w).
  { intros w Hw. apply in_map_iff in Hw as (j & <- & Hj). apply in_seq in Hj. apply weights_unit. lia. }
  rewrite (refine_units N n ps HN L) in Hvs.
  assert (H1 : Rabs (total (map (Fl p) (refine N n (units N))) - total (map (fun v => v) vs)) <= INR (length (refine N n (units N))) * (eps * A)).
  { apply (total_close (fun us v => reference_integral N (fun x => f (barycentric N (map (lin ps) us) x)) v)).
    - clear -Hvs. remember (map (map (lin ps)) (refine N n (units N))) as l eqn:E. revert E. generalize (refine N n (units N)).
      induction Hvs as [|q v l vs H Hvs IH]; intros [|us uss] E; try discriminate E; [constructor|]. injection E as -> E.
      constructor; [exact H|]. apply IH, E.
    - intros us v Hin Hv. apply Hone; [eapply refine_in_length; eassumption| |exact Hv].
      eapply refine_weights; eassumption. }
  destruct (refine_length N n HN (units N) LU) as [LR _].
  rewrite LR, map_id, (refine_Fl (S N) (S k) p N n Hp HN _ LU), pow_INR in H1. change (INR 2) with (1 + 1) in H1.
  replace (1 + 1) with 2 in H1 by ring.
  assert (H2 : Rabs (Fl p (units N) - u) <= eps * A).
  { apply Hone; [exact LU|exact HU|]. rewrite units_lin by exact L. exact Hu. }
  assert (HP : 0 < 2 ^ (N * n)) by (apply pow_lt; lra).
  replace (total vs - 2 ^ (N * n) * u) with (- (2 ^ (N * n) * Fl p (units N) - total vs) + 2 ^ (N * n) * (Fl p (units N) - u)) by ring.
  eapply Rle_trans; [apply Rabs_triang|]. rewrite Rabs_Ropp, Rabs_mult, (Rabs_pos_eq (2 ^ (N * n))) by lra.
  assert (2 ^ (N * n) * Rabs (Fl p (units N) - u) <= 2 ^ (N * n) * (eps * A)) by (apply Rmult_le_compat_l; lra). lra.
Qed.

(* ------------------------------------------------------------------------------------------- *)
(* The table on the children tends to the integral. *)

(* a table with positive weights and points of the reference simplex *)
Definition proper_rule (N : nat) (q : rule) : Prop := forall pw, In pw q -> 0 <= snd pw /\ in_simplex N 1 (fst pw).

Lemma weight_nonneg N q : proper_rule N q -> 0 <= weight q.
Proof.
  intros H. unfold weight. apply total_nonneg. intros w Hw. apply in_map_iff in Hw as (pw & <- & Hp). apply H, Hp.
Qed.

Lemma quadrature_close N q f qs v e : length qs = S N -> proper_rule N q ->
  reference_integral N (fun x => f (barycentric N qs x)) v ->
  (forall x y, in_simplex N 1 x -> in_simplex N 1 y -> Rabs (f (barycentric N qs x) - f (barycentric N qs y)) <= e) ->
  Rabs (total (map (fun pw => snd pw * f (barycentric N qs (fst pw))) q) - weight q * INR (fact N) * v) <= weight q * e.
Proof.
  intros L Hq Hv He. unfold weight. induction q as [|[x w] q IH].
  - unfold total. cbn [map fold_right]. replace (0 - 0 * INR (fact N) * v) with 0 by ring. rewrite Rabs_R0. lra.
  - specialize (IH ltac:(intros pw H; apply Hq; right; exact H)). destruct (Hq (x, w) (or_introl eq_refl)) as [Hw Hx]. cbn [fst snd] in *.
    unfold total in *. cbn [map fold_right fst snd] in *.
    pose proof (is_integral_bound N 1 (fun _ => f (barycentric N qs x)) (fun y => f (barycentric N qs y)) _ v e Rle_0_1
      (is_integral_const N 1 (f (barycentric N qs x))) Hv (fun y Hy => He x y Hx Hy)) as H.
    rewrite pow1 in H. pose proof (INR_fact_lt_0 N) as HF.
    assert (H' : Rabs (w * f (barycentric N qs x) - w * INR (fact N) * v) <= w * e).
    { replace (w * f (barycentric N qs x) - w * INR (fact N) * v)
        with (w * (INR (fact N) * (f (barycentric N qs x) * (1 / INR (fact N)) - v))) by (field; lra).
      rewrite Rabs_mult, (Rabs_pos_eq w) by exact Hw. apply Rmult_le_compat_l; [exact Hw|].
      rewrite Rabs_mult, (Rabs_pos_eq (INR (fact N))) by lra.
      apply (Rmult_le_compat_l (INR (fact N))) in H; [|lra].
      replace (INR (fact N) * (e * (1 / INR (fact N)))) with e in H by (field; lra). exact H. }
    match goal with |- Rabs (?a + ?b - (?c + ?d) * ?F * ?g) <= _ => replace (a + b - (c + d) * F * g) with ((a - c * F * g) + (b - d * F * g)) by ring end.
    eapply Rle_trans; [apply Rabs_triang|]. lra.
Qed.

(* children are small *)
Lemma refine_small D N ps delta : (1 <= N <= 3)%nat -> length ps = S N -> 0 < delta ->
  exists n0, forall n, (n0 <= n)%nat -> forall qs, In qs (refine N n ps) ->
    forall y z, inside D qs y -> inside D qs z -> forall m, (m < D)%nat -> Rabs (y m - z m) <= delta.
Proof.
  intros HN L Hd. set (S0 := rsum D (fun m => spread m ps)).
  assert (HS0 : forall m, (m < D)%nat -> spread m ps <= S0).
  { intros m Hm. apply (rsum_member D (fun m => spread m ps)); [intros; apply spread_pos|exact Hm]. }
  assert (Hsd : 0 < sq delta) by (unfold sq; nra).
  destruct (Pow_x_infinity 2 ltac:(rewrite Rabs_pos_eq; lra) (S0 / sq delta)) as (n0 & Hn0).
  exists n0. intros n Hn qs Hq y z Hy Hz m Hm. specialize (Hn0 n Hn).
  assert (HP : 0 < 2 ^ n) by (apply pow_lt; lra). rewrite Rabs_pos_eq in Hn0 by lra.
  pose proof (refine_spread N n m HN ps) as Hs.
  pose proof (inside_spread D qs y z m Hm Hy Hz) as Hi.
  specialize (HS0 m Hm).
  assert (Hsp : spread m qs <= spread m ps / 2 ^ n) by (apply Hs; assumption).
  assert (spread m ps / 2 ^ n <= sq delta).
  { apply (Rmult_le_reg_r (2 ^ n) _ _ HP). replace (spread m ps / 2 ^ n * 2 ^ n) with (spread m ps) by (field; lra).
    apply Rge_le in Hn0. apply (Rmult_le_compat_l (sq delta)) in Hn0; [|lra].
    replace (sq delta * (S0 / sq delta)) with S0 in Hn0 by (field; lra). lra. }
  unfold sq in *. apply Rabs_le_between. split; nra.
Qed.

Lemma barycentric_inside D N qs x : length qs = S N -> in_simplex N 1 x -> inside D qs (barycentric N qs x).
Proof. intros L Hx. rewrite barycentric_lin by exact L. apply inside_lin. rewrite L. apply bary_weights, Hx. Qed.

Lemma refine_quadrature D N ps f q u eps : (1 <= N <= 3)%nat -> length ps = S N -> continuous_on D ps f -> proper_rule N q ->
  reference_integral N (fun x => f (barycentric N ps x)) u -> 0 < eps ->
  exists n0, forall n, (n0 <= n)%nat ->
    Rabs (total (map (fun qs => total (map (fun pw => snd pw * f (barycentric N qs (fst pw))) q)) (refine N n ps))
      - 2 ^ (N * n) * (weight q * INR (fact N) * u)) <= 2 ^ (N * n) * (weight q * eps).
Proof.
  intros HN L Hc Hq Hu He. destruct (Hc eps He) as (delta & Hd & H).
  destruct (refine_small D N ps delta HN L Hd) as (n0 & Hn0). exists n0. intros n Hn.
  destruct (refine_integrals D N n ps f HN L Hc) as (vs & Hvs).
  pose proof (refine_integral D N n ps f u vs HN L Hc Hu Hvs) as Ht.
  destruct (refine_length N n HN ps L) as [LR _].
  pose proof (total_close _ (fun qs => total (map (fun pw => snd pw * f (barycentric N qs (fst pw))) q))
    (fun v => weight q * INR (fact N) * v) (weight q * eps) _ _ Hvs) as HT.
  rewrite total_map_scal, map_id, Ht, LR, pow_INR in HT. change (INR 2) with (1 + 1) in HT. replace (1 + 1) with 2 in HT by ring.
  replace (2 ^ (N * n) * (weight q * INR (fact N) * u)) with (weight q * INR (fact N) * (2 ^ (N * n) * u)) by ring.
  apply HT. intros qs v Hin Hv. pose proof (refine_in_length N n ps qs HN L Hin) as Lq.
  apply quadrature_close; [exact Lq|exact Hq|exact Hv|]. intros x y Hx Hy.
  pose proof (barycentric_inside D N qs x Lq Hx) as Ix. pose proof (barycentric_inside D N qs y Lq Hy) as Iy.
  apply H; [| |intros m Hm; apply (Hn0 n Hn qs Hin); assumption]; apply (refine_inside N n HN ps D _ L); eauto.
Qed.

(* ------------------------------------------------------------------------------------------- *)
(* On cells of the mesh. *)

Lemma cell_integral_exists D N ps f : length ps = S N -> continuous_on D ps f -> exists v, cell_integral N ps f v.
Proof.
  intros L Hc. destruct (continuous_integral D N ps f L Hc) as (u & Hu). eexists. exists u. split; [exact Hu|reflexivity].
Qed.

Lemma cell_integral_unique N ps f v v' : cell_integral N ps f v -> cell_integral N ps f v' -> v = v'.
Proof.
  intros (u & Hu & ->) (u' & Hu' & ->). f_equal. exact (is_integral_unique N 1 _ _ _ Rle_0_1 Hu Hu').
Qed.

Lemma refine_cell_integral D N n ps f v : (1 <= N <= 3)%nat -> length ps = S N -> continuous_on D ps f ->
  cell_integral N ps f v ->
  exists vs, Forall2 (fun qs v => cell_integral N qs f v) (refine N n ps) vs /\ total vs = v.
Proof.
  intros HN L Hc (u & Hu & ->). destruct (refine_integrals D N n ps f HN L Hc) as (us & Hus).
  pose proof (refine_integral D N n ps f u us HN L Hc Hu Hus) as Ht.
  set (k := simplex_volume ps / 2 ^ (N * n) / area N).
  exists (map (fun x => k * x) us). split.
  - assert (Hin : forall qs, In qs (refine N n ps) -> simplex_volume qs = simplex_volume ps / 2 ^ (N * n)).
    { intros qs. apply refine_volume; assumption. }
    clear Ht. revert Hin. induction Hus as [|qs x l us Hx Hus IH]; intros Hin; cbn [map]; constructor.
    + exists x. split; [exact Hx|]. rewrite (Hin qs (or_introl eq_refl)). reflexivity.
    + apply IH. intros; apply Hin; right; assumption.
  - rewrite total_map_scal, map_id, Ht. unfold k. assert (2 ^ (N * n) <> 0) by (apply pow_nonzero; lra).
    assert (area N <> 0) by (unfold area; destruct N as [|[|[|[|]]]]; try lia; cbn; lra). field. split; assumption.
Qed.

Lemma refine_cell_converges D N ps f q v eps : (1 <= N <= 3)%nat -> length ps = S N -> continuous_on D ps f -> proper_rule N q ->
  cell_integral N ps f v -> 0 < eps ->
  exists n0, forall n, (n0 <= n)%nat ->
    Rabs (total (map (fun qs => simplex_volume qs * total (map (fun pw => snd pw * f (barycentric N qs (fst pw))) q)) (refine N n ps))
      - weight q * v) <= eps.
Proof.
  intros HN L Hc Hq (u & Hu & ->) He. set (V := simplex_volume ps). pose proof (weight_nonneg N q Hq) as HW.
  set (e := eps / (Rabs V * weight q + 1)).
  assert (HB : 0 <= Rabs V * weight q) by (apply Rmult_le_pos; [apply Rabs_pos|exact HW]).
  destruct (refine_quadrature D N ps f q u e HN L Hc Hq Hu ltac:(apply Rdiv_lt_0_compat; lra)) as (n0 & H).
  exists n0. intros n Hn. specialize (H n Hn). assert (HP : 0 < 2 ^ (N * n)) by (apply pow_lt; lra).
  rewrite (map_ext_in _ (fun qs => V / 2 ^ (N * n) * total (map (fun pw => snd pw * f (barycentric N qs (fst pw))) q))).
  2:{ intros qs Hin. rewrite (refine_volume N n HN ps qs L Hin). reflexivity. }
  rewrite total_map_scal. set (T := total _) in *.
  assert (HA : / area N = INR (fact N)).
  { unfold area. destruct N as [|[|[|[|]]]]; try lia; cbn; field. }
  replace (V / 2 ^ (N * n) * T - weight q * (V / area N * u))
    with (V / 2 ^ (N * n) * (T - 2 ^ (N * n) * (weight q * INR (fact N) * u))) by (unfold Rdiv; rewrite HA; field; lra).
  rewrite Rabs_mult. eapply Rle_trans; [apply Rmult_le_compat_l; [apply Rabs_pos|exact H]|].
  unfold Rdiv. rewrite Rabs_mult, (Rabs_pos_eq (/ 2 ^ (N * n))) by (left; apply Rinv_0_lt_compat, HP).
  replace (Rabs V * / 2 ^ (N * n) * (2 ^ (N * n) * (weight q * e))) with (Rabs V * weight q * e) by (field; lra).
  unfold e. apply (Rmult_le_reg_r (Rabs V * weight q + 1)); [lra|].
  replace (Rabs V * weight q * (eps / (Rabs V * weight q + 1)) * (Rabs V * weight q + 1)) with (Rabs V * weight q * eps) by (field; lra). nra.
Qed.

(* ------------------------------------------------------------------------------------------- *)
(* The shapes of the children. *)


(* segments and triangles: similar to the parent *)
Ltac similar_to l s :=
  split; [reflexivity|]; exists (fun i => nth i l 0%nat), s; split; [solve [auto]|]; cbn [length];
  split; [intros i Hi; destruct i as [|[|[|i]]]; cbn [nth]; lia|];
  split; [intros i j Hi Hj; destruct i as [|[|[|i]]]; destruct j as [|[|[|j]]]; cbn [nth]; lia|];
  intros i j m Hi Hj; destruct i as [|[|[|i]]]; destruct j as [|[|[|j]]]; try lia; cbn [nth]; unfold avg; lra.

Lemma kid_similar N last ps c : (1 <= N <= 2)%nat -> length ps = S N -> In c (kids N last ps) -> similar 2 c ps.
Proof.
  intros HN L Hc. destruct N as [|[|[|N]]]; try lia.
  - destruct ps as [|p0 [|p1 [|]]]; try discriminate L. cbn [kids] in Hc.
    destruct Hc as [<-|[<-|[]]]; similar_to [0; 1]%nat 1.
  - destruct ps as [|p0 [|p1 [|p2 [|]]]]; try discriminate L. cbn [kids] in Hc.
    destruct Hc as [<-|[<-|[<-|[<-|[]]]]].
    + similar_to [0; 1; 2]%nat 1.
    + similar_to [0; 1; 2]%nat 1.
    + similar_to [1; 2; 0]%nat 1.
    + similar_to [1; 2; 0]%nat (-1).
Qed.

Lemma similar_trans k k' qs c ps : similar k qs c -> similar k' c ps -> similar (k * k') qs ps.
Proof.
  intros [L (t & s & Hs & Ht & Hi & H)] [L' (t' & s' & Hs' & Ht' & Hi' & H')].
  split; [congruence|]. rewrite L' in *. exists (fun i => t' (t i)), (s * s'). split; [|split; [|split]].
  - destruct Hs as [->| ->]; destruct Hs' as [->| ->]; [left|right|right|left]; ring.
  - intros i Hl. apply Ht', Ht, Hl.
  - intros i j Hl Hl' E. apply Hi; [assumption..|]. apply Hi'; [apply Ht; assumption..|exact E].
  - intros i j m Hl Hl'. specialize (H i j m Hl Hl'). specialize (H' (t i) (t j) m (Ht i Hl) (Ht j Hl')).
    replace (k * k' * (nth i qs vzero m - nth j qs vzero m)) with (k' * (k * (nth i qs vzero m - nth j qs vzero m))) by ring.
    rewrite H. replace (k' * (s * (nth (t i) c vzero m - nth (t j) c vzero m))) with (s * (k' * (nth (t i) c vzero m - nth (t j) c vzero m))) by ring.
    rewrite H'. ring.
Qed.

Lemma refine_similar N n : (1 <= N <= 2)%nat -> forall ps qs, length ps = S N -> In qs (refine N n ps) -> similar (2 ^ n) qs ps.
Proof.
  intros HN. induction n as [|n IH]; intros ps qs L Hq.
  - destruct Hq as [<-|[]]. split; [reflexivity|]. exists (fun i => i), 1. split; [auto|]. split; [auto|]. split; [auto|].
    intros i j m _ _. cbn. ring.
  - apply refine_S in Hq as (c & Hc & Hq). cbn [pow]. rewrite Rmult_comm.
    apply (similar_trans _ _ _ c); [|eapply kid_similar; eassumption].
    apply IH; [|exact Hq]. apply (kids_in_length N (Nat.eqb n 0) ps); [lia|assumption..].
Qed.

(* tetrahedra: some children become flat *)
Lemma tetrahedron_edge k : forall p0 p1 p2 p3, exists q0 q1 q2 q3,
  In [q0; q1; q2; q3] (refine 3 (2 * k + 1) [p0; p1; p2; p3]) /\
  forall m, 2 ^ (2 * k + 1) * (q1 m - q0 m) = (p1 m - p0 m) - INR k * (p2 m - p3 m).
Proof.
  induction k as [|k IH]; intros p0 p1 p2 p3.
  - exists p0, (avg p0 p1), (avg p0 p2), (avg p0 p3). split; [cbn; left; reflexivity|]. intros m. unfold avg. cbn. lra.
  - set (a0 := avg p0 p1). set (a1 := avg p0 p2). set (a2 := avg p1 p3). set (a3 := avg p1 p2).
    destruct (IH (avg a0 a1) (avg a0 a2) (avg a1 a3) (avg a1 a2)) as (q0 & q1 & q2 & q3 & Hin & H).
    exists q0, q1, q2, q3. split.
    + replace (2 * S k + 1)%nat with (S (S (2 * k + 1))) by lia.
      apply refine_S. exists [a0; a1; a2; a3]. split; [cbn; do 6 right; left; reflexivity|].
      apply refine_S. exists [avg a0 a1; avg a0 a2; avg a1 a3; avg a1 a2]. split; [|exact Hin].
      destruct (Nat.eqb_spec (2 * k + 1) 0) as [E|_]; [lia|]. cbn. do 6 right. left. reflexivity.
    + intros m. specialize (H m). replace (2 * S k + 1)%nat with (S (S (2 * k + 1))) by lia. cbn [pow].
      replace (2 * (2 * 2 ^ (2 * k + 1)) * (q1 m - q0 m)) with (4 * (2 ^ (2 * k + 1) * (q1 m - q0 m))) by ring.
      rewrite H, S_INR. unfold a0, a1, a2, a3, avg. field.
Qed.

Lemma tetrahedron_stretched p0 p1 p2 p3 m C : p2 m <> p3 m -> exists n, (0 < n)%nat /\ exists q0 q1 q2 q3,
  In [q0; q1; q2; q3] (refine 3 n [p0; p1; p2; p3]) /\ C < 2 ^ n * Rabs (q1 m - q0 m).
Proof.
  intros Hne. set (d := Rabs (p2 m - p3 m)). assert (Hd : 0 < d) by (apply Rabs_pos_lt; lra).
  set (r := (Rabs C + Rabs (p1 m - p0 m)) / d). destruct (archimed r) as [Hup _].
  assert (Hr : 0 <= r). { apply Rdiv_le_0_compat; [|exact Hd]. pose proof (Rabs_pos C). pose proof (Rabs_pos (p1 m - p0 m)). lra. }
  set (k := Z.to_nat (up r)). assert (Hk : r < INR k).
  { unfold k. rewrite INR_IZR_INZ, Z2Nat.id; [lra|]. apply le_IZR. lra. }
  destruct (tetrahedron_edge k p0 p1 p2 p3) as (q0 & q1 & q2 & q3 & Hin & H).
  exists (2 * k + 1)%nat. split; [lia|]. exists q0, q1, q2, q3. split; [exact Hin|].
  assert (HP : 0 < 2 ^ (2 * k + 1)) by (apply pow_lt; lra).
  rewrite <- (Rabs_pos_eq (2 ^ (2 * k + 1))) by lra. rewrite <- Rabs_mult, H.
  pose proof (Rabs_triang_inv (INR k * (p2 m - p3 m)) (p1 m - p0 m)) as T.
  rewrite (Rabs_minus_sym (p1 m - p0 m)). rewrite Rabs_mult, (Rabs_pos_eq (INR k)) in T by apply pos_INR. fold d in T.
  assert (r * d = Rabs C + Rabs (p1 m - p0 m)) by (unfold r; field; lra). pose proof (Rle_abs C).
  assert (r * d < INR k * d) by (apply Rmult_lt_compat_r; lra). lra.
Qed.

(* the smallest size of a child that the halving of the spreads gives *)
Lemma refine_edge N n ps qs y z m : (1 <= N <= 3)%nat -> length ps = S N -> In qs (refine N n ps) -> In y qs -> In z qs ->
  2 ^ n * sq (y m - z m) <= spread m ps.
Proof.
  intros HN L Hq Hy Hz. pose proof (refine_spread N n m HN ps qs) as Hs. assert (HP : 0 < 2 ^ n) by (apply pow_lt; lra).
  assert (H : spread m qs <= spread m ps / 2 ^ n) by (apply Hs; assumption).
  pose proof (spread_edge m qs y z Hy Hz) as He.
  apply (Rmult_le_compat_l (2 ^ n)) in H; [|lra]. replace (2 ^ n * (spread m ps / 2 ^ n)) with (spread m ps) in H by (field; lra).
  apply Rle_trans with (2 ^ n * spread m qs); [apply Rmult_le_compat_l; lra|exact H].
Qed.
