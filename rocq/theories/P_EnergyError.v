(* The slopes of a polynomial and those of its linear interpolant on a triangle. *)
From stdpp Require Import base gmap list sorting.
From Coq Require Import Reals Lra Lia FunctionalExtensionality.
From Coquelicot Require Import Rcomplements Hierarchy Derive.
From Verif Require Import Base M_Tensor M_Geometry S_Geometry P_Volume.
From Verif Require Import M_Functions S_Functions P_Functions M_Quadrature S_Quadrature P_Quadrature P_Poly P_Integrator M_Fem S_Fem.
From Verif Require Import S_Solver P_Solver P_SolverMesh P_Mesh S_Energy P_Energy.
Local Open Scope R_scope.

(* the square of the distance *)
Definition dist2 (u v : vec) : R := (u 0%nat - v 0%nat) ^ 2 + (u 1%nat - v 1%nat) ^ 2.
Lemma dist2_pos u v : 0 <= dist2 u v.
Proof. unfold dist2. pose proof (pow2_ge_0 (u 0%nat - v 0%nat)). pose proof (pow2_ge_0 (u 1%nat - v 1%nat)). lra. Qed.
Lemma euclid_dist2 u v : euclid 2 u v = sqrt (dist2 u v).
Proof. unfold euclid, dist2. f_equal. cbn [rsum]. ring. Qed.
Lemma euclid_square u v : euclid 2 u v ^ 2 = dist2 u v.
Proof. rewrite euclid_dist2. apply pow2_sqrt, dist2_pos. Qed.
Lemma dist2_sym u v : dist2 u v = dist2 v u.
Proof. unfold dist2. ring. Qed.

(* the points of a triangle *)
Definition mix (l m n : R) (a b c : vec) : vec := fun i => l * a i + m * b i + n * c i.
Definition weights3 (l m n : R) : Prop := 0 <= l /\ 0 <= m /\ 0 <= n /\ l + m + n = 1.

Lemma mix_far l m n a b c v H : weights3 l m n -> dist2 v a <= H -> dist2 v b <= H -> dist2 v c <= H -> dist2 v (mix l m n a b c) <= H.
Proof.
  intros (L & M & N & S) Ha Hb Hc.
  apply Rle_trans with (l * dist2 v a + m * dist2 v b + n * dist2 v c).
  - unfold dist2, mix. assert (n = 1 - l - m) as -> by lra.
    assert (J : forall u p q w : R, (u - (l * p + m * q + (1 - l - m) * w)) ^ 2 <= l * (u - p) ^ 2 + m * (u - q) ^ 2 + (1 - l - m) * (u - w) ^ 2).
    { intros u p q w.
      pose proof (Rmult_le_pos _ _ (Rmult_le_pos _ _ L M) (pow2_ge_0 (p - q))).
      pose proof (Rmult_le_pos _ _ (Rmult_le_pos _ _ L N) (pow2_ge_0 (p - w))).
      pose proof (Rmult_le_pos _ _ (Rmult_le_pos _ _ M N) (pow2_ge_0 (q - w))).
      assert (E : l * (u - p) ^ 2 + m * (u - q) ^ 2 + (1 - l - m) * (u - w) ^ 2 - (u - (l * p + m * q + (1 - l - m) * w)) ^ 2
        = l * m * (p - q) ^ 2 + l * (1 - l - m) * (p - w) ^ 2 + m * (1 - l - m) * (q - w) ^ 2) by ring. lra. }
    pose proof (J (v 0%nat) (a 0%nat) (b 0%nat) (c 0%nat)). pose proof (J (v 1%nat) (a 1%nat) (b 1%nat) (c 1%nat)). lra.
  - assert (l * dist2 v a <= l * H) by (apply Rmult_le_compat_l; lra). assert (m * dist2 v b <= m * H) by (apply Rmult_le_compat_l; lra).
    assert (n * dist2 v c <= n * H) by (apply Rmult_le_compat_l; lra). assert (l * H + m * H + n * H = H) by (rewrite <- !Rmult_plus_distr_r, S; ring). lra.
Qed.

(* the values of a polynomial at two points, and its slope at one *)
Section remainder.
  Context (r : nat) (po : polynomial) (Hpo : of_degree 2 r po) (G : vec -> vec) (HG : has_gradient 2 (poly po) G).

  Lemma mean_slope (y z : vec) : exists t, 0 <= t <= 1 /\
    let w := fun i => y i + t * (z i - y i) in
    poly po z - poly po y = G w 0%nat * (z 0%nat - y 0%nat) + G w 1%nat * (z 1%nat - y 1%nat).
  Proof.
    set (b := fun i => z i - y i).
    destruct (MVT_gen (fun t => poly po (fun i => y i + t * b i)) 0 1
      (fun t => rsum 2 (fun m => b m * poly (dpoly m po) (fun i => y i + t * b i)))) as (t & Ht & E).
    - intros t _. apply (poly_direction 2 r po y b t Hpo).
    - intros t _. apply continuity_pt_filterlim. apply (ex_derive_continuous (fun t => poly po (fun i => y i + t * b i))).
      eexists. apply (poly_direction 2 r po y b t Hpo).
    - rewrite Rmin_left, Rmax_right in Ht by lra. exists t. split; [exact Ht|]. cbv zeta.
      assert (E1 : (fun i => y i + 1 * b i) = z) by (apply functional_extensionality; intros i; unfold b; ring).
      assert (E0 : (fun i => y i + 0 * b i) = y) by (apply functional_extensionality; intros i; ring).
      rewrite E1, E0 in E. rewrite E. unfold b. cbn [rsum].
      rewrite !(gradient_dpoly 2 r po G) by (exact Hpo || exact HG || lia). ring.
  Qed.

  Lemma remainder (M : R) (y z : vec) : 0 <= M ->
    (forall t, 0 <= t <= 1 -> let w := fun i => y i + t * (z i - y i) in dist2 (G w) (G y) <= M ^ 2 * dist2 w y) ->
    Rabs (poly po z - poly po y - (G y 0%nat * (z 0%nat - y 0%nat) + G y 1%nat * (z 1%nat - y 1%nat))) <= M * dist2 z y.
  Proof.
    intros HM Hlip. destruct (mean_slope y z) as (t & Ht & E). cbv zeta in E. specialize (Hlip t Ht). cbv zeta in Hlip. rewrite E. clear E.
    set (w := fun i => y i + t * (z i - y i)) in *.
    assert (Hw : dist2 w y = t ^ 2 * dist2 z y) by (unfold dist2, w; ring). rewrite Hw in Hlip.
    pose proof (dist2_pos z y) as P.
    assert (Hlip' : dist2 (G w) (G y) <= M ^ 2 * dist2 z y).
    { eapply Rle_trans; [exact Hlip|]. apply Rmult_le_compat_l; [apply pow2_ge_0|]. rewrite <- (Rmult_1_l (dist2 z y)) at 2.
      apply Rmult_le_compat_r; [exact P|]. assert (t * t <= 1 * 1) by (apply Rmult_le_compat; lra). lra. }
    apply Rsqr_incr_0_var; [|apply Rmult_le_pos; lra]. rewrite <- Rsqr_abs. unfold Rsqr.
    assert (CS : forall p q s v : R, (p * s + q * v) * (p * s + q * v) <= (p ^ 2 + q ^ 2) * (s ^ 2 + v ^ 2)).
    { intros p q s v. pose proof (pow2_ge_0 (p * v - q * s)). assert ((p ^ 2 + q ^ 2) * (s ^ 2 + v ^ 2) - (p * s + q * v) * (p * s + q * v) = (p * v - q * s) ^ 2) by ring. lra. }
    pose proof (CS (G w 0%nat - G y 0%nat) (G w 1%nat - G y 1%nat) (z 0%nat - y 0%nat) (z 1%nat - y 1%nat)) as C.
    fold (dist2 (G w) (G y)) in C. fold (dist2 z y) in C.
    apply Rle_trans with (dist2 (G w) (G y) * dist2 z y); [|apply Rle_trans with (M ^ 2 * dist2 z y * dist2 z y); [by apply Rmult_le_compat_r|right; ring]].
    eapply Rle_trans; [|exact C]. right. ring.
  Qed.

  (* a linear function with the same values at the corners of a triangle *)
  Lemma slopes (M H A B C : R) (a b c : vec) l m n : 0 <= M -> 0 <= H -> weights3 l m n ->
    (forall l m n l' m' n', weights3 l m n -> weights3 l' m' n' ->
       dist2 (G (mix l m n a b c)) (G (mix l' m' n' a b c)) <= M ^ 2 * dist2 (mix l m n a b c) (mix l' m' n' a b c)) ->
    dist2 a b <= H ^ 2 -> dist2 b c <= H ^ 2 -> dist2 c a <= H ^ 2 ->
    poly po a = A + B * a 0%nat + C * a 1%nat -> poly po b = A + B * b 0%nat + C * b 1%nat -> poly po c = A + B * c 0%nat + C * c 1%nat ->
    let y := mix l m n a b c in
    simplex_volume [a; b; c] ^ 2 * ((G y 0%nat - B) ^ 2 + (G y 1%nat - C) ^ 2) <= 4 * M ^ 2 * (H ^ 2) ^ 3.
  Proof.
    intros HM HH W Hlip Hab Hbc Hca Ea Eb Ec y.
    assert (Z : forall v, dist2 v v = 0) by (intros v; unfold dist2; ring).
    assert (H0 : 0 <= H ^ 2) by apply pow2_ge_0.
    assert (Rem : forall v i j k, v = mix i j k a b c -> weights3 i j k -> dist2 v a <= H ^ 2 -> dist2 v b <= H ^ 2 -> dist2 v c <= H ^ 2 ->
      poly po v = A + B * v 0%nat + C * v 1%nat ->
      Rabs (poly po v - poly po y - (G y 0%nat * (v 0%nat - y 0%nat) + G y 1%nat * (v 1%nat - y 1%nat))) <= M * H ^ 2).
    { intros v i j k Ev Wv D1 D2 D3 Hv. eapply Rle_trans; [apply (remainder M y v HM)|apply Rmult_le_compat_l; [exact HM|by apply mix_far]].
      intros t Ht. cbv zeta.
      assert (Ew : (fun i => y i + t * (v i - y i)) = mix ((1 - t) * l + t * i) ((1 - t) * m + t * j) ((1 - t) * n + t * k) a b c)
        by (apply functional_extensionality; intros s; unfold y; rewrite Ev; unfold mix; ring).
      rewrite Ew. apply Hlip; [|exact W]. destruct W as (W1 & W2 & W3 & W4), Wv as (V1 & V2 & V3 & V4).
      split; [|split; [|split]]; try (apply Rplus_le_le_0_compat; apply Rmult_le_pos; lra).
      transitivity ((1 - t) * (l + m + n) + t * (i + j + k)); [ring|]. rewrite W4, V4. ring. }
    assert (Ra := Rem a 1 0 0 ltac:(apply functional_extensionality; intros s; unfold mix; ring) ltac:(unfold weights3; lra) ltac:(by rewrite Z) Hab ltac:(by rewrite dist2_sym) Ea).
    assert (Rb := Rem b 0 1 0 ltac:(apply functional_extensionality; intros s; unfold mix; ring) ltac:(unfold weights3; lra) ltac:(by rewrite dist2_sym) ltac:(by rewrite Z) Hbc Eb).
    assert (Rc := Rem c 0 0 1 ltac:(apply functional_extensionality; intros s; unfold mix; ring) ltac:(unfold weights3; lra) Hca ltac:(by rewrite dist2_sym) ltac:(by rewrite Z) Ec).
    rewrite Ea in Ra. rewrite Eb in Rb. rewrite Ec in Rc. clear Rem Hlip Ea Eb Ec.
    set (X := G y 0%nat - B). set (Y := G y 1%nat - C). set (T := M * H ^ 2) in *.
    assert (T0 : 0 <= T) by (by apply Rmult_le_pos).
    apply Rabs_le_between in Ra, Rb, Rc.
    set (P := X * (b 0%nat - a 0%nat) + Y * (b 1%nat - a 1%nat)). set (Q := X * (c 0%nat - a 0%nat) + Y * (c 1%nat - a 1%nat)).
    assert (HP : - (2 * T) <= P <= 2 * T) by (unfold P, X, Y; lra).
    assert (HQ : - (2 * T) <= Q <= 2 * T) by (unfold Q, X, Y; lra).
    assert (HP2 : P ^ 2 <= (2 * T) ^ 2) by (rewrite <- (pow2_abs P); apply pow_incr; split; [apply Rabs_pos|by apply Rabs_le_between]).
    assert (HQ2 : Q ^ 2 <= (2 * T) ^ 2) by (rewrite <- (pow2_abs Q); apply pow_incr; split; [apply Rabs_pos|by apply Rabs_le_between]).
    assert (EV : 4 * (simplex_volume [a; b; c] ^ 2 * (X ^ 2 + Y ^ 2)) = ((c 1%nat - a 1%nat) * P - (b 1%nat - a 1%nat) * Q) ^ 2
      + ((b 0%nat - a 0%nat) * Q - (c 0%nat - a 0%nat) * P) ^ 2).
    { unfold P, Q, simplex_volume, det_vecs, vsub. cbn. field. }
    assert (S2 : forall p q : R, (p - q) ^ 2 <= 2 * p ^ 2 + 2 * q ^ 2).
    { intros p q. pose proof (pow2_ge_0 (p + q)). assert ((p - q) ^ 2 = 2 * p ^ 2 + 2 * q ^ 2 - (p + q) ^ 2) by ring. lra. }
    pose proof (S2 ((c 1%nat - a 1%nat) * P) ((b 1%nat - a 1%nat) * Q)) as U1. pose proof (S2 ((b 0%nat - a 0%nat) * Q) ((c 0%nat - a 0%nat) * P)) as U2.
    assert (V1 : dist2 c a * P ^ 2 <= H ^ 2 * (2 * T) ^ 2) by (apply Rmult_le_compat; [apply dist2_pos|apply pow2_ge_0|done|done]).
    assert (V2 : dist2 a b * Q ^ 2 <= H ^ 2 * (2 * T) ^ 2) by (apply Rmult_le_compat; [apply dist2_pos|apply pow2_ge_0|done|done]).
    assert (E1 : 2 * ((c 1%nat - a 1%nat) * P) ^ 2 + 2 * ((b 1%nat - a 1%nat) * Q) ^ 2 + (2 * ((b 0%nat - a 0%nat) * Q) ^ 2 + 2 * ((c 0%nat - a 0%nat) * P) ^ 2)
      = 2 * (dist2 c a * P ^ 2) + 2 * (dist2 a b * Q ^ 2)) by (unfold dist2; ring).
    assert (E2 : 2 * (H ^ 2 * (2 * T) ^ 2) + 2 * (H ^ 2 * (2 * T) ^ 2) = 16 * (M ^ 2 * (H ^ 2) ^ 3)) by (unfold T; ring).
    fold X Y. lra.
  Qed.
End remainder.

(* ---- the linear interpolant ---- *)
Section interpolant.
  Context {K : Type} `{Countable K} (E : element_type) (HE : edim E = 2%nat) (x : K → vec) (cells domain : list (list K)).
  Context (Hcells : good_cells E x cells) (u : vec → R) (Hu : ∀ k, k ∈ concat domain → u (x k) = 0).

  Lemma linear_interpolant : ∃ F, piecewise E x cells domain F ∧
    ∀ c, c ∈ cells → of_degree 2 1 (F c) ∧ ∀ k, k ∈ c → poly (F c) (x k) = u (x k).
  Proof.
    destruct (choose (λ (c : list K) (F : polynomial), of_degree 2 1 F ∧ ∀ k, k ∈ c → poly F (x k) = u (x k)) [] cells) as [F HF].
    { intros c Hc. destruct (Hcells c Hc) as [L V]. rewrite HE in L. destruct c as [|k [|l [|m [|]]]]; try discriminate L.
      destruct (lagrange Tri1 (x <$> [k; l; m]) (λ a, u (nth a (x <$> [k; l; m]) vzero))) as (p & Hp & Ep); [done|lra|].
      exists p. split; [exact Hp|]. intros j Hj. rewrite !elem_of_cons, elem_of_nil in Hj.
      destruct Hj as [-> |[-> |[-> |[]]]]; [exact (Ep 0%nat ltac:(cbn; lia))|exact (Ep 1%nat ltac:(cbn; lia))|exact (Ep 2%nat ltac:(cbn; lia))]. }
    assert (Hline : ∀ c k l t, c ∈ cells → k ∈ c → l ∈ c → poly (F c) (between t (x k) (x l)) = (1 - t) * u (x k) + t * u (x l)).
    { intros c k l t Hc Hk Hl. destruct (HF c Hc) as [HD Hv]. rewrite (on_line Tri1) by exact HD. by rewrite !Hv. }
    exists F. split; [|done]. split_and!.
    - intros c Hc. rewrite HE. apply (degree_weaken 2 1); [by destruct E; cbn; lia|by apply HF].
    - intros c c' k l t Hc Hc' Hk Hk' Hl Hl'. by rewrite !Hline.
    - intros c b k l t Hc Hb Hk Hkb Hl Hlb. rewrite Hline by done.
      rewrite (Hu k), (Hu l) by (apply elem_of_concat; eauto). ring.
  Qed.
End interpolant.

(* ---- polynomials in a box ---- *)
Definition in_box (b : R) (y : vec) : Prop := Rabs (y 0%nat) <= b /\ Rabs (y 1%nat) <= b.
Lemma poly_bounded r (p : polynomial) b : of_degree 2 r p -> 0 <= b -> exists M, 0 <= M /\ forall y, in_box b y -> Rabs (poly p y) <= M.
Proof.
  intros Hp Hb. induction Hp as [|[a es] p [L _] _ (M & HM & IH)].
  - exists 0. split; [lra|]. intros y _. rewrite poly_nil, Rabs_R0. lra.
  - cbn [snd] in L. destruct es as [|e0 [|e1 [|]]]; try discriminate L.
    exists (Rabs a * (b ^ e0 * b ^ e1) + M). assert (P := Rmult_le_pos _ _ (pow_le b e0 Hb) (pow_le b e1 Hb)).
    split; [pose proof (Rmult_le_pos _ _ (Rabs_pos a) P); lra|]. intros y [Y0 Y1]. rewrite poly_cons. cbn [fst snd monomial].
    eapply Rle_trans; [apply Rabs_triang|]. apply Rplus_le_compat; [|by apply IH]. rewrite !Rabs_mult, Rabs_R1, Rmult_1_r, <- !RPow_abs.
    apply Rmult_le_compat_l; [apply Rabs_pos|]. apply Rmult_le_compat; try apply pow_le; try apply Rabs_pos; apply pow_incr; split; auto using Rabs_pos.
Qed.
Lemma component_distance (y z : vec) : Rabs (z 0%nat - y 0%nat) <= euclid 2 y z /\ Rabs (z 1%nat - y 1%nat) <= euclid 2 y z.
Proof.
  rewrite euclid_dist2. pose proof (pow2_ge_0 (y 0%nat - z 0%nat)). pose proof (pow2_ge_0 (y 1%nat - z 1%nat)).
  rewrite (Rabs_minus_sym (z 0%nat)), (Rabs_minus_sym (z 1%nat)).
  split; rewrite <- sqrt_Rsqr_abs; apply sqrt_le_1_alt; unfold Rsqr, dist2; lra.
Qed.
Lemma between_box b (y z : vec) t : 0 <= t <= 1 -> in_box b y -> in_box b z -> in_box b (fun i => y i + t * (z i - y i)).
Proof.
  intros Ht [Y0 Y1] [Z0 Z1]. assert (X : forall p q : R, Rabs p <= b -> Rabs q <= b -> Rabs (p + t * (q - p)) <= b).
  { intros p q Hp Hq. apply Rabs_le_between in Hp, Hq. apply Rabs_le_between.
    assert ((1 - t) * - b <= (1 - t) * p <= (1 - t) * b) by (split; apply Rmult_le_compat_l; lra).
    assert (t * - b <= t * q <= t * b) by (split; apply Rmult_le_compat_l; lra). lra. }
  split; by apply X.
Qed.
Lemma poly_lipschitz r (p : polynomial) b : of_degree 2 r p -> 0 <= b ->
  exists M, 0 <= M /\ forall y z, in_box b y -> in_box b z -> Rabs (poly p z - poly p y) <= M * euclid 2 y z.
Proof.
  intros Hp Hb. destruct (poly_bounded r (dpoly 0 p) b (degree_dpoly 2 r 0 p Hp) Hb) as (M0 & P0 & H0).
  destruct (poly_bounded r (dpoly 1 p) b (degree_dpoly 2 r 1 p Hp) Hb) as (M1 & P1 & H1). exists (M0 + M1). split; [lra|]. intros y z Hy Hz.
  destruct (mean_slope r p Hp _ (dpoly_gradient 2 r p Hp) y z) as (t & Ht & ->). assert (Hw := between_box b y z t Ht Hy Hz).
  set (w := fun i => y i + t * (z i - y i)) in *. destruct (component_distance y z) as [C0 C1].
  eapply Rle_trans; [apply Rabs_triang|]. rewrite !Rabs_mult, Rmult_plus_distr_r.
  apply Rplus_le_compat; apply Rmult_le_compat; auto using Rabs_pos.
Qed.
Lemma gradient_lipschitz r (p : polynomial) G b : of_degree 2 r p -> has_gradient 2 (poly p) G -> 0 <= b ->
  exists M, 0 <= M /\ forall y z, in_box b y -> in_box b z -> euclid 2 (G y) (G z) <= M * euclid 2 y z.
Proof.
  intros Hp HG Hb. destruct (poly_lipschitz r (dpoly 0 p) b (degree_dpoly 2 r 0 p Hp) Hb) as (M0 & P0 & H0).
  destruct (poly_lipschitz r (dpoly 1 p) b (degree_dpoly 2 r 1 p Hp) Hb) as (M1 & P1 & H1). exists (M0 + M1). split; [lra|]. intros y z Hy Hz.
  specialize (H0 y z Hy Hz). specialize (H1 y z Hy Hz). rewrite <- !(gradient_dpoly 2 r p G) in H0, H1 by (exact Hp || exact HG || lia).
  rewrite (euclid_dist2 (G y)). apply Rle_trans with (sqrt ((Rabs (G z 0%nat - G y 0%nat) + Rabs (G z 1%nat - G y 1%nat)) ^ 2)).
  - apply sqrt_le_1_alt. unfold dist2. pose proof (Rmult_le_pos _ _ (Rabs_pos (G z 0%nat - G y 0%nat)) (Rabs_pos (G z 1%nat - G y 1%nat))).
    rewrite <- (pow2_abs (G y 0%nat - G z 0%nat)), <- (pow2_abs (G y 1%nat - G z 1%nat)), !(Rabs_minus_sym (G y _)). lra.
  - rewrite sqrt_pow2; [lra|]. pose proof (Rabs_pos (G z 0%nat - G y 0%nat)). pose proof (Rabs_pos (G z 1%nat - G y 1%nat)). lra.
Qed.
Lemma inside_box b xs y : (forall v, In v xs -> in_box b v) -> length xs = 3%nat -> inside 2 xs y -> in_box b y.
Proof.
  intros Hv L (ws & Lw & Pw & Sw & Ey). destruct xs as [|p [|q [|s [|]]]]; try discriminate L. destruct ws as [|w0 [|w1 [|w2 [|]]]]; try discriminate Lw.
  inversion Pw as [|? ? P0 Pw1]; subst. inversion Pw1 as [|? ? P1 Pw2]; subst. inversion Pw2 as [|? ? P2 _]; subst.
  unfold S_Geometry.total in Sw. cbn in Sw.
  destruct (Hv p ltac:(by left)) as [A0 A1], (Hv q ltac:(right; by left)) as [B0 B1], (Hv s ltac:(do 2 right; by left)) as [C0 C1].
  assert (X : forall d e f : R, Rabs d <= b -> Rabs e <= b -> Rabs f <= b -> Rabs (w0 * d + (w1 * e + (w2 * f + 0))) <= b).
  { intros d e f Hd He Hf. apply Rabs_le_between in Hd, He, Hf. apply Rabs_le_between.
    assert (w0 * - b <= w0 * d <= w0 * b) by (split; apply Rmult_le_compat_l; lra).
    assert (w1 * - b <= w1 * e <= w1 * b) by (split; apply Rmult_le_compat_l; lra).
    assert (w2 * - b <= w2 * f <= w2 * b) by (split; apply Rmult_le_compat_l; lra).
    assert (w0 * b + w1 * b + w2 * b = b) by (rewrite <- !Rmult_plus_distr_r; replace (w0 + w1 + w2) with 1 by lra; ring). lra. }
  split; rewrite Ey by lia; unfold combo; cbn; by apply X.
Qed.
