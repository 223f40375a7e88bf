(* Proofs about the quadratic interpolant on triangles. *)
From stdpp Require Import base gmap list.
From Coq Require Import Reals Lra Lia FunctionalExtensionality.
From Coquelicot Require Import Rcomplements Hierarchy Derive AutoDerive.
From Verif Require Import Base M_Tensor M_Geometry S_Geometry P_Volume.
From Verif Require Import M_Functions S_Functions P_Functions M_Quadrature S_Quadrature P_Quadrature P_Poly P_Integrator M_Topology M_Fem S_Fem P_Fem P_FemBlocks Properties_Fem.
From Verif Require Import P_Mesh S_System S_Solver P_Solver P_SolverMesh P_Bernstein P_Energy P_EnergyError.
Open Scope R_scope.

(* The value of a quadratic function, from its value and slopes at y. *)
Definition around_point (y : vec) (al b0 b1 D E F : R) (z : vec) : R :=
  al + b0 * (z 0%nat - y 0%nat) + b1 * (z 1%nat - y 1%nat)
  + D * (z 0%nat - y 0%nat) ^ 2 + E * ((z 0%nat - y 0%nat) * (z 1%nat - y 1%nat)) + F * (z 1%nat - y 1%nat) ^ 2.

(* A quadratic function that is small at the corners and at the middles of the sides has small slopes. *)
Lemma small_slopes (rho H al b0 b1 D E F : R) (a b c : vec) l m n : 0 <= rho -> 0 <= H -> weights3 l m n ->
  dist2 a b <= H ^ 2 -> dist2 c a <= H ^ 2 ->
  let y := mix l m n a b c in let p := around_point y al b0 b1 D E F in
  Rabs (p a) <= rho -> Rabs (p b) <= rho -> Rabs (p c) <= rho ->
  Rabs (p (middle a b)) <= rho -> Rabs (p (middle b c)) <= rho -> Rabs (p (middle c a)) <= rho ->
  simplex_volume [a; b; c] ^ 2 * (b0 ^ 2 + b1 ^ 2) <= 324 * H ^ 2 * rho ^ 2.
Proof.
  intros Hr HH (Wl & Wm & Wn & W) Hab Hca y p Pa Pb Pc Pab Pbc Pca.
  assert (El : l = 1 - m - n) by lra.
  set (P := b0 * (b 0%nat - a 0%nat) + b1 * (b 1%nat - a 1%nat)). set (Q := b0 * (c 0%nat - a 0%nat) + b1 * (c 1%nat - a 1%nat)).
  assert (EP : P = (4 * m - 1) * p b - (4 * l - 1) * p a + 4 * (l - m) * p (middle a b) + 4 * n * p (middle b c) - 4 * n * p (middle c a)).
  { unfold P, p, around_point, middle, y, mix. rewrite El. field. }
  assert (EQ : Q = (4 * n - 1) * p c - (4 * l - 1) * p a + 4 * (l - n) * p (middle c a) + 4 * m * p (middle b c) - 4 * m * p (middle a b)).
  { unfold Q, p, around_point, middle, y, mix. rewrite El. field. }
  assert (B : forall k v K : R, Rabs k <= K -> Rabs v <= rho -> - (K * rho) <= k * v <= K * rho).
  { intros k v K Hk Hv. apply Rabs_le_between. rewrite Rabs_mult. apply Rmult_le_compat; auto using Rabs_pos. }
  assert (HP : - (18 * rho) <= P <= 18 * rho).
  { pose proof (B (4 * m - 1) (p b) 3 ltac:(apply Rabs_le_between; lra) Pb). pose proof (B (4 * l - 1) (p a) 3 ltac:(apply Rabs_le_between; lra) Pa).
    pose proof (B (4 * (l - m)) (p (middle a b)) 4 ltac:(apply Rabs_le_between; lra) Pab). pose proof (B (4 * n) (p (middle b c)) 4 ltac:(apply Rabs_le_between; lra) Pbc).
    pose proof (B (4 * n) (p (middle c a)) 4 ltac:(apply Rabs_le_between; lra) Pca). lra. }
  assert (HQ : - (18 * rho) <= Q <= 18 * rho).
  { pose proof (B (4 * n - 1) (p c) 3 ltac:(apply Rabs_le_between; lra) Pc). pose proof (B (4 * l - 1) (p a) 3 ltac:(apply Rabs_le_between; lra) Pa).
    pose proof (B (4 * (l - n)) (p (middle c a)) 4 ltac:(apply Rabs_le_between; lra) Pca). pose proof (B (4 * m) (p (middle b c)) 4 ltac:(apply Rabs_le_between; lra) Pbc).
    pose proof (B (4 * m) (p (middle a b)) 4 ltac:(apply Rabs_le_between; lra) Pab). lra. }
  assert (HP2 : P ^ 2 <= (18 * rho) ^ 2) by (rewrite <- (pow2_abs P); apply pow_incr; split; [apply Rabs_pos|by apply Rabs_le_between]).
  assert (HQ2 : Q ^ 2 <= (18 * rho) ^ 2) by (rewrite <- (pow2_abs Q); apply pow_incr; split; [apply Rabs_pos|by apply Rabs_le_between]).
  assert (EV : 4 * (simplex_volume [a; b; c] ^ 2 * (b0 ^ 2 + b1 ^ 2)) = ((c 1%nat - a 1%nat) * P - (b 1%nat - a 1%nat) * Q) ^ 2
    + ((b 0%nat - a 0%nat) * Q - (c 0%nat - a 0%nat) * P) ^ 2).
  { unfold P, Q, simplex_volume, det_vecs, vsub. cbn. field. }
  assert (S2 : forall p q : R, (p - q) ^ 2 <= 2 * p ^ 2 + 2 * q ^ 2).
  { intros p' q. pose proof (pow2_ge_0 (p' + q)). assert ((p' - q) ^ 2 = 2 * p' ^ 2 + 2 * q ^ 2 - (p' + q) ^ 2) by ring. lra. }
  pose proof (S2 ((c 1%nat - a 1%nat) * P) ((b 1%nat - a 1%nat) * Q)) as U1. pose proof (S2 ((b 0%nat - a 0%nat) * Q) ((c 0%nat - a 0%nat) * P)) as U2.
  assert (V1 : dist2 c a * P ^ 2 <= H ^ 2 * (18 * rho) ^ 2) by (apply Rmult_le_compat; [apply dist2_pos|apply pow2_ge_0|done|done]).
  assert (V2 : dist2 a b * Q ^ 2 <= H ^ 2 * (18 * rho) ^ 2) by (apply Rmult_le_compat; [apply dist2_pos|apply pow2_ge_0|done|done]).
  assert (E1 : 2 * ((c 1%nat - a 1%nat) * P) ^ 2 + 2 * ((b 1%nat - a 1%nat) * Q) ^ 2 + (2 * ((b 0%nat - a 0%nat) * Q) ^ 2 + 2 * ((c 0%nat - a 0%nat) * P) ^ 2)
    = 2 * (dist2 c a * P ^ 2) + 2 * (dist2 a b * Q ^ 2)) by (unfold dist2; ring).
  assert (E2 : 2 * (H ^ 2 * (18 * rho) ^ 2) + 2 * (H ^ 2 * (18 * rho) ^ 2) = 4 * (324 * H ^ 2 * rho ^ 2)) by ring.
  lra.
Qed.

(* The remainder of second order. *)
Section taylor.
  Context (r : nat) (po : polynomial) (Hpo : of_degree 2 r po) (G : vec -> vec) (HG : has_gradient 2 (poly po) G).
  Context (S : nat -> vec -> vec) (HS : forall i, (i < 2)%nat -> has_gradient 2 (fun y => G y i) (S i)).

  Definition taylor2 (y z : vec) : R :=
    poly po y + G y 0%nat * (z 0%nat - y 0%nat) + G y 1%nat * (z 1%nat - y 1%nat)
    + / 2 * S 0%nat y 0%nat * (z 0%nat - y 0%nat) ^ 2
    + / 2 * (S 0%nat y 1%nat + S 1%nat y 0%nat) * ((z 0%nat - y 0%nat) * (z 1%nat - y 1%nat))
    + / 2 * S 1%nat y 1%nat * (z 1%nat - y 1%nat) ^ 2.

  Lemma second_remainder (M : R) (y z : vec) : 0 <= M ->
    (forall i s t, (i < 2)%nat -> 0 <= s <= 1 -> 0 <= t <= 1 ->
       let w s := (fun i => y i + s * (z i - y i)) in dist2 (S i (w s)) (S i (w t)) <= M ^ 2 * dist2 (w s) (w t)) ->
    Rabs (poly po z - taylor2 y z) <= M * dist2 z y * (Rabs (z 0%nat - y 0%nat) + Rabs (z 1%nat - y 1%nat)).
  Proof.
    intros HM Hlip. set (b := fun i => z i - y i). set (w := fun s : R => (fun i => y i + s * (z i - y i)) : vec).
    set (k1 := G y 0%nat * b 0%nat + G y 1%nat * b 1%nat).
    set (k2 := S 0%nat y 0%nat * b 0%nat ^ 2 + (S 0%nat y 1%nat + S 1%nat y 0%nat) * (b 0%nat * b 1%nat) + S 1%nat y 1%nat * b 1%nat ^ 2).
    destruct (MVT_gen (fun t => poly po (fun i => y i + t * b i) - t * k1 - / 2 * t ^ 2 * k2) 0 1
      (fun t => rsum 2 (fun m => b m * poly (dpoly m po) (fun i => y i + t * b i)) - k1 - t * k2)) as (t & Ht & E).
    - intros t _. apply (is_derive_minus (fun t => poly po (fun i => y i + t * b i) - t * k1) (fun t => / 2 * t ^ 2 * k2)).
      + apply (is_derive_minus (fun t => poly po (fun i => y i + t * b i)) (fun t => t * k1)); [apply (poly_direction 2 r po y b t Hpo)|].
        auto_derive; [done|ring].
      + auto_derive; [done|field].
    - intros t _. apply continuity_pt_filterlim.
      apply (ex_derive_continuous (fun t => poly po (fun i => y i + t * b i) - t * k1 - / 2 * t ^ 2 * k2)).
      eexists. apply (is_derive_minus (fun t => poly po (fun i => y i + t * b i) - t * k1) (fun t => / 2 * t ^ 2 * k2)).
      + apply (is_derive_minus (fun t => poly po (fun i => y i + t * b i)) (fun t => t * k1)); [apply (poly_direction 2 r po y b t Hpo)|].
        auto_derive; [done|reflexivity].
      + auto_derive; [done|reflexivity].
    - rewrite Rmin_left, Rmax_right in Ht by lra.
      assert (E1 : (fun i => y i + 1 * b i) = z) by (apply functional_extensionality; intros i; unfold b; ring).
      assert (E0 : (fun i => y i + 0 * b i) = y) by (apply functional_extensionality; intros i; ring).
      rewrite E1, E0 in E. cbn [rsum] in E. change (fun i => y i + t * b i) with (w t) in E.
      rewrite <- !(gradient_dpoly 2 r po G) in E by (exact Hpo || exact HG || lia).
      assert (Rem : forall i, (i < 2)%nat ->
        Rabs (G (w t) i - G y i - (S i y 0%nat * (w t 0%nat - y 0%nat) + S i y 1%nat * (w t 1%nat - y 1%nat))) <= M * dist2 z y).
      { intros i Hi. assert (Eq : forall v, G v i = poly (dpoly i po) v) by (intros v; by apply (gradient_dpoly 2 r po G)).
        assert (HSi : has_gradient 2 (poly (dpoly i po)) (S i)).
        { assert (X : poly (dpoly i po) = (fun v => G v i)) by (apply functional_extensionality; intros v; by rewrite Eq). rewrite X. by apply HS. }
        rewrite !Eq. eapply Rle_trans; [apply (remainder r (dpoly i po) (degree_dpoly 2 r i po Hpo) (S i) HSi M y (w t) HM)|].
        - intros s Hs. cbv zeta.
          assert (Ew : (fun j => y j + s * (w t j - y j)) = w (s * t)) by (apply functional_extensionality; intros j; unfold w; ring).
          rewrite Ew. assert (Ey : w 0 = y) by (apply functional_extensionality; intros j; unfold w; ring).
          assert (B : 0 <= s * t <= 1).
          { split; [apply Rmult_le_pos; lra|]. rewrite <- (Rmult_1_l 1). apply Rmult_le_compat; lra. }
          pose proof (Hlip i (s * t) 0 Hi B ltac:(lra)) as X.
          change (dist2 (S i (w (s * t))) (S i (w 0)) <= M ^ 2 * dist2 (w (s * t)) (w 0)) in X. rewrite Ey in X. exact X.
        - apply Rmult_le_compat_l; [exact HM|]. assert (Ed : dist2 (w t) y = t ^ 2 * dist2 z y) by (unfold dist2, w; ring). rewrite Ed.
          pose proof (dist2_pos z y) as P. rewrite <- (Rmult_1_l (dist2 z y)) at 2. apply Rmult_le_compat_r; [exact P|].
          assert (t * t <= 1 * 1) by (apply Rmult_le_compat; lra). lra. }
      pose proof (Rem 0%nat ltac:(lia)) as R0. pose proof (Rem 1%nat ltac:(lia)) as R1. clear Rem Hlip.
      assert (EW : forall i, w t i - y i = t * b i) by (intros i; unfold w, b; ring). rewrite !EW in R0, R1.
      set (X0 := G (w t) 0%nat - G y 0%nat - (S 0%nat y 0%nat * (t * b 0%nat) + S 0%nat y 1%nat * (t * b 1%nat))) in *.
      set (X1 := G (w t) 1%nat - G y 1%nat - (S 1%nat y 0%nat * (t * b 0%nat) + S 1%nat y 1%nat * (t * b 1%nat))) in *.
      assert (EE : poly po z - taylor2 y z = X0 * b 0%nat + X1 * b 1%nat).
      { assert (T : taylor2 y z = poly po y + k1 + / 2 * k2) by (unfold taylor2, k1, k2, b; ring).
        rewrite T. transitivity (poly po z - 1 * k1 - / 2 * 1 ^ 2 * k2 - (poly po y - 0 * k1 - / 2 * 0 ^ 2 * k2)); [ring|].
        rewrite E. unfold X0, X1, k1, k2. ring. }
      rewrite EE. eapply Rle_trans; [apply Rabs_triang|]. rewrite !Rabs_mult, Rmult_plus_distr_l.
      apply Rplus_le_compat; apply Rmult_le_compat_r; auto using Rabs_pos.
  Qed.

  (* a quadratic function with the same values at the corners and at the middles of the sides of a triangle *)
  Lemma quadratic_slopes (M H A B C D E F : R) (a b c : vec) l m n : 0 <= M -> 0 <= H -> weights3 l m n ->
    (forall i l m n l' m' n', (i < 2)%nat -> weights3 l m n -> weights3 l' m' n' ->
       dist2 (S i (mix l m n a b c)) (S i (mix l' m' n' a b c)) <= M ^ 2 * dist2 (mix l m n a b c) (mix l' m' n' a b c)) ->
    dist2 a b <= H ^ 2 -> dist2 b c <= H ^ 2 -> dist2 c a <= H ^ 2 ->
    poly po a = quadratic A B C D E F a -> poly po b = quadratic A B C D E F b -> poly po c = quadratic A B C D E F c ->
    poly po (middle a b) = quadratic A B C D E F (middle a b) -> poly po (middle b c) = quadratic A B C D E F (middle b c) ->
    poly po (middle c a) = quadratic A B C D E F (middle c a) ->
    let y := mix l m n a b c in
    simplex_volume [a; b; c] ^ 2 * ((G y 0%nat - (B + 2 * D * y 0%nat + E * y 1%nat)) ^ 2 + (G y 1%nat - (C + E * y 0%nat + 2 * F * y 1%nat)) ^ 2)
      <= 1296 * M ^ 2 * (H ^ 2) ^ 4.
  Proof.
    intros HM HH W Hlip Hab Hbc Hca Ea Eb Ec Eab Ebc Eca y.
    assert (Z : forall v, dist2 v v = 0) by (intros v; unfold dist2; ring).
    assert (H0 : 0 <= H ^ 2) by apply pow2_ge_0.
    set (b0 := B + 2 * D * y 0%nat + E * y 1%nat - G y 0%nat). set (b1 := C + E * y 0%nat + 2 * F * y 1%nat - G y 1%nat).
    set (p := around_point y (quadratic A B C D E F y - poly po y) b0 b1 (D - / 2 * S 0%nat y 0%nat) (E - / 2 * (S 0%nat y 1%nat + S 1%nat y 0%nat)) (F - / 2 * S 1%nat y 1%nat)).
    assert (Ep : forall v, p v = quadratic A B C D E F v - taylor2 y v) by (intros v; unfold p, around_point, b0, b1, taylor2, quadratic; field).
    assert (Rem : forall v i j k, v = mix i j k a b c -> weights3 i j k -> poly po v = quadratic A B C D E F v -> Rabs (p v) <= 2 * M * H ^ 3).
    { intros v i j k Ev Wv Hv. rewrite Ep, <- Hv. eapply Rle_trans; [apply (second_remainder M y v HM)|].
      - intros e s t He Hs Ht w.
        assert (Ew : forall s, w s = mix ((1 - s) * l + s * i) ((1 - s) * m + s * j) ((1 - s) * n + s * k) a b c)
          by (intros s'; apply functional_extensionality; intros q; unfold w, y; rewrite Ev; unfold mix; ring).
        assert (Ww : forall s, 0 <= s <= 1 -> weights3 ((1 - s) * l + s * i) ((1 - s) * m + s * j) ((1 - s) * n + s * k)).
        { intros s' Hs'. destruct W as (W1 & W2 & W3 & W4), Wv as (V1 & V2 & V3 & V4).
          split; [|split; [|split]]; try (apply Rplus_le_le_0_compat; apply Rmult_le_pos; lra).
          transitivity ((1 - s') * (l + m + n) + s' * (i + j + k)); [ring|]. rewrite W4, V4. ring. }
        rewrite !Ew. apply Hlip; auto.
      - assert (Dv : dist2 v y <= H ^ 2).
        { apply mix_far; [exact W|..]; rewrite dist2_sym, Ev; (apply mix_far; [exact Wv|..]); rewrite ?Z; auto; by rewrite dist2_sym. }
        assert (Ab : forall q : R, q ^ 2 <= H ^ 2 -> Rabs q <= H).
        { intros q Hq. apply Rsqr_incr_0_var; [|exact HH]. rewrite <- Rsqr_abs. unfold Rsqr. lra. }
        assert (A0 : Rabs (v 0%nat - y 0%nat) <= H) by (apply Ab; pose proof (pow2_ge_0 (v 1%nat - y 1%nat)); unfold dist2 in Dv; lra).
        assert (A1 : Rabs (v 1%nat - y 1%nat) <= H) by (apply Ab; pose proof (pow2_ge_0 (v 0%nat - y 0%nat)); unfold dist2 in Dv; lra).
        apply Rle_trans with (M * H ^ 2 * (H + H)); [|right; ring].
        apply Rmult_le_compat; [apply Rmult_le_pos; [exact HM|apply dist2_pos]|pose proof (Rabs_pos (v 0%nat - y 0%nat)); pose proof (Rabs_pos (v 1%nat - y 1%nat)); lra| |lra].
        by apply Rmult_le_compat_l. }
    assert (T0 : 0 <= 2 * M * H ^ 3) by (apply Rmult_le_pos; [lra|by apply pow_le]).
    assert (Sm := small_slopes (2 * M * H ^ 3) H _ _ _ _ _ _ a b c l m n T0 HH W Hab Hca
      (Rem a 1 0 0 ltac:(apply functional_extensionality; intros s; unfold mix; ring) ltac:(unfold weights3; lra) Ea)
      (Rem b 0 1 0 ltac:(apply functional_extensionality; intros s; unfold mix; ring) ltac:(unfold weights3; lra) Eb)
      (Rem c 0 0 1 ltac:(apply functional_extensionality; intros s; unfold mix; ring) ltac:(unfold weights3; lra) Ec)
      (Rem (middle a b) (/ 2) (/ 2) 0 ltac:(apply functional_extensionality; intros s; unfold mix, middle; field) ltac:(unfold weights3; lra) Eab)
      (Rem (middle b c) 0 (/ 2) (/ 2) ltac:(apply functional_extensionality; intros s; unfold mix, middle; field) ltac:(unfold weights3; lra) Ebc)
      (Rem (middle c a) (/ 2) 0 (/ 2) ltac:(apply functional_extensionality; intros s; unfold mix, middle; field) ltac:(unfold weights3; lra) Eca)).
    replace ((G y 0%nat - (B + 2 * D * y 0%nat + E * y 1%nat)) ^ 2 + (G y 1%nat - (C + E * y 0%nat + 2 * F * y 1%nat)) ^ 2) with (b0 ^ 2 + b1 ^ 2)
      by (unfold b0, b1; ring).
    eapply Rle_trans; [exact Sm|]. right. ring.
  Qed.
End taylor.

(* ---- the quadratic interpolant ---- *)
Lemma middle_same v : middle v v = v.
Proof. apply functional_extensionality. intros i. unfold middle. field. Qed.
Lemma middle_swap u v : middle u v = middle v u.
Proof. apply functional_extensionality. intros i. unfold middle. field. Qed.
Section interpolant.
  Context {K : Type} `{Countable K} (x : K → vec) (cells domain : list (list K)).
  Context (Hcells : good_cells Tri2 x cells) (u : vec → R).
  Context (Hu : ∀ b k l, b ∈ domain → k ∈ b → l ∈ b → u (middle (x k) (x l)) = 0).

  Lemma quadratic_interpolant : ∃ F, piecewise Tri2 x cells domain F ∧
    ∀ c, c ∈ cells → of_degree 2 2 (F c) ∧ ∀ k l, k ∈ c → l ∈ c → poly (F c) (middle (x k) (x l)) = u (middle (x k) (x l)).
  Proof.
    destruct (choose (λ (c : list K) (F : polynomial), of_degree 2 2 F ∧ ∀ k l, k ∈ c → l ∈ c → poly F (middle (x k) (x l)) = u (middle (x k) (x l))) [] cells) as [F HF].
    { intros c Hc. destruct (Hcells c Hc) as [L V]. cbn in L. destruct c as [|k [|l [|m [|]]]]; try discriminate L.
      destruct (lagrange Tri2 (x <$> [k; l; m]) (λ a, u (node Tri2 (x <$> [k; l; m]) a))) as (p & Hp & Ep); [done|lra|].
      exists p. split; [exact Hp|].
      assert (E0 := Ep 0%nat ltac:(cbn; lia)). assert (E1 := Ep 1%nat ltac:(cbn; lia)). assert (E2 := Ep 2%nat ltac:(cbn; lia)).
      assert (E3 := Ep 3%nat ltac:(cbn; lia)). assert (E4 := Ep 4%nat ltac:(cbn; lia)). assert (E5 := Ep 5%nat ltac:(cbn; lia)).
      cbn in E0, E1, E2, E3, E4, E5.
      intros i j Hi Hj. rewrite !elem_of_cons, elem_of_nil in Hi, Hj.
      destruct Hi as [-> |[-> |[-> |[]]]]; destruct Hj as [-> |[-> |[-> |[]]]]; rewrite ?middle_same; try done; by rewrite middle_swap. }
    assert (Hline : ∀ c k l t, c ∈ cells → k ∈ c → l ∈ c → poly (F c) (between t (x k) (x l))
      = (1 - t) * (1 - 2 * t) * u (middle (x k) (x k)) + t * (2 * t - 1) * u (middle (x l) (x l)) + 4 * t * (1 - t) * u (middle (x k) (x l))).
    { intros c k l t Hc Hk Hl. destruct (HF c Hc) as [HD Hv]. rewrite (on_line Tri2) by exact HD. rewrite <- !Hv by done. by rewrite !middle_same. }
    exists F. split; [|done]. split_and!.
    - intros c Hc. by apply HF.
    - intros c c' k l t Hc Hc' Hk Hk' Hl Hl'. by rewrite !Hline.
    - intros c b k l t Hc Hb Hk Hkb Hl Hlb. rewrite Hline by done. rewrite !(Hu b) by done. ring.
  Qed.
End interpolant.
