(* C86: on quadratic triangles the error of the field that the Poisson program computes is of second order. *)
From stdpp Require Import base gmap list sorting.
From Coq Require Import Reals Lra FunctionalExtensionality.
From Verif Require Import Base M_Tensor M_Geometry S_Geometry P_Volume.
From Verif Require Import M_Functions S_Functions P_Functions M_Quadrature S_Quadrature P_Quadrature P_Poly P_Gauss P_Bernstein P_Integrator P_Converge M_Topology M_Fem S_Fem P_Fem P_FemBlocks P_FemNorms Properties_Fem.
From Verif Require Import P_Mesh S_Discrete M_System S_System P_System Properties_System P_Galerkin M_Poisson S_Poisson P_Poisson Properties_Poisson.
From Verif Require Import M_Solver S_Solver P_Solver P_SolverMesh Properties_Solver S_Stokes P_Stokes S_Energy P_Energy P_EnergyError Properties_Energy P_EnergyQuadratic.
Local Open Scope nat_scope.

Section C86.
  Context {K : Type} `{Countable K} (debug : bool).
  Context (fresh : gset nat → nat) (Hfresh : fresh_ok fresh) (alive : gset nat).
  Context (point : K → nat) (cs : csys) (x : K → vec) (cells domain : list (list K)).
  Context (Hplaced : ∀ k, k ∈ concat cells → find_point (point k) cs = Some (x k)).
  Context (Hcells : good_cells Tri2 x cells) (Hdom : good_domain Tri2 cells domain) (Hanch : anchored cells domain).

  (* the problem - div grad u = f with a polynomial solution, as in Properties_Energy.v, and the gradients S 0 and S 1 of
     the two components of the gradient G of u *)
  Context (u : polynomial) (r : nat) (Hu : of_degree 2 (S (S r)) u) (G : vec → vec) (HG : has_gradient 2 (poly u) G).
  Context (S : nat → vec → vec) (HS : ∀ i, i < 2 → has_gradient 2 (λ y, G y i) (S i)).
  Context (f : vec → R) (Hf : is_divergence 2 G (λ y, - f y)%R) (Hmatch : matching x cells domain G).

  (* a rule exact for the products of the source and the shape functions *)
  Context (q : rule) (Hq : ∀ p w, In (p, w) q → (0 <= w)%R) (Hsees : sees_gradients Tri2 q) (Hexact : exact_to 2 (r + 2) q).
  Context (order : gset nat → list nat) (Horder : visits_set order).
  Context (visit : gmap nat Z → list (nat * Z)) (Hvisit : visits visit).
  Context (ksp : krylov) (Hksp : good_solver ksp).

  (* If u is zero along the domain of the constraints, if its second derivatives do not change by more than M for each
     unit of length in a triangle, if the sides of the triangles are at most h long, and the area of a triangle is at
     least sigma times the square of each of its sides, then the energy of the difference is at most
     (36 M h^2 / sigma)^2 for each unit of area. *)
  Local Lemma quadratic_rate U (M h sigma : R) : piecewise Tri2 x cells domain U → weak_solution Tri2 x cells domain q f U →
    (∀ b k l t, b ∈ domain → k ∈ b → l ∈ b → (0 <= t <= 1)%R → poly u (between t (x k) (x l)) = 0%R) → (0 <= M)%R → (0 < sigma)%R →
    (∀ c i y z, c ∈ cells → i < 2 → inside 2 (x <$> c) y → inside 2 (x <$> c) z → (euclid 2 (S i y) (S i z) <= M * euclid 2 y z)%R) →
    (∀ c k l, c ∈ cells → k ∈ c → l ∈ c → (euclid 2 (x k) (x l) <= h)%R ∧ (sigma * euclid 2 (x k) (x l) ^ 2 <= simplex_volume (x <$> c))%R) →
    ∀ GU a, (∀ c, c ∈ cells → has_gradient 2 (poly (U c)) (GU c)) → energy x cells (λ _, G) GU a →
      (a <= (36 * M * h ^ 2 / sigma) ^ 2 * S_Geometry.total (map (λ c, simplex_volume (x <$> c)) cells))%R.
  Proof.
    intros HU HwU Hz HM Hsigma Hlip Hside GU a HGU Ha.
    destruct (quadratic_interpolant x cells domain Hcells (poly u)) as (F & HF & HFl).
    { intros c k l Hc Hk Hl. assert (Hmid : middle (x k) (x l) = between (1 / 2) (x k) (x l))
        by (apply functional_extensionality; intros i; unfold middle, between; field). rewrite Hmid. apply (Hz c); done || lra. }
    set (GF (c : list K) (y : vec) (j : nat) := poly (dpoly j (F c)) y).
    assert (HGF : ∀ c, c ∈ cells → has_gradient 2 (poly (F c)) (GF c)).
    { intros c Hc. apply (dpoly_gradient 2 2). by apply HFl. }
    destruct (Properties_Energy.energy_exists Tri2 eq_refl x cells Hcells (λ _, G) GF (r + 2)) as (b & Hb).
    { intros c i Hc Hi. destruct (Properties_Energy.field_poly Tri2 eq_refl u r Hu G HG) as (Q & HQ). destruct (HQ i Hi) as [Di Ei].
      apply (expressible_le 2 (Datatypes.S r)); [lia|]. by exists (Q i). }
    { intros c i Hc Hi. apply (expressible_le 2 1); [lia|].
      apply (Properties_Energy.slope_poly Tri2 eq_refl x cells domain Hcells Hdom r q Hsees Hexact (F c)); auto. by apply HF. }
    refine (Rle_trans _ _ _ (Properties_Energy.best Tri2 eq_refl x cells domain Hcells Hdom u r Hu G HG f Hf Hmatch q Hsees Hexact U F GU GF a b HU HwU HF HGU HGF Ha Hb) _).
    assert (cell_facts := Properties_Energy.cell_facts Tri2 eq_refl x cells Hcells).
    rewrite <- total_map_scal. refine (whole_bound x cells _ b (λ _, (36 * M * h ^ 2 / sigma) ^ 2)%R cell_facts Hb _).
    intros c y Hc Hy. destruct (cell_facts c Hc) as [L Vol]. destruct (HFl c Hc) as [DF EF].
    destruct (normal_3 (F c) DF) as (A & B & C & D & E & J & N).
    assert (HB : GF c y 0%nat = (B + 2 * D * y 0%nat + E * y 1%nat)%R).
    { apply (partial_quadratic A B C D E J y 0); [|lia]. apply (partial_ext (poly (F c))); [exact N|]. apply (HGF c Hc y 0 ltac:(lia)). }
    assert (HC : GF c y 1%nat = (C + E * y 0%nat + 2 * J * y 1%nat)%R).
    { apply (partial_quadratic A B C D E J y 1); [|lia]. apply (partial_ext (poly (F c))); [exact N|]. apply (HGF c Hc y 1 ltac:(lia)). }
    destruct c as [|k [|l [|m [|]]]]; try discriminate L. change (x <$> [k; l; m]) with [x k; x l; x m] in *.
    destruct Hy as (ws & Lw & Pw & Sw & Ey). destruct ws as [|w0 [|w1 [|w2 [|]]]]; try discriminate Lw.
    assert (W : weights3 w0 w1 w2).
    { inversion Pw as [|? ? P0 Pw1]; subst. inversion Pw1 as [|? ? P1 Pw2]; subst. inversion Pw2 as [|? ? P2 _]; subst.
      unfold S_Geometry.total in Sw. cbn in Sw. unfold weights3. lra. }
    assert (Hin : ∀ i j s, weights3 i j s → inside 2 [x k; x l; x m] (mix i j s (x k) (x l) (x m))).
    { intros i j s (I & I' & S' & T). exists [i; j; s]. split_and!; [done|by constructor; [|constructor; [|constructor; [|constructor]]]|unfold S_Geometry.total; cbn; lra|].
      intros n _. unfold mix, combo. cbn. ring. }
    set (z := mix w0 w1 w2 (x k) (x l) (x m)).
    assert (Gz : ∀ i, i < 2 → G y i = G z i).
    { intros i Hi. rewrite !(gradient_dpoly 2 (Datatypes.S (Datatypes.S r)) u G) by done. apply (poly_agree 2 (Datatypes.S (Datatypes.S r))); [by apply degree_dpoly|].
      intros j Hj. rewrite (Ey j Hj). unfold z, mix, combo. cbn. ring. }
    assert (Yz : ∀ i, i < 2 → y i = z i).
    { intros i Hi. rewrite (Ey i Hi). unfold z, mix, combo. cbn. ring. }
    (* the longest side *)
    set (H2 := Rmax (dist2 (x k) (x l)) (Rmax (dist2 (x l) (x m)) (dist2 (x m) (x k)))).
    assert (Hk : k ∈ [k; l; m]) by left. assert (Hl : l ∈ [k; l; m]) by (right; left). assert (Hm : m ∈ [k; l; m]) by (right; right; left).
    assert (S1 : (dist2 (x k) (x l) <= H2)%R) by apply Rmax_l.
    assert (S2 : (dist2 (x l) (x m) <= H2)%R) by (eapply Rle_trans; [apply Rmax_l|apply Rmax_r]).
    assert (S3 : (dist2 (x m) (x k) <= H2)%R) by (eapply Rle_trans; [apply Rmax_r|apply Rmax_r]).
    assert (Hd : ∀ i j, i ∈ [k; l; m] → j ∈ [k; l; m] → (dist2 (x i) (x j) <= h ^ 2)%R ∧ (sigma * dist2 (x i) (x j) <= simplex_volume [x k; x l; x m])%R).
    { intros i j Hi Hj. destruct (Hside [k; l; m] i j Hc Hi Hj) as [T1 T2]. rewrite <- !euclid_square. split; [|done].
      apply pow_incr. split; [apply sqrt_pos|done]. }
    assert (HH : (H2 <= h ^ 2)%R ∧ (sigma * H2 <= simplex_volume [x k; x l; x m])%R).
    { unfold H2. apply Rmax_case; [by apply Hd|]. apply Rmax_case; by apply Hd. }
    destruct HH as [HHh HHs]. assert (H0 : (0 <= H2)%R) by (eapply Rle_trans; [apply dist2_pos|exact S1]).
    assert (HS2 : (sqrt H2 ^ 2 = H2)%R) by (by apply pow2_sqrt).
    set (B' := (B + 2 * D * z 0%nat + E * z 1%nat)%R). set (C' := (C + E * z 0%nat + 2 * J * z 1%nat)%R).
    assert (Sl := quadratic_slopes (Datatypes.S (Datatypes.S r)) u Hu G HG S HS M (sqrt H2) A B C D E J (x k) (x l) (x m) w0 w1 w2 HM (sqrt_pos _) W).
    rewrite HS2 in Sl. cbv zeta in Sl. fold z in Sl. fold B' C' in Sl.
    assert (Sl' : (simplex_volume [x k; x l; x m] ^ 2 * ((G z 0%nat - B') ^ 2 + (G z 1%nat - C') ^ 2) <= 1296 * M ^ 2 * H2 ^ 4)%R).
    { apply Sl; [|done|done|done|..].
      - intros e i j s i' j' s' He Wi Wi'. rewrite <- !euclid_square. rewrite <- Rpow_mult_distr.
        apply pow_incr. split; [apply sqrt_pos|]. apply (Hlip [k; l; m]); [done|done|by apply Hin|by apply Hin].
      - rewrite <- (middle_same (x k)), <- (EF k k Hk Hk), N. done.
      - rewrite <- (middle_same (x l)), <- (EF l l Hl Hl), N. done.
      - rewrite <- (middle_same (x m)), <- (EF m m Hm Hm), N. done.
      - rewrite <- (EF k l Hk Hl), N. done.
      - rewrite <- (EF l m Hl Hm), N. done.
      - rewrite <- (EF m k Hm Hk), N. done. }
    clear Sl Hlip Hside Hin EF N.
    unfold dot, vsub. cbn [rsum]. rewrite HB, HC, !Gz by lia. rewrite !Yz by lia. fold B' C'.
    replace (0 + (G z 0%nat - B') * (G z 0%nat - B') + (G z 1%nat - C') * (G z 1%nat - C'))%R with ((G z 0%nat - B') ^ 2 + (G z 1%nat - C') ^ 2)%R by ring.
    set (X := ((G z 0%nat - B') ^ 2 + (G z 1%nat - C') ^ 2)%R) in *.
    assert (X0 : (0 <= X)%R) by (unfold X; pose proof (pow2_ge_0 (G z 0%nat - B')); pose proof (pow2_ge_0 (G z 1%nat - C')); lra).
    set (v := simplex_volume [x k; x l; x m]) in *.
    assert (Hpos : (0 < H2)%R).
    { destruct (Rle_lt_or_eq_dec 0 H2 H0) as [?|Z]; [done|]. exfalso. rewrite <- Z in *.
      assert (dz : dist2 (x k) (x l) = 0%R) by (pose proof (dist2_pos (x k) (x l)); lra).
      assert (v = 0%R); [|lra]. unfold dist2 in dz. unfold v, simplex_volume, det_vecs, vsub. cbn.
      pose proof (pow2_ge_0 (x k 0%nat - x l 0%nat)). pose proof (pow2_ge_0 (x k 1%nat - x l 1%nat)).
      assert (a0 : (x k 0%nat - x l 0%nat = 0)%R) by (apply Rsqr_0_uniq; unfold Rsqr; lra).
      assert (a1 : (x k 1%nat - x l 1%nat = 0)%R) by (apply Rsqr_0_uniq; unfold Rsqr; lra).
      replace (x l 0%nat) with (x k 0%nat) by lra. replace (x l 1%nat) with (x k 1%nat) by lra. field. }
    assert (Y1 : ((sigma * H2) ^ 2 * X <= 1296 * M ^ 2 * H2 ^ 4)%R).
    { eapply Rle_trans; [|exact Sl']. apply Rmult_le_compat_r; [done|]. apply pow_incr. split; [apply Rmult_le_pos; lra|done]. }
    assert (Y2 : (sigma ^ 2 * X <= 1296 * M ^ 2 * H2 ^ 2)%R).
    { apply (Rmult_le_reg_l (H2 ^ 2)); [by apply pow_lt|]. replace (H2 ^ 2 * (sigma ^ 2 * X))%R with ((sigma * H2) ^ 2 * X)%R by ring.
      eapply Rle_trans; [exact Y1|]. right. ring. }
    apply (Rmult_le_reg_l (sigma ^ 2)); [by apply pow_lt|]. eapply Rle_trans; [exact Y2|].
    replace (sigma ^ 2 * (36 * M * h ^ 2 / sigma) ^ 2)%R with (1296 * M ^ 2 * (h ^ 2) ^ 2)%R by (field; lra).
    apply Rmult_le_compat_l; [apply Rmult_le_pos; [lra|apply pow2_ge_0]|]. apply pow_incr. lra.
  Qed.

  Theorem C86_quadratic (M h sigma : R) : (∀ b k l t, b ∈ domain → k ∈ b → l ∈ b → (0 <= t <= 1)%R → poly u (between t (x k) (x l)) = 0%R) → (0 <= M)%R → (0 < sigma)%R →
    (∀ c i y z, c ∈ cells → i < 2 → inside 2 (x <$> c) y → inside 2 (x <$> c) z → (euclid 2 (S i y) (S i z) <= M * euclid 2 y z)%R) →
    (∀ c k l, c ∈ cells → k ∈ c → l ∈ c → (euclid 2 (x k) (x l) <= h)%R ∧ (sigma * euclid 2 (x k) (x l) ^ 2 <= simplex_volume (x <$> c))%R) →
    ∃ fs d U,
      poisson_program Tri2 debug fresh alive point cs cells domain q f order visit ksp = Ok (fs, d) ∧
      piecewise Tri2 x cells domain U ∧
      (∀ c k, c ∈ cells → k ∈ c → ∃ p, fs_node_map fs !! k = Some p ∧ ds_solution d !! p = Some (poly (U c) (x k))) ∧
      (∀ c nodes a p, (c, nodes) ∈ fs_elements fs → nodes !! a = Some p →
         ds_solution d !! p = Some (poly (U c) (node Tri2 (x <$> c) a))) ∧
      ∀ GU, (∀ c, c ∈ cells → has_gradient 2 (poly (U c)) (GU c)) → ∃ a, energy x cells (λ _, G) GU a ∧
        (a <= (36 * M * h ^ 2 / sigma) ^ 2 * S_Geometry.total (map (λ c, simplex_volume (x <$> c)) cells))%R.
  Proof.
    intros Hz HM Hsigma Hlip Hside.
    destruct (C74_solution Tri2 debug fresh Hfresh alive point cs x cells domain Hplaced Hcells Hdom Hanch q Hq Hsees f
      order Horder visit Hvisit ksp Hksp) as (fs & d & U & Hrun & HU & HwU & Hnodes & Hels & _). exists fs, d, U.
    split_and!; [done|done|done|done|]. intros GU HGU.
    destruct (Properties_Energy.energy_exists Tri2 eq_refl x cells Hcells (λ _, G) GU (r + 2)) as (a & Ha).
    - intros c i Hc Hi. destruct (Properties_Energy.field_poly Tri2 eq_refl u r Hu G HG) as (Q & HQ). destruct (HQ i Hi) as [Di Ei].
      apply (expressible_le 2 (Datatypes.S r)); [lia|]. by exists (Q i).
    - intros c i Hc Hi. apply (expressible_le 2 1); [lia|].
      apply (Properties_Energy.slope_poly Tri2 eq_refl x cells domain Hcells Hdom r q Hsees Hexact (U c)); auto. by apply HU.
    - exists a. split; [done|]. by apply (quadratic_rate U M h sigma HU HwU Hz HM Hsigma Hlip Hside GU a).
  Qed.
End C86.
Print Assumptions C86_quadratic.
