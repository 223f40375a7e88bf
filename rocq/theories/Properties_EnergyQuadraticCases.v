(* Cases of C86 on quadratic triangles: the unit square, held on the left and on the right, cut into squares and each of
   them into two triangles. *)
From stdpp Require Import base gmap list sorting.
From Coq Require Import Reals Lra FunctionalExtensionality.
From Coquelicot Require Import Hierarchy Derive AutoDerive.
From Verif Require Import Base M_Tensor M_Geometry S_Geometry P_Volume.
From Verif Require Import M_Functions S_Functions P_Functions M_Quadrature S_Quadrature P_Quadrature P_Poly P_Integrator M_Topology M_Fem S_Fem P_Fem P_FemBlocks Properties_Fem.
From Verif Require Import P_Mesh S_Discrete M_System S_System Properties_System P_Poisson M_Solver S_Solver P_Solver P_Elimination Properties_Solver.
From Verif Require Import S_Stokes S_Energy P_Energy P_EnergyError Properties_Energy Properties_EnergyCases P_EnergyQuadratic Properties_EnergyQuadratic.
Local Open Scope nat_scope.

Local Lemma grid_zero n (u : vec → R) : 0 < n → (∀ y, y 0%nat = 0%R → u y = 0%R) → (∀ y, y 0%nat = 1%R → u y = 0%R) →
  ∀ b k l t, b ∈ grid_ends n → k ∈ b → l ∈ b → (0 <= t <= 1)%R → u (between t (grid_x n k) (grid_x n l)) = 0%R.
Proof.
  intros Hn H0 H1 b k l t (j & Hj & [-> | ->])%(in_ends n Hn) Hk Hl _; pose proof (grid_positive n Hn); rewrite !elem_of_cons, elem_of_nil in Hk, Hl.
  - apply H0. destruct Hk as [-> |[-> |[]]]; destruct Hl as [-> |[-> |[]]]; unfold between, grid_x, vec2; cbn; field; lra.
  - apply H1. destruct Hk as [-> |[-> |[]]]; destruct Hl as [-> |[-> |[]]]; unfold between, grid_x, vec2; cbn; field; lra.
Qed.
Local Lemma grid_shape n c k l : 0 < n → c ∈ grid_cells n → k ∈ c → l ∈ c → (euclid 2 (grid_x n k) (grid_x n l) <= 2 / INR n)%R ∧
  (1 / 4 * euclid 2 (grid_x n k) (grid_x n l) ^ 2 <= simplex_volume (grid_x n <$> c))%R.
Proof.
  intros Hn Hc Hk Hl. pose proof (grid_side n Hn c k l Hc Hk Hl) as Hside. pose proof (grid_positive n Hn).
  assert (Hq : (0 < / INR n)%R) by (by apply Rinv_0_lt_compat). split.
  - rewrite euclid_dist2. rewrite <- (sqrt_pow2 (2 / INR n)) by (unfold Rdiv; lra). apply sqrt_le_1_alt. unfold Rdiv. rewrite Rpow_mult_distr.
    assert (0 <= (/ INR n) ^ 2)%R by apply pow2_ge_0. lra.
  - rewrite euclid_square, (grid_volume n Hn) by done. lra.
Qed.

(* A rule with seven points, exact for the polynomials of degree 3. *)
Definition seven : rule :=
  [(vec2 1 0, 1 / 20); (vec2 0 1, 1 / 20); (vec2 0 0, 1 / 20);
   (vec2 (1 / 2) (1 / 2), 2 / 15); (vec2 0 (1 / 2), 2 / 15); (vec2 (1 / 2) 0, 2 / 15); (vec2 (1 / 3) (1 / 3), 9 / 20)]%R.
Lemma seven_exact : accurate 2 3 seven 0.
Proof. exact_rule. Qed.

(* - div grad of (x - x^3) / 6 is x. With 2 n^2 quadratic triangles, the energy of the difference of the program's
   field from (x - x^3) / 6 is at most (576 / n^2)^2. *)
Definition cubic : polynomial := [((1 / 6)%R, [1; 0]); ((- (1 / 6))%R, [3; 0])].
Definition cubic_flow (y : vec) : vec := vec2 (1 / 6 - y 0%nat ^ 2 / 2) 0.
Example C86_case_cubic n debug order visit : 0 < n → visits_set order → visits visit → ∃ fs d U,
  poisson_program Tri2 debug (λ s, fresh s) {[7]} (grid_point n) (grid_points n) (grid_cells n) (grid_ends n) seven (λ y, y 0%nat) order visit elimination
    = Ok (fs, d) ∧
  piecewise Tri2 (grid_x n) (grid_cells n) (grid_ends n) U ∧
  (∀ c k, c ∈ grid_cells n → k ∈ c → ∃ p, fs_node_map fs !! k = Some p ∧ ds_solution d !! p = Some (poly (U c) (grid_x n k))) ∧
  ∀ GU, (∀ c, c ∈ grid_cells n → has_gradient 2 (poly (U c)) (GU c)) → ∃ a,
    energy (grid_x n) (grid_cells n) (λ _, cubic_flow) GU a ∧ (a <= (576 / INR n ^ 2) ^ 2)%R.
Proof.
  intros Hn Horder Hvisit. pose proof (grid_positive n Hn) as Hp.
  assert (Hu : ∀ y, poly cubic y = (y 0%nat / 6 - y 0%nat ^ 3 / 6)%R) by (intros y; unfold poly, S_Geometry.total, cubic; cbn; lra).
  destruct (C86_quadratic debug (λ s, fresh s) (λ s, is_fresh s) {[7]} (grid_point n) (grid_points n) (grid_x n) (grid_cells n) (grid_ends n)
    (grid_placed n Hn) (grid_good n Hn Tri2 eq_refl) (grid_domain n Hn Tri2 eq_refl) (grid_anchored n Hn) cubic 1) with (G := cubic_flow)
    (S := λ i y, match i with 0 => vec2 (- y 0%nat) 0 | _ => vzero end) (f := λ y : vec, y 0%nat) (q := seven)
    (order := order) (visit := visit) (ksp := elimination) (M := 1%R) (h := (2 / INR n)%R) (sigma := (1 / 4)%R)
    as (fs & d & U & Hrun & HU & Hnode & _ & Herr).
  - constructor; [cbn; lia|]. constructor; [cbn; lia|constructor].
  - intros y j Hj. assert (Heq : poly cubic = λ y, (y 0%nat / 6 - y 0%nat ^ 3 / 6)%R) by (apply functional_extensionality, Hu). rewrite Heq.
    unfold partial, is_partial, num, with_component. destruct j as [|[|j]]; [| |lia]; unfold cubic_flow, vec2; cbn; auto_derive; try done; cbn; lra.
  - intros i Hi y j Hj. unfold partial, is_partial, num, with_component. destruct i as [|[|i]]; [| |lia]; (destruct j as [|[|j]]; [| |lia]);
      unfold cubic_flow, vec2, vzero; cbn; auto_derive; try done; cbn; lra.
  - intros y. exists (λ i, match i with 0 => (- y 0%nat)%R | _ => 0%R end). split; [|cbn; lra].
    intros i Hi. unfold is_partial, with_component. destruct i as [|[|i]]; [| |lia]; unfold cubic_flow, vec2; cbn; auto_derive; try done; cbn; lra.
  - by apply (grid_matching n Hn).
  - intros p w Hw. cbn in Hw. decompose [or] Hw; try done; match goal with X : (_, _) = (_, _) |- _ => injection X as <- <- end; lra.
  - exists (vec2 1 0), (1 / 20)%R, (vec2 0 1), (1 / 20)%R, (vec2 0 0), (1 / 20)%R. unfold not_aligned, vec2. cbn. split_and!; auto; lra.
  - intros p v Hd Hv. pose proof (poly_error 2 3 seven 0 p v seven_exact Hd Hv) as B. rewrite Rmult_0_l in B.
    destruct (Req_dec (quadrature 2 seven (poly p) - v) 0) as [e|e]; [lra|]. pose proof (Rabs_pos_lt _ e). lra.
  - done.
  - done.
  - apply elimination_good.
  - apply (grid_zero n (poly cubic) Hn); intros y Hy; rewrite Hu, Hy; lra.
  - lra.
  - lra.
  - intros c i y z _ Hi _ _. rewrite Rmult_1_l, !euclid_dist2. apply sqrt_le_1_alt. unfold dist2.
    assert (0 <= (y 1%nat - z 1%nat) ^ 2)%R by apply pow2_ge_0. assert (0 <= (y 0%nat - z 0%nat) ^ 2)%R by apply pow2_ge_0.
    destruct i as [|i]; unfold vec2, vzero; cbn; lra.
  - intros c k l. by apply grid_shape.
  - exists fs, d, U. split_and!; [done..|]. intros GU HGU. destruct (Herr GU HGU) as (a & Ha & Hle). exists a. split; [done|].
    eapply Rle_trans; [exact Hle|]. rewrite grid_area by done. right. field. lra.
Qed.

(* With the rule of degree two of the library and the source 1, quadratic triangles give x (1 - x) / 2 exactly. *)
Example C86_case_exact n debug order visit : 0 < n → visits_set order → visits visit → ∃ fs d U,
  poisson_program Tri2 debug (λ s, fresh s) {[7]} (grid_point n) (grid_points n) (grid_cells n) (grid_ends n) triangle_2 (λ _, 1%R) order visit elimination
    = Ok (fs, d) ∧
  piecewise Tri2 (grid_x n) (grid_cells n) (grid_ends n) U ∧
  (∀ c k, c ∈ grid_cells n → k ∈ c → ∃ p, fs_node_map fs !! k = Some p ∧ ds_solution d !! p = Some (poly (U c) (grid_x n k))) ∧
  ∀ GU, (∀ c, c ∈ grid_cells n → has_gradient 2 (poly (U c)) (GU c)) → ∃ a,
    energy (grid_x n) (grid_cells n) (λ _, flow) GU a ∧ (a <= 0)%R.
Proof.
  intros Hn Horder Hvisit. pose proof (grid_positive n Hn) as Hp.
  destruct (C51_kernel_tables Tri2 2 triangle_2 eq_refl ltac:(cbn; lia)) as [Hs HP].
  assert (Hu : ∀ y, poly parabola y = (y 0%nat / 2 - y 0%nat ^ 2 / 2)%R) by (intros y; unfold poly, S_Geometry.total, parabola; cbn; lra).
  destruct (C86_quadratic debug (λ s, fresh s) (λ s, is_fresh s) {[7]} (grid_point n) (grid_points n) (grid_x n) (grid_cells n) (grid_ends n)
    (grid_placed n Hn) (grid_good n Hn Tri2 eq_refl) (grid_domain n Hn Tri2 eq_refl) (grid_anchored n Hn) parabola 0) with (G := flow)
    (S := λ i (_ : vec), match i with 0 => vec2 (-1) 0 | _ => vzero end) (f := λ _ : vec, 1%R) (q := triangle_2)
    (order := order) (visit := visit) (ksp := elimination) (M := 0%R) (h := (2 / INR n)%R) (sigma := (1 / 4)%R)
    as (fs & d & U & Hrun & HU & Hnode & _ & Herr).
  - constructor; [cbn; lia|]. constructor; [cbn; lia|constructor].
  - intros y j Hj. assert (Heq : poly parabola = λ y, (y 0%nat / 2 - y 0%nat ^ 2 / 2)%R) by (apply functional_extensionality, Hu). rewrite Heq.
    unfold partial, is_partial, num, with_component. destruct j as [|[|j]]; [| |lia]; unfold flow, vec2; cbn; auto_derive; try done; cbn; lra.
  - intros i Hi y j Hj. unfold partial, is_partial, num, with_component. destruct i as [|[|i]]; [| |lia]; (destruct j as [|[|j]]; [| |lia]);
      unfold flow, vec2, vzero; cbn; auto_derive; try done; cbn; lra.
  - intros y. exists (λ i, match i with 0 => (-1)%R | _ => 0%R end). split; [|cbn; lra].
    intros i Hi. unfold is_partial, with_component. destruct i as [|[|i]]; [| |lia]; unfold flow, vec2; cbn; auto_derive; try done; cbn; lra.
  - by apply (grid_matching n Hn).
  - intros p w Hw. left. by apply (HP p).
  - done.
  - apply (C51_exact_tables Tri2 2); [done|cbn; auto|lia].
  - done.
  - done.
  - apply elimination_good.
  - apply (grid_zero n (poly parabola) Hn); intros y Hy; rewrite Hu, Hy; lra.
  - lra.
  - lra.
  - intros c i y z _ Hi _ _. rewrite Rmult_0_l, euclid_dist2. replace (dist2 _ _) with 0%R by (unfold dist2; ring). rewrite sqrt_0. lra.
  - intros c k l. by apply grid_shape.
  - exists fs, d, U. split_and!; [done..|]. intros GU HGU. destruct (Herr GU HGU) as (a & Ha & Hle). exists a. split; [done|].
    eapply Rle_trans; [exact Hle|]. rewrite grid_area by done. right. field. lra.
Qed.
