(* C86: on triangles, the field that the Poisson program computes is the best approximation of the solution of the
   differential equation, and it converges to it. *)
From stdpp Require Import base gmap list sorting.
From Coq Require Import Reals Lra FunctionalExtensionality.
From Verif Require Import Base M_Tensor M_Geometry S_Geometry P_Volume.
From Verif Require Import M_Functions S_Functions P_Functions M_Quadrature S_Quadrature P_Quadrature P_Poly P_Gauss P_Bernstein P_Integrator P_Converge M_Topology M_Fem S_Fem P_Fem P_FemBlocks P_FemNorms Properties_Fem.
From Verif Require Import P_Mesh S_Discrete M_System S_System P_System Properties_System P_Galerkin M_Poisson S_Poisson P_Poisson Properties_Poisson.
From Verif Require Import M_Solver S_Solver P_Solver P_SolverMesh Properties_Solver S_Stokes P_Stokes S_Energy P_Energy P_EnergyError.
Local Open Scope nat_scope.

(* ---- integrals over the cells ---- *)

Section whole.
  Context {K : Type} (x : K → vec) (cells : list (list K)).

  Lemma whole_unique h v v' : whole_integral x cells h v → whole_integral x cells h v' → v = v'.
  Proof.
    intros (vs & Hvs & ->) (ws & Hws & ->). f_equal. revert ws Hws. induction Hvs as [|c v cs vs Hv _ IH]; intros ws Hws; [by inversion Hws|].
    apply Forall2_cons_inv_l in Hws as (w & ws' & Hw & Hws' & ->). f_equal; [by apply (cell_integral_unique 2 (x <$> c) (h c))|by apply IH].
  Qed.
  Lemma whole_map h (F : list K → R) : (∀ c, c ∈ cells → cell_integral 2 (x <$> c) (h c) (F c)) → whole_integral x cells h (S_Geometry.total (map F cells)).
  Proof.
    intros HF. exists (map F cells). split; [|done]. induction cells as [|c cs IH]; cbn [map]; constructor; [apply HF; left|].
    apply IH. intros c' Hc'. apply HF. by right.
  Qed.
  Lemma whole_combination h h' h'' (a b v w : R) : whole_integral x cells h v → whole_integral x cells h' w →
    (∀ c y, c ∈ cells → h'' c y = (a * h c y + b * h' c y)%R) → whole_integral x cells h'' (a * v + b * w)%R.
  Proof.
    intros (vs & Hvs & ->) (ws & Hws & ->) Hh.
    assert (X : ∃ us, Forall2 (λ c u, cell_integral 2 (x <$> c) (h'' c) u) cells us ∧
      (a * S_Geometry.total vs + b * S_Geometry.total ws)%R = S_Geometry.total us); [|destruct X as (us & ? & ?); by exists us].
    revert ws Hws. induction Hvs as [|c v cs vs Hv _ IH]; intros ws Hws.
    - inversion Hws. exists []. split; [constructor|]. unfold S_Geometry.total. cbn. ring.
    - apply Forall2_cons_inv_l in Hws as (w & ws' & Hw & Hws' & ->).
      destruct (IH ltac:(intros c' y Hc'; apply Hh; by right) ws' Hws') as (us & Hus & Et).
      exists ((a * v + b * w)%R :: us). split.
      + constructor; [|done]. destruct Hv as (v' & Hv & ->), Hw as (w' & Hw & ->). exists (a * v' + b * w')%R. split; [|ring].
        apply (is_integral_ext 2 1 (λ s, a * h c (barycentric 2 (x <$> c) s) + b * h' c (barycentric 2 (x <$> c) s))%R).
        * intros s. cbv beta. symmetry. apply Hh. left.
        * apply is_integral_plus; by apply is_integral_scal.
      + unfold S_Geometry.total in *. cbn [fold_right]. lra.
  Qed.
  Lemma whole_bound h v e : (∀ c, c ∈ cells → length c = 3 ∧ (0 < simplex_volume (x <$> c))%R) → whole_integral x cells h v →
    (∀ c y, c ∈ cells → inside 2 (x <$> c) y → (h c y <= e c)%R) →
    (v <= S_Geometry.total (map (λ c, e c * simplex_volume (x <$> c)) cells))%R.
  Proof.
    intros Hc (vs & Hvs & ->) He. induction Hvs as [|c v cs vs Hv _ IH]; [unfold S_Geometry.total; cbn; lra|].
    cbn [map]. change (S_Geometry.total (?a :: ?l)) with (a + S_Geometry.total l)%R. apply Rplus_le_compat.
    - destruct Hv as (u & Hu & ->). destruct (Hc c ltac:(left)) as [L V].
      assert (P : (0 <= e c * (1 ^ 2 / INR (fact 2)) + -1 * u)%R).
      { refine (is_integral_nonneg 2 1 (λ s, e c + -1 * h c (barycentric 2 (x <$> c) s))%R _ Rle_0_1 _ _).
        - apply is_integral_plus; [apply is_integral_const|apply is_integral_scal, Hu].
        - intros s Hs. assert (h c (barycentric 2 (x <$> c) s) <= e c)%R; [|lra]. apply He; [left|].
          apply barycentric_inside; [by rewrite fmap_length|done]. }
      unfold area. cbn in P |- *. assert (u <= e c * / 2)%R by lra.
      apply Rle_trans with (2 * simplex_volume (x <$> c) * (e c * / 2))%R; [|right; field].
      replace (simplex_volume (x <$> c) / (1 / (1 + 1)) * u)%R with (2 * simplex_volume (x <$> c) * u)%R by (field; lra).
      apply Rmult_le_compat_l; lra.
    - apply IH; [intros c' Hc'; apply Hc; by right|intros c' y Hc'; apply He; by right].
  Qed.
  Lemma whole_nonneg h v : (∀ c, c ∈ cells → length c = 3 ∧ (0 < simplex_volume (x <$> c))%R) → whole_integral x cells h v →
    (∀ c y, c ∈ cells → (0 <= h c y)%R) → (0 <= v)%R.
  Proof.
    intros Hc Hv Hh. assert (Hm : whole_integral x cells (λ c y, - h c y)%R (-1 * v + 0 * v)%R).
    { apply (whole_combination h h); [done|done|]. intros; lra. }
    assert (B := whole_bound _ _ (λ _, 0%R) Hc Hm ltac:(intros c y Hcc _; specialize (Hh c y Hcc); cbn; lra)).
    cbv beta in B. rewrite (total_map_scal (λ c : list K, simplex_volume (x <$> c)) 0%R) in B. lra.
  Qed.

  Lemma whole_exact E s q h : edim E = 2 → (∀ c, c ∈ cells → length c = 3) → exact_to 2 s q →
    (∀ c, c ∈ cells → expressible 2 s (h c)) → whole_integral x cells h (mesh_integral E x cells q h).
  Proof.
    intros HE HL Hq Hh. unfold mesh_integral. apply whole_map. intros c Hc. destruct (Hh c Hc) as (p & Hp & Ep). specialize (HL c Hc).
    destruct c as [|k [|l [|m [|]]]]; try discriminate HL. change (x <$> [k; l; m]) with [x k; x l; x m].
    exists (Fl p [x k; x l; x m]). split.
    - apply (is_integral_ext 2 1 (λ s, poly p (barycentric 2 [x k; x l; x m] s))); [intros; symmetry; apply Ep|]. by apply (Fl_integral 2 2 s).
    - rewrite (total_map_ext _ (λ pw, snd pw * poly p (barycentric 2 [x k; x l; x m] (fst pw)))%R) by (intros pw _; by rewrite position_barycentric, <- Ep).
      rewrite (exact_value s) by done. unfold area. cbn. field.
  Qed.
  Lemma whole_exists h s : (∀ c, c ∈ cells → length c = 3) → (∀ c, c ∈ cells → expressible 2 s (h c)) → ∃ v, whole_integral x cells h v.
  Proof.
    intros HL Hh. induction cells as [|c cs IH]; [by exists 0%R, []; split; [constructor|]|].
    destruct IH as (v & vs & Hvs & ->); [intros; apply HL; by right|intros; apply Hh; by right|].
    destruct (Hh c ltac:(left)) as (p & Hp & Ep). eexists _, (_ :: vs). split; [constructor; [|done]|done].
    eexists. split; [|reflexivity].
    apply (is_integral_ext 2 1 (λ s, poly p (barycentric 2 (x <$> c) s))); [intros; symmetry; apply Ep|].
    apply (Fl_integral 2 2 s); [done|]. rewrite fmap_length. apply HL. left.
  Qed.
End whole.

Local Lemma mesh_combination {K} E (x : K → vec) cells q h h' h'' (a b : R) : (∀ c y, c ∈ cells → h'' c y = (a * h c y + b * h' c y)%R) →
  mesh_integral E x cells q h'' = (a * mesh_integral E x cells q h + b * mesh_integral E x cells q h')%R.
Proof.
  intros Hh. unfold mesh_integral. rewrite <- !total_map_scal, <- total_map_plus. apply total_map_ext. intros c Hc. apply elem_of_list_In in Hc.
  rewrite (total_map_ext _ (λ pw, a * (snd pw * h c (position E (x <$> c) (fst pw))) + b * (snd pw * h' c (position E (x <$> c) (fst pw))))%R)
    by (intros pw _; rewrite Hh by done; ring).
  rewrite total_map_plus, !total_map_scal. ring.
Qed.

Section difference.
  Context {K : Type} (E : element_type) (HE : edim E = 2) (x : K → vec) (cells domain : list (list K)).
  Lemma piecewise_minus U V : piecewise E x cells domain U → piecewise E x cells domain V → piecewise E x cells domain (λ c, U c ++ pscale (-1) (V c)).
  Proof.
    intros (U1 & U2 & U3) (V1 & V2 & V3). split_and!.
    - intros c Hc. apply degree_app; [by apply U1|]. by apply degree_pscale, V1.
    - intros c c' k l t Hc Hc' Hk Hk' Hl Hl'. rewrite !poly_app, !poly_pscale. by rewrite (U2 c c' k l t), (V2 c c' k l t).
    - intros c b k l t Hc Hb Hk Hkb Hl Hlb. rewrite poly_app, poly_pscale. rewrite (U3 c b k l t), (V3 c b k l t) by done. ring.
  Qed.
End difference.
Lemma gradient_minus D r (p p' : polynomial) G G' : of_degree D r p → of_degree D r p' → has_gradient D (poly p) G → has_gradient D (poly p') G' →
  has_gradient D (poly (p ++ pscale (-1) p')) (λ y, vsub (G y) (G' y)).
Proof.
  intros Hp Hp' HG HG' y j Hj. unfold partial, is_partial, num. specialize (HG y j Hj). specialize (HG' y j Hj). unfold partial, is_partial, num in HG, HG'.
  pose proof (derivable_pt_lim_minus _ _ _ _ _ HG HG') as H. unfold minus_fct in H.
  unfold vsub. replace (λ t, poly (p ++ pscale (-1) p') (with_component y j t)) with (λ t, poly p (with_component y j t) - poly p' (with_component y j t))%R; [done|].
  apply functional_extensionality. intros t. rewrite poly_app, poly_pscale. ring.
Qed.

(* ---- C86 ---- *)

Section C86.
  Context {K : Type} `{Countable K} (E : element_type) (HE : edim E = 2) (debug : bool).
  Context (fresh : gset nat → nat) (Hfresh : fresh_ok fresh) (alive : gset nat).
  Context (point : K → nat) (cs : csys) (x : K → vec) (cells domain : list (list K)).
  Context (Hplaced : ∀ k, k ∈ concat cells → find_point (point k) cs = Some (x k)).
  Context (Hcells : good_cells E x cells) (Hdom : good_domain E cells domain) (Hanch : anchored cells domain).

  (* the problem - div grad u = f with a polynomial solution; the triangles match along their sides, and where they
     do not, either the side is in the domain of the constraints or the derivative of u normal to it is zero *)
  Context (u : polynomial) (r : nat) (Hu : of_degree 2 (S (S r)) u) (G : vec → vec) (HG : has_gradient 2 (poly u) G).
  Context (f : vec → R) (Hf : is_divergence 2 G (λ y, - f y)%R) (Hmatch : matching x cells domain G).

  (* a rule exact for the products of the source and the shape functions *)
  Context (q : rule) (Hq : ∀ p w, In (p, w) q → (0 <= w)%R) (Hsees : sees_gradients E q) (Hexact : exact_to 2 (r + degree E) q).

  Local Lemma field_poly : ∃ Q, ∀ i, i < 2 → of_degree 2 (S r) (Q i) ∧ ∀ y, G y i = poly (Q i) y.
  Proof.
    destruct (dpoly_lower 2 (S r) 0 u Hu) as (Q0 & D0 & E0). destruct (dpoly_lower 2 (S r) 1 u Hu) as (Q1 & D1 & E1).
    exists (λ i, match i with 0 => Q0 | _ => Q1 end). intros [|[|i]] Hi; [| |lia]; (split; [done|]); intros y.
    - by rewrite (gradient_dpoly 2 (S (S r)) u G y 0 Hu HG) by lia.
    - by rewrite (gradient_dpoly 2 (S (S r)) u G y 1 Hu HG) by lia.
  Qed.
  Local Lemma cell_facts c : c ∈ cells → length c = 3 ∧ (0 < simplex_volume (x <$> c))%R.
  Proof. intros Hc. rewrite <- HE. by apply Hcells. Qed.
  Local Lemma degree_pos : S (degree E - 1) = degree E ∧ (degree E - 1) + (degree E - 1) ≤ r + degree E ∧ S r + (degree E - 1) = r + degree E.
  Proof. destruct E; cbn; lia. Qed.
  Local Lemma slope_poly p D i : of_degree 2 (degree E) p → has_gradient 2 (poly p) D → i < 2 → expressible 2 (degree E - 1) (λ y, D y i).
  Proof.
    intros Hp HD Hi. destruct degree_pos as (Hd & _). destruct (dpoly_lower 2 (degree E - 1) i p) as (w & Hw & Ew); [by rewrite Hd|].
    exists w. split; [done|]. intros y. by rewrite Ew, (gradient_dpoly 2 (degree E) p D).
  Qed.
  Local Lemma minus_expressible s h h' : expressible 2 s h → expressible 2 s h' → expressible 2 s (λ y, h y - h' y)%R.
  Proof.
    intros Hh Hh'. apply (expressible_ext 2 s (λ y, h y + -1 * h' y)%R); [intros; ring|]. apply expressible_plus; [done|]. by apply P_Solver.expressible_scal.
  Qed.
  Local Lemma energy_exists D D' s : (∀ c i, c ∈ cells → i < 2 → expressible 2 s (λ y, D c y i)) → (∀ c i, c ∈ cells → i < 2 → expressible 2 s (λ y, D' c y i)) →
    ∃ v, energy x cells D D' v.
  Proof.
    intros HD HD'. unfold energy. apply (whole_exists x cells _ (s + s)); [intros; by apply cell_facts|]. intros c Hc. unfold dot.
    apply (P_Integrator.expressible_rsum 2 _ 2 (λ i y, vsub (D c y) (D' c y) i * vsub (D c y) (D' c y) i)%R). intros i Hi.
    unfold vsub. apply expressible_mult; apply minus_expressible; auto.
  Qed.

  (* The three energies are those of the sides of a right triangle. *)
  Theorem C86_orthogonal U V GU GV a b w : piecewise E x cells domain U → weak_solution E x cells domain q f U → piecewise E x cells domain V →
    (∀ c, c ∈ cells → has_gradient 2 (poly (U c)) (GU c)) → (∀ c, c ∈ cells → has_gradient 2 (poly (V c)) (GV c)) →
    energy x cells (λ _, G) GU a → energy x cells (λ _, G) GV b → energy x cells GU GV w → b = (a + w)%R.
  Proof.
    intros HU Hw HV HGU HGV Ha Hb Hww. destruct field_poly as (Q & HQ). destruct degree_pos as (Hd & Hd2 & Hd3).
    assert (DU : ∀ c, c ∈ cells → of_degree 2 (degree E) (U c)) by (intros c Hc; rewrite <- HE; by apply HU).
    assert (DV : ∀ c, c ∈ cells → of_degree 2 (degree E) (V c)) by (intros c Hc; rewrite <- HE; by apply HV).
    set (W c := U c ++ pscale (-1) (V c)). set (GW (c : list K) y := vsub (GU c y) (GV c y)).
    assert (HW : piecewise E x cells domain W) by (by apply piecewise_minus).
    assert (HGW : ∀ c, c ∈ cells → has_gradient 2 (poly (W c)) (GW c)).
    { intros c Hc. apply (gradient_minus 2 (degree E)); auto. }
    assert (DW : ∀ c, c ∈ cells → of_degree 2 (degree E) (W c)) by (intros c Hc; rewrite <- HE; by apply HW).
    assert (Green := green E HE x cells domain Hcells r G _ Q HQ Hf q Hexact W GW HW HGW Hmatch).
    assert (Weak := Hw W GU GW HW). rewrite HE in Weak. specialize (Weak HGU HGW).
    set (X c y := dot 2 (vsub (G y) (GU c y)) (GW c y)).
    assert (X0 : mesh_integral E x cells q X = 0%R).
    { assert (E1 := mesh_combination E x cells q (λ c y, dot 2 (G y) (GW c y) + - f y * poly (W c) y)%R (λ c y, f y * poly (W c) y)%R (λ c y, dot 2 (G y) (GW c y)) 1 1
        ltac:(intros; cbv beta; ring)).
      assert (E2 := mesh_combination E x cells q (λ c y, dot 2 (G y) (GW c y)) (λ c y, dot 2 (GU c y) (GW c y)) X 1 (-1)
        ltac:(intros; unfold X, dot, vsub; cbv beta; cbn [rsum]; ring)).
      lra. }
    assert (HX : whole_integral x cells X 0%R).
    { rewrite <- X0. apply (whole_exact x cells E (r + degree E)); [done|intros; by apply cell_facts|done|]. intros c Hc. unfold X, dot.
      apply (P_Integrator.expressible_rsum 2 _ 2 (λ i y, vsub (G y) (GU c y) i * GW c y i)%R). intros i Hi. unfold vsub at 1.
      assert (T := slope_poly (W c) (GW c) i (DW c Hc) (HGW c Hc) Hi).
      apply (expressible_ext 2 _ (λ y, G y i * GW c y i - GU c y i * GW c y i)%R); [intros; ring|]. apply minus_expressible.
      - rewrite <- Hd3. apply expressible_mult; [|done]. destruct (HQ i Hi) as [Di Ei]. by exists (Q i).
      - apply (expressible_le 2 (degree E - 1 + (degree E - 1))); [done|]. apply expressible_mult; [|done].
        by apply (slope_poly (U c) (GU c)); auto. }
    assert (H1 : whole_integral x cells (λ c y, dot 2 (vsub (G y) (GU c y)) (vsub (G y) (GU c y)) + 2 * X c y)%R (1 * a + 2 * 0)%R).
    { apply (whole_combination x cells _ X _ 1 2 a 0 Ha HX). intros; ring. }
    assert (H2 : whole_integral x cells (λ c y, dot 2 (vsub (G y) (GV c y)) (vsub (G y) (GV c y)))%R (1 * (1 * a + 2 * 0) + 1 * w)%R).
    { apply (whole_combination x cells _ _ _ 1 1 _ _ H1 Hww). intros c y _. unfold X, GW, dot, vsub. cbn [rsum]. ring. }
    rewrite (whole_unique x cells _ _ _ Hb H2). ring.
  Qed.

  Local Lemma best U V GU GV a b : piecewise E x cells domain U → weak_solution E x cells domain q f U → piecewise E x cells domain V →
    (∀ c, c ∈ cells → has_gradient 2 (poly (U c)) (GU c)) → (∀ c, c ∈ cells → has_gradient 2 (poly (V c)) (GV c)) →
    energy x cells (λ _, G) GU a → energy x cells (λ _, G) GV b → (a <= b)%R.
  Proof.
    intros HU Hw HV HGU HGV Ha Hb. destruct (energy_exists GU GV (degree E - 1)) as (w & Hww).
    - intros c i Hc Hi. apply (slope_poly (U c)); auto. rewrite <- HE. by apply HU.
    - intros c i Hc Hi. apply (slope_poly (V c)); auto. rewrite <- HE. by apply HV.
    - rewrite (C86_orthogonal U V GU GV a b w) by done.
      assert (0 <= w)%R; [|lra]. refine (whole_nonneg x cells _ w cell_facts Hww _).
      intros c y _. unfold dot. cbn [rsum]. set (s := vsub _ _ 0%nat). set (t := vsub _ _ 1%nat).
      pose proof (Rle_0_sqr s). pose proof (Rle_0_sqr t). unfold Rsqr in *. lra.
  Qed.

  (* The program. *)
  Context (order : gset nat → list nat) (Horder : visits_set order).
  Context (visit : gmap nat Z → list (nat * Z)) (Hvisit : visits visit).
  Context (ksp : krylov) (Hksp : good_solver ksp).

  (* The program computes a field U such that the energy of the difference of u and U is the least: no continuous
     function, a polynomial of the degree of the elements in each triangle, zero on the domain of the constraints,
     does better. *)
  Theorem C86_best : ∃ fs d U,
    poisson_program E debug fresh alive point cs cells domain q f order visit ksp = Ok (fs, d) ∧
    piecewise E x cells domain U ∧
    (∀ c k, c ∈ cells → k ∈ c → ∃ p, fs_node_map fs !! k = Some p ∧ ds_solution d !! p = Some (poly (U c) (x k))) ∧
    (∀ c nodes a p, (c, nodes) ∈ fs_elements fs → nodes !! a = Some p →
       ds_solution d !! p = Some (poly (U c) (node E (x <$> c) a))) ∧
    ∀ GU, (∀ c, c ∈ cells → has_gradient 2 (poly (U c)) (GU c)) → ∃ a, energy x cells (λ _, G) GU a ∧
      ∀ V GV b, piecewise E x cells domain V → (∀ c, c ∈ cells → has_gradient 2 (poly (V c)) (GV c)) →
        energy x cells (λ _, G) GV b → (a <= b)%R.
  Proof.
    destruct (C74_solution E debug fresh Hfresh alive point cs x cells domain Hplaced Hcells Hdom Hanch q Hq Hsees f
      order Horder visit Hvisit ksp Hksp) as (fs & d & U & Hrun & HU & HwU & Hnodes & Hels & _). exists fs, d, U.
    split_and!; [done|done|done|done|]. intros GU HGU. destruct degree_pos as (Hd & Hd2 & Hd3).
    destruct (energy_exists (λ _, G) GU (r + degree E)) as (a & Ha).
    - intros c i Hc Hi. destruct field_poly as (Q & HQ). destruct (HQ i Hi) as [Di Ei].
      apply (expressible_le 2 (S r)); [lia|]. by exists (Q i).
    - intros c i Hc Hi. apply (expressible_le 2 (degree E - 1)); [lia|]. apply (slope_poly (U c)); auto. rewrite <- HE. by apply HU.
    - exists a. split; [done|]. intros V GV b HV HGV Hb. by apply (best U V GU GV).
  Qed.

  (* If u is zero at the nodes of the domain of the constraints and its slopes change by at most M for each unit of
     length, if the sides of the triangles are at most h long, and the area of a triangle is at least sigma times
     the square of each of its sides, then the energy of the difference is at most 4 (M h / sigma)^2 for each unit
     of area. *)
  Local Lemma rate U (M h sigma : R) : piecewise E x cells domain U → weak_solution E x cells domain q f U →
    (∀ k, k ∈ concat domain → poly u (x k) = 0%R) → (0 <= M)%R → (0 < sigma)%R →
    (∀ c y z, c ∈ cells → inside 2 (x <$> c) y → inside 2 (x <$> c) z → (euclid 2 (G y) (G z) <= M * euclid 2 y z)%R) →
    (∀ c k l, c ∈ cells → k ∈ c → l ∈ c → (euclid 2 (x k) (x l) <= h)%R ∧ (sigma * euclid 2 (x k) (x l) ^ 2 <= simplex_volume (x <$> c))%R) →
    ∀ GU a, (∀ c, c ∈ cells → has_gradient 2 (poly (U c)) (GU c)) → energy x cells (λ _, G) GU a →
      (a <= 4 * (M * h / sigma) ^ 2 * S_Geometry.total (map (λ c, simplex_volume (x <$> c)) cells))%R.
  Proof.
    intros HU HwU Hz HM Hsigma Hlip Hside GU a HGU Ha.
    destruct (linear_interpolant E HE x cells domain Hcells (poly u) Hz) as (F & HF & HFl).
    set (GF (c : list K) (y : vec) (j : nat) := poly (dpoly j (F c)) y).
    assert (HGF : ∀ c, c ∈ cells → has_gradient 2 (poly (F c)) (GF c)).
    { intros c Hc. apply (dpoly_gradient 2 1). by apply HFl. }
    destruct (energy_exists (λ _, G) GF (r + degree E)) as (b & Hb).
    { intros c i Hc Hi. destruct field_poly as (Q & HQ). destruct (HQ i Hi) as [Di Ei]. destruct degree_pos as (? & ? & ?).
      apply (expressible_le 2 (S r)); [lia|]. by exists (Q i). }
    { intros c i Hc Hi. destruct degree_pos as (? & ? & ?). apply (expressible_le 2 (degree E - 1)); [lia|]. apply (slope_poly (F c)); auto. rewrite <- HE. by apply HF. }
    refine (Rle_trans _ _ _ (best U F GU GF a b HU HwU HF HGU HGF Ha Hb) _).
    rewrite <- total_map_scal. refine (whole_bound x cells _ b (λ _, 4 * (M * h / sigma) ^ 2)%R cell_facts Hb _).
    intros c y Hc Hy. destruct (cell_facts c Hc) as [L Vol]. destruct (HFl c Hc) as [DF EF].
    destruct (normal_2 (F c) DF) as (A & B & C & N).
    assert (HB : GF c y 0%nat = B).
    { refine (partial_unique (λ y, num (poly (F c) y)) 0 0 y _ _ (HGF c Hc y 0 ltac:(lia)) _). apply (quad_lim _ _ (poly (F c) y) B 0). intros t.
      unfold num. rewrite !N. unfold affine, with_component. cbn. ring. }
    assert (HC : GF c y 1%nat = C).
    { refine (partial_unique (λ y, num (poly (F c) y)) 1 0 y _ _ (HGF c Hc y 1 ltac:(lia)) _). apply (quad_lim _ _ (poly (F c) y) C 0). intros t.
      unfold num. rewrite !N. unfold affine, with_component. cbn. ring. }
    destruct c as [|k [|l [|m [|]]]]; try discriminate L. change (x <$> [k; l; m]) with [x k; x l; x m] in *.
    destruct Hy as (ws & Lw & Pw & Sw & Ey). destruct ws as [|w0 [|w1 [|w2 [|]]]]; try discriminate Lw.
    assert (W : weights3 w0 w1 w2).
    { inversion Pw as [|? ? P0 Pw1]; subst. inversion Pw1 as [|? ? P1 Pw2]; subst. inversion Pw2 as [|? ? P2 _]; subst.
      unfold S_Geometry.total in Sw. cbn in Sw. unfold weights3. lra. }
    assert (Hin : ∀ i j s, weights3 i j s → inside 2 [x k; x l; x m] (mix i j s (x k) (x l) (x m))).
    { intros i j s (I & J & S & T). exists [i; j; s]. split_and!; [done|by constructor; [|constructor; [|constructor; [|constructor]]]|unfold S_Geometry.total; cbn; lra|].
      intros n _. unfold mix, combo. cbn. ring. }
    set (z := mix w0 w1 w2 (x k) (x l) (x m)).
    assert (Gz : ∀ i, i < 2 → G y i = G z i).
    { intros i Hi. rewrite !(gradient_dpoly 2 (S (S r)) u G) by done. apply (poly_agree 2 (S (S r))); [by apply degree_dpoly|].
      intros j Hj. rewrite (Ey j Hj). unfold z, mix, combo. cbn. ring. }
    (* the longest side *)
    set (H2 := Rmax (dist2 (x k) (x l)) (Rmax (dist2 (x l) (x m)) (dist2 (x m) (x k)))).
    assert (Hk : k ∈ [k; l; m]) by left. assert (Hl : l ∈ [k; l; m]) by (right; left). assert (Hm : m ∈ [k; l; m]) by (right; right; left).
    assert (S1 : (dist2 (x k) (x l) <= H2)%R) by apply Rmax_l.
    assert (S2 : (dist2 (x l) (x m) <= H2)%R) by (eapply Rle_trans; [apply Rmax_l|apply Rmax_r]).
    assert (S3 : (dist2 (x m) (x k) <= H2)%R) by (eapply Rle_trans; [apply Rmax_r|apply Rmax_r]).
    assert (Hd : ∀ i j, i ∈ [k; l; m] → j ∈ [k; l; m] → (dist2 (x i) (x j) <= h ^ 2)%R ∧ (sigma * dist2 (x i) (x j) <= simplex_volume [x k; x l; x m])%R).
    { intros i j Hi Hj. destruct (Hside [k; l; m] i j Hc Hi Hj) as [T1 T2]. rewrite <- !euclid_square. split; [|done].
      apply pow_incr. split; [apply sqrt_pos|done]. }
    assert (HH : (H2 <= h ^ 2)%R ∧ (sigma * H2 <= simplex_volume [x k; x l; x m])%R).
    { unfold H2. apply Rmax_case; [by apply Hd|]. apply Rmax_case; by apply Hd. }
    destruct HH as [HHh HHs]. assert (H0 : (0 <= H2)%R) by (eapply Rle_trans; [apply dist2_pos|exact S1]).
    assert (HS : (sqrt H2 ^ 2 = H2)%R) by (by apply pow2_sqrt).
    assert (Sl := slopes (S (S r)) u Hu G HG M (sqrt H2) A B C (x k) (x l) (x m) w0 w1 w2 HM (sqrt_pos _) W).
    rewrite HS in Sl. cbv zeta in Sl. fold z in Sl.
    assert (Sl' : (simplex_volume [x k; x l; x m] ^ 2 * ((G z 0%nat - B) ^ 2 + (G z 1%nat - C) ^ 2) <= 4 * M ^ 2 * H2 ^ 3)%R).
    { apply Sl; [|done|done|done|..].
      - intros i j s i' j' s' Wi Wi'. rewrite <- !euclid_square. rewrite <- Rpow_mult_distr.
        apply pow_incr. split; [apply sqrt_pos|]. apply (Hlip [k; l; m]); [done|by apply Hin|by apply Hin].
      - rewrite <- (EF k Hk), N. done.
      - rewrite <- (EF l Hl), N. done.
      - rewrite <- (EF m Hm), N. done. }
    clear Sl Hlip Hside Hin EF N.
    unfold dot, vsub. cbn [rsum]. rewrite HB, HC, !Gz by lia.
    replace (0 + (G z 0%nat - B) * (G z 0%nat - B) + (G z 1%nat - C) * (G z 1%nat - C))%R with ((G z 0%nat - B) ^ 2 + (G z 1%nat - C) ^ 2)%R by ring.
    set (X := ((G z 0%nat - B) ^ 2 + (G z 1%nat - C) ^ 2)%R) in *.
    assert (X0 : (0 <= X)%R) by (unfold X; pose proof (pow2_ge_0 (G z 0%nat - B)); pose proof (pow2_ge_0 (G z 1%nat - C)); lra).
    set (v := simplex_volume [x k; x l; x m]) in *.
    assert (Hpos : (0 < H2)%R).
    { destruct (Rle_lt_or_eq_dec 0 H2 H0) as [?|Z]; [done|]. exfalso. rewrite <- Z in *.
      assert (dz : dist2 (x k) (x l) = 0%R) by (pose proof (dist2_pos (x k) (x l)); lra).
      assert (v = 0%R); [|lra]. unfold dist2 in dz. unfold v, simplex_volume, det_vecs, vsub. cbn.
      pose proof (pow2_ge_0 (x k 0%nat - x l 0%nat)). pose proof (pow2_ge_0 (x k 1%nat - x l 1%nat)).
      assert (a0 : (x k 0%nat - x l 0%nat = 0)%R) by (apply Rsqr_0_uniq; unfold Rsqr; lra).
      assert (a1 : (x k 1%nat - x l 1%nat = 0)%R) by (apply Rsqr_0_uniq; unfold Rsqr; lra).
      replace (x l 0%nat) with (x k 0%nat) by lra. replace (x l 1%nat) with (x k 1%nat) by lra. field. }
    assert (Y1 : ((sigma * H2) ^ 2 * X <= 4 * M ^ 2 * H2 ^ 3)%R).
    { eapply Rle_trans; [|exact Sl']. apply Rmult_le_compat_r; [done|]. apply pow_incr. split; [apply Rmult_le_pos; lra|done]. }
    assert (Y2 : (sigma ^ 2 * X <= 4 * M ^ 2 * H2)%R).
    { apply (Rmult_le_reg_l (H2 ^ 2)); [by apply pow_lt|]. replace (H2 ^ 2 * (sigma ^ 2 * X))%R with ((sigma * H2) ^ 2 * X)%R by ring.
      eapply Rle_trans; [exact Y1|]. right. ring. }
    apply (Rmult_le_reg_l (sigma ^ 2)); [by apply pow_lt|]. eapply Rle_trans; [exact Y2|].
    replace (sigma ^ 2 * (4 * (M * h / sigma) ^ 2))%R with (4 * M ^ 2 * h ^ 2)%R by (field; lra).
    apply Rmult_le_compat_l; [|done]. apply Rmult_le_pos; [lra|apply pow2_ge_0].
  Qed.

  Theorem C86_rate (M h sigma : R) : (∀ k, k ∈ concat domain → poly u (x k) = 0%R) → (0 <= M)%R → (0 < sigma)%R →
    (∀ c y z, c ∈ cells → inside 2 (x <$> c) y → inside 2 (x <$> c) z → (euclid 2 (G y) (G z) <= M * euclid 2 y z)%R) →
    (∀ c k l, c ∈ cells → k ∈ c → l ∈ c → (euclid 2 (x k) (x l) <= h)%R ∧ (sigma * euclid 2 (x k) (x l) ^ 2 <= simplex_volume (x <$> c))%R) →
    ∃ fs d U,
      poisson_program E debug fresh alive point cs cells domain q f order visit ksp = Ok (fs, d) ∧
      piecewise E x cells domain U ∧
      (∀ c k, c ∈ cells → k ∈ c → ∃ p, fs_node_map fs !! k = Some p ∧ ds_solution d !! p = Some (poly (U c) (x k))) ∧
      (∀ c nodes a p, (c, nodes) ∈ fs_elements fs → nodes !! a = Some p →
         ds_solution d !! p = Some (poly (U c) (node E (x <$> c) a))) ∧
      ∀ GU, (∀ c, c ∈ cells → has_gradient 2 (poly (U c)) (GU c)) → ∃ a, energy x cells (λ _, G) GU a ∧
        (a <= 4 * (M * h / sigma) ^ 2 * S_Geometry.total (map (λ c, simplex_volume (x <$> c)) cells))%R.
  Proof.
    intros Hz HM Hsigma Hlip Hside.
    destruct (C74_solution E debug fresh Hfresh alive point cs x cells domain Hplaced Hcells Hdom Hanch q Hq Hsees f
      order Horder visit Hvisit ksp Hksp) as (fs & d & U & Hrun & HU & HwU & Hnodes & Hels & _). exists fs, d, U.
    split_and!; [done|done|done|done|]. intros GU HGU. destruct degree_pos as (Hd & Hd2 & Hd3).
    destruct (energy_exists (λ _, G) GU (r + degree E)) as (a & Ha).
    - intros c i Hc Hi. destruct field_poly as (Q & HQ). destruct (HQ i Hi) as [Di Ei].
      apply (expressible_le 2 (S r)); [lia|]. by exists (Q i).
    - intros c i Hc Hi. apply (expressible_le 2 (degree E - 1)); [lia|]. apply (slope_poly (U c)); auto. rewrite <- HE. by apply HU.
    - exists a. split; [done|]. by apply (rate U M h sigma HU HwU Hz HM Hsigma Hlip Hside GU a).
  Qed.
End C86.
Print Assumptions C86_orthogonal.
Print Assumptions C86_best.
Print Assumptions C86_rate.

(* Whatever accuracy is asked for, it is reached by all the meshes of a bounded region, of a bounded area, with
   triangles that are not too flat and with sides that are short enough. *)
Theorem C86_converges (E : element_type) (u : polynomial) (r : nat) (G : vec → vec) (f : vec → R) (q : rule) (b sigma area : R) : edim E = 2 →
  of_degree 2 (S (S r)) u → has_gradient 2 (poly u) G → is_divergence 2 G (λ y, - f y)%R →
  (∀ p w, In (p, w) q → (0 <= w)%R) → sees_gradients E q → exact_to 2 (r + degree E) q → (0 <= b)%R → (0 < sigma)%R → (0 <= area)%R →
  ∀ eps, (0 < eps)%R → ∃ h, (0 < h)%R ∧
  ∀ (K : Type) `(Countable K) debug fresh alive (point : K → nat) cs (x : K → vec) (cells domain : list (list K)) order visit ksp,
    fresh_ok fresh → (∀ k, k ∈ concat cells → find_point (point k) cs = Some (x k)) →
    good_cells E x cells → good_domain E cells domain → anchored cells domain → matching x cells domain G →
    (∀ k, k ∈ concat domain → poly u (x k) = 0%R) →
    (∀ k i, k ∈ concat cells → i < 2 → (Rabs (x k i) <= b)%R) → (S_Geometry.total (map (λ c, simplex_volume (x <$> c)) cells) <= area)%R →
    (∀ c k l, c ∈ cells → k ∈ c → l ∈ c → (euclid 2 (x k) (x l) <= h)%R ∧ (sigma * euclid 2 (x k) (x l) ^ 2 <= simplex_volume (x <$> c))%R) →
    visits_set order → visits visit → good_solver ksp →
    ∃ fs d U, poisson_program E debug fresh alive point cs cells domain q f order visit ksp = Ok (fs, d) ∧
      piecewise E x cells domain U ∧
      (∀ c k, c ∈ cells → k ∈ c → ∃ p, fs_node_map fs !! k = Some p ∧ ds_solution d !! p = Some (poly (U c) (x k))) ∧
      ∀ GU, (∀ c, c ∈ cells → has_gradient 2 (poly (U c)) (GU c)) → ∃ a, energy x cells (λ _, G) GU a ∧ (a <= eps)%R.
Proof.
  intros HE Hu HG Hf Hq Hsees Hexact Hb Hsigma Harea eps Heps. destruct (gradient_lipschitz _ u G b Hu HG Hb) as (M & HM & Hlip).
  set (D := (4 * (M + 1) ^ 2 * (area + 1))%R). assert (D0 : (0 < D)%R) by (apply Rmult_lt_0_compat; [apply Rmult_lt_0_compat; [lra|apply pow_lt; lra]|lra]).
  assert (S0 : (0 < sigma ^ 2)%R) by (by apply pow_lt).
  set (h := Rmin 1 (eps * sigma ^ 2 / D)).
  assert (He : (0 < eps * sigma ^ 2 / D)%R) by (apply Rdiv_lt_0_compat; [by apply Rmult_lt_0_compat|done]).
  assert (H0 : (0 < h)%R) by (unfold h; apply Rmin_pos; lra).
  assert (H1 : (h <= 1)%R) by apply Rmin_l. assert (H2 : (h <= eps * sigma ^ 2 / D)%R) by apply Rmin_r.
  exists h. split; [done|]. intros K ? ? debug fresh alive point cs x cells domain order visit ksp Hfresh Hplaced Hcells Hdom Hanch Hmatch Hzero Hbox Ha Hside
    Horder Hvisit Hksp.
  destruct (C86_rate E HE debug fresh Hfresh alive point cs x cells domain Hplaced Hcells Hdom Hanch u r Hu G HG f Hf Hmatch q Hq Hsees Hexact
    order Horder visit Hvisit ksp Hksp M h sigma Hzero HM Hsigma) as (fs & d & U & Hrun & HU & Hn & _ & HGU); [|done|].
  { assert (Hin : ∀ c y, c ∈ cells → inside 2 (x <$> c) y → in_box b y).
    { intros c y Hc. apply inside_box; [|by rewrite fmap_length, (proj1 (Hcells c Hc)), HE].
      intros v Hv. apply elem_of_list_In, elem_of_list_fmap in Hv as (k & -> & Hk).
      assert (Hk' : k ∈ concat cells) by (apply elem_of_concat; eauto). split; apply Hbox; done || lia. }
    intros c y z Hc Hy Hz. apply Hlip; by apply (Hin c). }
  exists fs, d, U. split_and!; [done|done|done|]. intros GU HG'. destruct (HGU GU HG') as (a & Ha1 & Ha2). exists a. split; [done|].
  eapply Rle_trans; [exact Ha2|]. set (A := S_Geometry.total _) in *.
  apply Rle_trans with (D * h / sigma ^ 2)%R.
  - replace (4 * (M * h / sigma) ^ 2 * A)%R with (4 * (M * h) ^ 2 * A / sigma ^ 2)%R by (field; lra).
    unfold Rdiv. apply Rmult_le_compat_r; [left; by apply Rinv_0_lt_compat|].
    assert (B1 : ((M * h) ^ 2 <= (M + 1) ^ 2 * h)%R).
    { rewrite Rpow_mult_distr. apply Rmult_le_compat; [apply pow2_ge_0|apply pow2_ge_0|apply pow_incr; lra|].
      assert (h * h <= 1 * h)%R by (apply Rmult_le_compat_r; lra). lra. }
    assert (B2 : (0 <= (M * h) ^ 2)%R) by apply pow2_ge_0.
    apply Rle_trans with (4 * (M * h) ^ 2 * (area + 1))%R; [apply Rmult_le_compat_l; lra|]. unfold D.
    replace (4 * (M + 1) ^ 2 * (area + 1) * h)%R with (4 * ((M + 1) ^ 2 * h) * (area + 1))%R by ring. apply Rmult_le_compat_r; lra.
  - apply (Rmult_le_reg_r (sigma ^ 2)); [done|]. replace (D * h / sigma ^ 2 * sigma ^ 2)%R with (D * h)%R by (field; lra).
    apply Rle_trans with (D * (eps * sigma ^ 2 / D))%R; [apply Rmult_le_compat_l; lra|]. right. field. lra.
Qed.
Print Assumptions C86_converges.
