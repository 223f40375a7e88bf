(* C84: a source that is nowhere negative gives a field that is nowhere negative. *)
From stdpp Require Import base gmap list sorting.
From Coq Require Import Reals Lra FunctionalExtensionality.
From Verif Require Import Base M_Tensor M_Geometry S_Geometry P_Volume.
From Verif Require Import M_Functions S_Functions P_Functions M_Quadrature S_Quadrature P_Quadrature P_Integrator M_Topology M_Fem S_Fem P_Fem P_FemBlocks P_FemNorms Properties_Fem.
From Verif Require Import P_Mesh S_Discrete M_System S_System P_System Properties_System P_Galerkin M_Poisson S_Poisson P_Poisson Properties_Poisson.
From Verif Require Import M_Solver S_Solver P_Solver P_SolverMesh Properties_Solver P_SolverField S_Maximum P_Maximum.
Local Open Scope nat_scope.

Section C84.
  Context {K : Type} `{Countable K} (E : element_type) (debug : bool).
  Context (fresh : gset nat → nat) (Hfresh : fresh_ok fresh) (alive : gset nat).
  Context (point : K → nat) (cs : csys) (x : K → vec) (cells domain : list (list K)).
  Context (Hplaced : ∀ k, k ∈ concat cells → find_point (point k) cs = Some (x k)).
  Context (Hcells : good_cells E x cells) (Hdom : good_domain E cells domain) (Hanch : anchored cells domain).
  (* a rule with its points in the cells and weights that are not negative *)
  Context (q : rule) (Hq : ∀ p w, In (p, w) q → (0 <= w)%R ∧ in_reference E p) (Hsees : sees_gradients E q).
  (* linear elements, and triangles without obtuse angles *)
  Context (Hlinear : E ≠ Tri2) (Hobtuse : ∀ c, c ∈ cells → linear_not_obtuse E (x <$> c)).

  (* Two solutions of the weak form, with the larger source the larger solution. *)
  Theorem C84_monotone_partial f g F G :
    (∀ c p w, c ∈ cells → In (p, w) q → (f (position E (x <$> c) p) <= g (position E (x <$> c) p))%R) →
    piecewise E x cells domain F → weak_solution E x cells domain q f F →
    piecewise E x cells domain G → weak_solution E x cells domain q g G →
    ∀ c p, c ∈ cells → in_reference E p → (poly (F c) (position E (x <$> c) p) <= poly (G c) (position E (x <$> c) p))%R.
  Proof.
    intros Hfg HF HwF HG HwG c p Hc Hp.
    assert (Hq0 : ∀ p w, In (p, w) q → (0 <= w)%R) by (intros; by apply (Hq p0)).
    destruct (Properties_Solver.discretize_layout E fresh Hfresh alive x cells domain Hcells Hdom) as (fs & name & Hfs & HL).
    destruct (Properties_Solver.elements_made E point cs x cells domain Hplaced Hcells fs name HL) as (es & Hbuild & Hes).
    set (mesh := the_mesh E x cells es). assert (Hm1 : mesh.*1 = es) by (by apply (mesh_fst E x cells name)).
    assert (Hmesh : good_mesh mesh) by (by apply (mesh_good E x cells Hcells name)).
    assert (Hheld : held (system mesh.*1) (fs_constrained fs)) by (rewrite Hm1; by apply (held_mesh E x cells domain Hcells fs name HL)).
    destruct (down E x cells domain fs name HL F HF) as (u & Hu & Huc). destruct (down E x cells domain fs name HL G HG) as (u' & Hu' & Huc').
    destruct (choose (λ (c : list K) (D : vec → vec), has_gradient (edim E) (poly (F c)) D) (λ y, y) cells) as [DF HDF].
    { intros k Hk. apply gradient_exists. by apply HF. }
    destruct (choose (λ (c : list K) (D : vec → vec), has_gradient (edim E) (poly (G c)) D) (λ y, y) cells) as [DG HDG].
    { intros k Hk. apply gradient_exists. by apply HG. }
    assert (Hnode : ∀ n, node_of (system mesh.*1) n → (0 <= u' n - u n)%R).
    { apply (nonnegative_solution mesh Hmesh) with (q := q) (constrained := fs_constrained fs) (u := λ n, (u' n - u n)%R); try done.
      - intros e corners He. destruct (mesh_elem E x cells name es Hes e corners He) as (k & Hk & -> & _). by apply Hobtuse.
      - intros n Hn. rewrite Huc, Huc' by done. lra.
      - intros v Hvc Hv0. rewrite (stiffness_minus q mesh u' u v _ (λ n, eq_refl)).
        destruct (up E x cells domain Hcells fs name HL es Hes v Hdom Hvc) as (V & HV & HVrep).
        destruct (choose (λ (c : list K) (D : vec → vec), has_gradient (edim E) (poly (V c)) D) (λ y, y) cells) as [DV HDV].
        { intros k Hk. apply gradient_exists. by apply HV. }
        assert (H1 : stiffness q mesh u v = load q mesh f v).
        { unfold mesh. rewrite (stiffness_mesh E x cells Hcells name es Hes q F V u v DF DV) by (done || apply HF || apply HV).
          rewrite (load_mesh E x cells Hcells name es Hes q f V v) by (done || apply HV). by apply HwF. }
        assert (H2 : stiffness q mesh u' v = load q mesh g v).
        { unfold mesh. rewrite (stiffness_mesh E x cells Hcells name es Hes q G V u' v DG DV) by (done || apply HG || apply HV).
          rewrite (load_mesh E x cells Hcells name es Hes q g V v) by (done || apply HV). by apply HwG. }
        rewrite H1, H2. unfold load. rewrite <- integral_minus. apply (integral_sign mesh Hmesh q Hq0).
        intros e corners y w He Hy. destruct (mesh_elem E x cells name es Hes e corners He) as (k & Hk & -> & Hm & _).
        rewrite <- Rmult_minus_distr_r. apply Rmult_le_pos.
        + rewrite (image_position e (x <$> k) y Hm). specialize (Hfg k y w Hk Hy). lra.
        + unfold value_of, interpolant. apply rsum_nonnegative. intros a _. apply Rmult_le_pos; [apply Hv0|].
          apply phi_nonnegative; [done|]. by apply (Hq y w). }
    destruct (cell_elem E x cells name es Hes c Hc) as (e & He & Hm & Hn).
    rewrite <- (image_position e (x <$> c) p Hm), <- (C49_interpolant e (x <$> c) (F c) p Hm (proj1 HF c Hc)), <- (C49_interpolant e (x <$> c) (G c) p Hm (proj1 HG c Hc)).
    apply Rminus_le. rewrite <- (Rmult_1_l (rsum _ (λ a, poly (G c) _ * _))%R). unfold Rminus. rewrite Ropp_mult_distr_l, <- rsum_scale, <- rsum_plus.
    apply rsum_nonpositive. intros a Ha.
    rewrite <- (represents_node E x cells Hcells name F u c e a), <- (represents_node E x cells Hcells name G u' c e a) by done.
    assert (X := Hnode (connectivity e a)). assert (Y := phi_nonnegative E a p Hlinear Hp).
    assert (Hnd : node_of (system mesh.*1) (connectivity e a)) by (rewrite Hm1; apply node_of_system; by exists e, a).
    specialize (X Hnd). pose proof (Rmult_le_pos _ _ X Y). lra.
  Qed.

  (* The program. *)
  Context (order : gset nat → list nat) (Horder : visits_set order).
  Context (visit : gmap nat Z → list (nat * Z)) (Hvisit : visits visit).
  Context (ksp : krylov) (Hksp : good_solver ksp).

  Theorem C84_nonnegative_partial f : (∀ c p w, c ∈ cells → In (p, w) q → (0 <= f (position E (x <$> c) p))%R) →
    ∃ fs d U,
      poisson_program E debug fresh alive point cs cells domain q f order visit ksp = Ok (fs, d) ∧
      piecewise E x cells domain U ∧ weak_solution E x cells domain q f U ∧
      (∀ c p, c ∈ cells → in_reference E p → (0 <= poly (U c) (position E (x <$> c) p))%R) ∧
      (∀ c k, c ∈ cells → k ∈ c → ∃ n v, fs_node_map fs !! k = Some n ∧ ds_solution d !! n = Some v ∧ v = poly (U c) (x k) ∧ (0 <= v)%R).
  Proof.
    intros Hf. assert (Hq0 : ∀ p w, In (p, w) q → (0 <= w)%R) by (intros; by apply (Hq p)).
    destruct (C74_solution E debug fresh Hfresh alive point cs x cells domain Hplaced Hcells Hdom Hanch q Hq0 Hsees f
      order Horder visit Hvisit ksp Hksp) as (fs & d & U & Hrun & HU & HwU & Hnodes & Hels & Hfs). exists fs, d, U.
    assert (Hz : ∀ y, poly [] y = 0%R) by done.
    assert (Hin : ∀ c p, c ∈ cells → in_reference E p → (0 <= poly (U c) (position E (x <$> c) p))%R).
    { intros c p Hc Hp.
      refine (Rle_trans _ _ _ (Req_le _ _ (eq_sym (Hz (position E (x <$> c) p)))) (C84_monotone_partial (λ _, 0%R) f (λ _, []) U _ _ _ HU HwU c p Hc Hp)); [done| |].
      - split_and!; try done. intros ? _. constructor.
      - intros V GU GV HV HGU HGV. unfold mesh_integral.
        rewrite (total_map_ext _ (λ c, 0 * 0)%R), (total_map_ext (λ c0 : list K, (simplex_volume (x <$> c0) * _)%R) (λ c, 0 * 0)%R); [done| |].
        + intros k Hk. rewrite (total_map_ext _ (λ pw, 0 * snd pw)%R); [rewrite total_map_scal; lra|]. intros pw _. lra.
        + intros k Hk. rewrite (total_map_ext _ (λ pw, 0 * snd pw)%R); [rewrite total_map_scal; lra|]. intros pw _. unfold dot.
          rewrite (rsum_ext _ _ (λ j, 0 * GV k (position E (x <$> k) pw.1) j)%R); [rewrite rsum_scale; lra|]. intros j Hj. f_equal.
          apply elem_of_list_In in Hk.
          refine (partial_unique (λ y, num (poly [] y)) j 0 (position E (x <$> k) pw.1) _ _ (HGU k Hk _ j Hj) _).
          apply (quad_lim _ _ 0 0 0). intros t. unfold num. rewrite Hz. cbn. lra. }
    split_and!; try done. intros c k Hc Hk. destruct (Hnodes c k Hc Hk) as (n & Hn & Hv). exists n, (poly (U c) (x k)). split_and!; [done|done|done|].
    assert (Hcorner : ∃ p, in_reference E p ∧ x k = position E (x <$> c) p).
    { destruct (Hcells c Hc) as [L _]. clear -L Hk. unfold position, in_reference. destruct E; cbn [edim] in L.
      - destruct c as [|k0 [|k1 [|]]]; try discriminate L. rewrite !elem_of_cons, elem_of_nil in Hk. destruct Hk as [-> |[-> |[]]].
        + exists (vec1 0). split; [cbn; lra|]. apply functional_extensionality. intros i. cbn. lra.
        + exists (vec1 1). split; [cbn; lra|]. apply functional_extensionality. intros i. cbn. lra.
      - destruct c as [|k0 [|k1 [|k2 [|]]]]; try discriminate L. rewrite !elem_of_cons, elem_of_nil in Hk. destruct Hk as [-> |[-> |[-> |[]]]].
        + exists (vec2 1 0). split; [cbn; lra|]. apply functional_extensionality. intros i. cbn. lra.
        + exists (vec2 0 1). split; [cbn; lra|]. apply functional_extensionality. intros i. cbn. lra.
        + exists (vec2 0 0). split; [cbn; lra|]. apply functional_extensionality. intros i. cbn. lra.
      - destruct c as [|k0 [|k1 [|k2 [|]]]]; try discriminate L. rewrite !elem_of_cons, elem_of_nil in Hk. destruct Hk as [-> |[-> |[-> |[]]]].
        + exists (vec2 1 0). split; [cbn; lra|]. apply functional_extensionality. intros i. cbn. lra.
        + exists (vec2 0 1). split; [cbn; lra|]. apply functional_extensionality. intros i. cbn. lra.
        + exists (vec2 0 0). split; [cbn; lra|]. apply functional_extensionality. intros i. cbn. lra. }
    destruct Hcorner as (p & Hp & ->). by apply Hin.
  Qed.
End C84.
Print Assumptions C84_monotone_partial.
Print Assumptions C84_nonnegative_partial.

(* The rules of the library have their points in the cells and positive weights. *)
Theorem C84_tables E r q : quadrature_table (edim E) r = Some q →
  ∀ p w, In (p, w) q → (0 <= w)%R ∧ in_reference E p.
Proof.
  intros Hq. assert (X : List.Forall (λ pw, (0 <= snd pw)%R ∧ in_reference E (fst pw)) q).
  { destruct E; cbn [edim] in Hq; destruct r as [|[|[|[|[|r]]]]]; try discriminate Hq; injection Hq as <-;
      repeat constructor; cbn; lra. }
  intros p w Hp. rewrite List.Forall_forall in X. exact (X (p, w) Hp).
Qed.
Print Assumptions C84_tables.
