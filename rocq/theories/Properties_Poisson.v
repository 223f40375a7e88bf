(* C72: finite element problems from the elements to the field of the solution. *)
From stdpp Require Import base gmap list sorting.
From Coq Require Import Reals Lra.
From Verif Require Import Base M_Tensor M_Geometry S_Geometry P_Volume.
From Verif Require Import M_Functions P_Functions M_Quadrature S_Quadrature P_Quadrature P_Integrator M_Fem S_Fem P_Fem P_FemBlocks P_FemNorms Properties_Fem.
From Verif Require Import S_Discrete M_System S_System P_System Properties_System P_Galerkin M_Poisson S_Poisson P_Poisson.
Open Scope nat_scope.

(* A mesh of elements of any of the types of the library, some constrained nodes, a rule and a source term. *)
Section C72.
  Context {E : element_type} (debug : bool) (mesh : list (element E * list vec)) (Hmesh : good_mesh mesh).
  Context (constrained : gset nat) (eqs : gmap nat Z) (N : Z).
  Context (Heqs : build_equation_map (system mesh.*1) constrained = (eqs, N)).
  Context (order : gset nat → list nat) (Horder : visits_set order).
  Context (visit : gmap nat Z → list (nat * Z)) (Hvisit : visits visit).
  Context (f : vec → R).
  Let es := system mesh.*1.
  Let entry (s : linear_system) (i j : nat) : R := s_matrix s (Z.of_nat i) (Z.of_nat j).
  Let vanishes (v : nat → R) : Prop := ∀ p, p ∈ constrained → v p = 0%R.

  Local Lemma Hlen e : e ∈ es → length e.2 = n_nodes E.
  Proof. apply system_length. Qed.
  Local Lemma HN : (0 <= N)%Z.
  Proof. apply (N_nonneg es constrained eqs N Heqs). Qed.
  Local Lemma assembles blocks : ∃ s, assemble debug (n_nodes E) eqs N blocks es (create N) = Ok s.
  Proof.
    destruct (C53_assembly debug (n_nodes E) blocks es constrained eqs N (create N) Heqs Hlen eq_refl) as (s & Hs & _). by exists s.
  Qed.

  (* ---- the Poisson problem ---- *)
  Section poisson.
    Context (q : rule) (Hq : ∀ p w, In (p, w) q → (0 <= w)%R) (Hsees : sees_gradients E q) (Hheld : held es constrained).

    Local Lemma Hdef (u : nat → R) : vanishes u → stiffness q mesh u u = 0%R → ∀ p, node_of es p → u p = 0%R.
    Proof. intros Hu Hz. apply (held_zero _ constrained); [done|done|]. by apply (stiffness_zero q). Qed.

    (* The matrix is symmetric and positive definite if every node is joined to a constrained node by
       elements: a Cholesky factorization succeeds. *)
    Theorem C72_definite : ∃ s, assemble debug (n_nodes E) eqs N (poisson q f) es (create N) = Ok s ∧
      symmetric (Z.to_nat N) (entry s) ∧ positive_definite (Z.to_nat N) (entry s).
    Proof.
      destruct (assembles (poisson q f)) as [s Hs]. exists s. split; [done|]. split.
      - apply (definite_symmetric debug (n_nodes E) (poisson q f) es constrained eqs N s Heqs Hlen Hs (stiffness q mesh)).
        + intros. by apply poisson_form.
        + apply stiffness_sym.
      - apply (definite_definite debug (n_nodes E) (poisson q f) es constrained eqs N s Heqs Hlen Hs (stiffness q mesh)).
        + intros. by apply poisson_form.
        + intros. by apply stiffness_nonneg.
        + apply Hdef.
    Qed.

    Context (s : linear_system) (Hs : assemble debug (n_nodes E) eqs N (poisson q f) es (create N) = Ok s).

    (* The system has exactly one solution. *)
    Theorem C72_one_solution : ∃ u, (length u = Z.to_nat N ∧ solves (s_matrix s) (s_rhs s) u) ∧
      ∀ u', length u' = Z.to_nat N → solves (s_matrix s) (s_rhs s) u' → u' = u.
    Proof.
      apply (definite_one debug (n_nodes E) (poisson q f) es constrained eqs N s Heqs Hlen Hs (stiffness q mesh)).
      - intros. by apply poisson_form.
      - intros. by apply stiffness_nonneg.
      - apply Hdef.
    Qed.
  End poisson.

  Section solution.
    Context (q : rule) (s : linear_system) (Hs : assemble debug (n_nodes E) eqs N (poisson q f) es (create N) = Ok s).
    Context (u : list R) (Hu : Z.of_nat (length u) = N) (Hsol : solves (s_matrix s) (s_rhs s) u).
    Context (fld fld' : gmap nat R) (Hfld : fem_field debug order es = Ok fld) (Hread : read_solution visit eqs u fld = Ok fld').

    Local Lemma Hspread p : node_of es p → nodal fld' p = spread eqs (λ i, nth i u 0%R) p.
    Proof. by apply (read_spread debug order visit es constrained eqs N u fld fld' Horder Hvisit Heqs Hu). Qed.

    (* The field read from a solution vanishes at the constrained nodes and satisfies the weak form of the
       equation: with every field that vanishes there, the integral of the product of the gradients is that
       of the product with the source. *)
    Theorem C72_weak :
      (∀ p, node_of es p → p ∈ constrained → nodal fld' p = 0%R) ∧
      ∀ v, vanishes v → stiffness q mesh (nodal fld') v = load q mesh f v.
    Proof.
      split.
      - intros p Hp Hc. rewrite Hspread by done. by apply (spread_constrained es constrained eqs N Heqs).
      - intros v Hv. rewrite (stiffness_nodes q mesh _ _ v Hspread), stiffness_sym.
        rewrite <- (poisson_form q f) by done. rewrite <- (load_form (poisson q f)) by (done || apply poisson_2).
        apply (solution_weak debug (n_nodes E) (poisson q f) es constrained eqs N s Heqs Hlen Hs u); [lia|done|done].
    Qed.

    (* It has the least energy among the fields that vanish at the constrained nodes. *)
    Theorem C72_least_energy v : (∀ p w, In (p, w) q → (0 <= w)%R) → vanishes v →
      (energy q mesh f (nodal fld') <= energy q mesh f v)%R.
    Proof.
      intros Hq Hv. destruct C72_weak as [Hc Hw]. set (u0 := λ p, spread eqs (λ i, nth i u 0%R) p).
      assert (Hu0 : ∀ p, node_of es p → nodal fld' p = u0 p) by apply Hspread.
      assert (Hu0c : vanishes u0) by (intros p Hp; by apply (spread_constrained es constrained eqs N Heqs)).
      assert (Hen : energy q mesh f (nodal fld') = energy q mesh f u0).
      { unfold energy. rewrite (stiffness_nodes q mesh _ _ (nodal fld') Hu0), (stiffness_sym q mesh u0), (stiffness_nodes q mesh _ _ u0 Hu0).
        by rewrite (load_nodes q mesh f _ _ Hu0). }
      assert (Hw0 : ∀ v, vanishes v → stiffness q mesh u0 v = load q mesh f v).
      { intros v0 Hv0. by rewrite <- (stiffness_nodes q mesh _ _ v0 Hu0), Hw. }
      rewrite Hen. pose (d p := (v p - u0 p)%R).
      assert (Hd : vanishes d) by (intros p Hp; unfold d; rewrite Hv, Hu0c by done; lra).
      assert (Hvd : ∀ p, node_of es p → v p = (u0 p + d p)%R) by (intros; unfold d; lra).
      unfold energy. rewrite (stiffness_nodes q mesh _ _ v Hvd), (stiffness_sym q mesh _ v), (stiffness_nodes q mesh _ _ _ Hvd).
      rewrite (load_nodes q mesh f _ _ Hvd), stiffness_expand, load_plus, (Hw0 d Hd).
      pose proof (stiffness_nonneg q mesh d Hmesh Hq). lra.
    Qed.

    (* Among them, it is the only one. *)
    Theorem C72_energy_unique v : (∀ p w, In (p, w) q → (0 <= w)%R) → sees_gradients E q → held es constrained → vanishes v →
      (energy q mesh f v <= energy q mesh f (nodal fld'))%R → ∀ p, node_of es p → v p = nodal fld' p.
    Proof.
      intros Hq Hsees Hheld Hv Hle. destruct C72_weak as [Hc Hw]. set (u0 := λ p, spread eqs (λ i, nth i u 0%R) p).
      assert (Hu0 : ∀ p, node_of es p → nodal fld' p = u0 p) by apply Hspread.
      assert (Hu0c : vanishes u0) by (intros p Hp; by apply (spread_constrained es constrained eqs N Heqs)).
      assert (Hen : energy q mesh f (nodal fld') = energy q mesh f u0).
      { unfold energy. rewrite (stiffness_nodes q mesh _ _ (nodal fld') Hu0), (stiffness_sym q mesh u0), (stiffness_nodes q mesh _ _ u0 Hu0).
        by rewrite (load_nodes q mesh f _ _ Hu0). }
      assert (Hw0 : ∀ v, vanishes v → stiffness q mesh u0 v = load q mesh f v).
      { intros v0 Hv0. by rewrite <- (stiffness_nodes q mesh _ _ v0 Hu0), Hw. }
      rewrite Hen in Hle. pose (d p := (v p - u0 p)%R).
      assert (Hd : vanishes d) by (intros p Hp; unfold d; rewrite Hv, Hu0c by done; lra).
      assert (Hvd : ∀ p, node_of es p → v p = (u0 p + d p)%R) by (intros; unfold d; lra).
      unfold energy in Hle. rewrite (stiffness_nodes q mesh _ _ v Hvd), (stiffness_sym q mesh _ v), (stiffness_nodes q mesh _ _ _ Hvd) in Hle.
      rewrite (load_nodes q mesh f _ _ Hvd), stiffness_expand, load_plus, (Hw0 d Hd) in Hle.
      pose proof (stiffness_nonneg q mesh d Hmesh Hq) as Hn. intros p Hp. rewrite Hu0 by done.
      assert (d p = 0%R) by (apply (Hdef q Hq Hsees Hheld d Hd); [lra|done]). unfold d in *. lra.
    Qed.
  End solution.

  (* Nodes that are not joined to any constrained node make the system singular: a solution, if there is
     any, is not the only one. *)
  Theorem C72_floating q s (floating : gset nat) :
    assemble debug (n_nodes E) eqs N (poisson q f) es (create N) = Ok s →
    (∃ p, p ∈ floating ∧ node_of es p) → floating ## constrained →
    (∀ p p', p ∈ floating → neighbours es p p' → p' ∈ floating) →
    ¬ positive_definite (Z.to_nat N) (entry s) ∧
    ∀ u, length u = Z.to_nat N → solves (s_matrix s) (s_rhs s) u →
      ∃ u', u' ≠ u ∧ length u' = Z.to_nat N ∧ solves (s_matrix s) (s_rhs s) u'.
  Proof.
    clear order Horder visit Hvisit. intros Hs (p0 & Hp0 & Hn0) Hdis Hclosed.
    pose (w p := if decide (p ∈ floating) then 1%R else 0%R).
    assert (Hwc : vanishes w) by (intros p Hp; unfold w; rewrite decide_False; [done|set_solver]).
    destruct (spread_surj es constrained eqs N Heqs w Hwc) as [x Hx].
    assert (Hnode : ∀ e a, e ∈ mesh.*1 → a < n_nodes E → node_of es (connectivity e a)).
    { intros e a He Ha. apply node_of_system. by exists e, a. }
    assert (Hzero : ∀ v, sumR (eform (n_nodes E) (poisson q f) v (spread eqs x) <$> es) = 0%R).
    { intros v. unfold es. rewrite (poisson_form q f) by done. rewrite stiffness_sym, (stiffness_nodes q mesh _ w v Hx).
      unfold stiffness. rewrite (integral_mesh_ext q mesh _ (λ _ _, 0 * 0)%R); [rewrite integral_scal; lra|].
      intros e corners p He. rewrite Rmult_0_l. unfold dot. rewrite <- (rsum_0 (edim E)). apply rsum_ext. intros i Hi.
      destruct (in_mesh mesh e corners Hmesh He) as [Hm _].
      assert (He1 : e ∈ mesh.*1) by (by apply (elem_of_list_fmap_1 fst mesh (e, corners))).
      assert (Hn1 : 0 < n_nodes E) by (destruct E; cbn; lia).
      replace (gradient_of w e p i) with (w (connectivity e 0%nat) * rsum (n_nodes E) (λ a, element_gradient e a p i))%R.
      - rewrite (gradients_sum e corners p i Hm Hi). ring.
      - unfold gradient_of. rewrite <- rsum_scale. apply rsum_ext. intros a Ha. f_equal. unfold w.
        destruct (decide (connectivity e 0 ∈ floating)) as [H0|H0], (decide (connectivity e a ∈ floating)) as [H1|H1]; try done; exfalso.
        + apply H1, (Hclosed (connectivity e 0)); [done|]. apply neighbours_system. exists e, 0, a. done.
        + apply H0, (Hclosed (connectivity e a)); [done|]. apply neighbours_system. exists e, a, 0. done. }
    assert (Hp0c : p0 ∉ constrained) by set_solver.
    destruct (eqs_node es constrained eqs N Heqs p0 Hn0 Hp0c) as (i0 & Hi0 & Hi0N).
    assert (Hx0 : x i0 = 1%R).
    { specialize (Hx p0 Hn0). unfold spread in Hx. rewrite Hi0, decide_True, Nat2Z.id in Hx by lia. rewrite Hx. unfold w. by rewrite decide_True. }
    split.
    - intros Hpd. assert (H : (0 < quad (Z.to_nat N) (entry s) x x)%R) by (apply Hpd; exists i0; split; [done|lra]).
      unfold entry in H. rewrite (assembled_form debug (n_nodes E) (poisson q f) es constrained eqs N s Heqs Hlen Hs), Hzero in H. lra.
    - intros u Hu Hsol. pose (u' := (λ i, (nth i u 0 + x i)%R) <$> seq 0 (Z.to_nat N)).
      assert (Hl : length u' = Z.to_nat N) by (unfold u'; by rewrite fmap_length, seq_length).
      assert (Hn : ∀ i, i < Z.to_nat N → nth i u' 0%R = (nth i u 0 + x i)%R).
      { intros i Hi. apply nth_lookup_Some. unfold u'. rewrite list_lookup_fmap, lookup_seq_lt by done. done. }
      exists u'. split_and!; [|done|].
      + intros He. specialize (Hn i0 Hi0N). rewrite He, Hx0 in Hn. lra.
      + apply (weak_solution debug (n_nodes E) (poisson q f) es constrained eqs N s Heqs Hlen Hs u' Hl). intros v Hv.
        rewrite <- (solution_weak debug (n_nodes E) (poisson q f) es constrained eqs N s Heqs Hlen Hs u Hu Hsol v Hv).
        pose proof (Hzero v) as Hzv. unfold es in Hzv |- *. rewrite (poisson_form q f) in Hzv by done. rewrite !(poisson_form q f) by done.
        rewrite (stiffness_sym q mesh v) in Hzv.
        rewrite !(stiffness_sym q mesh v).
        assert (Hadd : ∀ p, node_of es p → spread eqs (λ i, nth i u' 0%R) p = (spread eqs (λ i, nth i u 0%R) p + spread eqs x p)%R).
        { intros p Hp. destruct (eqs_range es constrained eqs N Heqs p Hp) as (z & Hz & Hr). unfold spread. rewrite Hz.
          destruct (decide (0 <= z)%Z); [|lra]. apply Hn. lia. }
        rewrite (stiffness_nodes q mesh _ _ v Hadd), <- (Rplus_0_r (stiffness q mesh (spread eqs (λ i, nth i u 0%R)) v)).
        etransitivity; [|apply (f_equal (Rplus _)), Hzv]. unfold stiffness. rewrite <- integral_plus. apply integral_ext. intros e p.
        unfold dot. rewrite <- rsum_plus. apply rsum_ext. intros i _. rewrite gradient_plus. ring.
  Qed.

  (* ---- projections: mass and source blocks ---- *)
  Section projection.
    Context (r : nat) (q : rule) (Hq : quadrature_table (edim E) r = Some q) (Hr : 2 * degree E <= r).

    Local Lemma Hqw : ∀ p w, In (p, w) q → (0 <= w)%R.
    Proof. intros p w Hw. destruct (C51_kernel_tables E r q Hq ltac:(lia)) as [_ HP]. apply Rlt_le. by apply (HP p w). Qed.

    (* With a mass block and one of the rules of twice the degree of the elements the matrix is symmetric and
       positive definite whatever nodes are constrained, and the system has exactly one solution. *)
    Theorem C72_projection_definite : ∃ s, assemble debug (n_nodes E) eqs N (projection q f) es (create N) = Ok s ∧
      symmetric (Z.to_nat N) (entry s) ∧ positive_definite (Z.to_nat N) (entry s) ∧
      ∃ u, (length u = Z.to_nat N ∧ solves (s_matrix s) (s_rhs s) u) ∧
        ∀ u', length u' = Z.to_nat N → solves (s_matrix s) (s_rhs s) u' → u' = u.
    Proof.
      destruct (assembles (projection q f)) as [s Hs]. exists s. split; [done|]. split_and!.
      - apply (definite_symmetric debug (n_nodes E) (projection q f) es constrained eqs N s Heqs Hlen Hs (mass q mesh)).
        + intros. by apply projection_form.
        + apply mass_sym.
      - apply (definite_definite debug (n_nodes E) (projection q f) es constrained eqs N s Heqs Hlen Hs (mass q mesh)).
        + intros. by apply projection_form.
        + intros. apply mass_nonneg; [done|exact Hqw].
        + intros u _. by apply (mass_zero_field r).
      - apply (definite_one debug (n_nodes E) (projection q f) es constrained eqs N s Heqs Hlen Hs (mass q mesh)).
        + intros. by apply projection_form.
        + intros. apply mass_nonneg; [done|exact Hqw].
        + intros u _. by apply (mass_zero_field r).
    Qed.

    Context (s : linear_system) (Hs : assemble debug (n_nodes E) eqs N (projection q f) es (create N) = Ok s).
    Context (u : list R) (Hu : Z.of_nat (length u) = N) (Hsol : solves (s_matrix s) (s_rhs s) u).
    Context (fld fld' : gmap nat R) (Hfld : fem_field debug order es = Ok fld) (Hread : read_solution visit eqs u fld = Ok fld').

    Local Lemma Hspread' p : node_of es p → nodal fld' p = spread eqs (λ i, nth i u 0%R) p.
    Proof. by apply (read_spread debug order visit es constrained eqs N u fld fld' Horder Hvisit Heqs Hu). Qed.
    Local Lemma weak' v : vanishes v → mass q mesh (nodal fld') v = load q mesh f v.
    Proof.
      intros Hv. rewrite (mass_nodes q mesh _ _ v Hspread'), mass_sym.
      rewrite <- (projection_form q f) by done. rewrite <- (load_form (projection q f)) by (done || apply projection_2).
      apply (solution_weak debug (n_nodes E) (projection q f) es constrained eqs N s Heqs Hlen Hs u); [lia|done|done].
    Qed.

    (* No field that vanishes at the constrained nodes is closer to the source (in the norm of the rule). *)
    Theorem C72_projection_closest v : vanishes v → (distance2 q mesh f (nodal fld') <= distance2 q mesh f v)%R.
    Proof.
      intros Hv. set (u0 := λ p, spread eqs (λ i, nth i u 0%R) p).
      assert (Hu0 : ∀ p, node_of es p → nodal fld' p = u0 p) by apply Hspread'.
      assert (Hu0c : vanishes u0) by (intros p Hp; by apply (spread_constrained es constrained eqs N Heqs)).
      assert (Hdist : ∀ v, distance2 q mesh f v = (integral q mesh (λ e p, f (image e p) * f (image e p)) - 2 * load q mesh f v + mass q mesh v v)%R).
      { intros v0. unfold Rminus. rewrite Ropp_mult_distr_l. unfold load, mass. rewrite <- integral_scal, <- !integral_plus.
        apply integral_ext. intros e p. ring. }
      rewrite !Hdist. rewrite (mass_nodes q mesh _ _ (nodal fld') Hu0), (mass_sym q mesh u0), (mass_nodes q mesh _ _ u0 Hu0).
      rewrite (load_nodes q mesh f _ _ Hu0).
      assert (Hw0 : ∀ v, vanishes v → mass q mesh u0 v = load q mesh f v).
      { intros v0 Hv0. by rewrite <- (mass_nodes q mesh _ _ v0 Hu0), weak'. }
      pose (d p := (v p - u0 p)%R).
      assert (Hd : vanishes d) by (intros p Hp; unfold d; rewrite Hv, Hu0c by done; lra).
      assert (Hvd : ∀ p, node_of es p → v p = (u0 p + d p)%R) by (intros; unfold d; lra).
      rewrite (mass_nodes q mesh _ _ v Hvd), (mass_sym q mesh _ v), (mass_nodes q mesh _ _ _ Hvd).
      rewrite (load_nodes q mesh f _ _ Hvd), mass_expand, load_plus, (Hw0 d Hd).
      pose proof (mass_nonneg q mesh d Hmesh Hqw). lra.
    Qed.

    (* A source that is a finite element field is reproduced. *)
    Theorem C72_projection_reproduces g : vanishes g →
      (∀ e corners p, (e, corners) ∈ mesh → f (image e p) = value_of g e p) → ∀ p, node_of es p → nodal fld' p = g p.
    Proof.
      intros Hg Hf. set (u0 := λ p, spread eqs (λ i, nth i u 0%R) p).
      assert (Hu0 : ∀ p, node_of es p → nodal fld' p = u0 p) by apply Hspread'.
      assert (Hu0c : vanishes u0) by (intros p Hp; by apply (spread_constrained es constrained eqs N Heqs)).
      pose (d p := (g p + -1 * u0 p)%R).
      assert (Hd : vanishes d) by (intros p Hp; unfold d; rewrite Hg, Hu0c by done; lra).
      assert (Hz : mass q mesh d d = 0%R).
      { assert (Hlg : load q mesh f d = mass q mesh g d) by (apply integral_mesh_ext; intros e corners p He; by rewrite (Hf e corners)).
        assert (Hmd : mass q mesh d d = (mass q mesh g d + -1 * mass q mesh u0 d)%R).
        { unfold mass. rewrite <- integral_scal, <- integral_plus. apply integral_ext. intros e p. unfold d at 1. rewrite value_plus.
          replace (value_of (λ k, -1 * u0 k)%R e p) with (-1 * value_of u0 e p)%R; [ring|].
          unfold value_of, interpolant. rewrite <- rsum_scale. apply rsum_ext. intros; ring. }
        rewrite Hmd, <- Hlg, <- (weak' d Hd), (mass_nodes q mesh _ _ d Hu0). lra. }
      intros p Hp. rewrite Hu0 by done.
      assert (d p = 0%R) by (by apply (mass_zero_field r q mesh d Hmesh Hq Hr Hz)). unfold d in *. lra.
    Qed.

    (* In particular, without constraints and with nodes that have the same position in all their elements,
       a polynomial of the degree of the elements: the solution has its values at the nodes. *)
    Theorem C72_projection_polynomial (po : polynomial) (position : nat → vec) : constrained = ∅ →
      of_degree (edim E) (degree E) po → (∀ x, f x = poly po x) →
      (∀ e corners a, (e, corners) ∈ mesh → a < n_nodes E → position (connectivity e a) = node E corners a) →
      ∀ p, node_of es p → nodal fld' p = poly po (position p).
    Proof.
      intros Hc Hpo Hf Hpos. apply (C72_projection_reproduces (λ p, poly po (position p))).
      - intros p Hp. rewrite Hc in Hp. set_solver.
      - intros e corners p He. destruct (in_mesh mesh e corners Hmesh He) as [Hm _].
        rewrite Hf, <- (C49_interpolant e corners po p Hm Hpo). unfold value_of, interpolant. apply rsum_ext. intros a Ha.
        by rewrite (Hpos e corners a He Ha).
    Qed.
  End projection.

  (* With both blocks the matrix is definite whatever nodes are constrained. *)
  Theorem C72_helmholtz_definite r q q' : (∀ p w, In (p, w) q → (0 <= w)%R) →
    quadrature_table (edim E) r = Some q' → 2 * degree E <= r →
    ∃ s, assemble debug (n_nodes E) eqs N (helmholtz q q' f) es (create N) = Ok s ∧
      symmetric (Z.to_nat N) (entry s) ∧ positive_definite (Z.to_nat N) (entry s).
  Proof.
    intros Hq Hq' Hr. destruct (assembles (helmholtz q q' f)) as [s Hs]. exists s. split; [done|]. split.
    - apply (definite_symmetric debug (n_nodes E) (helmholtz q q' f) es constrained eqs N s Heqs Hlen Hs (λ u v, stiffness q mesh u v + mass q' mesh u v)%R).
      + intros. by apply helmholtz_form.
      + intros. by rewrite stiffness_sym, mass_sym.
    - apply (definite_definite debug (n_nodes E) (helmholtz q q' f) es constrained eqs N s Heqs Hlen Hs (λ u v, stiffness q mesh u v + mass q' mesh u v)%R).
      + intros. by apply helmholtz_form.
      + intros u. pose proof (stiffness_nonneg q mesh u Hmesh Hq). pose proof (mass_nonneg q' mesh u Hmesh (Hqw r q' Hq' Hr)). lra.
      + intros u _ Hz. pose proof (stiffness_nonneg q mesh u Hmesh Hq). pose proof (mass_nonneg q' mesh u Hmesh (Hqw r q' Hq' Hr)).
        apply (mass_zero_field r q' mesh u Hmesh Hq' Hr). lra.
  Qed.
End C72.
Print Assumptions C72_definite.
Print Assumptions C72_one_solution.
Print Assumptions C72_weak.
Print Assumptions C72_least_energy.
Print Assumptions C72_energy_unique.
Print Assumptions C72_floating.
Print Assumptions C72_projection_definite.
Print Assumptions C72_projection_closest.
Print Assumptions C72_projection_reproduces.
Print Assumptions C72_projection_polynomial.
Print Assumptions C72_helmholtz_definite.
