(* C74: from a mesh to the solution of the Poisson equation. *)
From stdpp Require Import base gmap list sorting.
From Coq Require Import Reals Lra.
From Verif Require Import Base M_Tensor M_Geometry S_Geometry P_Volume.
From Verif Require Import M_Functions S_Functions P_Functions M_Quadrature S_Quadrature P_Quadrature P_Integrator M_Topology M_Fem S_Fem P_Fem P_FemBlocks P_FemNorms Properties_Fem.
From Verif Require Import P_Mesh S_Discrete M_System S_System P_System Properties_System P_Galerkin M_Poisson S_Poisson P_Poisson Properties_Poisson.
From Verif Require Import M_Solver S_Solver P_Solver P_SolverMesh.
Open Scope nat_scope.

Local Lemma lookup_nth_error {A} (l : list A) i : l !! i = nth_error l i.
Proof. revert i. induction l as [|a l IH]; intros [|i]; cbn; auto. Qed.
Local Lemma rmap_cells {K B} (cells : list (list K)) (conn : list K → list nat) (f : list K * list nat → res B) (P : list K → B → Prop) :
  (∀ c, c ∈ cells → ∃ e, f (c, conn c) = Ok e ∧ P c e) →
  ∃ es, rmap f ((λ c : list K, (c, conn c)) <$> cells) = Ok es ∧ Forall2 P cells es.
Proof.
  induction cells as [|c cells IH]; intros Hc; [exists []; split; [done|constructor]|].
  destruct (Hc c) as (e & He & HP); [left|]. destruct IH as (es & Hes & HF); [intros c' Hc'; apply Hc; by right|].
  exists (e :: es). rewrite fmap_cons. cbn [rmap]. rewrite He. cbn [rbind]. rewrite Hes. cbn [rbind]. split; [done|by constructor].
Qed.

Section layouts.
  Context {K : Type} `{Countable K} (alive : gset nat) (E : element_type) (x : K → vec) (cells domain : list (list K)).
  Context (Hcells : good_cells E x cells) (Hdom : good_domain E cells domain).

  Lemma domain_in k : k ∈ concat domain → k ∈ concat cells.
  Proof. rewrite !elem_of_concat. intros (b & Hk & Hb). destruct (Hdom b Hb) as (_ & _ & c & Hc & Hs). exists c. split; [by apply Hs|done]. Qed.

  Lemma layout_P1 fs φ : E ≠ Tri2 → first_order alive cells (concat domain) fs φ → layout E cells domain fs (λ π, φ π.1).
  Proof.
    intros HE (H1 & _ & H2 & H3 & H4).
    assert (Hp : ∀ c : list K, places E c = (λ k, (k, k)) <$> c) by (intros c; unfold places; by destruct E).
    assert (Hpi : ∀ (c : list K) (π : K * K), π ∈ places E c → π = (π.1, π.1) ∧ π.1 ∈ c).
    { intros c π Hπ. rewrite Hp in Hπ. apply elem_of_list_fmap in Hπ as (k & -> & Hk). done. }
    split.
    - rewrite H2. apply list_fmap_ext. intros i c _. rewrite Hp, <- list_fmap_compose. done.
    - intros c c' π π' Hc Hc' [E1 Hπ]%Hpi [E2 Hπ']%Hpi. split.
      + intros Hn. apply H1 in Hn; [|apply elem_of_concat; eauto..]. left. by rewrite E1, E2, Hn.
      + intros [-> | ->]; [done|]. by rewrite E2.
    - intros k p. by rewrite H3.
    - intros c π Hc [E1 Hπ]%Hpi. rewrite H4. split.
      + intros (k & Hk & Hn). apply H1 in Hn; [|apply elem_of_concat; eauto|by apply domain_in]. subst k.
        apply elem_of_concat in Hk as (b & Hk & Hb). exists b. rewrite E1. done.
      + intros (b & Hb & Hk & _). exists π.1. split; [|done]. apply elem_of_concat. eauto.
  Qed.

  Lemma layout_P2 fs φ ψ : E = Tri2 → second_order alive cells domain fs φ ψ →
    layout E cells domain fs (λ π, if decide (π.1 = π.2) then φ π.1 else ψ π).
  Proof.
    intros HE (H1 & H2 & H3 & _ & _ & H4 & H5 & H6).
    assert (HL : ∀ c, c ∈ cells → length c = 3) by (intros c Hc; rewrite (proj1 (Hcells c Hc)); by rewrite HE).
    assert (Hp : ∀ c : list K, places E c = ((λ k, (k, k)) <$> c) ++ sides c) by (intros c; unfold places; by rewrite HE).
    assert (Hsides : ∀ (c : list K) (π : K * K), c ∈ cells → π ∈ sides c → π.1 ≠ π.2 ∧ π ∈ concat (sides <$> cells)).
    { intros c π Hc Hπ. split; [|apply elem_of_concat; exists (sides c); split; [done|by apply elem_of_list_fmap_1]].
      pose proof (positive_nodup E x c (proj1 (Hcells c Hc)) (proj2 (Hcells c Hc))) as Hnd. specialize (HL c Hc).
      destruct c as [|k0 [|k1 [|k2 [|]]]]; try discriminate HL.
      apply NoDup_cons in Hnd as [N1 Hnd]. apply NoDup_cons in Hnd as [N2 _].
      rewrite not_elem_of_cons, elem_of_list_singleton in N1. rewrite elem_of_list_singleton in N2. destruct N1 as [N1 N3].
      cbn in Hπ. rewrite !elem_of_cons, elem_of_nil in Hπ. destruct Hπ as [-> |[-> |[-> |[]]]]; cbn [fst snd]; congruence. }
    assert (Hpi : ∀ (c : list K) (π : K * K), c ∈ cells → π ∈ places E c →
      (π = (π.1, π.1) ∧ π.1 ∈ concat cells) ∨ (π.1 ≠ π.2 ∧ π ∈ concat (sides <$> cells))).
    { intros c π Hc Hπ. rewrite Hp in Hπ. apply elem_of_app in Hπ as [Hπ|Hπ].
      - left. apply elem_of_list_fmap in Hπ as (k & -> & Hk). split; [done|]. apply elem_of_concat. eauto.
      - right. by apply (Hsides c). }
    set (name (π : K * K) := if decide (π.1 = π.2) then φ π.1 else ψ π).
    assert (Nk : ∀ k, name (k, k) = φ k) by (intros k; unfold name; by rewrite decide_True).
    assert (Ns : ∀ π : K * K, π.1 ≠ π.2 → name π = ψ π) by (intros π Hπ; unfold name; by rewrite decide_False).
    split.
    - rewrite H4. clear H2 H3 H4 H5 H6 Hpi H1. assert (HX : ∀ c, c ∈ cells → (φ <$> c) ++ (ψ <$> sides c) = name <$> places E c).
      { intros c Hc. rewrite Hp, fmap_app. f_equal.
        - rewrite <- list_fmap_compose. apply list_fmap_ext. intros i k _. cbn. by rewrite Nk.
        - specialize (Hsides c). clear -Hc Hsides Ns.
          assert (Hd : ∀ π, π ∈ sides c → π.1 ≠ π.2) by (intros π Hπ; by apply Hsides).
          induction (sides c) as [|π l IH]; [done|]. cbn. f_equal; [rewrite Ns; [done|apply Hd; left]|]. apply IH; [|intros; apply Hd; by right].
          intros π' Hπ' Hl. apply Hsides; [done|by right]. }
      clear -HX. induction cells as [|c cs IH]; [done|]. rewrite !fmap_cons. f_equal; [by rewrite HX by left|].
      apply IH. intros c' Hc'. apply HX. by right.
    - intros c c' π π' Hc Hc' Hπ Hπ'. destruct (Hpi c π Hc Hπ) as [[E1 P1]|[E1 P1]], (Hpi c' π' Hc' Hπ') as [[E2 P2]|[E2 P2]].
      + rewrite E1, E2, !Nk. split; [intros Hn; apply H1 in Hn; [|done..]; left; by rewrite Hn|].
        intros [Hs|Hs]; cbn in Hs; congruence.
      + rewrite E1, Nk, (Ns π') by done. split; [intros Hn; by apply H3 in Hn|].
        destruct π' as [a b]. cbn [fst snd] in *. intros [Hs|Hs]; cbn in Hs; injection Hs; congruence.
      + rewrite E2, Nk, (Ns π) by done. split; [intros Hn; symmetry in Hn; by apply H3 in Hn|].
        destruct π as [a b]. cbn [fst snd] in *. intros [Hs|Hs]; cbn in Hs; injection Hs; congruence.
      + rewrite !Ns by done. by apply H2.
    - intros k p. rewrite Nk. by rewrite H5.
    - intros c π Hc Hπ. rewrite H6. split.
      + intros (a & b & Hab & Hn). destruct (Hdom [a; b] Hab) as (_ & _ & c' & Hc' & Hs).
        assert (Ha : a ∈ concat cells) by (apply elem_of_concat; exists c'; split; [apply Hs; left|done]).
        assert (Hb : b ∈ concat cells) by (apply elem_of_concat; exists c'; split; [apply Hs; right; left|done]).
        exists [a; b]. split; [done|]. destruct (Hpi c π Hc Hπ) as [[E1 P1]|[E1 P1]].
        * rewrite E1, Nk in Hn. cbn [fst snd]. assert (π.1 = a ∨ π.1 = b) as [Hn'|Hn'].
          { destruct Hn as [Hn|[Hn|(y & Hy & _ & Hn)]]; [left; by apply H1|right; by apply H1|]. by apply H3 in Hn. }
          -- rewrite E1, Hn'. cbn. split; left.
          -- rewrite E1, Hn'. cbn. split; right; left.
        * rewrite (Ns π E1) in Hn. destruct Hn as [Hn|[Hn|(y & Hy & Hys & Hn)]]; [symmetry in Hn; by apply H3 in Hn..|].
          apply H2 in Hn; [|done|done]. destruct Hn as [-> | ->], Hys as [-> | ->]; cbn; split; set_solver.
      + intros (b & Hb & H7 & H8). destruct (Hdom b Hb) as (Lb & Nb & _). assert (L2 : length b = 2) by (by rewrite Lb, HE).
        destruct b as [|a [|b [|]]]; try discriminate L2. exists a, b. split; [done|].
        apply NoDup_cons in Nb as [Nab _]. rewrite elem_of_list_singleton in Nab.
        rewrite !elem_of_cons, elem_of_nil in H7, H8.
        destruct (Hpi c π Hc Hπ) as [[E1 P1]|[E1 P1]].
        * rewrite E1, Nk. destruct H7 as [-> |[-> |[]]]; auto.
        * rewrite (Ns π E1). right. right. exists π. split; [done|]. split; [|done]. destruct π as [k l]. cbn [fst snd] in *.
          destruct H7 as [-> |[-> |[]]], H8 as [-> |[-> |[]]]; try done; [by left|by right].
  Qed.
End layouts.

(* ---- C74 ---- *)

(* A mesh of segments, or triangles, with a positive volume, the domain of homogeneous constraints, a rule
   with enough points, a source and a matrix solver that does its work. *)
Section C74.
  Context {K : Type} `{Countable K} (E : element_type) (debug : bool).
  Context (fresh : gset nat → nat) (Hfresh : fresh_ok fresh) (alive : gset nat).
  Context (point : K → nat) (cs : csys) (x : K → vec) (cells domain : list (list K)).
  Context (Hplaced : ∀ k, k ∈ concat cells → find_point (point k) cs = Some (x k)).
  Context (Hcells : good_cells E x cells) (Hdom : good_domain E cells domain) (Hanch : anchored cells domain).
  Context (q : rule) (Hq : ∀ p w, In (p, w) q → (0 <= w)%R) (Hsees : sees_gradients E q) (f : vec → R).

  Local Lemma discretize_layout : ∃ fs name, discretize E fresh alive cells domain = Ok fs ∧ layout E cells domain fs name.
  Proof.
    clear Hplaced Hanch Hsees. assert (Hin : ∀ k, k ∈ concat domain → k ∈ concat cells) by (by apply (domain_in E)).
    assert (HL : Forall (λ c, length c = S (edim E)) cells) by (apply Forall_forall; intros c Hc; by apply Hcells).
    destruct (E) eqn:HE; unfold discretize.
    - destruct (C55_segments fresh Hfresh alive cells (concat domain) HL Hin) as (fs & φ & Hd & Ho). exists fs, (λ π, φ π.1). split; [done|].
      by apply (layout_P1 alive _ x).
    - destruct (C55_triangles fresh Hfresh alive cells domain HL Hin) as (fs & φ & Hd & Ho). exists fs, (λ π, φ π.1). split; [done|].
      by apply (layout_P1 alive _ x).
    - destruct (C55_second_order fresh Hfresh alive cells domain HL) as (fs & φ & ψ & Hd & Ho).
      { intros b Hb. destruct (Hdom b Hb) as (Lb & Nb & c & Hc & Hs). cbn in Lb. destruct b as [|k [|l [|]]]; try discriminate Lb.
        exists k, l. split; [done|]. destruct (place_of_pair Tri2 c k l eq_refl) as (π & Hπ & Hsame).
        - by apply Hcells.
        - apply Hs. left.
        - apply Hs. right. left.
        - exists π. split; [|done]. apply elem_of_concat. exists (sides c). split; [|by apply elem_of_list_fmap_1].
          cbn in Hπ. apply elem_of_app in Hπ as [Hπ|Hπ]; [|done]. exfalso. apply elem_of_list_fmap in Hπ as (k' & -> & _).
          apply NoDup_cons in Nb as [Nb _]. apply Nb. destruct Hsame as [Hsame|Hsame]; injection Hsame as -> ->; left. }
      exists fs, (λ π, if decide (π.1 = π.2) then φ π.1 else ψ π). split; [done|]. by apply (layout_P2 alive Tri2 x).
  Qed.

  Local Lemma elements_made fs name : layout E cells domain fs name →
    ∃ es, build_elements E point cs fs = Ok es ∧
      Forall2 (λ c e, made e (x <$> c) ∧ ∀ a, a < n_nodes E → (name <$> places E c) !! a = Some (connectivity e a)) cells es.
  Proof.
    clear Hanch Hsees. intros HL. unfold build_elements. rewrite (l_elements _ _ _ _ _ HL). apply rmap_cells. intros c Hc. cbn [fst snd].
    destruct (Hcells c Hc) as [Lc _].
    destruct (C49_made E cs (point <$> c) (x <$> c) (name <$> places E c)) as (e & He & Hm & Hn).
    - unfold placed. apply Forall2_fmap. apply Forall_Forall2_diag. apply Forall_forall. intros k Hk. apply Hplaced. apply elem_of_concat. eauto.
    - by rewrite fmap_length.
    - exists e. split_and!; [done|done|]. intros a Ha. rewrite lookup_nth_error. apply Hn. by rewrite fmap_length, (places_length E c Lc).
  Qed.

  Context (order : gset nat → list nat) (Horder : visits_set order).
  Context (visit : gmap nat Z → list (nat * Z)) (Hvisit : visits visit).
  Context (ksp : krylov) (Hksp : good_solver ksp).

  (* The program returns a field with values at the nodes of the mesh, and at those of the elements, which are
     those of a continuous function, a polynomial in each cell, zero on the domain of the constraints, that
     satisfies the weak form of the equation. *)
  Theorem C74_solution : ∃ fs d U,
    poisson_program E debug fresh alive point cs cells domain q f order visit ksp = Ok (fs, d) ∧
    piecewise E x cells domain U ∧ weak_solution E x cells domain q f U ∧
    (∀ c k, c ∈ cells → k ∈ c → ∃ p, fs_node_map fs !! k = Some p ∧ ds_solution d !! p = Some (poly (U c) (x k))) ∧
    (∀ c nodes a p, (c, nodes) ∈ fs_elements fs → nodes !! a = Some p →
       ds_solution d !! p = Some (poly (U c) (node E (x <$> c) a))) ∧
    (fs_elements fs).*1 = cells.
  Proof.
    destruct discretize_layout as (fs & name & Hfs & HL). destruct (elements_made fs name HL) as (es & Hbuild & Hes).
    set (mesh := the_mesh E x cells es). assert (Hm1 : mesh.*1 = es) by (by apply (mesh_fst E x cells name)).
    assert (Hmesh : good_mesh mesh) by (by apply (mesh_good E x cells Hcells name)).
    assert (Hheld : held (system es) (fs_constrained fs)) by (by apply (held_mesh E x cells domain Hcells fs name HL)).
    destruct (build_equation_map (system es) (fs_constrained fs)) as [eqs N] eqn:Heqs.
    assert (Heqs' : build_equation_map (system mesh.*1) (fs_constrained fs) = (eqs, N)) by (by rewrite Hm1).
    assert (Hheld' : held (system mesh.*1) (fs_constrained fs)) by (by rewrite Hm1).
    assert (HN : (0 <= N)%Z) by (by apply (N_nonneg (system es) (fs_constrained fs) eqs)).
    destruct (C72_definite debug mesh Hmesh (fs_constrained fs) eqs N Heqs' f q Hq Hsees Hheld') as (s & Hs & Hsym & Hpos).
    destruct (C54_initial debug order Horder (system es)) as (fld & Hfld & Hfld0).
    set (v0 := replicate (Z.to_nat N) 0%R). set (u := (ksp s v0).1).
    assert (HsN : s_equations s = N).
    { destruct (C53_assembly debug (n_nodes E) (poisson q f) (system mesh.*1) (fs_constrained fs) eqs N (create N) Heqs'
        (system_length _) eq_refl) as (s' & Hs' & Hn & _). rewrite Hs in Hs'. by injection Hs' as <-. }
    destruct Hksp as (Hk1 & Hk2 & Hk3).
    assert (Hv0 : length v0 = Z.to_nat N) by (unfold v0; by rewrite replicate_length).
    assert (Hu : length u = Z.to_nat N) by (unfold u; by rewrite Hk1).
    assert (Hsol : solves (s_matrix s) (s_rhs s) u).
    { apply Hk2; [rewrite HsN; lia|]. apply Hk3; [rewrite HsN; lia|by rewrite Hv0|by rewrite Hv0]. }
    assert (HuN : Z.of_nat (length u) = N) by lia.
    destruct (C54_read_solution_partial visit Hvisit (system es) (fs_constrained fs) eqs N u fld Heqs HuN) as (fld' & Hread & Hr1 & Hr2).
    { intros p Hp. apply Hfld0 in Hp. by exists 0%R. }
    destruct (C72_weak debug mesh Hmesh (fs_constrained fs) eqs N Heqs' order Horder visit Hvisit f q s Hs u HuN Hsol fld fld') as [Hc Hw];
      [by rewrite Hm1|done|].
    assert (Hnodes : ∀ p, node_of (system es) p → fld' !! p = Some (nodal fld' p)).
    { intros p Hp. unfold nodal. destruct (decide (p ∈ fs_constrained fs)) as [Hpc|Hpc].
      - rewrite Hr2 by tauto. by rewrite (proj1 (Hfld0 p) Hp).
      - destruct (Hr1 p Hp Hpc) as (i & _ & Hi & ->). destruct (lookup_lt_is_Some_2 u i Hi) as [r ->]. done. }
    assert (Hvan : ∀ p, p ∈ fs_constrained fs → nodal fld' p = 0%R).
    { intros p Hp. unfold nodal. rewrite Hr2 by tauto.
      destruct (decide (p ∈ get_discretization_nodes (system es) ∅)) as [Hin|Hin].
      - rewrite (proj1 (Hfld0 p)); [done|]. apply get_discretization_nodes_ok in Hin as [Hin|Hin]; [set_solver|done].
      - rewrite (proj2 (Hfld0 p)); [done|]. intros Hn. apply Hin. apply get_discretization_nodes_ok. by right. }
    destruct (up E x cells domain Hcells fs name HL es Hes (nodal fld') Hdom Hvan) as (U & HU & HUrep).
    eexists fs, _, U. split_and!.
    - unfold poisson_program. rewrite Hfs. cbn [rbind]. rewrite Hbuild. cbn [rbind]. unfold make_discrete_system. rewrite Hfld. cbn [rbind].
      rewrite Heqs. cbn [rbind]. unfold solve, ds_assemble. cbn [ds_equations ds_n_equations ds_elements ds_linear ds_solution ds_vector].
      rewrite Hm1 in Hs. rewrite Hs. cbn [rbind]. unfold krylov_solve, ds_read_solution.
      cbn [ds_equations ds_n_equations ds_elements ds_linear ds_solution ds_vector]. fold v0. fold u.
      rewrite HsN, HuN. rewrite !bool_decide_eq_true_2 by done.
      unfold assert_. rewrite !andb_false_r. cbn [rbind]. rewrite decide_True by lia. cbn [rbind].
      rewrite Hu, Nat.sub_diag. cbn [replicate]. rewrite app_nil_r. rewrite Hread. cbn [rbind]. reflexivity.
    - done.
    - intros V GU GV HV HGU HGV. destruct (down E x cells domain fs name HL V HV) as (v & Hv & Hvc).
      rewrite <- (stiffness_mesh E x cells Hcells name es Hes q U V (nodal fld') v GU GV) by (done || apply HU || apply HV).
      rewrite <- (load_mesh E x cells Hcells name es Hes q f V v) by (done || apply HV). by apply Hw.
    - intros c k Hcc Hk. exists (name (k, k)). split.
      { apply (l_map _ _ _ _ _ HL). split; [|done]. apply elem_of_concat. eauto. }
      cbn [ds_solution]. rewrite Hnodes by (apply (node_iff E x cells Hcells name es Hes); exists c, (k, k); split_and!; [done|by apply place_of_node|done]).
      f_equal. rewrite <- (HUrep c (k, k)) by (done || by apply place_of_node). by rewrite at_twice.
    - intros c nodes a p Hin Ha. rewrite (l_elements _ _ _ _ _ HL) in Hin. apply elem_of_list_fmap in Hin as (c' & [= -> ->] & Hcc).
      cbn [ds_solution]. rewrite list_lookup_fmap in Ha. destruct (places E c' !! a) as [π|] eqn:Hπ; [|done]. injection Ha as <-.
      assert (Hlt : a < n_nodes E). { rewrite <- (places_length E c') by (by apply Hcells). by apply lookup_lt_Some in Hπ. }
      destruct (node_place E x c' a (proj1 (Hcells c' Hcc)) Hlt) as (π' & Hπ' & ->). rewrite Hπ in Hπ'. injection Hπ' as <-.
      apply elem_of_list_lookup_2 in Hπ.
      rewrite Hnodes by (apply (node_iff E x cells Hcells name es Hes); exists c', π; done). f_equal. symmetry. by apply HUrep.
    - rewrite (l_elements _ _ _ _ _ HL), <- list_fmap_compose. apply list_fmap_id.
  Qed.

  (* It is the only such function. *)
  Theorem C74_unique U U' : piecewise E x cells domain U → weak_solution E x cells domain q f U →
    piecewise E x cells domain U' → weak_solution E x cells domain q f U' →
    ∀ c y, c ∈ cells → poly (U c) y = poly (U' c) y.
  Proof.
    clear order Horder visit Hvisit ksp Hksp.
    intros HU HwU HU' HwU'. destruct discretize_layout as (fs & name & Hfs & HL). destruct (elements_made fs name HL) as (es & Hbuild & Hes).
    set (mesh := the_mesh E x cells es). assert (Hm1 : mesh.*1 = es) by (by apply (mesh_fst E x cells name)).
    assert (Hmesh : good_mesh mesh) by (by apply (mesh_good E x cells Hcells name)).
    assert (Hheld : held (system es) (fs_constrained fs)) by (by apply (held_mesh E x cells domain Hcells fs name HL)).
    destruct (down E x cells domain fs name HL U HU) as (u & Hu & Huc). destruct (down E x cells domain fs name HL U' HU') as (u' & Hu' & Huc').
    destruct (choose (λ (c : list K) (G : vec → vec), has_gradient (edim E) (poly (U c)) G) (λ y, y) cells) as [GU HGU].
    { intros c Hc. apply gradient_exists. by apply HU. }
    destruct (choose (λ (c : list K) (G : vec → vec), has_gradient (edim E) (poly (U' c)) G) (λ y, y) cells) as [GU' HGU'].
    { intros c Hc. apply gradient_exists. by apply HU'. }
    set (w p := (u p - u' p)%R). assert (Hwc : ∀ p, p ∈ fs_constrained fs → w p = 0%R) by (intros p Hp; unfold w; rewrite Huc, Huc' by done; lra).
    destruct (up E x cells domain Hcells fs name HL es Hes w Hdom Hwc) as (W & HW & HWrep).
    destruct (choose (λ (c : list K) (G : vec → vec), has_gradient (edim E) (poly (W c)) G) (λ y, y) cells) as [GW HGW].
    { intros c Hc. apply gradient_exists. by apply HW. }
    assert (H1 : stiffness q mesh u w = load q mesh f w).
    { unfold mesh. rewrite (stiffness_mesh E x cells Hcells name es Hes q U W u w GU GW) by (done || apply HU || apply HW).
      rewrite (load_mesh E x cells Hcells name es Hes q f W w) by (done || apply HW). by apply HwU. }
    assert (H2 : stiffness q mesh u' w = load q mesh f w).
    { unfold mesh. rewrite (stiffness_mesh E x cells Hcells name es Hes q U' W u' w GU' GW) by (done || apply HU' || apply HW).
      rewrite (load_mesh E x cells Hcells name es Hes q f W w) by (done || apply HW). by apply HwU'. }
    assert (H3 : stiffness q mesh w w = 0%R).
    { assert (Hexp : stiffness q mesh u w = (stiffness q mesh u' w + stiffness q mesh w w)%R).
      { unfold stiffness. rewrite <- integral_plus. apply integral_ext. intros e p. unfold dot. rewrite <- rsum_plus. apply rsum_ext. intros j _.
        rewrite <- Rmult_plus_distr_r. f_equal. rewrite <- gradient_plus. unfold gradient_of. apply rsum_ext. intros a _. unfold w. f_equal. lra. }
      lra. }
    assert (H4 : ∀ p, node_of (system es) p → w p = 0%R).
    { apply (held_zero _ (fs_constrained fs)); [done|done|]. rewrite <- Hm1. by apply (stiffness_zero q mesh). }
    intros c y Hc. destruct (cell_elem E x cells name es Hes c Hc) as (e & He & Hm & Hn).
    apply (determined e (x <$> c)); [done| |by apply HU|by apply HU'|].
    { destruct (Hcells c Hc). lra. }
    intros a Ha. rewrite <- (represents_node E x cells Hcells name U u c e a), <- (represents_node E x cells Hcells name U' u' c e a) by done.
    assert (w (connectivity e a) = 0%R); [|unfold w in *; lra]. apply H4. apply node_of_system. by exists e, a.
  Qed.
End C74.
Print Assumptions C74_solution.
Print Assumptions C74_unique.
