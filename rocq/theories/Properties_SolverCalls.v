(* C75, C76, C77: calls to the solver of a discrete system. *)
From stdpp Require Import base gmap list sorting.
From Coq Require Import Reals Lra FunctionalExtensionality.
From Verif Require Import Base M_Tensor M_Topology P_VTK M_Quadrature M_Fem S_Fem S_Discrete M_System S_System P_System Properties_System P_Galerkin M_Poisson S_Poisson P_Poisson Properties_Poisson M_Solver S_Solver P_Elimination.
Open Scope nat_scope.

Section calls.
  Context {C : Type} (debug : bool) (es : list (C * list nat)) (constrained : gset nat) (n : nat).
  Context (Hlen : ∀ e, e ∈ es → length e.2 = n).
  Context (order : gset nat → list nat) (Horder : visits_set order).
  Context (visit : gmap nat Z → list (nat * Z)) (Hvisit : visits visit).
  Let weak := C * list nat → (nat → nat → R) * (nat → R).

  (* a discrete system of these elements *)
  Record ready (d : discrete_system C) : Prop := {
    r_elements : ds_elements d = es;
    r_equations : build_equation_map es constrained = (ds_equations d, ds_n_equations d);
    r_linear : s_equations (ds_linear d) = ds_n_equations d;
    r_vector : Z.of_nat (length (ds_vector d)) = ds_n_equations d;
    r_solution : ∀ p, node_of es p → is_Some (ds_solution d !! p);
  }.

  Lemma make_ready : ∃ d, make_discrete_system debug order es constrained = Ok d ∧ ready d ∧ ds_linear d = create (ds_n_equations d) ∧
    (∀ p, node_of es p → ds_solution d !! p = Some 0%R).
  Proof.
    destruct (C54_initial debug order Horder es) as (fld & Hfld & Hf). unfold make_discrete_system. rewrite Hfld. cbn [rbind].
    destruct (build_equation_map es constrained) as [eqs N] eqn:Heqs. eexists. split; [reflexivity|]. split; [|split; [done|]].
    - pose proof (N_nonneg es constrained eqs N Heqs) as HN. split; cbn; try done.
      + rewrite replicate_length. lia.
      + intros p Hp. apply Hf in Hp. by exists 0%R.
    - intros p Hp. by apply Hf.
  Qed.

  (* what a weak form adds to a linear system *)
  Lemma adds_what (blocks : weak) eqs N : build_equation_map es constrained = (eqs, N) →
    ∃ s1, assemble debug n eqs N blocks es (create N) = Ok s1 ∧ s_equations s1 = N ∧
      ∀ s, s_equations s = N → ∃ s', assemble debug n eqs N blocks es s = Ok s' ∧ s_equations s' = N ∧
        (∀ i j, s_matrix s' i j = (s_matrix s i j + s_matrix s1 i j)%R) ∧ (∀ i, s_rhs s' i = (s_rhs s i + s_rhs s1 i)%R).
  Proof.
    intros Heqs. destruct (C52_numbering es constrained eqs N Heqs) as (H1 & _ & H3 & _). pose proof (N_nonneg es constrained eqs N Heqs) as HN.
    assert (Hr : ∀ p, node_of es p → ∃ z, eqs !! p = Some z ∧ (-1 <= z < N)%Z).
    { intros p Hp. destruct (decide (p ∈ constrained)) as [Hc|Hc]; [exists (-1)%Z; split; [by apply H3|lia]|].
      destruct (H1 p Hp Hc) as (i & ? & ?). exists i. split; [done|lia]. }
    destruct (assemble_ok debug n eqs N blocks es (create N) eq_refl Hlen Hr) as (s1 & E1 & A1 & B1 & C1).
    exists s1. split; [done|]. split; [done|]. intros s Hs.
    destruct (assemble_ok debug n eqs N blocks es s Hs Hlen Hr) as (s' & E' & A' & B' & C').
    exists s'. split; [done|]. split; [congruence|]. split.
    - intros i j. rewrite B', B1. cbn. lra.
    - intros i. rewrite C', C1. cbn. lra.
  Qed.

  (* one call *)
  Lemma one_call (blocks : weak) (ksp : krylov) d : ready d → (∀ s v, length (ksp s v).1 = length v) →
    ∃ d' s1, solve debug n visit blocks ksp d = Ok d' ∧ ready d' ∧ ds_equations d' = ds_equations d ∧ ds_n_equations d' = ds_n_equations d ∧
      assemble debug n (ds_equations d) (ds_n_equations d) blocks es (create (ds_n_equations d)) = Ok s1 ∧ s_equations s1 = ds_n_equations d ∧
      (∀ i j, s_matrix (ds_linear d') i j = (s_matrix (ds_linear d) i j + s_matrix s1 i j)%R) ∧
      (∀ i, s_rhs (ds_linear d') i = (s_rhs (ds_linear d) i + s_rhs s1 i)%R) ∧
      ds_vector d' = (ksp (ds_linear d') (ds_vector d)).1 ∧
      (∀ p, node_of es p → p ∉ constrained → ∃ i, ds_equations d !! p = Some (Z.of_nat i) ∧ i < length (ds_vector d') ∧ ds_solution d' !! p = ds_vector d' !! i) ∧
      (∀ p, ¬ (node_of es p ∧ p ∉ constrained) → ds_solution d' !! p = ds_solution d !! p).
  Proof.
    intros [R1 R2 R3 R4 R5] Hk. destruct d as [es' eqs N fld s v]. cbn in *. subst es'.
    destruct (adds_what blocks eqs N R2) as (s1 & E1 & N1 & Hadd). destruct (Hadd s R3) as (s' & E' & N' & HM & HV).
    set (u := (ksp s' v).1). assert (Hu : length u = length v) by apply Hk.
    destruct (C54_read_solution_partial visit Hvisit es constrained eqs N u fld R2 ltac:(lia) R5) as (fld' & Hr & Hr1 & Hr2).
    exists (DiscreteSystem es eqs N fld' s' u), s1. split.
    { unfold solve, ds_assemble. cbn [ds_equations ds_n_equations ds_elements ds_linear ds_solution ds_vector]. rewrite E'. cbn [rbind].
      unfold krylov_solve, ds_read_solution. cbn [ds_equations ds_n_equations ds_elements ds_linear ds_solution ds_vector]. fold u.
      rewrite N', Hu, R4. rewrite !bool_decide_eq_true_2 by done. unfold assert_. rewrite !andb_false_r. cbn [rbind]. rewrite decide_True by lia. cbn [rbind].
      replace (Z.to_nat N - length v) with 0 by lia. cbn [replicate]. rewrite app_nil_r, Hr. done. }
    cbn. split_and!; try done. split; cbn; try done; [lia|].
    intros p Hp. destruct (decide (p ∈ constrained)) as [Hc|Hc]; [rewrite Hr2 by tauto; by apply R5|].
    destruct (Hr1 p Hp Hc) as (i & _ & Hi & ->). by apply lookup_lt_is_Some_2.
  Qed.

  (* the calls to the solver, each with the weak form as it is at that time *)
  Definition calls (ksp : krylov) (forms : list weak) (d : discrete_system C) : res (discrete_system C) :=
    rfold (λ d form, solve debug n visit form ksp d) d forms.
  Lemma calls_snoc ksp forms form d : calls ksp (forms ++ [form]) d = let! d := calls ksp forms d in solve debug n visit form ksp d.
  Proof. unfold calls. by rewrite rfold_snoc. Qed.

  (* what a weak form adds, as a function *)
  Local Lemma added_plus (form form' both : weak) eqs N s1 s2 s3 : build_equation_map es constrained = (eqs, N) →
    (∀ e, (both e).1 = (λ a b, (form e).1 a b + (form' e).1 a b)%R ∧ (both e).2 = (λ a, (form e).2 a + (form' e).2 a)%R) →
    assemble debug n eqs N form es (create N) = Ok s1 → assemble debug n eqs N form' es (create N) = Ok s2 →
    assemble debug n eqs N both es (create N) = Ok s3 →
    (∀ i j, s_matrix s3 i j = (s_matrix s1 i j + s_matrix s2 i j)%R) ∧ (∀ i, s_rhs s3 i = (s_rhs s1 i + s_rhs s2 i)%R).
  Proof.
    intros Heqs Hb H1 H2 H3.
    destruct (assembled_entries debug n form es constrained eqs N s1 Heqs Hlen H1) as [M1 V1].
    destruct (assembled_entries debug n form' es constrained eqs N s2 Heqs Hlen H2) as [M2 V2].
    destruct (assembled_entries debug n both es constrained eqs N s3 Heqs Hlen H3) as [M3 V3]. split.
    - intros i j. rewrite M1, M2, M3, <- sumR_plus. apply sumR_ext. intros e _. rewrite <- sumR_plus. apply sumR_ext. intros a _.
      rewrite <- sumR_plus. apply sumR_ext. intros b _. case_decide; [|lra]. by rewrite (proj1 (Hb e)).
    - intros i. rewrite V1, V2, V3, <- sumR_plus. apply sumR_ext. intros e _. rewrite <- sumR_plus. apply sumR_ext. intros a _.
      case_decide; [|lra]. by rewrite (proj2 (Hb e)).
  Qed.

  Local Lemma superposed_snoc forms form eqs N s1 s2 s3 : build_equation_map es constrained = (eqs, N) →
    assemble debug n eqs N (superposed forms) es (create N) = Ok s1 → assemble debug n eqs N form es (create N) = Ok s2 →
    assemble debug n eqs N (superposed (forms ++ [form])) es (create N) = Ok s3 →
    (∀ i j, s_matrix s3 i j = (s_matrix s1 i j + s_matrix s2 i j)%R) ∧ (∀ i, s_rhs s3 i = (s_rhs s1 i + s_rhs s2 i)%R).
  Proof.
    intros Heqs H1 H2 H3. apply (added_plus (superposed forms) form (superposed (forms ++ [form])) eqs N); try done.
    assert (Hs : ∀ l r, sumR (l ++ [r]) = (sumR l + r)%R) by (intros l r; induction l as [|x l IH]; [cbn; lra|change ((x :: l) ++ [r]) with (x :: (l ++ [r])); rewrite !sumR_cons, IH; lra]).
    intros e. unfold superposed. cbn [fst snd]. split.
    - apply functional_extensionality. intros a. apply functional_extensionality. intros b. rewrite fmap_app. apply Hs.
    - apply functional_extensionality. intros a. rewrite fmap_app. apply Hs.
  Qed.
  Local Lemma superposed_nil eqs N s1 : build_equation_map es constrained = (eqs, N) →
    assemble debug n eqs N (superposed []) es (create N) = Ok s1 → (∀ i j, s_matrix s1 i j = 0%R) ∧ (∀ i, s_rhs s1 i = 0%R).
  Proof.
    intros Heqs H1. destruct (assembled_entries debug n (superposed []) es constrained eqs N s1 Heqs Hlen H1) as [M V]. split.
    - intros i j. rewrite M. apply sumR_zero. intros e _. apply sumR_zero. intros a _. apply sumR_zero. intros b _. by case_decide.
    - intros i. rewrite V. apply sumR_zero. intros e _. apply sumR_zero. intros a _. by case_decide.
  Qed.

  (* the state after some calls *)
  Local Lemma many_calls ksp forms d : ready d → (∀ s v, length (ksp s v).1 = length v) → ds_linear d = create (ds_n_equations d) →
    ∃ dk s1, calls ksp forms d = Ok dk ∧ ready dk ∧ ds_equations dk = ds_equations d ∧ ds_n_equations dk = ds_n_equations d ∧
      assemble debug n (ds_equations d) (ds_n_equations d) (superposed forms) es (create (ds_n_equations d)) = Ok s1 ∧ s_equations s1 = ds_n_equations d ∧
      (∀ i j, s_matrix (ds_linear dk) i j = s_matrix s1 i j) ∧ (∀ i, s_rhs (ds_linear dk) i = s_rhs s1 i) ∧
      (∀ p, ¬ (node_of es p ∧ p ∉ constrained) → ds_solution dk !! p = ds_solution d !! p).
  Proof.
    intros Hd Hk Hcr. induction forms as [|form forms (dk & s1 & E & Hdk & E1 & E2 & Hs1 & N1 & HM & HV & Hf)] using rev_ind.
    - destruct (adds_what (superposed []) _ _ (r_equations d Hd)) as (s1 & Hs1 & N1 & _). exists d, s1.
      destruct (superposed_nil _ _ s1 (r_equations d Hd) Hs1) as [HM HV]. split_and!; try done; intros; rewrite Hcr, ?HM, ?HV; done.
    - destruct (one_call form ksp dk Hdk Hk) as (d' & s2 & E' & Hd' & E1' & E2' & Hs2 & _ & HM' & HV' & _ & _ & Hf').
      destruct (adds_what (superposed (forms ++ [form])) _ _ (r_equations d Hd)) as (s3 & Hs3 & N3 & _).
      rewrite E1, E2 in Hs2. destruct (superposed_snoc forms form _ _ s1 s2 s3 (r_equations d Hd) Hs1 Hs2 Hs3) as [HM3 HV3].
      exists d', s3. split_and!; try done; try congruence.
      + rewrite calls_snoc, E. done.
      + intros p Hp. by rewrite Hf', Hf.
  Qed.

  (* the last call *)
  Local Lemma last_call ksp forms form d : ready d → (∀ s v, length (ksp s v).1 = length v) → ds_linear d = create (ds_n_equations d) →
    ∃ d1 d2 dk s1, calls ksp forms d = Ok d1 ∧ ds_assemble debug n form d1 = Ok d2 ∧ calls ksp (forms ++ [form]) d = Ok dk ∧ ready dk ∧
       ds_linear dk = ds_linear d2 ∧ ds_vector dk = (ksp (ds_linear d2) (ds_vector d2)).1 ∧ ds_n_equations dk = ds_n_equations d ∧
       assemble debug n (ds_equations d) (ds_n_equations d) (superposed (forms ++ [form])) es (create (ds_n_equations d)) = Ok s1 ∧
       (∀ i j, s_matrix (ds_linear dk) i j = s_matrix s1 i j) ∧ (∀ i, s_rhs (ds_linear dk) i = s_rhs s1 i) ∧
       length (ds_vector d2) = length (ds_vector dk) ∧
       (∀ p, node_of es p → p ∉ constrained → ∃ i, ds_equations d !! p = Some (Z.of_nat i) ∧ ds_solution dk !! p = ds_vector dk !! i) ∧
       (∀ p, ¬ (node_of es p ∧ p ∉ constrained) → ds_solution dk !! p = ds_solution d !! p).
  Proof.
    intros Hd Hk Hcr.
    destruct (many_calls ksp forms d Hd Hk Hcr) as (d1 & s0 & E & Hd1 & E1 & E2 & Hs0 & _ & _ & _ & Hf).
    destruct (many_calls ksp (forms ++ [form]) d Hd Hk Hcr) as (dk & s1 & Ek & Hdk & Ek1 & Ek2 & Hs1 & _ & HM & HV & Hfk).
    destruct (one_call form ksp d1 Hd1 Hk) as (d' & s2 & E' & Hd' & E1' & E2' & Hs2 & _ & HM' & HV' & Hv' & Hi' & Hf').
    pose proof Ek as Ek0. rewrite calls_snoc, E in Ek. cbn [rbind] in Ek. rewrite E' in Ek. injection Ek as <-.
    pose proof E' as Hsolve. unfold solve in Hsolve. destruct (ds_assemble debug n form d1) as [d2| |] eqn:Hd2; try discriminate Hsolve. cbn [rbind] in Hsolve.
    assert (ds_vector d2 = ds_vector d1).
    { clear -Hd2. unfold ds_assemble in Hd2. destruct (assemble _ _ _ _ _ _ _) as [ss| |]; try discriminate Hd2. cbn [rbind] in Hd2. by injection Hd2 as <-. }
    assert (ds_linear d' = ds_linear d2).
    { clear -Hsolve. unfold ds_read_solution in Hsolve. unfold assert_ in Hsolve. repeat (case_match; cbn [rbind] in Hsolve; try discriminate Hsolve).
      all: destruct (read_solution _ _ _ _) as [ff| |]; try discriminate Hsolve; cbn [rbind] in Hsolve; by injection Hsolve as <-. }
    exists d1, d2, d', s1. split_and!; try done; try congruence.
    - intros p Hp Hc. destruct (Hi' p Hp Hc) as (i & Hi & _ & Hi2). rewrite E1 in Hi. by exists i.
  Qed.

  Local Lemma solves_ext (M M' : Z → Z → R) (b b' : Z → R) u : (∀ i j, M' i j = M i j) → (∀ i, b' i = b i) → solves M' b' u → solves M b u.
  Proof. intros HM Hb Hs i Hi. rewrite <- Hb, <- Hs by done. apply sumR_ext. intros j _. by rewrite HM. Qed.

  Local Lemma solves_scaled (M M' : Z → Z → R) (b b' : Z → R) u t : t ≠ 0%R →
    (∀ i j, M' i j = (t * M i j)%R) → (∀ i, b' i = (t * b i)%R) → solves M' b' u ↔ solves M b u.
  Proof.
    intros Ht HM Hb. unfold solves. split; intros Hs i Hi; specialize (Hs i Hi).
    - rewrite Hb in Hs. apply (Rmult_eq_reg_l t); [|done]. rewrite <- Hs, <- sumR_mult_l. apply sumR_ext. intros j _. rewrite HM. lra.
    - rewrite Hb, <- Hs, <- sumR_mult_l. apply sumR_ext. intros j _. rewrite HM. lra.
  Qed.
  Local Lemma definite_scaled N (M M' : nat → nat → R) t : (0 < t)%R → (∀ i j, M' i j = (t * M i j)%R) →
    symmetric N M → positive_definite N M → symmetric N M' ∧ positive_definite N M'.
  Proof.
    intros Ht HM Hs Hp. split.
    - intros i j Hi Hj. rewrite !HM. by rewrite Hs.
    - intros x Hx. assert (quad N M' x x = (t * quad N M x x)%R) as ->.
      { unfold quad. rewrite <- sumR_mult_l. apply sumR_ext. intros i _. rewrite <- sumR_mult_l. apply sumR_ext. intros j _. rewrite HM. lra. }
      apply Rmult_lt_0_compat; [done|by apply Hp].
  Qed.

  (* ---- C76 and C77 ---- *)

  (* A sequence of calls, between which the weak form may change. The last one gives a solution of the sum of
     all these weak forms, if the solution of its linear system is successful. *)
  Theorem C76_superposed (ksp : krylov) forms form d :
    (∀ s v, length (ksp s v).1 = length v) →
    (∀ s v, Z.of_nat (length v) = s_equations s → (ksp s v).2 = true → solves (s_matrix s) (s_rhs s) (ksp s v).1) →
    make_discrete_system debug order es constrained = Ok d →
    ∃ d1 d2 d3, calls ksp forms d = Ok d1 ∧ ds_assemble debug n form d1 = Ok d2 ∧ calls ksp (forms ++ [form]) d = Ok d3 ∧
      ((ksp (ds_linear d2) (ds_vector d2)).2 = true → solution_of n (superposed (forms ++ [form])) es constrained (ds_solution d3)).
  Proof.
    intros Hk1 Hk2 Hd. destruct make_ready as (d0 & Hd0 & Hr & Hcr & Hz). rewrite Hd in Hd0. injection Hd0 as <-.
    destruct (last_call ksp forms form d Hr Hk1 Hcr) as (d1 & d2 & d3 & s1 & E1 & E2 & E3 & R3 & L3 & V3 & N3 & Hs1 & HM & HV & HL & Hi & Hf).
    exists d1, d2, d3. split; [done|]. split; [done|]. split; [done|]. intros Hsucc.
    assert (Hsol : solves (s_matrix s1) (s_rhs s1) (ds_vector d3)).
    { apply (solves_ext _ (s_matrix (ds_linear d3)) _ (s_rhs (ds_linear d3))); [done..|]. rewrite V3, L3. apply Hk2; [|done].
      rewrite HL, <- L3, (r_linear d3 R3). apply (r_vector d3 R3). }
    assert (Hu : Z.of_nat (length (ds_vector d3)) = ds_n_equations d) by (rewrite <- N3; apply (r_vector d3 R3)).
    destruct (C54_read_solution_partial visit Hvisit es constrained _ _ (ds_vector d3) (ds_solution d) (r_equations d Hr) Hu (r_solution d Hr)) as (f' & Hread & Hr1 & Hr2).
    assert (f' = ds_solution d3) as ->.
    { apply map_eq. intros p. destruct (decide (p ∈ constrained)) as [Hc|Hc]; [by rewrite Hr2, Hf by tauto|].
      destruct (decide (p ∈ get_discretization_nodes es ∅)) as [Hin|Hin].
      - apply get_discretization_nodes_ok in Hin as [Hin|Hin]; [set_solver|].
        destruct (Hr1 p Hin Hc) as (i & Ei & _ & ->), (Hi p Hin Hc) as (i' & Ei' & ->). rewrite Ei in Ei'. injection Ei' as Ei'.
        assert (i = i') as -> by lia. done.
      - assert (¬ node_of es p) by (intros Hn; apply Hin, get_discretization_nodes_ok; by right). by rewrite Hr2, Hf by tauto. }
    assert (Hfield : fem_field debug order es = Ok (ds_solution d)).
    { unfold make_discrete_system in Hd. destruct (fem_field debug order es) as [fld| |]; try discriminate Hd. cbn [rbind] in Hd.
      destruct (build_equation_map es constrained). by injection Hd as <-. }
    by apply (C68_galerkin debug order Horder visit Hvisit n (superposed (forms ++ [form])) es constrained _ _ s1 (ds_vector d3) (ds_solution d) (ds_solution d3)
      (r_equations d Hr) Hlen Hs1 Hu Hsol Hfield Hread).
  Qed.

  (* ---- C75 ---- *)

  Local Lemma superposed_same form eqs N s1 k sk : build_equation_map es constrained = (eqs, N) →
    assemble debug n eqs N form es (create N) = Ok s1 → assemble debug n eqs N (superposed (replicate k form)) es (create N) = Ok sk →
    (∀ i j, s_matrix sk i j = (INR k * s_matrix s1 i j)%R) ∧ (∀ i, s_rhs sk i = (INR k * s_rhs s1 i)%R).
  Proof.
    intros Heqs H1. revert sk. induction k as [|k IH]; intros sk Hk.
    - destruct (superposed_nil eqs N sk Heqs Hk) as [HM HV]. split; intros; rewrite ?HM, ?HV; cbn; lra.
    - destruct (adds_what (superposed (replicate k form)) eqs N Heqs) as (s & Hs & _). destruct (IH s Hs) as [IM IV].
      rewrite replicate_S_end in Hk. destruct (superposed_snoc (replicate k form) form eqs N s s1 sk Heqs Hs H1 Hk) as [HM HV].
      split; intros; rewrite ?HM, ?HV, ?IM, ?IV, S_INR; lra.
  Qed.

  (* The linear system after [k] calls with the same weak form is [k] times the one after the first. *)
  Theorem C75_accumulates ksp form k d : (∀ s v, length (ksp s v).1 = length v) →
    make_discrete_system debug order es constrained = Ok d →
    ∃ d1 dk, calls ksp [form] d = Ok d1 ∧ calls ksp (replicate k form) d = Ok dk ∧
      (∀ i j, s_matrix (ds_linear dk) i j = (INR k * s_matrix (ds_linear d1) i j)%R) ∧
      (∀ i, s_rhs (ds_linear dk) i = (INR k * s_rhs (ds_linear d1) i)%R).
  Proof.
    intros Hk Hd. destruct make_ready as (d0 & Hd0 & Hr & Hcr & _). rewrite Hd in Hd0. injection Hd0 as <-.
    destruct (many_calls ksp (replicate 1 form) d Hr Hk Hcr) as (d1 & t1 & E1 & _ & _ & _ & Ht1 & _ & M1 & V1 & _).
    destruct (many_calls ksp (replicate k form) d Hr Hk Hcr) as (dk & tk & Ek & _ & _ & _ & Htk & _ & Mk & Vk & _).
    destruct (adds_what form _ _ (r_equations d Hr)) as (s1 & Hs1 & _).
    destruct (superposed_same form _ _ s1 1 t1 (r_equations d Hr) Hs1 Ht1) as [A1 B1].
    destruct (superposed_same form _ _ s1 k tk (r_equations d Hr) Hs1 Htk) as [Ak Bk].
    exists d1, dk. split_and!; [done|done|intros; rewrite Mk, M1, Ak, A1; cbn; lra|intros; rewrite Vk, V1, Bk, B1; cbn; lra].
  Qed.

  (* Yet the solution is the same, and that of the equations of the weak form, if their matrix is symmetric
     and positive definite. *)
  Theorem C75_same_solution ksp form k d : good_solver ksp →
    make_discrete_system debug order es constrained = Ok d → 1 <= k →
    (∀ d1, ds_assemble debug n form d = Ok d1 →
       symmetric (length (ds_vector d1)) (entries (ds_linear d1)) ∧ positive_definite (length (ds_vector d1)) (entries (ds_linear d1))) →
    ∃ d1 dk, calls ksp [form] d = Ok d1 ∧ calls ksp (replicate k form) d = Ok dk ∧ ds_solution dk = ds_solution d1 ∧
      solution_of n form es constrained (ds_solution dk).
  Proof.
    intros (Hk1 & Hk2 & Hk3) Hd Hle Hpos. destruct make_ready as (d0 & Hd0 & Hr & Hcr & _). pose proof Hd as Hd'. rewrite Hd in Hd0. injection Hd0 as <-.
    destruct (adds_what form _ _ (r_equations d Hr)) as (s1 & Hs1 & N1 & _).
    destruct (Hpos (DiscreteSystem es (ds_equations d) (ds_n_equations d) (ds_solution d) s1 (ds_vector d))) as [Hsym Hdef].
    { unfold ds_assemble. rewrite (r_elements d Hr), Hcr, Hs1. done. }
    cbn [ds_vector ds_linear] in Hsym, Hdef.
    assert (Hlast : ∀ k, 1 <= k → ∃ dk, calls ksp (replicate k form) d = Ok dk ∧ solves (s_matrix s1) (s_rhs s1) (ds_vector dk) ∧ length (ds_vector dk) = length (ds_vector d) ∧
       (∀ p, node_of es p → p ∉ constrained → ∃ i, ds_equations d !! p = Some (Z.of_nat i) ∧ ds_solution dk !! p = ds_vector dk !! i) ∧
       (∀ p, ¬ (node_of es p ∧ p ∉ constrained) → ds_solution dk !! p = ds_solution d !! p)).
    { clear k Hle. intros [|k] Hle; [lia|]. rewrite replicate_S_end.
      destruct (last_call ksp (replicate k form) form d Hr Hk1 Hcr) as (d1 & d2 & dk & sk & E1 & E2 & E3 & R3 & L3 & V3 & N3 & Hsk & HM & HV & HL & Hi & Hf).
      rewrite <- replicate_S_end in Hsk. destruct (superposed_same form _ _ s1 (S k) sk (r_equations d Hr) Hs1 Hsk) as [HMk HVk].
      assert (Hkp : (0 < INR (S k))%R) by (apply lt_0_INR; lia).
      assert (LN : length (ds_vector dk) = length (ds_vector d)).
      { pose proof (r_vector d Hr). pose proof (r_vector dk R3). lia. }
      destruct (definite_scaled (length (ds_vector d)) (entries s1) (entries (ds_linear dk)) (INR (S k)) Hkp) as [Hsymk Hdefk];
        [intros; unfold entries; by rewrite HM, HMk|done|done|].
      exists dk. split_and!; try done.
      apply (solves_scaled _ (s_matrix (ds_linear dk)) _ (s_rhs (ds_linear dk)) _ (INR (S k))); [lra|intros; by rewrite HM, HMk|intros; by rewrite HV, HVk|].
      assert (Hn : Z.of_nat (length (ds_vector d2)) = s_equations (ds_linear d2)) by (rewrite HL, <- L3, (r_linear dk R3); apply (r_vector dk R3)).
      rewrite V3, L3. apply Hk2; [done|]. apply Hk3; [done|rewrite HL, LN, <- L3; done|rewrite HL, LN, <- L3; done]. }
    destruct (Hlast 1 ltac:(lia)) as (d1 & C1 & S1 & L1 & I1 & F1). destruct (Hlast k Hle) as (dk & Ck & Sk & Lk & Ik & Fk).
    assert (Heq : ds_vector dk = ds_vector d1).
    { apply (nth_ext _ _ 0%R 0%R (eq_trans Lk (eq_sym L1))). intros i Hi.
      apply (definite_unique (length (ds_vector d)) (entries s1) (λ i, nth i (ds_vector dk) 0%R) (λ i, nth i (ds_vector d1) 0%R)); [done| |lia].
      intros j Hj. unfold row. unfold entries. rewrite <- Lk at 1. rewrite Sk by lia. rewrite <- L1. by rewrite S1 by lia. }
    assert (Hsame : ds_solution dk = ds_solution d1).
    { apply map_eq. intros p. destruct (decide (p ∈ constrained)) as [Hc|Hc]; [by rewrite Fk, F1 by tauto|].
      destruct (decide (p ∈ get_discretization_nodes es ∅)) as [Hin|Hin].
      - apply get_discretization_nodes_ok in Hin as [Hin|Hin]; [set_solver|].
        destruct (Ik p Hin Hc) as (i & Hi & ->), (I1 p Hin Hc) as (i' & Hi' & ->). rewrite Hi in Hi'. injection Hi' as Hi'.
        assert (i = i') as -> by lia. by rewrite Heq.
      - assert (¬ node_of es p) by (intros Hn; apply Hin, get_discretization_nodes_ok; by right). by rewrite Fk, F1 by tauto. }
    exists d1, dk. split_and!; [done|done|done|]. rewrite Hsame. clear dk Ck Sk Lk Ik Fk Heq Hsame.
    assert (Hf1 : superposed [form] = form).
    { apply functional_extensionality. intros e. unfold superposed. cbn. destruct (form e) as [M V]. cbn. f_equal.
      - apply functional_extensionality. intros a. apply functional_extensionality. intros b. lra.
      - apply functional_extensionality. intros a. lra. }
    destruct (C76_superposed ksp [] form d Hk1 Hk2 Hd') as (d1' & d2 & d3 & E1 & E2 & E3 & Hsol).
    injection E1 as <-. change ([] ++ [form]) with [form] in E3, Hsol. change (replicate 1 form) with [form] in C1.
    rewrite C1 in E3. injection E3 as <-. rewrite Hf1 in Hsol. apply Hsol. unfold ds_assemble in E2. rewrite (r_elements d Hr), Hcr, Hs1 in E2. injection E2 as <-.
    cbn [ds_linear ds_vector]. apply Hk3; [|done|done]. rewrite N1. apply (r_vector d Hr).
  Qed.

  (* ---- the calls with the same weak form, again ---- *)

  Local Lemma superposed_replicate (form : weak) k e :
    superposed (replicate k form) e = (λ a b, (INR k * (form e).1 a b)%R, λ a, (INR k * (form e).2 a)%R).
  Proof.
    assert (Hs : ∀ r k, sumR (replicate k r) = (INR k * r)%R).
    { intros r k'. induction k' as [|k' IH]; [cbn; lra|]. change (replicate (S k') r) with (r :: replicate k' r). rewrite sumR_cons, IH, S_INR. lra. }
    unfold superposed. f_equal.
    - apply functional_extensionality. intros a. apply functional_extensionality. intros b. by rewrite fmap_replicate, Hs.
    - apply functional_extensionality. intros a. by rewrite fmap_replicate, Hs.
  Qed.
  Local Lemma solution_scaled (form : weak) k fld : solution_of n (superposed (replicate (S k) form)) es constrained fld →
    solution_of n form es constrained fld.
  Proof.
    intros [H1 H2]. split; [done|]. intros p Hp Hc. specialize (H2 p Hp Hc).
    assert (Hk : (INR (S k) ≠ 0)%R) by (apply not_0_INR; lia). apply (Rmult_eq_reg_l (INR (S k))); [|done].
    transitivity (action n (superposed (replicate (S k) form)) es fld p); [|rewrite H2].
    - unfold action. rewrite <- sumR_mult_l. apply sumR_ext. intros e _. rewrite <- sumR_mult_l. apply sumR_ext. intros a _.
      case_decide; [|lra]. rewrite <- sumR_mult_l. apply sumR_ext. intros b _. rewrite superposed_replicate. cbn [fst]. lra.
    - unfold global_vector. rewrite <- sumR_mult_l. apply sumR_ext. intros e _. unfold element_vector. rewrite <- sumR_mult_l. apply sumR_ext. intros a _.
      case_decide; [|lra]. rewrite superposed_replicate. done.
  Qed.

  (* The first call gives a solution of the equations of the weak form, if the solution of the linear system
     is successful. What is missing: the others, if the weak form changed; see [C76_refuted]. *)
  Theorem C76_first_call_partial (ksp : krylov) form d :
    (∀ s v, length (ksp s v).1 = length v) →
    (∀ s v, Z.of_nat (length v) = s_equations s → (ksp s v).2 = true → solves (s_matrix s) (s_rhs s) (ksp s v).1) →
    make_discrete_system debug order es constrained = Ok d →
    ∃ d2 d3, ds_assemble debug n form d = Ok d2 ∧ solve debug n visit form ksp d = Ok d3 ∧
      ((ksp (ds_linear d2) (ds_vector d2)).2 = true → solution_of n form es constrained (ds_solution d3)).
  Proof.
    intros Hk1 Hk2 Hd. destruct (C76_superposed ksp [] form d Hk1 Hk2 Hd) as (d1 & d2 & d3 & E1 & E2 & E3 & Hsol).
    injection E1 as <-. rewrite calls_snoc in E3. exists d2, d3. split; [done|]. split; [exact E3|]. intros Hs. by apply (solution_scaled form 0), Hsol.
  Qed.

  (* After any number of calls with the same weak form, the field is a solution if the last linear system was
     solved with success. What is missing: if it was not, nothing tells; see [C77_refuted]. *)
  Theorem C77_success_partial (ksp : krylov) form k d :
    (∀ s v, length (ksp s v).1 = length v) →
    (∀ s v, Z.of_nat (length v) = s_equations s → (ksp s v).2 = true → solves (s_matrix s) (s_rhs s) (ksp s v).1) →
    make_discrete_system debug order es constrained = Ok d →
    ∃ d1 d2 d3, calls ksp (replicate k form) d = Ok d1 ∧ ds_assemble debug n form d1 = Ok d2 ∧ solve debug n visit form ksp d1 = Ok d3 ∧
      ((ksp (ds_linear d2) (ds_vector d2)).2 = true → solution_of n form es constrained (ds_solution d3)).
  Proof.
    intros Hk1 Hk2 Hd. destruct (C76_superposed ksp (replicate k form) form d Hk1 Hk2 Hd) as (d1 & d2 & d3 & E1 & E2 & E3 & Hsol).
    rewrite calls_snoc, E1 in E3. exists d1, d2, d3. split_and!; [done..|]. intros Hs. rewrite <- replicate_S_end in Hsol. by apply (solution_scaled form k), Hsol.
  Qed.
End calls.

(* The Poisson equation on a mesh: the same solution after any number of calls. *)
Theorem C75_poisson {E : element_type} debug (mesh : list (element E * list vec)) constrained (q : rule) f order visit ksp k :
  good_mesh mesh → (∀ p w, In (p, w) q → (0 <= w)%R) → sees_gradients E q → held (system mesh.*1) constrained →
  visits_set order → visits visit → good_solver ksp → 1 <= k →
  ∃ d d1 dk, make_discrete_system debug order (system mesh.*1) constrained = Ok d ∧
    solve debug (n_nodes E) visit (poisson q f) ksp d = Ok d1 ∧
    calls debug (n_nodes E) visit ksp (replicate k (poisson q f)) d = Ok dk ∧
    ds_solution dk = ds_solution d1 ∧ solution_of (n_nodes E) (poisson q f) (system mesh.*1) constrained (ds_solution dk).
Proof.
  intros Hm Hq Hs Hh Ho Hv Hk Hle.
  destruct (make_ready debug (system mesh.*1) constrained order Ho) as (d & Hd & Hr & Hcr & _).
  destruct (C75_same_solution debug (system mesh.*1) constrained (n_nodes E) (system_length mesh.*1) order Ho visit Hv ksp (poisson q f) k d Hk Hd Hle) as (d1 & dk & E1 & Ek & Hsame & Hsol).
  - intros d1 Hd1. destruct (C72_definite debug mesh Hm constrained _ _ (r_equations _ _ d Hr) f q Hq Hs Hh) as (s & Es & Hsym & Hpos).
    unfold ds_assemble in Hd1. rewrite (r_elements _ _ d Hr), Hcr, Es in Hd1. injection Hd1 as <-. cbn [ds_vector ds_linear].
    assert (length (ds_vector d) = Z.to_nat (ds_n_equations d)) as -> by (rewrite <- (r_vector _ _ d Hr); lia). done.
  - exists d, d1, dk. split_and!; try done. unfold calls in E1. cbn [rfold] in E1. by destruct (solve _ _ _ _ _ _) as [d'| |].
Qed.

(* ---- cases, and what fails ---- *)

(* a bar between two nodes: a spring, and a force at the nodes *)
Definition bar : list (unit * list nat) := [((), [0; 1])].
Definition spring (force : R) : unit * list nat → (nat → nat → R) * (nat → R) :=
  λ _, (λ a b, if decide (a = b) then 1%R else (-1)%R, λ _, force).
Lemma bar_length e : e ∈ bar → length e.2 = 2.
Proof. intros He. apply elem_of_list_singleton in He as ->. done. Qed.

Lemma bar_action force fld p : action 2 (spring force) bar fld p =
  if decide (p = 0) then (nodal fld 0 - nodal fld 1)%R else if decide (p = 1) then (nodal fld 1 - nodal fld 0)%R else 0%R.
Proof.
  unfold action, bar. rewrite fmap_cons, sumR_cons. cbn [fmap list_fmap sumR foldr seq snd].
  unfold at_local. cbn [snd lookup list_lookup spring fst].
  assert (H0 : (Some 0 = Some p) ↔ p = 0) by (split; congruence). assert (H1 : (Some 1 = Some p) ↔ p = 1) by (split; congruence).
  repeat case_decide; try lia; try (by intuition lia); unfold nodal; cbn; try lra.
Qed.
Lemma bar_vector force p : global_vector 2 (spring force) bar p = if decide (p = 0 ∨ p = 1) then force else 0%R.
Proof.
  unfold global_vector, element_vector, bar. cbn [fmap list_fmap sumR foldr seq snd lookup list_lookup spring].
  assert (H0 : (Some 0 = Some p) ↔ p = 0) by (split; congruence). assert (H1 : (Some 1 = Some p) ↔ p = 1) by (split; congruence).
  repeat case_decide; try (by intuition lia); try lra.
Qed.

(* The force is doubled between two calls: the field after the second is 3 / 2, that of a new discrete
   system is 2. *)
Theorem C76_refuted : ∃ d d1 d2,
  make_discrete_system true elements bar {[0]} = Ok d ∧
  solve true 2 map_to_list (spring 1) elimination d = Ok d1 ∧ solution_of 2 (spring 1) bar {[0]} (ds_solution d1) ∧
  solve true 2 map_to_list (spring 2) elimination d1 = Ok d2 ∧ ¬ solution_of 2 (spring 2) bar {[0]} (ds_solution d2) ∧
  ∃ d3, solve true 2 map_to_list (spring 2) elimination d = Ok d3 ∧ solution_of 2 (spring 2) bar {[0]} (ds_solution d3).
Proof.
  assert (Hn : ∀ p, node_of bar p → p = 0 ∨ p = 1).
  { intros p (e & He & Hp). apply elem_of_list_singleton in He as ->. set_solver. }
  assert (Hsol : ∀ force fld, fld !! 0 = Some 0%R → fld !! 1 = Some force → solution_of 2 (spring force) bar {[0]} fld).
  { intros force fld F0 F1. split.
    - intros p _ Hp. apply elem_of_singleton in Hp as ->. done.
    - intros p Hp Hc. apply Hn in Hp. assert (p = 1) as -> by set_solver. rewrite bar_action, bar_vector. unfold nodal. rewrite F0, F1. repeat case_decide; lia || lra. }
  do 3 eexists. split; [vm_compute; reflexivity|].
  split; [cbv -[Rplus Rmult Rminus Rdiv IZR Ropp Req_EM_T]; reflexivity|].
  split; [apply Hsol; [reflexivity|cbv -[Rplus Rmult Rminus Rdiv IZR Ropp Rinv]; f_equal; change R0 with 0%R; field]|].
  split; [cbv -[Rplus Rmult Rminus Rdiv IZR Ropp Req_EM_T]; reflexivity|].
  split.
  - intros [H1 H2]. assert (Hn1 : node_of bar 1) by (exists ((), [0; 1]); split; [left|right; left]).
    specialize (H2 1 Hn1 ltac:(set_solver)). rewrite bar_action, bar_vector in H2. cbn [decide] in H2.
    cbv -[Rplus Rmult Rminus Rdiv IZR Ropp Rinv] in H2. change R0 with 0%R in H2. lra.
  - eexists. split; [cbv -[Rplus Rmult Rminus Rdiv IZR Ropp Req_EM_T]; reflexivity|].
    apply Hsol; [reflexivity|cbv -[Rplus Rmult Rminus Rdiv IZR Ropp Rinv]; f_equal; change R0 with 0%R; field].
Qed.

(* A bar that nothing holds, with forces that do not balance: the equations have no solution, and [solve]
   returns as always, whatever the matrix solver does. *)
Theorem C77_refuted debug (ksp : krylov) : (∀ s v, length (ksp s v).1 = length v) →
  ∃ d d1, make_discrete_system debug elements bar ∅ = Ok d ∧ solve debug 2 map_to_list (spring 1) ksp d = Ok d1 ∧
    ∀ fld, ¬ solution_of 2 (spring 1) bar ∅ fld.
Proof.
  intros Hk. destruct (make_ready debug bar ∅ elements ltac:(intros ?; reflexivity)) as (d & Hd & Hr & _).
  destruct (one_call debug bar ∅ 2 bar_length map_to_list ltac:(intros ?; reflexivity) (spring 1) ksp d Hr Hk) as (d1 & _ & E & _).
  exists d, d1. split; [done|]. split; [done|]. intros fld [_ H].
  assert (Hn0 : node_of bar 0) by (exists ((), [0; 1]); split; [left|left]).
  assert (Hn1 : node_of bar 1) by (exists ((), [0; 1]); split; [left|right; left]).
  pose proof (H 0 Hn0 ltac:(set_solver)) as H0. pose proof (H 1 Hn1 ltac:(set_solver)) as H1.
  rewrite bar_action, bar_vector in H0, H1. repeat case_decide; lia || lra.
Qed.

(* The bar held at one end meets the hypothesis of C75. *)
Example C75_case debug k : 1 <= k → ∃ d d1 dk, make_discrete_system debug elements bar {[0]} = Ok d ∧
  calls debug 2 map_to_list elimination [spring 1] d = Ok d1 ∧ calls debug 2 map_to_list elimination (replicate k (spring 1)) d = Ok dk ∧
  ds_solution dk = ds_solution d1 ∧ ds_solution dk !! 1 = Some 1%R.
Proof.
  intros Hk. destruct (make_ready debug bar {[0]} elements ltac:(intros ?; reflexivity)) as (d & Hd & Hr & Hcr & Hz).
  destruct (C75_same_solution debug bar {[0]} 2 bar_length elements ltac:(intros ?; reflexivity) map_to_list ltac:(intros ?; reflexivity) elimination (spring 1) k d
    elimination_good Hd Hk) as (d1 & dk & E1 & Ek & Hsame & [S0 S1]).
  - intros d1 Hd1. assert (debug = true ∨ debug = false) as [-> | ->] by (clear; destruct debug; auto);
      vm_compute in Hd; injection Hd as <-; cbv -[Rplus Rmult Rminus Rdiv IZR Ropp Req_EM_T] in Hd1; injection Hd1 as <-; cbn [ds_vector length ds_linear];
      (split; [intros i j Hi Hj; assert (i = j) as -> by lia; done|]); intros x (i & Hi & Hx); assert (i = 0) as -> by lia;
      pose proof (Rsqr_pos_lt _ Hx) as Hs; unfold Rsqr in Hs; cbv -[Rplus Rmult Rminus Rdiv IZR Ropp Rlt]; change R0 with 0%R; lra.
  - assert (Hn0 : node_of bar 0) by (exists ((), [0; 1]); split; [left|left]).
    assert (Hn1 : node_of bar 1) by (exists ((), [0; 1]); split; [left|right; left]).
    exists d, d1, dk. split_and!; try done. specialize (S0 0 Hn0 ltac:(set_solver)). specialize (S1 1 Hn1 ltac:(set_solver)).
    rewrite bar_action, bar_vector in S1. repeat case_decide; try lia. unfold nodal in S1. rewrite S0 in S1.
    destruct (ds_solution dk !! 1) as [r|]; [f_equal; lra|lra].
Qed.

Print Assumptions C75_accumulates.
Print Assumptions C75_same_solution.
Print Assumptions C75_poisson.
Print Assumptions C76_superposed.
Print Assumptions C76_first_call_partial.
Print Assumptions C76_refuted.
Print Assumptions C77_success_partial.
Print Assumptions C77_refuted.
