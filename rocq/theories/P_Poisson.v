(* The forms of the assembled finite element systems in terms of integrals over the mesh. *)
From stdpp Require Import base gmap list sorting.
From Coq Require Import Reals Lra.
From Verif Require Import Base M_Tensor M_Geometry S_Geometry P_Volume.
From Verif Require Import M_Functions P_Functions M_Quadrature S_Quadrature P_Quadrature P_Integrator M_Fem S_Fem P_Fem P_FemBlocks P_FemNorms Properties_Fem.
From Verif Require Import S_Discrete M_System S_System P_System Properties_System P_Galerkin M_Poisson S_Poisson.
Open Scope nat_scope.

Lemma rsum_sumR n (f : nat → R) : rsum n f = sumR (f <$> seq 0 n).
Proof.
  induction n as [|n IH]; [done|]. rewrite List.seq_S, fmap_app, sumR_app. cbn [rsum]. rewrite IH. cbn. lra.
Qed.
Lemma total_sumR {A} (f : A → R) l : S_Geometry.total (map f l) = sumR (f <$> l).
Proof. done. Qed.

Section problem.
  Context {E : element_type}.
  Implicit Types (e : element E) (mesh : list (element E * list vec)) (u v : nat → R) (q : rule).

  Definition el e : element E * list nat := (e, connectivity e <$> seq 0 (n_nodes E)).
  Lemma loc_el (w : nat → R) e a : a < n_nodes E → loc w (el e) a = w (connectivity e a).
  Proof.
    intros Ha. unfold loc, el. cbn [snd]. rewrite list_lookup_fmap, lookup_seq_lt by done. done.
  Qed.

  Lemma eform_form (blocks : element E * list nat → (nat → nat → R) * (nat → R)) (m : mat) u v e :
    (∀ a b, (blocks (el e)).1 a b = m a b) →
    eform (n_nodes E) blocks u v (el e) = form (n_nodes E) m (λ a, u (connectivity e a)) (λ b, v (connectivity e b)).
  Proof.
    intros Hm. unfold eform, form. rewrite rsum_sumR. apply sumR_seq_ext. intros a Ha. rewrite rsum_sumR. apply sumR_seq_ext. intros b Hb.
    by rewrite Hm, !loc_el by done.
  Qed.
  Lemma poisson_1 q f e a b : (poisson q f (el e)).1 a b = grad_grad_block q e a b.
  Proof. unfold poisson. rewrite (proj1 (C53_weakform _ _ _)). cbn. lra. Qed.
  Lemma projection_1 q f e a b : (projection q f (el e)).1 a b = mass_block q e a b.
  Proof. unfold projection. rewrite (proj1 (C53_weakform _ _ _)). cbn. lra. Qed.
  Lemma helmholtz_1 q q' f e a b : (helmholtz q q' f (el e)).1 a b = (grad_grad_block q e a b + mass_block q' e a b)%R.
  Proof. unfold helmholtz. rewrite (proj1 (C53_weakform _ _ _)). cbn. lra. Qed.
  Lemma poisson_2 q f e a : (poisson q f (el e)).2 a = source_term_block q f e a.
  Proof. unfold poisson. rewrite (proj2 (C53_weakform _ _ _)). cbn. lra. Qed.
  Lemma projection_2 q f e a : (projection q f (el e)).2 a = source_term_block q f e a.
  Proof. unfold projection. rewrite (proj2 (C53_weakform _ _ _)). cbn. lra. Qed.
  Lemma helmholtz_2 q q' f e a : (helmholtz q q' f (el e)).2 a = source_term_block q' f e a.
  Proof. unfold helmholtz. rewrite (proj2 (C53_weakform _ _ _)). cbn. lra. Qed.

  Lemma form_plus n (m m' : mat) u v : form n (λ a b, m a b + m' a b)%R u v = (form n m u v + form n m' u v)%R.
  Proof.
    unfold form. rewrite <- rsum_plus. apply rsum_ext. intros a _. rewrite <- rsum_plus. apply rsum_ext. intros b _. ring.
  Qed.

  Lemma sum_over_mesh (F : element E * list nat → R) mesh (G : element E → vec → R) q :
    (∀ e corners, (e, corners) ∈ mesh →
      F (el e) = (simplex_volume corners * S_Geometry.total (map (λ pw, snd pw * G e (fst pw))%R q))%R) →
    sumR (F <$> system mesh.*1) = integral q mesh G.
  Proof.
    intros HF. unfold integral, system. etransitivity; [|symmetry; apply total_sumR]. rewrite <- !list_fmap_compose. apply sumR_ext.
    intros [e corners] He. cbn. by apply HF.
  Qed.

  Lemma in_mesh mesh e corners : good_mesh mesh → (e, corners) ∈ mesh → made e corners ∧ (0 < simplex_volume corners)%R.
  Proof. intros Hg He. apply Hg. by apply elem_of_list_In. Qed.

  Lemma eload_source (blocks : element E * list nat → (nat → nat → R) * (nat → R)) q f v e corners :
    made e corners → (∀ a, (blocks (el e)).2 a = source_term_block q f e a) →
    eload (n_nodes E) blocks v (el e) =
      (simplex_volume corners * S_Geometry.total (map (λ pw, snd pw * (f (image e (fst pw)) * value_of v e (fst pw)))%R q))%R.
  Proof.
    intros He Hb. unfold eload.
    rewrite (sumR_seq_ext _ (λ a, simplex_volume corners *
      S_Geometry.total (map (λ pw, v (connectivity e a) * (snd pw * (f (image e (fst pw)) * phi E a (fst pw)))) q))%R).
    - rewrite sumR_mult_l. f_equal. rewrite <- rsum_sumR.
      rewrite <- (total_rsum (n_nodes E) (λ pw a, v (connectivity e a) * (snd pw * (f (image e (fst pw)) * phi E a (fst pw))))%R q).
      apply total_map_ext. intros pw _. unfold value_of, interpolant. rewrite <- !rsum_scale. apply rsum_ext. intros; ring.
    - intros a Ha. rewrite loc_el, Hb, (source_value e corners q f a He), total_map_scal by done.
      rewrite <- Rmult_assoc, (Rmult_comm (v _)), Rmult_assoc. done.
  Qed.

  Lemma poisson_form q f mesh u v : good_mesh mesh →
    sumR (eform (n_nodes E) (poisson q f) u v <$> system mesh.*1) = stiffness q mesh u v.
  Proof.
    intros Hg. apply sum_over_mesh. intros e corners He. destruct (in_mesh mesh e corners Hg He) as [Hm _].
    rewrite (eform_form _ (grad_grad_block q e)) by apply poisson_1. apply (grad_grad_form e corners q _ _ Hm).
  Qed.
  Lemma projection_form q f mesh u v : good_mesh mesh →
    sumR (eform (n_nodes E) (projection q f) u v <$> system mesh.*1) = mass q mesh u v.
  Proof.
    intros Hg. apply sum_over_mesh. intros e corners He. destruct (in_mesh mesh e corners Hg He) as [Hm _].
    rewrite (eform_form _ (mass_block q e)) by apply projection_1. apply (mass_form e corners q _ _ Hm).
  Qed.
  Lemma helmholtz_form q q' f mesh u v : good_mesh mesh →
    sumR (eform (n_nodes E) (helmholtz q q' f) u v <$> system mesh.*1) = (stiffness q mesh u v + mass q' mesh u v)%R.
  Proof.
    intros Hg. rewrite <- (poisson_form q f), <- (projection_form q' f) by done. rewrite <- sumR_plus. apply sumR_ext.
    intros e (e' & -> & He)%elem_of_list_fmap. change (e', connectivity e' <$> seq 0 (n_nodes E)) with (el e').
    rewrite (eform_form (helmholtz _ _ _) (λ a b, grad_grad_block q e' a b + mass_block q' e' a b)%R) by apply helmholtz_1.
    rewrite (eform_form (poisson _ _) (grad_grad_block q e')) by apply poisson_1.
    rewrite (eform_form (projection _ _) (mass_block q' e')) by apply projection_1. apply form_plus.
  Qed.
  Lemma load_form (blocks : element E * list nat → (nat → nat → R) * (nat → R)) q f mesh v : good_mesh mesh →
    (∀ e a, (blocks (el e)).2 a = source_term_block q f e a) →
    sumR (eload (n_nodes E) blocks v <$> system mesh.*1) = load q mesh f v.
  Proof.
    intros Hg Hb. apply sum_over_mesh. intros e corners He. destruct (in_mesh mesh e corners Hg He) as [Hm _].
    by apply eload_source.
  Qed.

  (* ---- signs ---- *)

  Definition weights_nonneg q : Prop := ∀ p w, In (p, w) q → (0 <= w)%R.

  Lemma integral_nonneg q mesh g : good_mesh mesh → weights_nonneg q → (∀ e p, 0 <= g e p)%R → (0 <= integral q mesh g)%R.
  Proof.
    intros Hg Hq Hp. apply total_nonneg. intros [e corners] He. cbn [fst snd]. apply Rmult_le_pos; [apply Rlt_le, (Hg e corners He)|].
    apply total_nonneg. intros [p w] Hw. apply Rmult_le_pos; [by apply (Hq p)|apply Hp].
  Qed.
  Lemma integral_zero q mesh g : good_mesh mesh → weights_nonneg q → (∀ e p, 0 <= g e p)%R → integral q mesh g = 0%R →
    ∀ e corners, (e, corners) ∈ mesh → (simplex_volume corners * S_Geometry.total (map (λ pw, snd pw * g e (fst pw))%R q))%R = 0%R.
  Proof.
    intros Hg Hq Hp Hz e corners He. apply elem_of_list_In in He.
    refine (total_zero _ mesh _ Hz (e, corners) He). intros [e' corners'] He'. cbn [fst snd].
    apply Rmult_le_pos; [apply Rlt_le, (Hg e' corners' He')|].
    apply total_nonneg. intros [p w] Hw. apply Rmult_le_pos; [by apply (Hq p)|apply Hp].
  Qed.

  Lemma node_of_system (es : list (element E)) p : node_of (system es) p ↔ ∃ e a, e ∈ es ∧ a < n_nodes E ∧ p = connectivity e a.
  Proof.
    split.
    - intros (x & (e & -> & He)%elem_of_list_fmap & Hp). cbn in Hp. apply elem_of_list_fmap in Hp as (a & -> & Ha). apply elem_of_seq in Ha.
      exists e, a. split_and!; [done|lia|done].
    - intros (e & a & He & Ha & ->). exists (el e). split; [by apply (elem_of_list_fmap_1 el)|]. cbn.
      apply (elem_of_list_fmap_1 (connectivity e)). apply elem_of_seq. lia.
  Qed.
  Lemma system_length (es : list (element E)) x : x ∈ system es → length x.2 = n_nodes E.
  Proof. intros (e & -> & He)%elem_of_list_fmap. cbn. by rewrite fmap_length, seq_length. Qed.
  Lemma neighbours_system (es : list (element E)) p p' : neighbours (system es) p p' ↔
    ∃ e a b, e ∈ es ∧ a < n_nodes E ∧ b < n_nodes E ∧ p = connectivity e a ∧ p' = connectivity e b.
  Proof.
    split.
    - intros (x & (e & -> & He)%elem_of_list_fmap & Hp & Hp'). cbn in Hp, Hp'.
      apply elem_of_list_fmap in Hp as (a & -> & Ha). apply elem_of_list_fmap in Hp' as (b & -> & Hb). apply elem_of_seq in Ha, Hb.
      exists e, a, b. split_and!; [done|lia|lia|done|done].
    - intros (e & a & b & He & Ha & Hb & -> & ->). exists (el e). split; [by apply (elem_of_list_fmap_1 el)|]. cbn.
      split; apply (elem_of_list_fmap_1 (connectivity e)); apply elem_of_seq; lia.
  Qed.

  (* a field without energy has the same value at the nodes of an element *)
  Lemma stiffness_zero q mesh u : good_mesh mesh → weights_nonneg q → sees_gradients E q → stiffness q mesh u u = 0%R →
    ∀ p p', neighbours (system mesh.*1) p p' → u p = u p'.
  Proof.
    intros Hg Hq Hs Hz p p' (e & a & b & He & Ha & Hb & -> & ->)%neighbours_system.
    apply elem_of_list_fmap in He as ([e' corners] & -> & He). cbn [fst] in *. destruct (in_mesh mesh e' corners Hg He) as [Hm Hv].
    pose proof (integral_zero q mesh (λ e p, dot (edim E) (gradient_of u e p) (gradient_of u e p)) Hg Hq (λ e p, dot_nonneg _ _) Hz e' corners He) as Hze.
    refine (C51_kernel e' corners q (λ a, u (connectivity e' a)) Hm Hv Hq Hs _ a b Ha Hb).
    rewrite (grad_grad_form e' corners q _ _ Hm). exact Hze.
  Qed.
  Lemma stiffness_nonneg q mesh u : good_mesh mesh → weights_nonneg q → (0 <= stiffness q mesh u u)%R.
  Proof. intros Hg Hq. apply integral_nonneg; [done|done|]. intros. apply dot_nonneg. Qed.
  Lemma mass_nonneg q mesh u : good_mesh mesh → weights_nonneg q → (0 <= mass q mesh u u)%R.
  Proof. intros Hg Hq. apply integral_nonneg; [done|done|]. intros. apply Rle_0_sqr. Qed.
  Lemma mass_zero_field r q mesh u : good_mesh mesh → quadrature_table (edim E) r = Some q → 2 * degree E <= r →
    mass q mesh u u = 0%R → ∀ p, node_of (system mesh.*1) p → u p = 0%R.
  Proof.
    intros Hg Hq Hr Hz p (e & a & He & Ha & ->)%node_of_system.
    apply elem_of_list_fmap in He as ([e' corners] & -> & He). cbn [fst] in *. destruct (in_mesh mesh e' corners Hg He) as [Hm Hv].
    destruct (C51_kernel_tables E r q Hq ltac:(lia)) as [_ HP].
    pose proof (integral_zero q mesh (λ e p, value_of u e p * value_of u e p)%R Hg (λ p w Hw, Rlt_le _ _ (HP p w Hw)) (λ e p, Rle_0_sqr _) Hz e' corners He) as Hze.
    refine (C51_mass_definite e' corners r q (λ a, u (connectivity e' a)) Hm Hv Hq Hr _ a Ha).
    rewrite (mass_form e' corners q _ _ Hm). exact Hze.
  Qed.
  Lemma held_zero (es : list (element E)) constrained u : held (system es) constrained → (∀ p, p ∈ constrained → u p = 0%R) →
    (∀ p p', neighbours (system es) p p' → u p = u p') → ∀ p, node_of (system es) p → u p = 0%R.
  Proof.
    intros Hh Hc Hn p Hp. destruct (Hh p Hp) as (c & Hcc & Hr). rewrite <- (Hc c Hcc). clear Hcc Hp.
    induction Hr as [|p p' c Hpp' _ IH]; [done|]. by rewrite (Hn p p' Hpp').
  Qed.
End problem.

(* ---- linearity ---- *)
Section linear.
  Context {E : element_type} (q : rule).
  Implicit Types (mesh : list (element E * list vec)) (g h : element E → vec → R) (u v : nat → R).

  Lemma integral_ext mesh g h : (∀ e p, g e p = h e p) → integral q mesh g = integral q mesh h.
  Proof.
    intros Hgh. unfold integral. apply total_map_ext. intros x _. f_equal. apply total_map_ext. intros pw _. by rewrite Hgh.
  Qed.
  Lemma integral_plus mesh g h : integral q mesh (λ e p, g e p + h e p)%R = (integral q mesh g + integral q mesh h)%R.
  Proof.
    unfold integral. rewrite !total_sumR, <- sumR_plus. apply sumR_ext. intros x _. rewrite <- Rmult_plus_distr_l. f_equal.
    rewrite !total_sumR, <- sumR_plus. apply sumR_ext. intros pw _. ring.
  Qed.
  Lemma integral_scal mesh g t : integral q mesh (λ e p, t * g e p)%R = (t * integral q mesh g)%R.
  Proof.
    unfold integral. rewrite !total_sumR, <- sumR_mult_l. apply sumR_ext. intros x _.
    rewrite (total_sumR _ q), (total_sumR (λ pw, snd pw * g x.1 (fst pw))%R q).
    rewrite (sumR_ext _ (λ pw, t * (snd pw * g x.1 (fst pw)))%R) by (intros; ring). rewrite sumR_mult_l. ring.
  Qed.

  Lemma gradient_plus u v (e : element E) p i :
    gradient_of (λ k, u k + v k)%R e p i = (gradient_of u e p i + gradient_of v e p i)%R.
  Proof. unfold gradient_of. rewrite <- rsum_plus. apply rsum_ext. intros; ring. Qed.
  Lemma value_plus u v (e : element E) p : value_of (λ k, u k + v k)%R e p = (value_of u e p + value_of v e p)%R.
  Proof. unfold value_of, interpolant. rewrite <- rsum_plus. apply rsum_ext. intros; ring. Qed.

  Lemma stiffness_sym mesh u v : stiffness q mesh u v = stiffness q mesh v u.
  Proof. apply integral_ext. intros. unfold dot. apply rsum_ext. intros; ring. Qed.
  Lemma mass_sym mesh u v : mass q mesh u v = mass q mesh v u.
  Proof. apply integral_ext. intros. ring. Qed.
  Lemma stiffness_expand mesh u v : stiffness q mesh (λ k, u k + v k)%R (λ k, u k + v k)%R =
    (stiffness q mesh u u + 2 * stiffness q mesh u v + stiffness q mesh v v)%R.
  Proof.
    unfold stiffness. rewrite <- integral_scal, <- !integral_plus. apply integral_ext. intros e p.
    unfold dot. rewrite <- rsum_scale, <- !rsum_plus. apply rsum_ext. intros i _. rewrite !gradient_plus. ring.
  Qed.
  Lemma mass_expand mesh u v : mass q mesh (λ k, u k + v k)%R (λ k, u k + v k)%R =
    (mass q mesh u u + 2 * mass q mesh u v + mass q mesh v v)%R.
  Proof.
    unfold mass. rewrite <- integral_scal, <- !integral_plus. apply integral_ext. intros e p. rewrite !value_plus. ring.
  Qed.
  Lemma load_plus mesh f u v : load q mesh f (λ k, u k + v k)%R = (load q mesh f u + load q mesh f v)%R.
  Proof. unfold load. rewrite <- integral_plus. apply integral_ext. intros e p. rewrite value_plus. ring. Qed.

  (* fields with the same values at the nodes *)
  Lemma integral_mesh_ext mesh g h : (∀ e corners p, (e, corners) ∈ mesh → g e p = h e p) → integral q mesh g = integral q mesh h.
  Proof.
    intros Hgh. unfold integral. rewrite !total_sumR. apply sumR_ext. intros [e corners] He. cbn. f_equal.
    apply total_map_ext. intros pw _. by rewrite (Hgh e corners).
  Qed.
  Lemma at_nodes mesh u v (e : element E) corners a : (∀ p, node_of (system mesh.*1) p → u p = v p) → (e, corners) ∈ mesh → a < n_nodes E →
    u (connectivity e a) = v (connectivity e a).
  Proof.
    intros Huv He Ha. apply Huv, node_of_system. exists e, a. split_and!; [|done|done]. by apply (elem_of_list_fmap_1 fst mesh (e, corners)).
  Qed.
  Lemma gradient_nodes mesh u v (e : element E) corners p i : (∀ p, node_of (system mesh.*1) p → u p = v p) → (e, corners) ∈ mesh →
    gradient_of u e p i = gradient_of v e p i.
  Proof. intros Huv He. apply rsum_ext. intros a Ha. by rewrite (at_nodes mesh u v e corners a Huv He Ha). Qed.
  Lemma value_nodes mesh u v (e : element E) corners p : (∀ p, node_of (system mesh.*1) p → u p = v p) → (e, corners) ∈ mesh →
    value_of u e p = value_of v e p.
  Proof. intros Huv He. apply rsum_ext. intros a Ha. by rewrite (at_nodes mesh u v e corners a Huv He Ha). Qed.
  Lemma stiffness_nodes mesh u v w : (∀ p, node_of (system mesh.*1) p → u p = v p) → stiffness q mesh u w = stiffness q mesh v w.
  Proof.
    intros Huv. apply integral_mesh_ext. intros e corners p He. apply rsum_ext. intros i _. by rewrite (gradient_nodes mesh u v e corners p i Huv He).
  Qed.
  Lemma mass_nodes mesh u v w : (∀ p, node_of (system mesh.*1) p → u p = v p) → mass q mesh u w = mass q mesh v w.
  Proof. intros Huv. apply integral_mesh_ext. intros e corners p He. by rewrite (value_nodes mesh u v e corners p Huv He). Qed.
  Lemma load_nodes mesh f u v : (∀ p, node_of (system mesh.*1) p → u p = v p) → load q mesh f u = load q mesh f v.
  Proof. intros Huv. apply integral_mesh_ext. intros e corners p He. by rewrite (value_nodes mesh u v e corners p Huv He). Qed.
End linear.

(* ---- reading the solution of a system ---- *)
Lemma read_spread {C} debug order visit (es : list (C * list nat)) constrained eqs N u fld fld' :
  visits_set order → visits visit →
  build_equation_map es constrained = (eqs, N) → Z.of_nat (length u) = N → fem_field debug order es = Ok fld →
  read_solution visit eqs u fld = Ok fld' → ∀ p, node_of es p → nodal fld' p = spread eqs (λ i, nth i u 0%R) p.
Proof.
  intros Ho Hv E Hu Ef Er p Hp. unfold nodal.
  destruct (C54_initial debug order Ho es) as (f0 & E0 & Hf). rewrite Ef in E0. injection E0 as <-.
  destruct (C54_read_solution_partial visit Hv es constrained eqs N u fld E Hu) as (f0 & E0 & Hread & Hkeep).
  { intros k Hk. apply Hf in Hk. by exists 0%R. }
  rewrite Er in E0. injection E0 as <-.
  destruct (decide (p ∈ constrained)) as [Hc|Hc].
  - rewrite Hkeep by tauto. rewrite (proj1 (Hf p) Hp). symmetry. by apply (spread_constrained es constrained eqs N E).
  - destruct (Hread p Hp Hc) as (i & Hi & Hl & ->). unfold spread. rewrite Hi, decide_True, Nat2Z.id by lia.
    destruct (u !! i) as [x|] eqn:Ex; [|apply lookup_ge_None_1 in Ex; lia]. symmetry. by apply nth_lookup_Some.
Qed.

(* ---- systems whose form is definite on the fields that vanish at the constrained nodes ---- *)
Section definite.
  Context {C : Type} (debug : bool) (n : nat) (blocks : C * list nat → (nat → nat → R) * (nat → R)).
  Context (es : list (C * list nat)) (constrained : gset nat) (eqs : gmap nat Z) (N : Z) (s : linear_system).
  Context (Heqs : build_equation_map es constrained = (eqs, N)) (Hlen : ∀ e, e ∈ es → length e.2 = n).
  Context (Hs : assemble debug n eqs N blocks es (create N) = Ok s).
  Context (A : (nat → R) → (nat → R) → R) (HA : ∀ u v, sumR (eform n blocks u v <$> es) = A u v).
  Context (Hsym : ∀ u v, A u v = A v u) (Hnn : ∀ u, (0 <= A u u)%R).
  Context (Hdef : ∀ u, (∀ p, p ∈ constrained → u p = 0%R) → A u u = 0%R → ∀ p, node_of es p → u p = 0%R).

  Let M i j := s_matrix s (Z.of_nat i) (Z.of_nat j).

  Lemma definite_symmetric : symmetric (Z.to_nat N) M.
  Proof.
    intros i j Hi Hj. pose (x (k : nat) := λ l : nat, if decide (l = k) then 1%R else 0%R).
    assert (Hq : ∀ i j, i < Z.to_nat N → j < Z.to_nat N → quad (Z.to_nat N) M (x i) (x j) = M i j).
    { clear i j Hi Hj. intros i j Hi Hj. unfold quad. rewrite (sumR_pick _ _ i).
      - rewrite (sumR_pick _ _ j).
        + unfold x. rewrite !decide_True by done. lra.
        + apply NoDup_seq.
        + apply elem_of_seq. lia.
        + intros k _ Hk. unfold x. rewrite (decide_False (P := k = j)) by done. lra.
      - apply NoDup_seq.
      - apply elem_of_seq. lia.
      - intros k _ Hk. apply sumR_zero. intros l _. unfold x. rewrite (decide_False (P := k = i)) by done. lra. }
    rewrite <- (Hq i j), <- (Hq j i) by done. unfold M. rewrite !(assembled_form debug n blocks es constrained eqs N s Heqs Hlen Hs), !HA. apply Hsym.
  Qed.
  Lemma definite_definite : positive_definite (Z.to_nat N) M.
  Proof.
    intros x (i & Hi & Hx). unfold M. rewrite (assembled_form debug n blocks es constrained eqs N s Heqs Hlen Hs), HA.
    destruct (Rle_lt_or_eq_dec _ _ (Hnn (spread eqs x))) as [|Hz]; [done|exfalso]. apply Hx.
    apply (spread_zero es constrained eqs N Heqs x); [|done]. apply Hdef; [|done]. intros p Hp. by apply (spread_constrained es constrained eqs N Heqs).
  Qed.
  Lemma definite_one : ∃ u, (length u = Z.to_nat N ∧ solves (s_matrix s) (s_rhs s) u) ∧
    ∀ u', length u' = Z.to_nat N → solves (s_matrix s) (s_rhs s) u' → u' = u.
  Proof.
    destruct (definite_solvable (Z.to_nat N) M (λ i, s_rhs s (Z.of_nat i)) definite_definite) as [x Hx].
    exists (x <$> seq 0 (Z.to_nat N)).
    assert (Hn : ∀ i, i < Z.to_nat N → nth i (x <$> seq 0 (Z.to_nat N)) 0%R = x i).
    { intros i Hi. apply nth_lookup_Some. rewrite list_lookup_fmap, lookup_seq_lt by done. done. }
    assert (Hl : length (x <$> seq 0 (Z.to_nat N)) = Z.to_nat N) by (by rewrite fmap_length, seq_length).
    split_and!; [done| |].
    - intros i Hi. rewrite Hl in Hi |- *. rewrite <- (Hx i Hi). apply sumR_seq_ext. intros j Hj. by rewrite Hn.
    - intros u' Hu' Hsol. apply list_eq. intros i. destruct (decide (i < Z.to_nat N)) as [Hi|Hi].
      + rewrite list_lookup_fmap, lookup_seq_lt by done. cbn.
        destruct (lookup_lt_is_Some_2 u' i) as [y Hy]; [lia|]. rewrite Hy. f_equal. rewrite <- (nth_lookup_Some u' i 0%R y Hy).
        apply (definite_unique (Z.to_nat N) M (λ i, nth i u' 0%R) x definite_definite); [|done]. clear i Hi y Hy. intros i Hi. rewrite Hx by done.
        rewrite <- (Hsol i) by lia. by rewrite Hu'.
      + rewrite !lookup_ge_None_2; [done|rewrite Hl; lia|lia].
  Qed.
End definite.
