(* C83: on a line, the distance between the field that the Poisson program computes and the solution of the
   differential equation. *)
From stdpp Require Import base gmap list sorting.
From Coq Require Import Reals Lra.
From Coquelicot Require Import Hierarchy Derive.
From Verif Require Import Base M_Tensor M_Geometry S_Geometry P_Volume.
From Verif Require Import M_Functions S_Functions P_Functions M_Quadrature S_Quadrature P_Quadrature P_Integrator M_Topology M_Fem S_Fem P_Fem P_FemBlocks P_FemNorms Properties_Fem Properties_FemNorms.
From Verif Require Import P_Mesh S_Discrete M_System S_System P_System Properties_System P_Galerkin M_Poisson S_Poisson P_Poisson Properties_Poisson P_Line Properties_Line.
From Verif Require Import M_Solver S_Solver P_Solver P_SolverMesh Properties_Solver P_SolverField P_LineError.
Local Open Scope nat_scope.

(* Every node outside of the domain of the constraints starts as many segments as it ends. *)
Definition chained {K : Type} `{Countable K} (cells domain : list (list K)) : Prop :=
  filter (λ k, k ∉ concat domain) (concat (take 1 <$> cells)) ≡ₚ
  filter (λ k, k ∉ concat domain) (concat (drop 1 <$> cells)).

Local Lemma affine_value (r : polynomial) : of_degree 1 1 r → ∃ A B, ∀ y, poly r y = (A + B * y 0%nat)%R.
Proof.
  intros Hr. induction r as [|[a es] r IH].
  - exists 0%R, 0%R. intros y. unfold poly, S_Geometry.total. cbn. lra.
  - apply Forall_cons in Hr as [[L S] Hr]. destruct (IH Hr) as (A & B & HAB). cbn [fst snd] in *.
    destruct es as [|n [|m es]]; try discriminate L. cbn in S. destruct n as [|[|n]]; [| |lia].
    + exists (A + a)%R, B. intros y. rewrite poly_cons, HAB. cbn. lra.
    + exists A, (B + a)%R. intros y. rewrite poly_cons, HAB. cbn. lra.
Qed.

Local Lemma filter_names {K : Type} (P : nat → Prop) (Q : K → Prop) `{∀ p, Decision (P p)} `{∀ k, Decision (Q k)} (name : K → nat) (l : list K) :
  (∀ k, k ∈ l → P (name k) ↔ Q k) → filter P (name <$> l) = name <$> filter Q l.
Proof.
  induction l as [|k l IH]; intros HPQ; [done|]. rewrite fmap_cons, !filter_cons.
  assert (Hk := HPQ k ltac:(left)). rewrite IH by (intros; apply HPQ; by right).
  destruct (decide (P (name k))), (decide (Q k)); tauto || done.
Qed.

Local Lemma total_map_le {A} (f g : A → R) l : (∀ a, In a l → (f a <= g a)%R) → (S_Geometry.total (map f l) <= S_Geometry.total (map g l))%R.
Proof.
  intros Hfg. induction l as [|a l IH]; [unfold S_Geometry.total; cbn; lra|]. unfold S_Geometry.total in *. cbn [map fold_right].
  apply Rplus_le_compat; [apply Hfg; by left|]. apply IH. intros a' Ha'. apply Hfg. by right.
Qed.
Local Lemma total_cons (a : R) l : S_Geometry.total (a :: l) = (a + S_Geometry.total l)%R.
Proof. done. Qed.

Section C83.
  Context {K : Type} `{Countable K} (debug : bool).
  Context (fresh : gset nat → nat) (Hfresh : fresh_ok fresh) (alive : gset nat).
  Context (point : K → nat) (cs : csys) (x : K → vec) (cells domain : list (list K)).
  Context (Hplaced : ∀ k, k ∈ concat cells → find_point (point k) cs = Some (x k)).
  Context (Hcells : good_cells Seg1 x cells) (Hdom : good_domain Seg1 cells domain) (Hanch : anchored cells domain).
  Context (Hchain : chained cells domain).

  (* the problem - U'' = f on the line, with a polynomial source, and zero on the domain of the constraints *)
  Context (po : polynomial) (r : nat) (Hpo : of_degree 1 r po) (U U' : R → R).
  Context (HU : ∀ t : R, is_derive U t (U' t)) (HU' : ∀ t : R, is_derive U' t (- poly po (vec1 t))%R).
  Context (Hzero : ∀ k, k ∈ concat domain → U (x k 0%nat) = 0%R).

  (* a rule exact for the products of the source and the shape functions *)
  Context (q : rule) (Hq : ∀ p w, In (p, w) q → (0 <= w)%R) (Hsees : sees_gradients Seg1 q) (Hexact : exact_to 1 (r + 1) q).

  Local Lemma mesh_ends a name es :
    Forall2 (λ c e, made e (x <$> c) ∧ ∀ a, a < n_nodes Seg1 → (name <$> places Seg1 c) !! a = Some (connectivity e a)) cells es →
    a < 2 → (λ ec, connectivity ec.1 a) <$> the_mesh Seg1 x cells es
      = (λ k, name (k, k)) <$> concat ((λ c, if decide (a = 0) then take 1 c else drop 1 c) <$> cells).
  Proof.
    clear Hplaced Hdom Hanch Hchain Hzero. intros Hes Ha. unfold the_mesh. revert Hcells. induction Hes as [|c e cells' es' [_ Hn] _ IH]; intros Hc; [done|].
    rewrite !fmap_cons. cbn [zip zip_with concat]. rewrite fmap_cons, fmap_app. rewrite IH by (intros c' Hc'; apply Hc; by right).
    destruct (Hc c ltac:(left)) as [L _]. destruct c as [|k0 [|k1 [|]]]; try discriminate L. specialize (Hn a Ha). cbn [fst].
    destruct a as [|[|a]]; [| |lia]; cbn in Hn; injection Hn as <-; done.
  Qed.

  (* The interpolation of U is a solution of the weak form. *)
  Local Lemma interpolation_weak : ∃ I, piecewise Seg1 x cells domain I ∧ weak_solution Seg1 x cells domain q (poly po) I ∧
    ∀ c k, c ∈ cells → k ∈ c → poly (I c) (x k) = U (x k 0%nat).
  Proof.
    destruct (Properties_Solver.discretize_layout Seg1 fresh Hfresh alive x cells domain Hcells Hdom) as (fs & name & Hfs & HL).
    destruct (Properties_Solver.elements_made Seg1 point cs x cells domain Hplaced Hcells fs name HL) as (es & Hbuild & Hes).
    set (mesh := the_mesh Seg1 x cells es). assert (Hm1 : mesh.*1 = es) by (by apply (mesh_fst Seg1 x cells name)).
    assert (Hmesh : good_mesh mesh) by (by apply (mesh_good Seg1 x cells Hcells name)).
    assert (Hheld : held (system mesh.*1) (fs_constrained fs)) by (rewrite Hm1; by apply (held_mesh Seg1 x cells domain Hcells fs name HL)).
    assert (Hin : ∀ k, k ∈ concat cells → ∃ c, c ∈ cells ∧ (k, k) ∈ places Seg1 c).
    { intros k (c & Hk & Hc)%elem_of_concat. exists c. split; [done|by apply place_of_node]. }
    assert (Hinj : ∀ k l, k ∈ concat cells → l ∈ concat cells → name (k, k) = name (l, l) → k = l).
    { intros k l (c & Hc & Hk)%Hin (c' & Hc' & Hl)%Hin Hkl. apply (l_names _ _ _ _ _ HL c c') in Hkl; [|done..].
      destruct Hkl as [Hs|Hs]; cbn in Hs; congruence. }
    assert (Hcon : ∀ k, k ∈ concat cells → name (k, k) ∈ fs_constrained fs ↔ k ∈ concat domain).
    { intros k (c & Hc & Hk)%Hin. rewrite (l_constrained _ _ _ _ _ HL c) by done. cbn [fst snd]. rewrite elem_of_concat. naive_solver. }
    destruct (tabulate ((λ k, (name (k, k), x k 0%nat)) <$> concat cells)) as (pos & Hpos & _).
    { intros p a b (k & [= -> ->] & Hk)%elem_of_list_fmap (l & [= Hl ->] & Hl')%elem_of_list_fmap. by rewrite (Hinj k l). }
    assert (Hpos' : ∀ k, k ∈ concat cells → pos (name (k, k)) = x k 0%nat).
    { intros k Hk. apply Hpos. by apply (elem_of_list_fmap_1 (λ k, (name (k, k), x k 0%nat))). }
    assert (Hposd : positioned mesh pos).
    { intros e corners a He Ha. destruct (mesh_elem Seg1 x cells name es Hes e corners He) as (c & Hc & -> & Hm & Hn).
      specialize (Hn a Ha). destruct (Hcells c Hc) as [L _]. destruct c as [|k0 [|k1 [|]]]; try discriminate L.
      assert (k0 ∈ concat cells ∧ k1 ∈ concat cells) as [K0 K1] by (split; apply elem_of_concat; eexists; (split; [|done]); set_solver).
      destruct a as [|[|a]]; [| |lia]; cbn in Hn; injection Hn as <-; by apply Hpos'. }
    assert (Hbal : balanced mesh (fs_constrained fs)).
    { unfold balanced, mesh. rewrite !(mesh_ends _ name es Hes) by lia. cbn [decide].
      assert (Hf : ∀ l : list K, (∀ k, k ∈ l → k ∈ concat cells) → filter (λ p, p ∉ fs_constrained fs) ((λ k, name (k, k)) <$> l) =
        (λ k, name (k, k)) <$> filter (λ k, k ∉ concat domain) l).
      { intros l Hl. apply filter_names. intros k Hk. rewrite Hcon by (by apply Hl). done. }
      rewrite !Hf.
      - apply fmap_Permutation. exact Hchain.
      - intros k (l & Hk & (c & -> & Hc)%elem_of_list_fmap)%elem_of_concat. apply elem_of_concat. exists c. split; [|done].
        case_decide; [done|]. rewrite <- (take_drop 1 c). apply elem_of_app. by right.
      - intros k (l & Hk & (c & -> & Hc)%elem_of_list_fmap)%elem_of_concat. apply elem_of_concat. exists c. split; [|done].
        case_decide; [|done]. rewrite <- (take_drop 1 c). apply elem_of_app. by left. }
    pose (g p := if decide (p ∈ fs_constrained fs) then 0%R else U (pos p)).
    assert (Hg : ∀ k, k ∈ concat cells → g (name (k, k)) = U (x k 0%nat)).
    { intros k Hk. unfold g. case_decide as Hd; [|by rewrite Hpos']. symmetry. apply Hzero. by apply Hcon. }
    assert (Hgc : ∀ p, p ∈ fs_constrained fs → g p = 0%R) by (intros p Hp; unfold g; by rewrite decide_True).
    destruct (up Seg1 x cells domain Hcells fs name HL es Hes g Hdom Hgc) as (I & HI & HIrep). exists I. split_and!; [done| |].
    - intros V GU GV HV HGU HGV. destruct (down Seg1 x cells domain fs name HL V HV) as (v & Hv & Hvc).
      rewrite <- (stiffness_mesh Seg1 x cells Hcells name es Hes q I V g v GU GV) by (done || apply HI || apply HV).
      rewrite <- (load_mesh Seg1 x cells Hcells name es Hes q (poly po) V v) by (done || apply HV). fold mesh.
      rewrite (stiffness_nodes q mesh g (λ p, U (pos p)) v).
      + by apply (Properties_Line.exact_weak mesh Hmesh (fs_constrained fs) po r Hpo U U' HU HU' pos Hposd Hbal q Hexact).
      + intros p Hp. rewrite Hm1 in Hp. apply (node_iff Seg1 x cells Hcells name es Hes) in Hp as (c & π & Hc & Hπ & ->).
        cbn in Hπ. apply elem_of_list_fmap in Hπ as (k & -> & Hk). assert (Hk' : k ∈ concat cells) by (apply elem_of_concat; eauto).
        by rewrite Hg, Hpos'.
    - intros c k Hc Hk. assert (HP : poly (I c) (at_place x (k, k)) = U (x k 0%nat)).
      { rewrite (HIrep c (k, k) Hc) by (by apply place_of_node). apply Hg. apply elem_of_concat. eauto. }
      by rewrite at_twice in HP.
  Qed.

  (* Every solution of the weak form has the values of U at the nodes. *)
  Theorem C83_nodes W : piecewise Seg1 x cells domain W → weak_solution Seg1 x cells domain q (poly po) W →
    ∀ c k, c ∈ cells → k ∈ c → poly (W c) (x k) = U (x k 0%nat).
  Proof.
    intros HW HwW c k Hc Hk. destruct interpolation_weak as (I & HI & HwI & HIU). rewrite <- (HIU c k Hc Hk).
    by apply (C74_unique Seg1 fresh Hfresh alive point cs x cells domain Hplaced Hcells Hdom Hanch q Hq Hsees (poly po)).
  Qed.

  (* Inside a segment the distance to U is at most an eighth of the square of the length times the largest
     value of the source; the distance between the slopes is at most the length times the same. *)
  Theorem C83_inside W : piecewise Seg1 x cells domain W → weak_solution Seg1 x cells domain q (poly po) W →
    ∀ k l M y, [k; l] ∈ cells → (x k 0%nat <= y 0%nat <= x l 0%nat)%R →
      (∀ t, (x k 0%nat <= t <= x l 0%nat)%R → (Rabs (poly po (vec1 t)) <= M)%R) →
      (Rabs (poly (W [k; l]) y - U (y 0%nat)) <= M * (x l 0%nat - x k 0%nat) ^ 2 / 8)%R ∧
      ∀ D, has_gradient 1 (poly (W [k; l])) D → (Rabs (D y 0%nat - U' (y 0%nat)) <= M * (x l 0%nat - x k 0%nat))%R.
  Proof.
    intros HW HwW k l M y Hc Hy HM. destruct (Hcells _ Hc) as [_ V].
    assert (Hkl : (x k 0%nat < x l 0%nat)%R) by (unfold simplex_volume, det_vecs, vsub in V; cbn in V; lra).
    assert (V0 := C83_nodes W HW HwW [k; l] k Hc ltac:(left)). assert (V1 := C83_nodes W HW HwW [k; l] l Hc ltac:(right; left)).
    destruct (affine_value (W [k; l]) (proj1 HW _ Hc)) as (A & B & HAB). rewrite HAB in V0, V1.
    set (a := x k 0%nat) in *. set (b := x l 0%nat) in *. set (t := y 0%nat) in *.
    assert (HB : B = ((U b - U a) / (b - a))%R). { rewrite <- V0, <- V1. field. lra. }
    assert (M0 : (0 <= M)%R) by (pose proof (HM a ltac:(lra)); pose proof (Rabs_pos (poly po (vec1 a))); lra). split.
    - pose proof (chord_value U U' (λ t, poly po (vec1 t)) HU HU' a b M Hkl HM t Hy) as G. rewrite <- HB, <- V0 in G.
      rewrite HAB. fold t. rewrite Rabs_minus_sym. replace (A + B * a + B * (t - a))%R with (A + B * t)%R in G by lra.
      refine (Rle_trans _ _ _ G _). pose proof (Rmult_le_compat_l M _ _ M0 (parabola_bound a b t)). lra.
    - intros D HD. assert (HDB : D y 0%nat = B).
      { refine (partial_unique (λ y, num (poly (W [k; l]) y)) 0 0 y _ _ (HD y 0 ltac:(lia)) _). apply (quad_lim _ _ (A + B * t) B 0). intros z. unfold num. rewrite HAB.
        unfold with_component. cbn. fold t. lra. }
      rewrite HDB, HB, Rabs_minus_sym. exact (chord_slope U U' (λ t, poly po (vec1 t)) HU HU' a b M Hkl HM t Hy).
  Qed.

  (* The program. *)
  Context (order : gset nat → list nat) (Horder : visits_set order).
  Context (visit : gmap nat Z → list (nat * Z)) (Hvisit : visits visit).
  Context (ksp : krylov) (Hksp : good_solver ksp).

  (* The program computes a field with the values of U at the nodes; between them the field is as close to U as
     said above; and so is the norm of the difference that the library computes. *)
  Theorem C83_error (h M : R) :
    (∀ k l, [k; l] ∈ cells → (x l 0%nat - x k 0%nat <= h)%R) →
    (∀ k l t, [k; l] ∈ cells → (x k 0%nat <= t <= x l 0%nat)%R → (Rabs (poly po (vec1 t)) <= M)%R) →
    ∃ fs d W,
      poisson_program Seg1 debug fresh alive point cs cells domain q (poly po) order visit ksp = Ok (fs, d) ∧
      piecewise Seg1 x cells domain W ∧
      (∀ c k, c ∈ cells → k ∈ c → ∃ p, fs_node_map fs !! k = Some p ∧ ds_solution d !! p = Some (poly (W c) (x k)) ∧
         poly (W c) (x k) = U (x k 0%nat)) ∧
      (∀ k l y, [k; l] ∈ cells → (x k 0%nat <= y 0%nat <= x l 0%nat)%R →
         (Rabs (poly (W [k; l]) y - U (y 0%nat)) <= M * h ^ 2 / 8)%R ∧
         ∀ D, has_gradient 1 (poly (W [k; l])) D → (Rabs (D y 0%nat - U' (y 0%nat)) <= M * h)%R) ∧
      (∀ es q' F, build_elements Seg1 point cs fs = Ok es →
         (∀ p w, In (p, w) q' → (0 <= w)%R ∧ (0 <= p 0%nat <= 1)%R) → S_Geometry.total (map snd q') = 1%R →
         (∀ y, eval F y 0 = U (y 0%nat)) →
         (compute_l2_norm q' es (Nodal (nodal (ds_solution d))) (Analytic F)
          <= M * h ^ 2 / 8 * sqrt (S_Geometry.total (map (λ c, simplex_volume (x <$> c)) cells)))%R).
  Proof.
    intros Hh HM. destruct (C74_solution Seg1 debug fresh Hfresh alive point cs x cells domain Hplaced Hcells Hdom Hanch q Hq Hsees (poly po)
      order Horder visit Hvisit ksp Hksp) as (fs & d & W & Hrun & HW & HwW & Hnodes & Hels & Hfs). exists fs, d, W.
    assert (Hin : ∀ k l y, [k; l] ∈ cells → (x k 0%nat <= y 0%nat <= x l 0%nat)%R →
         (Rabs (poly (W [k; l]) y - U (y 0%nat)) <= M * h ^ 2 / 8)%R ∧
         ∀ D, has_gradient 1 (poly (W [k; l])) D → (Rabs (D y 0%nat - U' (y 0%nat)) <= M * h)%R).
    { intros k l y Hc Hy. destruct (C83_inside W HW HwW k l M y Hc Hy (λ t, HM k l t Hc)) as [G1 G2].
      assert (M0 : (0 <= M)%R) by (pose proof (HM k l _ Hc Hy); pose proof (Rabs_pos (poly po (vec1 (y 0%nat)))); lra).
      specialize (Hh k l Hc). split.
      - refine (Rle_trans _ _ _ G1 _). assert (G : ((x l 0%nat - x k 0%nat) ^ 2 <= h ^ 2)%R) by (apply pow_incr; lra).
        pose proof (Rmult_le_compat_l M _ _ M0 G). lra.
      - intros D HD. refine (Rle_trans _ _ _ (G2 D HD) _). by apply Rmult_le_compat_l. }
    split_and!; [done|done| |done|].
    { intros c k Hc Hk. destruct (Hnodes c k Hc Hk) as (p & Hp & Hv). exists p. split_and!; [done|done|]. by apply C83_nodes. }
    intros es q' F Hbuild Hq' Hw' HF.
    assert (Hes := program_field Seg1 debug fresh Hfresh alive point cs x cells domain Hplaced Hcells Hdom q (poly po) order visit ksp fs d W es
      Hrun HW Hels Hbuild).
    assert (Hmade : Forall2 made es ((λ c : list K, x <$> c) <$> cells)).
    { clear -Hes. induction Hes as [|c e l l' [Hm _] _ IH]; cbn; constructor; done. }
    rewrite (C70_l2_value q' es _ _ _ Hmade).
    destruct (decide (cells = [])) as [Hnil|Hne].
    { rewrite Hnil in *. assert (es = []) as -> by (by inversion Hes). cbn. unfold S_Geometry.total. cbn. rewrite sqrt_0. lra. }
    assert (B0 : (0 <= M * h ^ 2 / 8)%R).
    { destruct cells as [|c l]; [done|]. destruct (Hcells c ltac:(left)) as [L V]. destruct c as [|k0 [|k1 [|]]]; try discriminate L.
      assert (Hkl : (x k0 0%nat < x k1 0%nat)%R) by (unfold simplex_volume, det_vecs, vsub in V; cbn in V; lra).
      pose proof (Rabs_pos (poly (W [k0; k1]) (x k0) - U (x k0 0%nat))). pose proof (proj1 (Hin k0 k1 (x k0) ltac:(left) ltac:(lra))). lra. }
    rewrite <- (sqrt_square (M * h ^ 2 / 8)) by done. rewrite <- sqrt_mult_alt by (by apply Rmult_le_pos). apply sqrt_le_1_alt.
    set (b := (M * h ^ 2 / 8)%R) in *. clear Hmade Hne. rewrite <- total_map_scal.
    assert (Hcell : ∀ c e, c ∈ cells → made e (x <$> c) →
      (∀ p, field_value (Nodal (nodal (ds_solution d))) e p = poly (W c) (position Seg1 (x <$> c) p)) →
      (simplex_volume (x <$> c) * S_Geometry.total (map (λ pw, snd pw * (field_value (Nodal (nodal (ds_solution d))) e (fst pw) -
         field_value (Analytic F) e (fst pw)) ^ 2) q') <= b * b * simplex_volume (x <$> c))%R).
    { intros c e Hc Hm Hv. destruct (Hcells c Hc) as [L V]. rewrite (Rmult_comm (b * b)). apply Rmult_le_compat_l; [lra|].
      replace (b * b)%R with (S_Geometry.total (map (λ pw : vec * R, (b * b * snd pw)%R) q')) by (rewrite total_map_scal; etransitivity; [apply f_equal; exact Hw'|]; lra).
      apply total_map_le. intros [p w] Hpw. cbn [fst snd]. destruct (Hq' p w Hpw) as [W0 P0]. rewrite (Rmult_comm (b * b)). apply Rmult_le_compat_l; [done|].
      rewrite Hv. unfold field_value. rewrite HF, (image_position e (x <$> c) p Hm).
      destruct c as [|k0 [|k1 [|]]]; try discriminate L.
      assert (Hkl : (x k0 0%nat < x k1 0%nat)%R) by (unfold simplex_volume, det_vecs, vsub in V; cbn in V; lra).
      assert (Hpos : (x k0 0%nat <= position Seg1 (x <$> [k0; k1]) p 0%nat <= x k1 0%nat)%R).
      { unfold position. cbn. pose proof (Rmult_le_pos (p 0%nat) (x k1 0%nat - x k0 0%nat) ltac:(lra) ltac:(lra)).
        pose proof (Rmult_le_pos (1 - p 0%nat) (x k1 0%nat - x k0 0%nat) ltac:(lra) ltac:(lra)). lra. }
      assert (G := proj1 (Hin k0 k1 (position Seg1 (x <$> [k0; k1]) p) Hc Hpos)).
      rewrite <- pow2_abs. replace (b * b)%R with (b ^ 2)%R by (cbn; lra). apply pow_incr. split; [apply Rabs_pos|exact G]. }
    assert (Hsum : ∀ (l : list (list K)) l', (∀ c, c ∈ l → c ∈ cells) →
      Forall2 (λ c e, made e (x <$> c) ∧ ∀ p, field_value (Nodal (nodal (ds_solution d))) e p = poly (W c) (position Seg1 (x <$> c) p)) l l' →
      (S_Geometry.total (map (λ ec, simplex_volume (snd ec) * S_Geometry.total (map (λ pw, snd pw *
         (field_value (Nodal (nodal (ds_solution d))) (fst ec) (fst pw) - field_value (Analytic F) (fst ec) (fst pw)) ^ 2) q'))
         (combine l' ((λ c : list K, x <$> c) <$> l))) <= S_Geometry.total (map (λ c, b * b * simplex_volume (x <$> c)) l))%R).
    { intros l l' Hsub Hl. induction Hl as [|c e l l' [Hm Hv] _ IH]; [unfold S_Geometry.total; cbn; apply Rle_refl|].
      rewrite fmap_cons. cbn [combine map]. rewrite !total_cons. cbn [fst snd]. apply Rplus_le_compat.
      - apply Hcell; [apply Hsub; left|done|done].
      - apply IH. intros c' Hc'. apply Hsub. by right. }
    by apply Hsum.
  Qed.
End C83.
Print Assumptions C83_nodes.
Print Assumptions C83_inside.
Print Assumptions C83_error.

Local Lemma source_bounded (po : polynomial) r a b : of_degree 1 r po → (a <= b)%R →
  ∃ M, (0 <= M)%R ∧ ∀ t, (a <= t <= b)%R → (Rabs (poly po (vec1 t)) <= M)%R.
Proof.
  intros Hpo Hab. destruct (continuity_ab_maj (λ t, Rabs (poly po (vec1 t))) a b Hab) as (m & Hm & _).
  - intros t _. apply (continuity_pt_comp (λ t, poly po (vec1 t)) Rabs).
    + apply continuity_pt_filterlim. by apply (poly_continuous po r).
    + apply Ranalysis4.Rcontinuity_abs.
  - exists (Rabs (poly po (vec1 m))). split; [apply Rabs_pos|done].
Qed.

(* Whatever accuracy is asked for, it is reached, for the values and for the slopes, by all the meshes with
   segments that are short enough. *)
Theorem C83_converges (po : polynomial) (r : nat) (U U' : R → R) (q : rule) (a b : R) :
  of_degree 1 r po → (∀ t : R, is_derive U t (U' t)) → (∀ t : R, is_derive U' t (- poly po (vec1 t))%R) →
  (∀ p w, In (p, w) q → (0 <= w)%R) → sees_gradients Seg1 q → exact_to 1 (r + 1) q → (a <= b)%R →
  ∀ eps, (0 < eps)%R → ∃ h, (0 < h)%R ∧
  ∀ (K : Type) `(Countable K) debug fresh alive (point : K → nat) cs (x : K → vec) (cells domain : list (list K)) order visit ksp,
    fresh_ok fresh → (∀ k, k ∈ concat cells → find_point (point k) cs = Some (x k)) →
    good_cells Seg1 x cells → good_domain Seg1 cells domain → anchored cells domain → chained cells domain →
    (∀ k, k ∈ concat domain → U (x k 0%nat) = 0%R) →
    (∀ k, k ∈ concat cells → (a <= x k 0%nat <= b)%R) → (∀ k l, [k; l] ∈ cells → (x l 0%nat - x k 0%nat <= h)%R) →
    visits_set order → visits visit → good_solver ksp →
    ∃ fs d W, poisson_program Seg1 debug fresh alive point cs cells domain q (poly po) order visit ksp = Ok (fs, d) ∧
      piecewise Seg1 x cells domain W ∧
      (∀ c k, c ∈ cells → k ∈ c → ∃ p, fs_node_map fs !! k = Some p ∧ ds_solution d !! p = Some (poly (W c) (x k))) ∧
      (∀ k l y, [k; l] ∈ cells → (x k 0%nat <= y 0%nat <= x l 0%nat)%R →
         (Rabs (poly (W [k; l]) y - U (y 0%nat)) <= eps)%R ∧
         ∀ D, has_gradient 1 (poly (W [k; l])) D → (Rabs (D y 0%nat - U' (y 0%nat)) <= eps)%R).
Proof.
  intros Hpo HU HU' Hq Hsees Hexact Hab eps Heps. destruct (source_bounded po r a b Hpo Hab) as (M & M0 & HM).
  set (h := Rmin 1 (eps / (M + 1))).
  assert (He : (0 < eps / (M + 1))%R) by (apply Rdiv_lt_0_compat; lra).
  assert (H0 : (0 < h)%R) by (unfold h; apply Rmin_pos; lra).
  assert (H1 : (h <= 1)%R) by apply Rmin_l. assert (H2 : (h <= eps / (M + 1))%R) by apply Rmin_r.
  assert (H3 : (M * h <= eps)%R).
  { apply Rle_trans with ((M + 1) * (eps / (M + 1)))%R; [|right; field; lra]. apply Rmult_le_compat; lra. }
  assert (H4 : (M * h ^ 2 / 8 <= eps)%R).
  { assert (M * h ^ 2 <= M * h)%R; [|pose proof (Rmult_le_pos M h M0 ltac:(lra)); lra]. apply Rmult_le_compat_l; [done|].
    assert (h * h <= 1 * h)%R by (apply Rmult_le_compat_r; lra). cbn. lra. }
  exists h. split; [done|]. intros K ? ? debug fresh alive point cs x cells domain order visit ksp Hfresh Hplaced Hcells Hdom Hanch Hchain Hzero Hx Hh
    Horder Hvisit Hksp.
  destruct (C83_error debug fresh Hfresh alive point cs x cells domain Hplaced Hcells Hdom Hanch Hchain po r Hpo U U' HU HU' Hzero q Hq Hsees Hexact
    order Horder visit Hvisit ksp Hksp h M Hh) as (fs & d & W & Hrun & HW & Hn & Hin & _).
  { intros k l t Hc Ht. apply HM. assert (Hk := Hx k ltac:(apply elem_of_concat; exists [k; l]; split; [left|done])).
    assert (Hl := Hx l ltac:(apply elem_of_concat; exists [k; l]; split; [right; left|done])). lra. }
  exists fs, d, W. split_and!; [done|done| |].
  - intros c k Hc Hk. destruct (Hn c k Hc Hk) as (p & ? & ? & _). by exists p.
  - intros k l y Hc Hy. destruct (Hin k l y Hc Hy) as [G1 G2]. split; [lra|]. intros D HD. specialize (G2 D HD). lra.
Qed.
Print Assumptions C83_converges.
