(* C80-C82: a square of two triangles and a mesh of one tetrahedron meet the hypotheses of the theorems
   of Properties_Refine.v. *)
From stdpp Require Import base gmap list.
From Coq Require Import Reals Lra.
From Verif Require Import M_Tensor M_Geometry S_Geometry P_Volume Properties_Geometry M_Functions P_Functions.
From Verif Require Import M_Quadrature S_Quadrature P_Quadrature P_Integrator Properties_Integrator.
From Verif Require Import Base M_SegAlloc S_SegAlloc P_SegAlloc M_Topology S_Topology P_Topology
  Properties_Topology Properties_TopologyCases M_Mesh S_Mesh P_Mesh Properties_Mesh Properties_MeshCases
  M_Tetra S_Tetra P_TetraGeometry P_TetraTiling P_Tetra Properties_Tetra Properties_TetraCases.
From Verif Require Import S_Stokes S_Refine Properties_Refine.
Local Notation total := S_Geometry.total.
Local Open Scope nat_scope.

Local Ltac decided :=
  match goal with |- ?P => refine (@by_decision P _ _) end; vm_compute; reflexivity.

(* the corners of the two triangles *)
Definition square_corners : list (list vec) :=
  [[vec2 0 0; vec2 1 0; vec2 0 1]; [vec2 0 1; vec2 1 0; vec2 1 1]]%R.
Lemma square_described : described 2 (wsys wA) (elements lA) square_corners.
Proof.
  split; [cbn; apply NoDup_ListNoDup; decided|]. unfold elements, lA, square_corners. cbn. repeat constructor.
Qed.

(* C80: the integral of x y over the square is 1/4 after any number of levels *)
Example C80_case n : 0 < n → ∃ w' m' l', tetra al0 blk0 true (Cartesian 2) 2 n A.1.2 wA = Ok (w', m') ∧ mesh_cells m' = Ok l' ∧
  integrate true (Cartesian 2) (volume_form (Cartesian 2)) (wsys w') triangle_2 (elements l') (poly [(1%R, [1; 1])]) = Ok (1 / 4)%R.
Proof.
  intros Hn. destruct (C80_polynomials al0 al0_good blk0 blk0_inj true 2 2 triangle_2 n wA A.1.2 lA square_corners [(1%R, [1; 1])])
    as (w' & m' & l' & v & E & El & H & H').
  { reflexivity. } { decided. } { repeat constructor. } { apply wA_refinable. } { done. } { apply square_described. }
  exists w', m', l'. split; [exact E|]. split; [exact El|]. rewrite H'.
  rewrite (cartesian_value true 2 (wsys wA) triangle_2 (elements lA) square_corners _ ltac:(lia) square_described) in H.
  injection H as <-. f_equal. unfold square_corners, simplex_volume, S_Geometry.total, vsub, barycentric, combo, poly. cbn.
  unfold S_Geometry.total. cbn. lra.
Qed.

(* a function that is continuous and is no polynomial: the distance from the line x = 1/3 *)
Definition tent (x : vec) : R := Rabs (x 0%nat - 1 / 3).
Lemma tent_continuous xs : continuous_on 2 xs tent.
Proof.
  intros eps He. exists eps. split; [done|]. intros y z _ _ H. unfold tent.
  eapply Rle_trans; [apply Rabs_triang_inv2|].
  replace (y 0%nat - 1 / 3 - (z 0%nat - 1 / 3))%R with (y 0%nat - z 0%nat)%R by ring. apply H. lia.
Qed.

(* C80, C82: its integrals on the triangles exist; their sum is the same on the refined meshes, and the
   values the integrator computes with three points on each triangle tend to it *)
Example C80_integrals_case n : 0 < n →
  ∃ w' m' l' corners' vs vs', tetra al0 blk0 true (Cartesian 2) 2 n A.1.2 wA = Ok (w', m') ∧ mesh_cells m' = Ok l' ∧
    described 2 (wsys w') (elements l') corners' ∧
    Forall2 (λ xs v, cell_integral 2 xs tent v) square_corners vs ∧
    Forall2 (λ xs v, cell_integral 2 xs tent v) corners' vs' ∧ total vs' = total vs.
Proof.
  intros Hn. apply (C80_integrals al0 al0_good blk0 blk0_inj true 2 n wA A.1.2 lA square_corners tent wA_refinable Hn square_described).
  intros. apply tent_continuous.
Qed.
Example C82_case : ∃ v, ∀ eps, (0 < eps)%R → ∃ n0, ∀ n, n0 < n →
  ∃ w' m' l' u, tetra al0 blk0 true (Cartesian 2) 2 n A.1.2 wA = Ok (w', m') ∧ mesh_cells m' = Ok l' ∧
    integrate true (Cartesian 2) (volume_form (Cartesian 2)) (wsys w') triangle_2 (elements l') tent = Ok u ∧
    (Rabs (u - v) <= eps)%R.
Proof.
  destruct (C82_converges al0 al0_good blk0 blk0_inj true 2 2 triangle_2 wA A.1.2 lA square_corners tent eq_refl wA_refinable square_described)
    as (vs & _ & H); [intros; apply tent_continuous|].
  exists (total vs). destruct (C82_weights 2 2 triangle_2 eq_refl) as [Hw _].
  specialize (Hw ltac:(decided)). intros eps He. destruct (H eps He) as (n0 & H0). exists n0. intros n Hn.
  destruct (H0 n Hn) as (w' & m' & l' & u & X1 & X2 & X3 & X4). rewrite Hw, Rmult_1_l in X4.
  exists w', m', l', u. exact (conj X1 (conj X2 (conj X3 X4))).
Qed.

(* C81: the triangles of the refined square are similar to the two triangles *)
Example C81_case n : ∃ w' m' l', tetra al0 blk0 true (Cartesian 2) 2 n A.1.2 wA = Ok (w', m') ∧ mesh_cells m' = Ok l' ∧
  ∀ x, x ∈ l' → ∃ y ps qs, y ∈ lA ∧ poss (Cartesian 2) wA y.2.2 ps ∧ poss (Cartesian 2) w' x.2.2 qs ∧ similar (2 ^ n) qs ps.
Proof.
  destruct (C81_similar al0 al0_good blk0 blk0_inj true (Cartesian 2) 2 n wA A.1.2 lA ltac:(lia) wA_refinable)
    as (w' & m' & l' & gcss & E & El & Ec & HF).
  exists w', m', l'. split; [exact E|]. split; [exact El|]. intros x Hx.
  apply (elem_of_list_fmap_1 snd) in Hx. rewrite Ec in Hx.
  apply P_Mesh.elem_of_concat in Hx as (gcs & Hx & (i & Hi)%elem_of_list_lookup).
  destruct (Forall2_lookup_r _ _ _ _ _ HF Hi) as (y & Hy & H). apply elem_of_list_lookup_2 in Hy.
  destruct (wA_positions y Hy) as (ps & Hps & Hcl & _). destruct (H ps Hps Hcl) as (qss & HQ & Hs).
  apply elem_of_list_lookup in Hx as (j & Hj). destruct (Forall2_lookup_l _ _ _ _ _ HQ Hj) as (qs & Hqs & Hp).
  exists y, ps, qs. split_and!; [done..|]. apply Hs. by eapply elem_of_list_lookup_2.
Qed.

(* a mesh of one tetrahedron *)
Definition stT := run true [OVertex; OVertex; OVertex; OVertex; OTetrahedron 1 2 3 4] topo0.
Definition opsT := [MInsert (25, nds [1; 2; 3; 4])].
Definition T := mrun true 3 opsT stT.
#[local] Typeclasses Opaque has hasF sign legal run step stT T mrun.
Definition corner_points : csys :=
  [(1, vec3 0%R 0%R 0%R); (2, vec3 1%R 0%R 0%R); (3, vec3 0%R 1%R 0%R); (4, vec3 0%R 0%R 1%R)].
Definition wT : world := World T.1.1 corner_points 5.
Definition lT : list (addr * gcell) := [((0, 0), (25, nds [1; 2; 3; 4]))].

Lemma T_reach : mreach al0 blk0 true 3 T.1.1 T.1.2 T.2.
Proof. apply mrun_reach, run_reach. constructor. Qed.
Lemma T_listed : reach_listed al0 true T.1.1.
Proof.
  assert (E : T.1.1 = run true [OVertex; OVertex; OVertex; OVertex; OTetrahedron 1 2 3 4; OCopy 3 25] topo0)
    by (vm_compute; reflexivity).
  rewrite E. apply run_listed; [done|constructor].
Qed.
Lemma T_vertices v : v ∈ [1; 2; 3; 4] → hasF T.1.1 0 v.
Proof.
  intros Hv. repeat (apply elem_of_cons in Hv as [->|Hv]); [..|by apply elem_of_nil in Hv];
    unfold hasF; apply Nat.ltb_lt; vm_compute; reflexivity.
Qed.
Lemma T_cells : mesh_cells T.1.2 = Ok lT.
Proof. vm_compute. reflexivity. Qed.
Lemma wT_refinable : refinable al0 blk0 true 3 wT T.1.2 lT.
Proof.
  unfold wT. pose proof T_vertices as HA. pose proof T_cells as HC. pose proof T_reach as HR.
  pose proof T_listed as HL. revert HA HC HR HL. generalize T. intros [[st m] es]. cbn [fst snd].
  intros HA HC HR HL. split_and!; [lia|lia| | |done|].
  - split; [done|]. cbn [wnext wsys]. intros p Hp. do 5 (destruct p as [|p]; [lia|]). done.
  - by exists es.
  - intros x Hx. unfold lT in Hx. apply elem_of_list_singleton in Hx as ->. cbn [fst snd].
    split; [done|]. split; [decided|]. cbn [wtop wsys wnext]. intros nd (v & -> & Hv)%elem_of_list_fmap. cbn [fst snd].
    split; [by apply HA|].
    repeat (apply elem_of_cons in Hv as [->|Hv]); [..|by apply elem_of_nil in Hv]; (split; [lia|by eexists]).
Qed.

#[local] Opaque T.

(* C81: the cells of the refined meshes have edges arbitrarily long for their volumes, although the
   tetrahedron is the corner of a cube *)
Example C81_shapes_case C : ∃ n w' m' l' y qs k, tetra al0 blk0 true (Cartesian 3) 3 n T.1.2 wT = Ok (w', m') ∧
  mesh_cells m' = Ok l' ∧ y ∈ l' ∧ poss (Cartesian 3) w' y.2.2 qs ∧ k < 3 ∧ (0 < Rabs (simplex_volume qs))%R ∧
  (C * Rabs (simplex_volume qs) < Rabs (nth 1 qs vzero k - nth 0 qs vzero k) ^ 3)%R.
Proof.
  apply (C81_shapes_refuted al0 al0_good blk0 blk0_inj true (Cartesian 3) wT T.1.2 lT ((0, 0), (25, nds [1; 2; 3; 4]))
    [vec3 0 0 0; vec3 1 0 0; vec3 0 1 0; vec3 0 0 1]%R eq_refl wT_refinable).
  - left.
  - repeat constructor; eexists; (split_and!; [reflexivity|done|]); intros i Hi; reflexivity.
  - exists vzero. repeat constructor.
  - unfold simplex_volume, vsub. cbn. lra.
Qed.

(* C81: and they are small *)
Example C81_small_case n : ∃ w' m' l' gcss, tetra al0 blk0 true (Cartesian 3) 3 n T.1.2 wT = Ok (w', m') ∧
  mesh_cells m' = Ok l' ∧ l'.*2 = concat gcss ∧
  Forall2 (λ (x : addr * gcell) gcs, ∀ ps, poss (Cartesian 3) wT x.2.2 ps → clear_of_axis (Cartesian 3) ps →
    ∃ qss, Forall2 (λ (gc : gcell) qs, poss (Cartesian 3) w' gc.2 qs) gcs qss ∧
      ∀ qs y z k, qs ∈ qss → y ∈ qs → z ∈ qs → (2 ^ n * sq (y k - z k) <= spread k ps)%R) lT gcss.
Proof. apply (C81_small al0 al0_good blk0 blk0_inj true (Cartesian 3) 3 n wT T.1.2 lT wT_refinable). Qed.
