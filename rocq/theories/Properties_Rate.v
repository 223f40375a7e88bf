(* C82: how fast the integrals computed on refined meshes converge, for Lipschitz functions. *)
From stdpp Require Import base gmap list.
From Coq Require Import Reals Lra FunctionalExtensionality.
From Verif Require Import M_Tensor M_Geometry S_Geometry P_Volume Properties_Geometry M_Functions P_Functions.
From Verif Require Import M_Quadrature S_Quadrature P_Quadrature P_Gauss P_Integrator P_Stokes Properties_Quadrature Properties_Integrator.
From Verif Require Import Base M_SegAlloc S_SegAlloc P_SegAlloc M_Topology S_Topology P_Topology
  P_TopologyErase P_TopologyValid P_TopologyOrder P_TopologyVertices P_TopologyCanonical
  P_TopologyApi Properties_Topology M_Mesh S_Mesh P_Mesh P_MeshBoundary P_MeshBuild Properties_Mesh
  M_Tetra S_Tetra P_TetraGeometry P_TetraTiling P_Tetra Properties_Tetra.
From Verif Require Import S_Stokes S_Refine P_Refine P_Bernstein P_Converge S_Rate P_Rate Properties_Refine Properties_RefineCases Properties_TopologyCases Properties_MeshCases Properties_TetraCases.
Local Notation total := S_Geometry.total.

Local Open Scope nat_scope.

Section rate.
  Context (pick : M_Topology.alloc) (Hpick : good_alloc pick) (blk : nat → nat) (Hblk : ∀ i j, blk i = blk j → i = j) (debug : bool).

  Local Lemma rate D r q n w m l corners f K d :
    quadrature_table D r = Some q → refinable pick blk debug D w m l → 0 < n →
    described D (wsys w) (elements l) corners → (∀ xs, xs ∈ corners → lipschitz_on D xs f K) →
    (∀ xs, xs ∈ corners → length xs = S D → ∀ qs, In qs (refine D n xs) → ∀ y z k, In y qs → In z qs → k < D →
      (Rabs (y k - z k) <= d)%R) →
    ∃ vs w' m' l' u, Forall2 (λ xs v, cell_integral D xs f v) corners vs ∧
      tetra pick blk debug (Cartesian D) D n m w = Ok (w', m') ∧ mesh_cells m' = Ok l' ∧
      integrate debug (Cartesian D) (volume_form (Cartesian D)) (wsys w') q (elements l') f = Ok u ∧
      (Rabs (u - weight q * total vs) <= weight q * (K * d) * total (map (λ xs, Rabs (simplex_volume xs)) corners))%R.
  Proof using Hpick Hblk.
    intros Hq Href Hn Hd Hlip Hedge. assert (HD : 1 <= D <= 3) by apply Href.
    pose proof (table_proper D r q Hq) as Hpr.
    assert (Hc : ∀ xs, xs ∈ corners → continuous_on D xs f) by (intros; by eapply lipschitz_continuous, Hlip).
    assert (HL : ∀ xs, xs ∈ corners → length xs = S D).
    { intros xs (i & Hi)%elem_of_list_lookup. destruct Hd as [_ Hdd].
      by destruct (Forall2_lookup_r _ _ _ _ _ Hdd Hi) as (y & _ & _ & ?). }
    assert (∃ vs, Forall2 (λ xs v, cell_integral D xs f v) corners vs ∧
      (Rabs (total (map (λ ps, total (map (on_cell D q f) (refine D n ps))) corners) - weight q * total vs)
        <= weight q * (K * d) * total (map (λ xs, Rabs (simplex_volume xs)) corners))%R) as (vs & H1 & H2).
    { clear -Hc HL HD Hpr Hlip Hedge. induction corners as [|xs corners IH].
      - exists []. split; [constructor|]. cbn. rewrite !Rmult_0_r, Rminus_0_r, Rabs_R0. lra.
      - destruct IH as (vs & H1 & H2); [intros; apply Hlip; by right|intros ? ?; apply Hedge; by right|intros; apply Hc; by right|intros; apply HL; by right|].
        destruct (cell_integral_exists D D xs f) as (v & Hv); [apply HL; left|apply Hc; left|].
        exists (v :: vs). split; [by constructor|].
        pose proof (refine_cell_rate D D n xs f q v d K HD (HL xs ltac:(left)) (Hlip xs ltac:(left)) Hpr Hv
          (Hedge xs ltac:(left) (HL xs ltac:(left)))) as H.
        cbn [map]. rewrite !total_cons.
        change (Rabs (total (map (on_cell D q f) (refine D n xs)) - weight q * v) <= weight q * (K * d) * Rabs (simplex_volume xs))%R in H.
        match goal with |- (Rabs (?a + ?b - ?k * (?c + ?e)) <= _)%R =>
          replace (a + b - k * (c + e))%R with ((a - k * c) + (b - k * e))%R by ring end.
        eapply Rle_trans; [apply Rabs_triang|]. rewrite Rmult_plus_distr_l. by apply Rplus_le_compat. }
    destruct (Properties_Refine.refined_corners pick Hpick blk Hblk debug D n w m l corners Href Hn Hd) as (w' & m' & l' & corners' & E & El & Hd' & Hs).
    exists vs, w', m', l', (total (map (on_cell D q f) corners')). split_and!; [done|done|done| |].
    { exact (cartesian_value debug D (wsys w') q (elements l') corners' f HD Hd'). }
    rewrite (Properties_Refine.refined_sum _ D n corners corners' Hs); [exact H2|].
    intros xs qs Hqs Hx.
    apply P_Mesh.elem_of_concat in Hqs as (qss & Hqs & (ps & <- & Hps)%elem_In%in_map_iff). apply elem_In in Hqs. apply elem_In in Hps.
    apply on_cell_same; [|done..|]; [eapply refine_in_length|eapply refine_continuous]; try done; first [by apply HL|by apply Hc].
  Qed.

  (* Segments and triangles: when [f] is Lipschitz with constant [K] on every cell and the components
     of the edges are at most [B], the error after [n] levels is at most K B / 2^n times the volume of
     the mesh (times the sum of the weights of the rule). *)
  Theorem C82_rate D r q n w m l corners f K B :
    quadrature_table D r = Some q → D <= 2 → refinable pick blk debug D w m l → 0 < n →
    described D (wsys w) (elements l) corners → (∀ xs, xs ∈ corners → lipschitz_on D xs f K) →
    (∀ xs y z k, xs ∈ corners → y ∈ xs → z ∈ xs → k < D → (Rabs (y k - z k) <= B)%R) →
    ∃ vs w' m' l' u, Forall2 (λ xs v, cell_integral D xs f v) corners vs ∧
      tetra pick blk debug (Cartesian D) D n m w = Ok (w', m') ∧ mesh_cells m' = Ok l' ∧
      integrate debug (Cartesian D) (volume_form (Cartesian D)) (wsys w') q (elements l') f = Ok u ∧
      (Rabs (u - weight q * total vs) <=
         weight q * (K * (B / 2 ^ n)) * total (map (λ xs, Rabs (simplex_volume xs)) corners))%R.
  Proof using Hpick Hblk.
    intros Hq HD2 Href Hn Hd Hlip HB. assert (HD : 1 <= D <= 3) by apply Href.
    apply (rate D r q n w m l corners f K (B / 2 ^ n)%R Hq Href Hn Hd Hlip).
    intros xs Hx L qs Hqs y z k Hy Hz Hk. apply (refine_edges D n xs qs k B ltac:(lia) L Hqs); [|done..].
    intros a b Ha%elem_In Hb%elem_In. by apply (HB xs).
  Qed.

  (* Tetrahedra too, at half this rate: when the sum of the squares of the k-th components of the edges
     of each cell is at most B^2, the error is at most K B / sqrt(2)^n times the volume of the mesh. *)
  Theorem C82_rate_any D r q n w m l corners f K B :
    quadrature_table D r = Some q → refinable pick blk debug D w m l → 0 < n →
    described D (wsys w) (elements l) corners → (∀ xs, xs ∈ corners → lipschitz_on D xs f K) →
    (0 <= B)%R → (∀ xs k, xs ∈ corners → k < D → (spread k xs <= B * B)%R) →
    ∃ vs w' m' l' u, Forall2 (λ xs v, cell_integral D xs f v) corners vs ∧
      tetra pick blk debug (Cartesian D) D n m w = Ok (w', m') ∧ mesh_cells m' = Ok l' ∧
      integrate debug (Cartesian D) (volume_form (Cartesian D)) (wsys w') q (elements l') f = Ok u ∧
      (Rabs (u - weight q * total vs) <=
         weight q * (K * (B / sqrt 2 ^ n)) * total (map (λ xs, Rabs (simplex_volume xs)) corners))%R.
  Proof using Hpick Hblk.
    intros Hq Href Hn Hd Hlip HB0 HB. assert (HD : 1 <= D <= 3) by apply Href.
    apply (rate D r q n w m l corners f K (B / sqrt 2 ^ n)%R Hq Href Hn Hd Hlip).
    intros xs Hx L qs Hqs y z k Hy Hz Hk. by apply (refine_edges_sqrt D D n xs qs k B HD L Hqs HB0 (HB xs k Hx Hk) Hk).
  Qed.
End rate.
Print Assumptions C82_rate.
Print Assumptions C82_rate_any.

#[local] Typeclasses Opaque has hasF sign legal run step stT T mrun.
#[local] Opaque T A.

Local Ltac decided :=
  match goal with |- ?P => refine (@by_decision P _ _) end; vm_compute; reflexivity.
Local Lemma weight_one D r q : quadrature_table D r = Some q → (D, r) ∉ [(2, 3); (2, 4)] → weight q = 1%R.
Proof. intros Hq. apply (C82_weights D r q Hq). Qed.

(* the distance from the line x = 1/3 is Lipschitz with constant one *)
Local Lemma tent_lipschitz D xs : 0 < D → lipschitz_on D xs tent 1.
Proof.
  intros HD. split; [lra|]. intros y z d _ _ H. unfold tent. eapply Rle_trans; [apply Rabs_triang_inv2|].
  replace (y 0%nat - 1 / 3 - (z 0%nat - 1 / 3))%R with (y 0%nat - z 0%nat)%R by ring. rewrite Rmult_1_l. by apply H.
Qed.

(* on the unit square of two triangles the error of the rule with three points is at most 2^-n *)
Example C82_case_rate n : 0 < n →
  ∃ vs w' m' l' u, Forall2 (λ xs v, cell_integral 2 xs tent v) square_corners vs ∧
    tetra al0 blk0 true (Cartesian 2) 2 n A.1.2 wA = Ok (w', m') ∧ mesh_cells m' = Ok l' ∧
    integrate true (Cartesian 2) (volume_form (Cartesian 2)) (wsys w') triangle_2 (elements l') tent = Ok u ∧
    (Rabs (u - total vs) <= 1 / 2 ^ n)%R.
Proof.
  intros Hn. destruct (C82_rate al0 al0_good blk0 blk0_inj true 2 2 triangle_2 n wA A.1.2 lA square_corners tent 1 1
    eq_refl ltac:(lia) wA_refinable Hn square_described) as (vs & w' & m' & l' & u & H1 & H2 & H3 & H4 & H5).
  { intros. apply tent_lipschitz. lia. }
  { intros xs y z k Hx Hy Hz Hk. unfold square_corners in Hx.
    repeat (apply elem_of_cons in Hx as [->|Hx]); [..|by apply elem_of_nil in Hx];
    repeat (apply elem_of_cons in Hy as [->|Hy]); try (by apply elem_of_nil in Hy);
    repeat (apply elem_of_cons in Hz as [->|Hz]); try (by apply elem_of_nil in Hz);
    destruct k as [|[|k]]; try lia; cbn; apply Rabs_le; lra. }
  exists vs, w', m', l', u. split_and!; [exact H1|exact H2|exact H3|exact H4|].
  rewrite (weight_one 2 2 triangle_2 eq_refl) in H5 by decided. rewrite Rmult_1_l in H5.
  assert (EV : total (map (λ xs, Rabs (simplex_volume xs)) square_corners) = 1%R).
  { unfold square_corners, simplex_volume, S_Geometry.total, vsub. cbn.
    rewrite !Rabs_pos_eq by lra. lra. }
  rewrite EV in H5. lra.
Qed.

(* on the corner of a cube the error of the rule with one point is at most 1 / (3 sqrt(2)^n) *)
Example C82_case_rate_any n : 0 < n →
  ∃ vs w' m' l' u, Forall2 (λ xs v, cell_integral 3 xs tent v) [[vec3 0 0 0; vec3 1 0 0; vec3 0 1 0; vec3 0 0 1]]%R vs ∧
    tetra al0 blk0 true (Cartesian 3) 3 n T.1.2 wT = Ok (w', m') ∧ mesh_cells m' = Ok l' ∧
    integrate true (Cartesian 3) (volume_form (Cartesian 3)) (wsys w') tetrahedron_1 (elements l') tent = Ok u ∧
    (Rabs (u - total vs) <= 1 / (3 * sqrt 2 ^ n))%R.
Proof.
  intros Hn. destruct (C82_rate_any al0 al0_good blk0 blk0_inj true 3 1 tetrahedron_1 n wT T.1.2 lT
    [[vec3 0 0 0; vec3 1 0 0; vec3 0 1 0; vec3 0 0 1]]%R tent 1 2 eq_refl wT_refinable Hn) as (vs & w' & m' & l' & u & H1 & H2 & H3 & H4 & H5).
  { split; [cbn; apply NoDup_ListNoDup, NoDup_singleton|]. cbn. repeat constructor. }
  { intros. apply tent_lipschitz. lia. }
  { lra. }
  { intros xs k ->%elem_of_list_singleton Hk. destruct k as [|[|[|k]]]; try lia; unfold spread, sq, S_Geometry.total; cbn; lra. }
  exists vs, w', m', l', u. split_and!; [exact H1|exact H2|exact H3|exact H4|].
  rewrite (weight_one 3 1 tetrahedron_1 eq_refl) in H5 by decided. rewrite Rmult_1_l in H5.
  assert (EV : total (map (λ xs, Rabs (simplex_volume xs)) [[vec3 0 0 0; vec3 1 0 0; vec3 0 1 0; vec3 0 0 1]]%R) = (1 / 6)%R).
  { unfold simplex_volume, S_Geometry.total, vsub. cbn. match goal with |- (Rabs ?a + 0 = _)%R => replace a with (1 / 6)%R by lra end.
    rewrite Rabs_pos_eq by lra. lra. }
  rewrite EV in H5. assert (HP : (0 < sqrt 2 ^ n)%R) by (apply pow_lt, sqrt_lt_R0; lra).
  replace (1 / (3 * sqrt 2 ^ n))%R with (1 * (2 / sqrt 2 ^ n) * (1 / 6))%R by (field; lra).
  rewrite ?Rmult_1_l in *. exact H5.
Qed.
