(* C82: the second order rate of the integrals computed on refined meshes by the exact rules. *)
From stdpp Require Import base gmap list.
From Coq Require Import Reals Lra FunctionalExtensionality.
From Verif Require Import M_Tensor M_Geometry S_Geometry P_Volume Properties_Geometry M_Functions P_Functions.
From Verif Require Import M_Quadrature S_Quadrature P_Quadrature P_Gauss P_Integrator P_Stokes Properties_Quadrature Properties_Integrator.
From Verif Require Import Base M_SegAlloc S_SegAlloc P_SegAlloc M_Topology S_Topology P_Topology
  P_TopologyErase P_TopologyValid P_TopologyOrder P_TopologyVertices P_TopologyCanonical
  P_TopologyApi Properties_Topology M_Mesh S_Mesh P_Mesh P_MeshBoundary P_MeshBuild Properties_Mesh
  M_Tetra S_Tetra P_TetraGeometry P_TetraTiling P_Tetra Properties_Tetra.
From Verif Require Import S_Stokes S_Refine P_Refine P_Bernstein P_Converge S_Rate P_Rate S_Rate2 P_Rate2 Properties_Refine Properties_RefineCases Properties_TopologyCases Properties_MeshCases Properties_TetraCases.
Local Notation total := S_Geometry.total.

Local Open Scope nat_scope.

Section rate.
  Context (pick : M_Topology.alloc) (Hpick : good_alloc pick) (blk : nat → nat) (Hblk : ∀ i j, blk i = blk j → i = j) (debug : bool).

  Local Lemma rate2 D r q n w m l corners f K d e :
    quadrature_table D r = Some q → (D, r) ∈ [(1, 1); (2, 1); (2, 2); (3, 1)] → refinable pick blk debug D w m l → 0 < n →
    described D (wsys w) (elements l) corners → (∀ xs, xs ∈ corners → nearly_affine D xs f K) →
    (∀ xs, xs ∈ corners → length xs = S D → ∀ qs, In qs (refine D n xs) → ∀ y z k, In y qs → In z qs → k < D →
      (Rabs (y k - z k) <= d)%R) → (d * d = e)%R →
    ∃ vs w' m' l' u, Forall2 (λ xs v, cell_integral D xs f v) corners vs ∧
      tetra pick blk debug (Cartesian D) D n m w = Ok (w', m') ∧ mesh_cells m' = Ok l' ∧
      integrate debug (Cartesian D) (volume_form (Cartesian D)) (wsys w') q (elements l') f = Ok u ∧
      (Rabs (u - total vs) <= 2 * (K * e) * total (map (λ xs, Rabs (simplex_volume xs)) corners))%R.
  Proof using Hpick Hblk.
    intros Hq Hr Href Hn Hd Hna Hedge He. subst e. assert (HD : 1 <= D <= 3) by apply Href.
    pose proof (table_proper D r q Hq) as Hpr.
    assert (accurate D 1 q 0 ∧ weight q = 1%R) as [HA W].
    { pose proof (table_accurate D r q Hq) as A. pose proof (proj1 (C82_weights D r q Hq)) as W0. apply elem_In in Hr.
      split.
      - destruct Hr as [X|[X|[X|[X|[]]]]]; injection X as <- <-; (eapply accurate_le; [|exact A]); lia.
      - apply W0. clear -Hr. destruct Hr as [X|[X|[X|[X|[]]]]]; rewrite <- X; intros Hi;
          repeat (apply elem_of_cons in Hi as [Hi|Hi]; [discriminate Hi|]); by apply elem_of_nil in Hi. }
    assert (Hc : ∀ xs, xs ∈ corners → continuous_on D xs f) by (intros xs Hx; apply (Hna xs Hx)).
    assert (HL : ∀ xs, xs ∈ corners → length xs = S D).
    { intros xs (i & Hi)%elem_of_list_lookup. destruct Hd as [_ Hdd].
      by destruct (Forall2_lookup_r _ _ _ _ _ Hdd Hi) as (y & _ & _ & ?). }
    assert (∃ vs, Forall2 (λ xs v, cell_integral D xs f v) corners vs ∧
      (Rabs (total (map (λ ps, total (map (on_cell D q f) (refine D n ps))) corners) - total vs)
        <= 2 * (K * (d * d)) * total (map (λ xs, Rabs (simplex_volume xs)) corners))%R) as (vs & H1 & H2).
    { clear -Hc HL HD Hpr Hna Hedge HA W. induction corners as [|xs corners IH].
      - exists []. split; [constructor|]. cbn. rewrite !Rmult_0_r, Rminus_0_r, Rabs_R0. lra.
      - destruct IH as (vs & H1 & H2); [intros; apply Hna; by right|intros ? ?; apply Hedge; by right|intros; apply Hc; by right|intros; apply HL; by right|].
        destruct (cell_integral_exists D D xs f) as (v & Hv); [apply HL; left|apply Hc; left|].
        exists (v :: vs). split; [by constructor|].
        pose proof (refine_cell_rate2 D n xs f q v d K HD (HL xs ltac:(left)) (Hna xs ltac:(left)) Hpr HA W Hv
          (Hedge xs ltac:(left) (HL xs ltac:(left)))) as H.
        cbn [map]. rewrite !total_cons.
        change (Rabs (total (map (on_cell D q f) (refine D n xs)) - v) <= 2 * (K * (d * d)) * Rabs (simplex_volume xs))%R in H.
        match goal with |- (Rabs (?a + ?b - (?c + ?e)) <= _)%R =>
          replace (a + b - (c + e))%R with ((a - c) + (b - e))%R by ring end.
        eapply Rle_trans; [apply Rabs_triang|]. rewrite Rmult_plus_distr_l. by apply Rplus_le_compat. }
    destruct (Properties_Refine.refined_corners pick Hpick blk Hblk debug D n w m l corners Href Hn Hd) as (w' & m' & l' & corners' & E & El & Hd' & Hs).
    exists vs, w', m', l', (total (map (on_cell D q f) corners')). split_and!; [done|done|done| |].
    { exact (cartesian_value debug D (wsys w') q (elements l') corners' f HD Hd'). }
    rewrite (Properties_Refine.refined_sum _ D n corners corners' Hs); [exact H2|].
    intros xs qs Hqs Hx.
    apply P_Mesh.elem_of_concat in Hqs as (qss & Hqs & (ps & <- & Hps)%elem_In%in_map_iff). apply elem_In in Hqs. apply elem_In in Hps.
    apply on_cell_same; [|done..|]; [eapply refine_in_length|eapply refine_continuous]; try done; first [by apply HL|by apply Hc].
  Qed.

  (* Segments and triangles, with the rules that are exact for affine functions: when [f] differs by at
     most K d^2 from its linear expansions at distance [d] and the components of the edges are at most
     [B], the error after [n] levels is at most 2 K B^2 / 4^n times the volume of the mesh. *)
  Theorem C82_rate_second D r q n w m l corners f K B :
    quadrature_table D r = Some q → (D, r) ∈ [(1, 1); (2, 1); (2, 2)] → refinable pick blk debug D w m l → 0 < n →
    described D (wsys w) (elements l) corners → (∀ xs, xs ∈ corners → nearly_affine D xs f K) →
    (∀ xs y z k, xs ∈ corners → y ∈ xs → z ∈ xs → k < D → (Rabs (y k - z k) <= B)%R) →
    ∃ vs w' m' l' u, Forall2 (λ xs v, cell_integral D xs f v) corners vs ∧
      tetra pick blk debug (Cartesian D) D n m w = Ok (w', m') ∧ mesh_cells m' = Ok l' ∧
      integrate debug (Cartesian D) (volume_form (Cartesian D)) (wsys w') q (elements l') f = Ok u ∧
      (Rabs (u - total vs) <=
         2 * (K * (B * B / 4 ^ n)) * total (map (λ xs, Rabs (simplex_volume xs)) corners))%R.
  Proof using Hpick Hblk.
    intros Hq Hr Href Hn Hd Hna HB. assert (HD : 1 <= D <= 3) by apply Href.
    assert (D <= 2 ∧ (D, r) ∈ [(1, 1); (2, 1); (2, 2); (3, 1)]) as [HD2 Hr'].
    { apply elem_In in Hr. split; [|apply elem_In]; destruct Hr as [X|[X|[X|[]]]]; injection X as <- <-; try lia; cbn; auto. }
    apply (rate2 D r q n w m l corners f K (B / 2 ^ n)%R _ Hq Hr' Href Hn Hd Hna).
    - intros xs Hx L qs Hqs y z k Hy Hz Hk. apply (refine_edges D n xs qs k B ltac:(lia) L Hqs); [|done..].
      intros a b Ha%elem_In Hb%elem_In. by apply (HB xs).
    - replace 4%R with (2 * 2)%R by lra. rewrite Rpow_mult_distr. assert (2 ^ n ≠ 0)%R by (apply pow_nonzero; lra). by field.
  Qed.

  (* Tetrahedra too, at half this rate. *)
  Theorem C82_rate_second_any D r q n w m l corners f K B :
    quadrature_table D r = Some q → (D, r) ∈ [(1, 1); (2, 1); (2, 2); (3, 1)] → refinable pick blk debug D w m l → 0 < n →
    described D (wsys w) (elements l) corners → (∀ xs, xs ∈ corners → nearly_affine D xs f K) →
    (0 <= B)%R → (∀ xs k, xs ∈ corners → k < D → (spread k xs <= B * B)%R) →
    ∃ vs w' m' l' u, Forall2 (λ xs v, cell_integral D xs f v) corners vs ∧
      tetra pick blk debug (Cartesian D) D n m w = Ok (w', m') ∧ mesh_cells m' = Ok l' ∧
      integrate debug (Cartesian D) (volume_form (Cartesian D)) (wsys w') q (elements l') f = Ok u ∧
      (Rabs (u - total vs) <=
         2 * (K * (B * B / 2 ^ n)) * total (map (λ xs, Rabs (simplex_volume xs)) corners))%R.
  Proof using Hpick Hblk.
    intros Hq Hr Href Hn Hd Hna HB0 HB. assert (HD : 1 <= D <= 3) by apply Href.
    apply (rate2 D r q n w m l corners f K (B / sqrt 2 ^ n)%R _ Hq Hr Href Hn Hd Hna).
    - intros xs Hx L qs Hqs y z k Hy Hz Hk. by apply (refine_edges_sqrt D D n xs qs k B HD L Hqs HB0 (HB xs k Hx Hk) Hk).
    - assert (HP : (0 < sqrt 2 ^ n)%R) by (apply pow_lt, sqrt_lt_R0; lra).
      assert (E : (2 ^ n = sqrt 2 ^ n * sqrt 2 ^ n)%R) by (rewrite <- Rpow_mult_distr, sqrt_sqrt by lra; reflexivity).
      rewrite E. field. lra.
  Qed.
End rate.
Print Assumptions C82_rate_second.
Print Assumptions C82_rate_second_any.

#[local] Typeclasses Opaque has hasF sign legal run step stT T mrun.
#[local] Opaque T A.

Local Ltac decided :=
  match goal with |- ?P => refine (@by_decision P _ _) end; vm_compute; reflexivity.

(* the square of the first coordinate, which the rules of degree one do not integrate exactly *)
Definition square_x (x : vec) : R := (x 0%nat * x 0%nat)%R.
Local Lemma square_affine D xs : 0 < D → (∀ y, inside D xs y → (Rabs (y 0%nat) <= 1)%R) → nearly_affine D xs square_x 1.
Proof.
  intros HD Hb. split; [|split; [lra|]].
  - apply (lipschitz_continuous D xs square_x 2). split; [lra|]. intros y z d Hy Hz H. specialize (H 0 HD).
    apply Hb in Hy. apply Hb in Hz. unfold square_x.
    replace (y 0%nat * y 0%nat - z 0%nat * z 0%nat)%R with ((y 0%nat + z 0%nat) * (y 0%nat - z 0%nat))%R by ring.
    rewrite Rabs_mult. apply Rmult_le_compat; [apply Rabs_pos..| |done]. eapply Rle_trans; [apply Rabs_triang|]. lra.
  - intros c Hc. exists (λ k, match k with 0 => 2 * c 0%nat | _ => 0 end)%R. intros y d Hy H. specialize (H 0 HD).
    assert (E : rsum D (λ k, match k with 0 => 2 * c 0%nat | _ => 0 end * (y k - c k))%R = (2 * c 0%nat * (y 0%nat - c 0%nat))%R).
    { clear -HD. destruct D as [|D]; [lia|]. clear HD. induction D as [|D IH]; [cbn [rsum]; ring|].
      cbn [rsum] in *. rewrite IH. ring. }
    rewrite E. unfold square_x.
    replace (y 0%nat * y 0%nat - (c 0%nat * c 0%nat + 2 * c 0%nat * (y 0%nat - c 0%nat)))%R
      with ((y 0%nat - c 0%nat) * (y 0%nat - c 0%nat))%R by ring.
    rewrite Rabs_mult, Rmult_1_l. apply Rmult_le_compat; [apply Rabs_pos..|done|done].
Qed.
Local Lemma inside_unit D xs y : 0 < D → (∀ p, p ∈ xs → (0 <= p 0%nat <= 1)%R) → inside D xs y → (Rabs (y 0%nat) <= 1)%R.
Proof.
  intros HD Hp (ws & Lw & Hw & Tw & Ew).
  assert (H : (Rabs (0 * total ws - combo ws xs 0%nat) <= 1 * total ws)%R).
  { apply combo_near; [done..|]. intros p Hi%elem_In. specialize (Hp p Hi). apply Rabs_le. lra. }
  rewrite Tw, <- (Ew 0%nat HD), Rmult_0_l, Rmult_1_l, Rminus_0_l, Rabs_Ropp in H. exact H.
Qed.

(* on the unit square of two triangles the error of the rule with one point is at most 2 / 4^n *)
Example C82_case_rate_second n : 0 < n →
  ∃ vs w' m' l' u, Forall2 (λ xs v, cell_integral 2 xs square_x v) square_corners vs ∧
    tetra al0 blk0 true (Cartesian 2) 2 n A.1.2 wA = Ok (w', m') ∧ mesh_cells m' = Ok l' ∧
    integrate true (Cartesian 2) (volume_form (Cartesian 2)) (wsys w') triangle_1 (elements l') square_x = Ok u ∧
    (Rabs (u - total vs) <= 2 / 4 ^ n)%R.
Proof.
  intros Hn. destruct (C82_rate_second al0 al0_good blk0 blk0_inj true 2 1 triangle_1 n wA A.1.2 lA square_corners square_x 1 1
    eq_refl ltac:(decided) wA_refinable Hn square_described) as (vs & w' & m' & l' & u & H1 & H2 & H3 & H4 & H5).
  { intros xs Hx. apply square_affine; [lia|]. intros y. apply inside_unit; [lia|]. intros p Hp. unfold square_corners in Hx.
    repeat (apply elem_of_cons in Hx as [->|Hx]); [..|by apply elem_of_nil in Hx];
    repeat (apply elem_of_cons in Hp as [->|Hp]); try (by apply elem_of_nil in Hp); cbn; lra. }
  { intros xs y z k Hx Hy Hz Hk. unfold square_corners in Hx.
    repeat (apply elem_of_cons in Hx as [->|Hx]); [..|by apply elem_of_nil in Hx];
    repeat (apply elem_of_cons in Hy as [->|Hy]); try (by apply elem_of_nil in Hy);
    repeat (apply elem_of_cons in Hz as [->|Hz]); try (by apply elem_of_nil in Hz);
    destruct k as [|[|k]]; try lia; cbn; apply Rabs_le; lra. }
  exists vs, w', m', l', u. split_and!; [exact H1|exact H2|exact H3|exact H4|].
  assert (EV : total (map (λ xs, Rabs (simplex_volume xs)) square_corners) = 1%R).
  { unfold square_corners, simplex_volume, S_Geometry.total, vsub. cbn.
    rewrite !Rabs_pos_eq by lra. lra. }
  rewrite EV in H5. unfold Rdiv in *. rewrite ?Rmult_1_l, ?Rmult_1_r in *. exact H5.
Qed.

(* on the corner of a cube the error of the rule with one point is at most 4 / (3 * 2^n) *)
Example C82_case_rate_second_any n : 0 < n →
  ∃ vs w' m' l' u, Forall2 (λ xs v, cell_integral 3 xs square_x v) [[vec3 0 0 0; vec3 1 0 0; vec3 0 1 0; vec3 0 0 1]]%R vs ∧
    tetra al0 blk0 true (Cartesian 3) 3 n T.1.2 wT = Ok (w', m') ∧ mesh_cells m' = Ok l' ∧
    integrate true (Cartesian 3) (volume_form (Cartesian 3)) (wsys w') tetrahedron_1 (elements l') square_x = Ok u ∧
    (Rabs (u - total vs) <= 4 / (3 * 2 ^ n))%R.
Proof.
  intros Hn. destruct (C82_rate_second_any al0 al0_good blk0 blk0_inj true 3 1 tetrahedron_1 n wT T.1.2 lT
    [[vec3 0 0 0; vec3 1 0 0; vec3 0 1 0; vec3 0 0 1]]%R square_x 1 2 eq_refl ltac:(decided) wT_refinable Hn) as (vs & w' & m' & l' & u & H1 & H2 & H3 & H4 & H5).
  { split; [cbn; apply NoDup_ListNoDup, NoDup_singleton|]. cbn. repeat constructor. }
  { intros xs ->%elem_of_list_singleton. apply square_affine; [lia|]. intros y. apply inside_unit; [lia|]. intros p Hp.
    repeat (apply elem_of_cons in Hp as [->|Hp]); try (by apply elem_of_nil in Hp); cbn; lra. }
  { lra. }
  { intros xs k ->%elem_of_list_singleton Hk. destruct k as [|[|[|k]]]; try lia; unfold spread, sq, S_Geometry.total; cbn; lra. }
  exists vs, w', m', l', u. split_and!; [exact H1|exact H2|exact H3|exact H4|].
  assert (EV : total (map (λ xs, Rabs (simplex_volume xs)) [[vec3 0 0 0; vec3 1 0 0; vec3 0 1 0; vec3 0 0 1]]%R) = (1 / 6)%R).
  { unfold simplex_volume, S_Geometry.total, vsub. cbn. match goal with |- (Rabs ?a + 0 = _)%R => replace a with (1 / 6)%R by lra end.
    rewrite Rabs_pos_eq by lra. lra. }
  rewrite EV in H5. assert (HP : (0 < 2 ^ n)%R) by (apply pow_lt; lra).
  replace (4 / (3 * 2 ^ n))%R with (2 * (1 * (2 * 2 / 2 ^ n)) * (1 / 6))%R by (field; lra).
  exact H5.
Qed.
