(* C78, C79: the divergence theorem for the integrators on a mesh and on its boundary, as in
   tests/mito.lib/integration/divergence_theorem.cc. Scalars are real numbers. *)
From stdpp Require Import base gmap list.
From Coq Require Import Reals Lra.
From Verif Require Import Base M_SegAlloc S_SegAlloc P_SegAlloc M_Topology S_Topology P_Topology P_TopologyErase
  P_TopologyValid P_TopologyOrder P_TopologyVertices P_TopologyCanonical P_TopologyApi Properties_Topology
  M_Mesh S_Mesh P_Mesh P_MeshBoundary P_MeshBuild P_MeshDup Properties_Mesh.
From Verif Require Import M_Tensor M_Geometry S_Geometry P_Volume M_Functions S_Functions Properties_Functions
  M_Quadrature S_Quadrature P_Quadrature P_Integrator.
From Verif Require Import Properties_Quadrature Properties_Integrator P_Poly P_Gauss S_Stokes P_Stokes P_StokesMesh.

Local Open Scope nat_scope.
Local Notation total := S_Geometry.total.
Local Ltac splits := repeat match goal with |- _ ∧ _ => split end.

Lemma ids_nodup {A} (f : A → nat) (h : nat → list (nat * Z)) (l : list A) :
  NoDup (concat ((λ x, h (f x)) <$> l)) → (∀ x, x ∈ l → h (f x) ≠ []) → NoDup (f <$> l).
Proof.
  induction l as [|x l IH]; intros Hnd Hne; [constructor|]. rewrite fmap_cons in *. cbn [concat] in Hnd.
  apply NoDup_app in Hnd as (_ & Hd & Hnd). constructor.
  - intros (y & E & Hy)%elem_of_list_fmap. pose proof (Hne x ltac:(left)) as Hx.
    destruct (h (f x)) as [|p ps] eqn:Eh; [done|]. apply (Hd p); [left|].
    apply elem_of_concat. exists (h (f y)). split; [rewrite <- E, Eh; left|].
    apply elem_of_list_fmap. by exists y.
  - apply IH; [done|]. intros y Hy. apply Hne. by right.
Qed.

Section divergence.
  Context (pick : M_Topology.alloc) (Hpick : good_alloc pick) (blk : nat → nat)
    (Hblk : ∀ i j, blk i = blk j → i = j) (debug : bool).
  Notation nodes_fit := (nodes_fit debug).

  Local Lemma cells_has K st m es l x : mreach pick blk debug (S K) st m es → mesh_cells m = Ok l →
    x ∈ l → is_Some (ors st !! (S K, x.2.1)).
  Proof using Hpick Hblk.
    intros Hr Hl Hx. pose proof (mreach_MInv pick Hpick blk Hblk debug K _ _ _ Hr) as H.
    rewrite (Properties_Mesh.cells_eq pick Hpick blk Hblk debug K _ _ _ _ Hr Hl) in Hx.
    apply i_hO; [by eapply (reach_Inv pick Hpick debug), H|]. by eapply (listed_has pick blk Hblk debug K).
  Qed.

  Local Lemma stokes_sum K r (P : nat → polynomial) X st m es l bl (l' : list (addr * gcell)) :
    S (S K) ≤ 3 → reach_listed pick debug st → mreach pick blk debug (S (S K)) st m es →
    mesh_cells m = Ok l → nodes_fit st (S (S K)) l → consistent (all_facets st (S (S K)) l) →
    as_created st (S (S K)) l → (∀ i, i < S (S K) → of_degree (S (S K)) r (P i)) →
    boundary_facets (S (S K)) st m = Ok bl →
    Forall2 (λ b x, x.2.1 = b.1 ∧ vertices debug st (S K) b.1 = Ok x.2.2.*1 ∧ ∀ n, n ∈ x.2.2 → n ∈ b.2) bl l' →
    total (map (λ x, simplex_volume (corners_at X x) * INR (fact (S (S K)))
                     * rsum (S (S K)) (λ k, Fl (dpoly k (P k)) (corners_at X x)))%R l)
    = (facets_sign (S (S K)) * total (map (λ x, Phi P (corners_at X x)) l'))%R.
  Proof using Hpick Hblk.
    intros HK Hlst Hr Hl Hfit Hcons Hcr HP Hb HF.
    destruct (listed_fine pick Hpick debug st Hlst) as [HI HC].
    set (ps := psi debug st X K P).
    assert (E1 : ∀ y, y ∈ l →
      (simplex_volume (corners_at X y) * INR (fact (S (S K))) * rsum (S (S K)) (λ k, Fl (dpoly k (P k)) (corners_at X y))
       = facets_sign (S (S K)) * total (map (signed ps) (facets_of st (S (S K)) y.2.1)))%R).
    { intros y Hy. destruct (Hcr y Hy) as (f & Hf). destruct (Hfit y Hy) as [Hv _].
      assert (Ec : corners_at X y = map X y.2.2.*1).
      { unfold corners_at. change (y.2.2.*1) with (map fst y.2.2). by rewrite map_map. }
      rewrite Ec. by eapply cell_psi. }
    assert (E2 : total (map (λ x, Phi P (corners_at X x)) l')
      = total (map (signed ps) (filter (λ p : nat * Z, occurs p.1 (- p.2) (all_facets st (S (S K)) l) = 0) (all_facets st (S (S K)) l)))).
    { destruct (C27_boundary_facets pick Hpick blk Hblk debug (S K) st m es l Hr Hl) as (bl' & Hb' & _ & Hf & _).
      rewrite Hb in Hb'. injection Hb' as <-. revert Hf.
      generalize (filter (λ p : nat * Z, occurs p.1 (- p.2) (all_facets st (S (S K)) l) = 0) (all_facets st (S (S K)) l)).
      clear -HF HP HI HC HK. induction HF as [|b x bl l' (Eb & Hv & _) HF IH]; intros [|p L] Hf; try done.
      injection Hf as Hp Hf. cbn [map]. unfold total in *. cbn [fold_right]. rewrite (IH L Hf). f_equal.
      destruct p as [g s].
      assert (Ec : corners_at X x = map X x.2.2.*1).
      { unfold corners_at. change (x.2.2.*1) with (map fst x.2.2). by rewrite map_map. }
      rewrite Ec. eapply (spans_psi debug st X K r P HK HP b.1); [|done].
      eapply Can_spans; [done|done|lia|eauto|done]. }
    rewrite E2, <- (cancel ps _ Hcons). unfold all_facets.
    clear -E1. induction l as [|x l IH]; [unfold total; cbn; lra|].
    cbn [map fmap list_fmap concat]. rewrite map_app, total_app'. rewrite Rmult_plus_distr_l.
    rewrite <- E1 by left. unfold total in *. cbn [fold_right]. rewrite IH; [done|].
    intros y Hy. apply E1. by right.
  Qed.

  Local Lemma cell_length K st m es l X x : S (S K) ≤ 3 → reach_listed pick debug st →
    mreach pick blk debug (S (S K)) st m es → mesh_cells m = Ok l → nodes_fit st (S (S K)) l → x ∈ l →
    length (corners_at X x) = S (S (S K)).
  Proof using Hpick Hblk.
    intros HK Hlst Hr Hl Hfit Hx. destruct (listed_fine pick Hpick debug st Hlst) as [HI HC].
    unfold corners_at. rewrite map_length. destruct (Hfit x Hx) as [Hv _].
    assert (Ho : is_Some (ors st !! (S (S K), x.2.1))) by (by eapply (cells_has (S K))).
    destruct (Can_spans debug st (S (S K)) x.2.1 _ HI HC ltac:(lia) Ho Hv) as (f & b & ws & _ & Hord & Hre).
    destruct (order_shape _ _ _ _ Hord) as (Hlen & _).
    rewrite <- (fmap_length fst), <- (Permutation_length (reord_perm _ _ _ Hre)). done.
  Qed.
  Local Lemma facet_length K st m es l bl l' X x : S (S K) ≤ 3 → reach_listed pick debug st →
    mreach pick blk debug (S (S K)) st m es → mesh_cells m = Ok l → boundary_facets (S (S K)) st m = Ok bl →
    Forall2 (λ b x, x.2.1 = b.1 ∧ vertices debug st (S K) b.1 = Ok x.2.2.*1 ∧ ∀ n, n ∈ x.2.2 → n ∈ b.2) bl l' →
    x ∈ l' → length (corners_at X x) = S (S K).
  Proof using Hpick Hblk.
    intros HK Hlst Hr Hl Hb HF Hx. destruct (listed_fine pick Hpick debug st Hlst) as [HI HC].
    destruct (C27_boundary_facets pick Hpick blk Hblk debug (S K) st m es l Hr Hl) as (bl' & Hb' & _ & Hf & _).
    rewrite Hb in Hb'. injection Hb' as <-.
    unfold corners_at. rewrite map_length.
    apply elem_of_list_lookup in Hx as (i & Hi). destruct (Forall2_lookup_r _ _ _ _ _ HF Hi) as (b & Hbi & Eb & Hv & _).
    assert (Ho : is_Some (ors st !! (S K, b.1))).
    { assert (Hy : ors st !! (S K, b.1) ∈ (λ x, ors st !! (S K, x.1)) <$> bl).
      { apply elem_of_list_fmap. exists b. split; [done|]. by eapply elem_of_list_lookup_2. }
      rewrite Hf in Hy. apply elem_of_list_fmap in Hy as (p & Hp & _). by exists p. }
    destruct (Can_spans debug st (S K) b.1 _ HI HC ltac:(lia) Ho Hv) as (f & b' & ws & _ & Hord & Hre).
    destruct (order_shape _ _ _ _ Hord) as (Hlen & _).
    rewrite <- (fmap_length fst), <- (Permutation_length (reord_perm _ _ _ Hre)). done.
  Qed.

  (* The integral of the divergence over the cells is the sum of the fluxes through the facets of
     the boundary mesh: on a mesh of triangles (K = 0), and with the other sign on a mesh of
     tetrahedra (K = 1). *)
  Theorem C78_fluxes K st m es l X F r g :
    S (S K) ≤ 3 → reach_listed pick debug st → mreach pick blk debug (S (S K)) st m es →
    mesh_cells m = Ok l → nodes_fit st (S (S K)) l → consistent (all_facets st (S (S K)) l) →
    as_created st (S (S K)) l → polynomial_field (S (S K)) r F → is_divergence (S (S K)) F g →
    ∃ st' m' l' vs us, boundary pick blk debug (S (S K)) st m = Ok (st', m') ∧ mesh_cells m' = Ok l' ∧
      Forall2 (λ x v, cell_integral (S (S K)) (corners_at X x) g v) l vs ∧
      Forall2 (λ x u, flux (S (S K)) (corners_at X x) F u) l' us ∧
      total vs = (facets_sign (S (S K)) * total us)%R.
  Proof using Hpick Hblk.
    intros HK Hlst Hr Hl Hfit Hcons Hcr (P & HP) Hg.
    destruct (C27_boundary_facets pick Hpick blk Hblk debug (S K) st m es l Hr Hl) as (bl & Hb & _).
    destruct (C27_boundary_mesh_partial pick Hpick blk Hblk debug K st m es l bl HK Hlst Hr Hl Hfit Hb)
      as (st' & m' & l' & E & _ & _ & Hl' & _ & HF).
    pose proof (stokes_sum K r P X st m es l bl l' HK Hlst Hr Hl Hfit Hcons Hcr (λ i Hi, proj1 (HP i Hi)) Hb HF) as HS.
    exists st', m', l', (map (λ x, simplex_volume (corners_at X x) * INR (fact (S (S K)))
                     * rsum (S (S K)) (λ k, Fl (dpoly k (P k)) (corners_at X x)))%R l), (map (λ x, Phi P (corners_at X x)) l').
    splits; [done|done| | |done].
    - apply Forall2_fmap_r, Forall_Forall2_diag, Forall_forall. intros x Hx.
      eapply cell_divergence; [by eapply cell_length|exact HP|exact Hg].
    - apply Forall2_fmap_r, Forall_Forall2_diag, Forall_forall. intros x Hx.
      eapply flux_Phi; [lia|by eapply facet_length|exact HP].
  Qed.

  (* [ps] and [qs] are the integrands in the parametric coordinates of the cells and of the facets *)
  Definition body_terms (D r : nat) (X : nat → vec) (g : vec → R) (l : list (addr * gcell)) (ps : list polynomial) : Prop :=
    Forall2 (λ x p, of_degree D r p ∧ ∀ s, g (barycentric D (corners_at X x) s) = poly p s) l ps.
  Definition facet_terms (D r : nat) (X : nat → vec) (F : vec → vec) (l : list (addr * gcell)) (qs : list polynomial) : Prop :=
    Forall2 (λ x p, of_degree (D - 1) r p ∧
      ∀ s, det_vecs (F (barycentric (D - 1) (corners_at X x) s) :: sides (corners_at X x)) = poly p s) l qs.

  (* the rounding of the tables: none when they are written in fractions *)
  Definition rounding (D rb rf : nat) (X : nat → vec) (l : list (addr * gcell)) (ps qs : list polynomial) : R :=
    (tolerance D rb * total (map (λ xp, Rabs (simplex_volume (corners_at X xp.1)) * INR (fact D) * S_Quadrature.size xp.2) (combine l ps))
     + tolerance (D - 1) rf * total (map S_Quadrature.size qs))%R.

  Local Lemma cell_integral_unique D xs g u v : cell_integral D xs g u → cell_integral D xs g v → u = v.
  Proof.
    intros (a & Ha & ->) (b & Hb & ->). by rewrite (is_integral_unique D 1 _ a b Rle_0_1 Ha Hb).
  Qed.

  Local Lemma divergence_general K st m es l cs X F r n g rb qb rf qf :
    S (S K) ≤ 3 → reach_listed pick debug st → mreach pick blk debug (S (S K)) st m es →
    mesh_cells m = Ok l → nodes_fit st (S (S K)) l → consistent (all_facets st (S (S K)) l) →
    as_created st (S (S K)) l → positions cs X l →
    polynomial_field (S (S K)) r F → is_divergence (S (S K)) F g →
    quadrature_table (S (S K)) rb = Some qb → quadrature_table (S K) rf = Some qf →
    ∃ st' m' l', boundary pick blk debug (S (S K)) st m = Ok (st', m') ∧ mesh_cells m' = Ok l' ∧
      ((∀ x, x ∈ l' → normal_field (S (S K)) (corners_at X x) n) →
       ∃ u v,
         integrate debug (Cartesian (S (S K))) (volume_form (Cartesian (S (S K)))) cs qb (elements l) g = Ok u ∧
         integrate debug (Cartesian (S (S K))) (sub_volume_form (Cartesian (S (S K))) [n] (S K)) cs qf (elements l')
           (λ y, dot (S (S K)) (F y) (n y)) = Ok v ∧
         ∀ ps qs, body_terms (S (S K)) rb X g l ps → facet_terms (S (S K)) rf X F l' qs →
           (Rabs (u - facets_sign (S (S K)) * v) <= rounding (S (S K)) rb rf X l ps qs)%R).
  Proof using Hpick Hblk.
    intros HK Hlst Hr Hl Hfit Hcons Hcr Hpos (P & HP) Hg Hqb Hqf.
    destruct (listed_fine pick Hpick debug st Hlst) as [HI HC].
    destruct (C27_boundary_facets pick Hpick blk Hblk debug (S K) st m es l Hr Hl) as (bl & Hb & _ & Hf & Hin).
    destruct (C27_boundary_mesh_partial pick Hpick blk Hblk debug K st m es l bl HK Hlst Hr Hl Hfit Hb)
      as (st' & m' & l' & E & _ & _ & Hl' & _ & HF).
    pose proof (stokes_sum K r P X st m es l bl l' HK Hlst Hr Hl Hfit Hcons Hcr (λ i Hi, proj1 (HP i Hi)) Hb HF) as HS.
    exists st', m', l'. split; [done|]. split; [done|]. intros Hn.
    assert (Hlen : ∀ x, x ∈ l → length (corners_at X x) = S (S (S K))).
    { intros x Hx. by eapply cell_length. }
    assert (Hlen' : ∀ x, x ∈ l' → length (corners_at X x) = S (S K)).
    { intros x Hx. by eapply facet_length. }
    assert (Hnd : List.NoDup (map fst (elements l))).
    { unfold elements. rewrite map_map. cbn [fst]. apply NoDup_ListNoDup.
      apply (ids_nodup (λ x : addr * gcell, x.2.1) (λ o, facets_of st (S (S K)) o)).
      - by apply consistent_nodup.
      - intros x Hx. destruct (Hcr x Hx) as (f & Hf'). destruct (Hfit x Hx) as [Hv _].
        destruct (Can_spans debug st (S (S K)) x.2.1 _ HI HC ltac:(lia) ltac:(eauto) Hv) as (f' & b & ws & Ho' & Hord & Hre).
        rewrite Hf' in Ho'. injection Ho' as <- Hb'. assert (b = true) as -> by (by destruct b).
        pose proof (proj1 (order_SS _ _ _ _) Hord) as (_ & Hlw & _ & c & Hc & HFc).
        unfold facets_of, composition, oriented, fcomposition. rewrite Hf'. cbn [deref rbind]. rewrite Hc. cbn [deref rbind decide].
        change (pred (S (S K))) with (S K).
        assert (Hfaces : faces (S (S K)) ws ≠ []).
        { destruct K as [|[|K]]; [| |lia].
          - by destruct ws as [|? [|? [|? [|]]]].
          - by destruct ws as [|? [|? [|? [|? [|]]]]]. }
        destruct (faces (S (S K)) ws) as [|vs fs]; [done|]. destruct c as [|o c']; [inversion HFc|].
        apply Forall2_cons in HFc as [(f2 & b2 & ws2 & Ho2 & _) _].
        case_decide; [done|]. cbn [base.omap list_omap]. rewrite Ho2. done. }
    assert (Hnd' : List.NoDup (map fst (elements l'))).
    { unfold elements. rewrite map_map. cbn [fst]. apply NoDup_ListNoDup.
      replace (map (λ x : addr * gcell, x.2.1) l') with (bl.*1).
      - destruct (C27_boundary_once pick Hpick blk Hblk debug (S K) st m es l bl Hr Hl Hcons Hb) as [HN _].
        by eapply NoDup_fmap_1.
      - clear -HF. induction HF as [|b x bl l' (Eb & _) _ IH]; [done|]. rewrite fmap_cons. cbn [map]. by rewrite IH, Eb. }
    assert (Hpl : ∀ x, (∀ nd, nd ∈ x.2.2 → ∃ y : addr * gcell, y ∈ l ∧ nd ∈ y.2.2) → placed cs (map snd x.2.2) (corners_at X x)).
    { intros x Hx. unfold placed, corners_at.
      assert (Hx' : ∀ nd : M_Mesh.node, nd ∈ x.2.2 → find_point nd.2 cs = Some (X nd.1)).
      { intros nd Hnd0. destruct (Hx nd Hnd0) as (y & Hy & Hny). by eapply Hpos. }
      clear -Hx'. induction (x.2.2) as [|nd ns IH]; cbn [map]; constructor.
      - apply Hx'. left.
      - apply IH. intros nd' H. apply Hx'. by right. }
    assert (HD : described (S (S K)) cs (elements l) (map (corners_at X) l)).
    { split; [done|]. unfold elements. apply Forall2_fmap, Forall_Forall2_diag, Forall_forall. intros x Hx.
      split; [|by apply Hlen]. cbn [snd]. apply Hpl. intros nd Hnd0. by exists x. }
    rewrite (cartesian_value debug (S (S K)) cs qb (elements l) (map (corners_at X) l) g ltac:(lia) HD).
    replace (sub_volume_form (Cartesian (S (S K))) [n] (S K)) with (sub_volume_form (Cartesian (S (S K))) [n] (S (S K) - 1))
      by (by rewrite Nat.sub_succ, Nat.sub_0_r).
    rewrite (sub_value debug (S (S K)) n cs qf (elements l') (map (corners_at X) l') _ ltac:(lia) Hnd').
    2:{ unfold elements. apply Forall2_fmap, Forall_Forall2_diag, Forall_forall. intros x Hx.
        split; [|by apply Hlen']. cbn [snd]. apply Hpl. intros nd Hnd0.
        apply elem_of_list_lookup in Hx as (i & Hi). destruct (Forall2_lookup_r _ _ _ _ _ HF Hi) as (b & Hbi & _ & _ & Hnb).
        destruct (Hin b.1 b.2) as (y & c & Hy & _ & _ & Eb).
        { destruct b. by eapply elem_of_list_lookup_2. }
        exists y. split; [done|]. rewrite <- Eb. by apply Hnb. }
    eexists _, _. split; [done|]. split; [done|]. intros ps qs Hps Hqs.
    rewrite !map_map.
    set (bv := λ x, (simplex_volume (corners_at X x) * INR (fact (S (S K)))
                     * rsum (S (S K)) (λ k, Fl (dpoly k (P k)) (corners_at X x)))%R) in *.
    set (fv := λ x, Phi P (corners_at X x)) in *.
    (* the cells *)
    assert (HB : (Rabs (total (map (λ x, simplex_volume (corners_at X x) *
         total (map (λ pw, pw.2 * g (barycentric (S (S K)) (corners_at X x) pw.1)) qb)) l) - total (map bv l))
      <= tolerance (S (S K)) rb * total (map (λ xp, Rabs (simplex_volume (corners_at X xp.1)) * INR (fact (S (S K))) * S_Quadrature.size xp.2) (combine l ps)))%R).
    { assert (HD1 : Forall2 (λ xs p, of_degree (S (S K)) rb p ∧ ∀ s, g (barycentric (S (S K)) xs s) = poly p s) (map (corners_at X) l) ps).
      { by apply Forall2_fmap_l. }
      destruct (C50_meshes_decimal debug (S (S K)) rb qb cs (elements l) (map (corners_at X) l) g ps Hqb HD HD1)
        as (vs & u & HV & HU & HE).
      rewrite (cartesian_value debug (S (S K)) cs qb (elements l) (map (corners_at X) l) g ltac:(lia) HD) in HU.
      injection HU as <-. rewrite map_map in HE.
      replace (total vs) with (total (map bv l)) in HE.
      2:{ f_equal. clear -HV HP Hg Hlen. apply Forall2_fmap_l in HV.
          induction HV as [|x v l vs Hv _ IH]; [done|]. cbn [map]. f_equal; [|apply IH; intros; apply Hlen; by right].
          eapply cell_integral_unique; [|exact Hv]. eapply cell_divergence; [apply Hlen; left|exact HP|exact Hg]. }
      eapply Rle_trans; [exact HE|]. apply Req_le. rewrite <- total_map_scal. clear.
      revert ps. induction l as [|x l IH]; intros [|p ps]; cbn [map combine]; [done..|].
      unfold total in *. cbn [fold_right fst snd]. rewrite IH. f_equal. ring. }
    (* the facets *)
    assert (HB' : (Rabs (total (map (λ x, det_vecs (n (hd vzero (corners_at X x)) :: sides (corners_at X x)) / INR (fact (S (S K) - 1)) *
        total (map (λ pw, pw.2 * dot (S (S K)) (F (barycentric (S (S K) - 1) (corners_at X x) pw.1)) (n (barycentric (S (S K) - 1) (corners_at X x) pw.1))) qf)) l')
        - total (map fv l')) <= tolerance (S (S K) - 1) rf * total (map S_Quadrature.size qs))%R).
    { rewrite <- total_map_scal.
      assert (Hqf' : quadrature_table (S (S K) - 1) rf = Some qf) by (by rewrite Nat.sub_succ, Nat.sub_0_r).
      assert (HFl : ∀ x, x ∈ l' → flux (S (S K)) (corners_at X x) F (fv x)).
      { intros x Hx. eapply flux_Phi; [lia|by apply Hlen'|exact HP]. }
      clear -Hqs Hn Hlen' HFl Hqf' HK. unfold facet_terms in Hqs.
      induction Hqs as [|x p l' qs (Hd & Ep) _ IH]; cbn [map].
      - unfold total. cbn. rewrite Rminus_0_r, Rabs_R0. lra.
      - rewrite (facet_value (S (S K)) rf qf (corners_at X x) n F ltac:(lia) Hqf' ltac:(apply Hlen'; left) ltac:(apply Hn; left)).
        pose proof (facet_error (S (S K)) rf qf (corners_at X x) F (fv x) p Hqf' Hd Ep ltac:(apply HFl; left)) as H1.
        specialize (IH ltac:(intros; apply Hn; by right) ltac:(intros; apply Hlen'; by right) ltac:(intros; apply HFl; by right)).
        unfold total in *. cbn [fold_right].
        match goal with |- (Rabs (?a + ?b - (?c + ?d)) <= _)%R => replace (a + b - (c + d))%R with ((a - c) + (b - d))%R by ring end.
        eapply Rle_trans; [apply Rabs_triang|]. by apply Rplus_le_compat. }
    unfold rounding.
    match goal with |- (Rabs (?a - _ * ?b) <= _)%R => set (u := a) in *; set (v := b) in * end.
    replace (u - facets_sign (S (S K)) * v)%R
      with ((u - total (map bv l)) - facets_sign (S (S K)) * (v - total (map fv l')))%R by (rewrite HS; ring).
    eapply Rle_trans; [apply Rabs_triang|]. apply Rplus_le_compat; [exact HB|].
    rewrite Rabs_Ropp, Rabs_mult.
    replace (Rabs (facets_sign (S (S K)))) with 1%R; [by rewrite Rmult_1_l|].
    unfold facets_sign, Rabs. destruct K; destruct Rcase_abs; lra.
  Qed.

  Local Lemma terms_exist K rb rf r X F g (l l' : list (addr * gcell)) :
    S (S K) ≤ 3 → (∀ x, x ∈ l' → length (corners_at X x) = S (S K)) →
    polynomial_field (S (S K)) r F → is_divergence (S (S K)) F g → r ≤ S rb → r ≤ rf →
    ∃ ps qs, body_terms (S (S K)) rb X g l ps ∧ facet_terms (S (S K)) rf X F l' qs.
  Proof.
    intros HK Hlen HF Hg Hb Hf.
    assert (∃ ps, body_terms (S (S K)) rb X g l ps) as (ps & Hps).
    { induction l as [|x l (ps & IH)]; [exists []; constructor|].
      destruct (divergence_expressible (S (S K)) rb F g (polynomial_field_le _ r _ _ Hb HF) Hg) as (p0 & Hp0 & Ep0).
      destruct (expressible_poly (S (S K)) (S (S K)) rb p0 (barycentric (S (S K)) (corners_at X x)) Hp0
        (expressible_barycentric _ _)) as (p & Hp & Ep).
      exists (p :: ps). constructor; [|done]. split; [done|]. intros s. by rewrite Ep0, Ep. }
    assert (∃ qs, facet_terms (S (S K)) rf X F l' qs) as (qs & Hqs).
    { induction l' as [|x l' IH]; [exists []; constructor|].
      destruct IH as (qs & IH); [intros; apply Hlen; by right|].
      destruct (facet_expressible (S (S K)) rf F (corners_at X x) ltac:(lia) ltac:(apply Hlen; left)
        (polynomial_field_le _ r _ _ Hf HF)) as (q & Hq & Eq).
      exists (q :: qs). by constructor. }
    by exists ps, qs.
  Qed.

  (* Triangles: the integral of the divergence over the mesh is the integral over its boundary mesh
     of the field times the normal, up to the rounding of the tables. Missing: cells whose triangle
     was created with the opposite orientation first (as_created), for which it is false (below), and
     the histories of C27_boundary_mesh_partial. *)
  Theorem C78_divergence_theorem_partial st m es l cs X F r n g rb qb rf qf :
    reach_listed pick debug st → mreach pick blk debug 2 st m es → mesh_cells m = Ok l →
    nodes_fit st 2 l → consistent (all_facets st 2 l) → as_created st 2 l → positions cs X l →
    polynomial_field 2 r F → is_divergence 2 F g →
    quadrature_table 2 rb = Some qb → quadrature_table 1 rf = Some qf →
    ∃ st' m' l', boundary pick blk debug 2 st m = Ok (st', m') ∧ mesh_cells m' = Ok l' ∧
      ((∀ x, x ∈ l' → normal_field 2 (corners_at X x) n) →
       ∃ u v,
         integrate debug (Cartesian 2) (volume_form (Cartesian 2)) cs qb (elements l) g = Ok u ∧
         integrate debug (Cartesian 2) (sub_volume_form (Cartesian 2) [n] 1) cs qf (elements l')
           (λ y, dot 2 (F y) (n y)) = Ok v ∧
         ∀ ps qs, body_terms 2 rb X g l ps → facet_terms 2 rf X F l' qs →
           (Rabs (u - v) <= rounding 2 rb rf X l ps qs)%R).
  Proof using Hpick Hblk.
    intros Hlst Hr Hl Hfit Hcons Hcr Hpos HF Hg Hqb Hqf.
    destruct (divergence_general 0 st m es l cs X F r n g rb qb rf qf ltac:(lia) Hlst Hr Hl Hfit Hcons Hcr Hpos HF Hg Hqb Hqf)
      as (st' & m' & l' & E & Hl' & H).
    exists st', m', l'. splits; [done|done|]. intros Hn. destruct (H Hn) as (u & v & Hu & Hv & HE).
    exists u, v. splits; [done|done|]. intros ps qs Hps Hqs. pose proof (HE ps qs Hps Hqs) as HE'.
    cbn [facets_sign] in HE'. by rewrite Rmult_1_l in HE'.
  Qed.

  (* With tables in fractions the two numbers are equal: fields of degree 1. *)
  Theorem C78_exact_partial st m es l cs X F n g rb qb qf :
    reach_listed pick debug st → mreach pick blk debug 2 st m es → mesh_cells m = Ok l →
    nodes_fit st 2 l → consistent (all_facets st 2 l) → as_created st 2 l → positions cs X l →
    polynomial_field 2 1 F → is_divergence 2 F g →
    rb = 1 ∨ rb = 2 → quadrature_table 2 rb = Some qb → quadrature_table 1 1 = Some qf →
    ∃ st' m' l', boundary pick blk debug 2 st m = Ok (st', m') ∧ mesh_cells m' = Ok l' ∧
      ((∀ x, x ∈ l' → normal_field 2 (corners_at X x) n) →
       ∃ u,
         integrate debug (Cartesian 2) (volume_form (Cartesian 2)) cs qb (elements l) g = Ok u ∧
         integrate debug (Cartesian 2) (sub_volume_form (Cartesian 2) [n] 1) cs qf (elements l')
           (λ y, dot 2 (F y) (n y)) = Ok u).
  Proof using Hpick Hblk.
    intros Hlst Hr Hl Hfit Hcons Hcr Hpos HF Hg Hrb Hqb Hqf.
    destruct (C78_divergence_theorem_partial st m es l cs X F 1 n g rb qb 1 qf Hlst Hr Hl Hfit Hcons Hcr Hpos HF Hg Hqb Hqf)
      as (st' & m' & l' & E & Hl' & H).
    exists st', m', l'. splits; [done|done|]. intros Hn. destruct (H Hn) as (u & v & Hu & Hv & HE).
    exists u. split; [done|]. rewrite Hv. f_equal.
    destruct (terms_exist 0 rb 1 1 X F g l l' ltac:(lia)) as (ps & qs & Hps & Hqs); [|done|done|destruct Hrb; lia|lia|].
    { destruct (C27_boundary_facets pick Hpick blk Hblk debug 1 st m es l Hr Hl) as (bl & Hb & _).
      destruct (C27_boundary_mesh_partial pick Hpick blk Hblk debug 0 st m es l bl ltac:(lia) Hlst Hr Hl Hfit Hb)
        as (st2 & m2 & l2 & E2 & _ & _ & Hl2 & _ & HF2).
      rewrite E in E2. injection E2 as <- <-. rewrite Hl' in Hl2. injection Hl2 as <-.
      intros x Hx. exact (facet_length 0 st m es l bl l' X x ltac:(lia) Hlst Hr Hl Hb HF2 Hx). }
    pose proof (HE ps qs Hps Hqs) as HE'. unfold rounding in HE'.
    assert (tolerance 2 rb = 0%R) as Ht by (destruct Hrb as [-> | ->]; done). rewrite Ht in HE'.
    change (tolerance (2 - 1) 1) with 0%R in HE'. rewrite !Rmult_0_l, Rplus_0_r in HE'.
    assert (u - v = 0)%R as Euv; [|lra]. destruct (Req_dec (u - v)%R 0%R) as [e|e]; [done|]. apply Rabs_no_R0 in e.
    pose proof (Rabs_pos (u - v)%R). lra.
  Qed.

  (* Tetrahedra: the same program computes the opposite number on the boundary, so that the two
     results agree only if both are zero (up to the rounding of the tables). *)
  Theorem C79_up_to_sign_partial st m es l cs X F r n g rb qb rf qf :
    reach_listed pick debug st → mreach pick blk debug 3 st m es → mesh_cells m = Ok l →
    nodes_fit st 3 l → consistent (all_facets st 3 l) → as_created st 3 l → positions cs X l →
    polynomial_field 3 r F → is_divergence 3 F g →
    quadrature_table 3 rb = Some qb → quadrature_table 2 rf = Some qf →
    ∃ st' m' l', boundary pick blk debug 3 st m = Ok (st', m') ∧ mesh_cells m' = Ok l' ∧
      ((∀ x, x ∈ l' → normal_field 3 (corners_at X x) n) →
       ∃ u v,
         integrate debug (Cartesian 3) (volume_form (Cartesian 3)) cs qb (elements l) g = Ok u ∧
         integrate debug (Cartesian 3) (sub_volume_form (Cartesian 3) [n] 2) cs qf (elements l')
           (λ y, dot 3 (F y) (n y)) = Ok v ∧
         ∀ ps qs, body_terms 3 rb X g l ps → facet_terms 3 rf X F l' qs →
           (Rabs (u + v) <= rounding 3 rb rf X l ps qs)%R).
  Proof using Hpick Hblk.
    intros Hlst Hr Hl Hfit Hcons Hcr Hpos HF Hg Hqb Hqf.
    destruct (divergence_general 1 st m es l cs X F r n g rb qb rf qf ltac:(lia) Hlst Hr Hl Hfit Hcons Hcr Hpos HF Hg Hqb Hqf)
      as (st' & m' & l' & E & Hl' & H).
    exists st', m', l'. splits; [done|done|]. intros Hn. destruct (H Hn) as (u & v & Hu & Hv & HE).
    exists u, v. splits; [done|done|]. intros ps qs Hps Hqs. pose proof (HE ps qs Hps Hqs) as HE'.
    replace (u + v)%R with (u - facets_sign 3 * v)%R; [done|]. cbn [facets_sign]. ring.
  Qed.

  (* Exactly, for fields of degree 2 with the tables in fractions. *)
  Theorem C79_opposite_partial st m es l cs X F r n g qb qf :
    reach_listed pick debug st → mreach pick blk debug 3 st m es → mesh_cells m = Ok l →
    nodes_fit st 3 l → consistent (all_facets st 3 l) → as_created st 3 l → positions cs X l →
    polynomial_field 3 r F → r ≤ 2 → is_divergence 3 F g →
    quadrature_table 3 1 = Some qb → quadrature_table 2 2 = Some qf →
    ∃ st' m' l', boundary pick blk debug 3 st m = Ok (st', m') ∧ mesh_cells m' = Ok l' ∧
      ((∀ x, x ∈ l' → normal_field 3 (corners_at X x) n) →
       ∃ u,
         integrate debug (Cartesian 3) (volume_form (Cartesian 3)) cs qb (elements l) g = Ok u ∧
         integrate debug (Cartesian 3) (sub_volume_form (Cartesian 3) [n] 2) cs qf (elements l')
           (λ y, dot 3 (F y) (n y)) = Ok (- u)%R).
  Proof using Hpick Hblk.
    intros Hlst Hr Hl Hfit Hcons Hcr Hpos HF Hr2 Hg Hqb Hqf.
    destruct (C79_up_to_sign_partial st m es l cs X F r n g 1 qb 2 qf Hlst Hr Hl Hfit Hcons Hcr Hpos HF Hg Hqb Hqf)
      as (st' & m' & l' & E & Hl' & H).
    exists st', m', l'. splits; [done|done|]. intros Hn. destruct (H Hn) as (u & v & Hu & Hv & HE).
    exists u. split; [done|]. rewrite Hv. f_equal.
    destruct (terms_exist 1 1 2 r X F g l l' ltac:(lia)) as (ps & qs & Hps & Hqs); [|done|done|lia|lia|].
    { destruct (C27_boundary_facets pick Hpick blk Hblk debug 2 st m es l Hr Hl) as (bl & Hb & _).
      destruct (C27_boundary_mesh_partial pick Hpick blk Hblk debug 1 st m es l bl ltac:(lia) Hlst Hr Hl Hfit Hb)
        as (st2 & m2 & l2 & E2 & _ & _ & Hl2 & _ & HF2).
      rewrite E in E2. injection E2 as <- <-. rewrite Hl' in Hl2. injection Hl2 as <-.
      intros x Hx. exact (facet_length 1 st m es l bl l' X x ltac:(lia) Hlst Hr Hl Hb HF2 Hx). }
    pose proof (HE ps qs Hps Hqs) as HE'. unfold rounding in HE'.
    change (tolerance 3 1) with 0%R in HE'. change (tolerance (3 - 1) 2) with 0%R in HE'.
    rewrite !Rmult_0_l, Rplus_0_r in HE'.
    assert (u + v = 0)%R as Euv; [|lra]. destruct (Req_dec (u + v)%R 0%R) as [e|e]; [done|]. apply Rabs_no_R0 in e.
    pose proof (Rabs_pos (u + v)%R). lra.
  Qed.
End divergence.

(* What mito::fields::divergence computes is the divergence. *)
Theorem C78_library D (f : fn (vector D) (vector D)) h :
  divergence_vector f = Some h → (∀ y, regular f y) → is_divergence D (eval f) (λ y, eval h y 0).
Proof. intros Hh Hf y. apply (C47_divergence_vector D f h y Hh (Hf y)). Qed.

Print Assumptions C78_fluxes.
Print Assumptions C78_divergence_theorem_partial.
Print Assumptions C78_exact_partial.
Print Assumptions C79_up_to_sign_partial.
Print Assumptions C79_opposite_partial.
Print Assumptions C78_library.
