(* C33: the partition of a mesh. *)
From stdpp Require Import base gmap list sorting.
From Coq Require Import Reals.
From Verif Require Import M_Tensor M_Geometry S_Geometry.
From Verif Require Import Base M_SegAlloc S_SegAlloc P_SegAlloc M_Topology S_Topology P_Topology
  P_TopologyErase P_TopologyValid P_TopologyOrder P_TopologyVertices P_TopologyCanonical
  P_TopologyApi Properties_Topology Properties_TopologyCases M_Mesh S_Mesh P_Mesh P_MeshBoundary
  P_MeshBuild Properties_Mesh Properties_MeshCases M_Tetra S_Tetra P_TetraGeometry P_TetraTiling P_Tetra
  Properties_Tetra Properties_TetraCases M_Partition S_Partition P_Partition.

Open Scope nat_scope.

Section partition.
  Context (pick : M_Topology.alloc) (Hpick : good_alloc pick) (blk : nat → nat)
    (Hblk : ∀ i j, blk i = blk j → i = j) (debug : bool).
  Context (metis : metis_args → list Z).

  (* the hypotheses on a mesh to be partitioned: those of a mesh to be refined, and the nodes of each
     cell are on the vertices of its simplex, in its orientation (GeometricSimplex.h lines 93-95) *)
  Definition partitionable (N : nat) (w : world) (m : mesh) (l : list (addr * gcell)) : Prop :=
    refinable pick blk debug N w m l ∧ ∀ x, x ∈ l → vertices_are debug (wtop w) N x.2.1 x.2.2.*1.

  Local Lemma cells_known N w m l x :
    partitionable N w m l → x ∈ l → is_Some (ors (wtop w) !! (N, x.2.1)) ∧ has (wtop w) N x.2.1.
  Proof.
    intros ((HN & [Hs _] & (es & Hm) & Hl & _) & _) Hx. destruct N as [|K]; [lia|].
    pose proof (mreach_MInv pick Hpick blk Hblk debug K _ _ _ Hm) as HM.
    destruct (mesh_cells_ok pick blk Hblk debug K _ _ _ HM) as [El _]. rewrite Hl in El. injection El as ->.
    pose proof (listed_has pick blk Hblk debug K _ _ _ x HM Hx) as Hh. split; [|done].
    destruct (listed_fine pick Hpick debug _ Hs) as [HI _]. by apply (i_hO _ HI).
  Qed.

  (* METIS is given the cells under one dense injective numbering [ids] of the vertices of the mesh:
     vertex [ids !! i] has number [i] *)
  Theorem C33_connectivity N w m l P :
    partitionable N w m l →
    ∃ ids args, metis_input N (wtop w) m P = Ok args ∧
      NoDup ids ∧ (∀ v, v ∈ ids ↔ ∃ x n, x ∈ l ∧ n ∈ x.2.2 ∧ n.1 = v) ∧
      a_elements args = length l ∧ a_vertices args = length ids ∧ a_partitions args = P ∧
      a_common args = N (* cells are neighbours if they have a facet in common *) ∧
      length (a_index args) = S (length l) ∧
      (∀ e, e <= length l → a_index args !! e = Some (e * S N)) ∧
      length (a_connectivity args) = length l * S N ∧
      ∀ e x k n, l !! e = Some x → x.2.2 !! k = Some n →
        ∃ i, a_connectivity args !! (e * S N + k) = Some i ∧ ids !! i = Some n.1.
  Proof.
    intros Hp. pose proof (cells_known N w m l) as Hk.
    destruct Hp as [Href Hv] eqn:E. pose proof Href as (HN & [Hs _] & _ & Hl & Hfit).
    destruct (listed_fine pick Hpick debug _ Hs) as [HI HC].
    destruct (vertices_map_ok debug N w m l HN HI HC Hl) as (ids & Ei & Hnd & _ & Hids).
    { intros x Hx. split; [by apply Hk|by apply Hv]. }
    assert (Hrow : ∀ x, x ∈ l → length x.2.2 = S N ∧ Forall (λ n : node, n.1 ∈ ids) x.2.2).
    { intros x Hx. split; [by apply Hfit|]. apply Forall_forall. intros n Hn. apply Hids. eauto. }
    assert (Hlen : Forall (λ r, length r = S N) ((λ x : addr * gcell, row ids x.2.2) <$> l)).
    { apply Forall_fmap, Forall_forall. intros x Hx. cbn. destruct (Hrow x Hx). by rewrite row_length. }
    unfold metis_input. rewrite Ei, Hl. cbn [rbind]. rewrite (connectivity_ok ids N l Hrow). cbn [rbind].
    eexists ids, _. split; [reflexivity|]. cbn [a_elements a_vertices a_partitions a_common a_index a_connectivity].
    split_and!; try done.
    - apply element_index_length.
    - intros e He. rewrite element_index_lookup by lia. f_equal.
    - rewrite (concat_length_const _ (S N)) by done. by rewrite fmap_length.
    - intros e x k n He Hk'. destruct (Hrow x) as [Hxl Hin]; [by eapply elem_of_list_lookup_2|].
      assert (is_Some (row ids x.2.2 !! k)) as [i Hi].
      { apply lookup_lt_is_Some. rewrite row_length by done. by apply lookup_lt_Some in Hk'. }
      exists i. split; [|by eapply row_lookup]. rewrite (Nat.mul_comm e).
      eapply concat_lookup; [done| |exact Hi]. by rewrite list_lookup_fmap, He.
  Qed.

  (* the partition for a rank has the cells METIS painted with it, in their order, and only these; it
     is again a mesh of the same topology. For a single partition METIS is not asked and the mesh is
     copied. *)
  Theorem C33_parts N w m l P r :
    partitionable N w m l → paints metis → (0 < P)%Z →
    ∃ w' m' l' p, partition pick blk debug metis N m P r w = Ok (w', m') ∧ partitionable N w' m' l' ∧
      length p = length l ∧
      (P = 1%Z → l'.*2 = l.*2) ∧
      (P ≠ 1%Z → (∃ args, metis_input N (wtop w) m P = Ok args ∧ p = metis args) ∧
        Forall (λ q, 0 <= q < P)%Z p ∧ l'.*2 = painted p r l.*2).
  Proof.
    intros Hp Hmet HPpos. pose proof (cells_known N w m l) as Hk. pose proof Hp as [Href Hv].
    pose proof Href as (HN & [Hs Hnx] & (es & Hm) & Hl & Hfit).
    destruct N as [|K]; [lia|].
    destruct (listed_fine pick Hpick debug _ Hs) as [HI HC].
    assert (Hva : ∀ w' x, x ∈ l → ext w w' → vertices_are debug (wtop w') (S K) x.2.1 x.2.2.*1).
    { intros w' x Hx Hw. destruct (Hv x Hx) as (us & Hus & Hr). exists us. split; [|done].
      by apply (vertices_mono debug (wtop w)); [apply Hw|]. }
    assert (Hpart : ∀ w' m' es', Pre pick blk debug K w' m' es' → ext w w' →
              (∀ gc, gc ∈ (cells_listed es').*2 → gc ∈ l.*2) →
              partitionable (S K) w' m' (cells_listed es')).
    { intros w' m' es' HP' Hw Hsub.
      pose proof (mreach_MInv pick Hpick blk Hblk debug K _ _ _ (p_mesh _ _ _ _ _ _ _ HP')) as HM.
      destruct (mesh_cells_ok pick blk Hblk debug K _ _ _ HM) as [El _].
      assert (Hin : ∀ x, x ∈ cells_listed es' → ∃ y, y ∈ l ∧ y.2 = x.2).
      { intros x Hx. apply (elem_of_list_fmap_1 snd), Hsub, elem_of_list_fmap in Hx as (y & ? & ?). eauto. }
      split; [split_and!; [lia|lia|split; [apply HP'|apply HP']|exists es'; apply HP'|done|]|].
      - intros x Hx. destruct (Hin x Hx) as (y & Hy & <-). destruct (Hfit y Hy) as [? ?].
        split; [done|by eapply fit_ext].
      - intros x Hx. destruct (Hin x Hx) as (y & Hy & <-). by apply Hva. }
    assert (HP0 : Pre pick blk debug K w mesh0 []).
    { constructor; [done| |constructor; by eapply listed_reach|done|done].
      eapply (MInv_core pick blk debug K), MInv_init. by eapply listed_reach. }
    unfold partition. destruct (decide (P = 1%Z)) as [->|HP].
    - rewrite Hl. cbn [rbind].
      destruct (tetra_ok pick Hpick blk Hblk debug (Cartesian 2) K 0 m l w) as (w' & m' & es' & gcss & E & HP' & Hx & Hc & HB & _);
        [lia|done|done|done|].
      unfold tetra in E. rewrite Hl in E. cbn [rbind] in E.
      assert (Hcell : (cells_listed es').*2 = l.*2).
      { rewrite Hc.
        assert (HB' : Forall2 (λ (x : addr * gcell) gcs, gcs = [x.2]) l gcss).
        { apply Forall2_same_length_lookup. split; [by eapply Forall2_length|].
          intros i x gcs Hi Hg. pose proof (Forall2_lookup_lr _ _ _ _ _ _ HB Hi Hg) as HBi.
          apply elem_of_list_lookup_2 in Hi.
          pose proof (b_copy _ _ _ _ _ _ _ HBi eq_refl) as Hcp.
          destruct gcs as [|[o ns] [|]]; try done. injection Hcp as ->.
          destruct (b_cells _ _ _ _ _ _ _ HBi (o, x.2.2)) as (_ & _ & Hsp); [left|]. cbn [fst snd] in Hsp.
          destruct (Hva w x Hi (ext_refl w)) as (us & Hus & Hr). apply even_reord in Hr.
          assert (Hsp0 : spans (wtop w) (S K) x.2.1 us)
            by (eapply (Can_spans debug); [done|done|lia|by apply Hk|done]).
          apply (spans_extends K (wtop w) (wtop w')) in Hsp0; [|done|by eapply (Pre_Inv pick Hpick)|apply Hx].
          destruct (spans_unique (wtop w') (S K) _ _ true _ _ (Pre_Inv pick Hpick _ _ _ _ _ _ HP') Hsp0 Hsp Hr)
            as (_ & _ & _ & _ & Heq).
          rewrite <- (Heq eq_refl). by destruct x as [? [? ?]]. }
        clear -HB'. induction HB' as [|x gcs l gcss -> _ IH]; [done|]. cbn. by rewrite IH. }
      exists w', m', (cells_listed es'), (replicate (length l) 0%Z). split_and!; [done| |by rewrite replicate_length|done|done].
      apply Hpart; [done|done|]. intros gc. by rewrite Hcell.
    - destruct (C33_connectivity (S K) w m l P Hp) as (ids & args & Ea & _ & _ & He & _ & HPa & _ & _).
      rewrite Ea, Hl. cbn [rbind]. destruct (Hmet args) as [Hlen Hcol]; [by rewrite HPa|]. rewrite He in Hlen. rewrite HPa in Hcol.
      destruct (create_ok pick Hpick blk Hblk debug K l r [] (metis args) w mesh0 []) as (w' & m' & es' & e' & E & HP' & Hx & Hc);
        [done|by intros; apply Hk|done|].
      unfold create_partitioned_mesh. cbn [app length] in E.
      exists w', m', (cells_listed es'), (metis args). split_and!.
      + exact (f_equal (λ r : res (world * mesh * nat), let! (w, m, _) := r in Ok (w, m)) E).
      + apply Hpart; [done|done|]. intros gc. rewrite Hc. apply painted_sub.
      + done.
      + done.
      + intros _. split_and!; [by exists args|done|done].
  Qed.

  (* the partitions for the ranks 0, ..., P - 1 have each cell of the mesh exactly once *)
  Theorem C33_cover N w m l P :
    partitionable N w m l → paints metis → (1 <= P)%Z →
    ∃ parts : list (list gcell),
      Forall2 (λ r part, ∃ w' m' l', partition pick blk debug metis N m P r w = Ok (w', m') ∧
        mesh_cells m' = Ok l' ∧ l'.*2 = part) (seqZ 0 P) parts ∧
      concat parts ≡ₚ l.*2.
  Proof.
    intros Hp Hmet HP. pose proof (λ r, C33_parts N w m l P r Hp Hmet ltac:(lia)) as Hr.
    destruct (decide (P = 1%Z)) as [->|HP1].
    - destruct (Hr 0%Z) as (w' & m' & l' & p & E & Hp' & _ & Hc & _). exists [l'.*2]. split.
      + repeat constructor. exists w', m', l'. split_and!; [done|apply Hp'|done].
      + cbn. rewrite app_nil_r. by rewrite Hc.
    - destruct (Hr 0%Z) as (w0 & m0 & l0 & p & _ & _ & Hlen & _ & H0). destruct (H0 HP1) as ((args & Ea & ->) & Hcol & _).
      exists ((λ r, painted (metis args) r l.*2) <$> seqZ 0 P). split.
      + rewrite Forall2_fmap_r. apply Forall_Forall2_diag, Forall_forall. intros r _.
        destruct (Hr r) as (w' & m' & l' & p & E & Hp' & _ & _ & H1). destruct (H1 HP1) as ((args' & Ea' & ->) & _ & Hc).
        rewrite Ea in Ea'. injection Ea' as <-. exists w', m', l'. split_and!; [done|apply Hp'|done].
      + apply painted_cover; [by rewrite fmap_length|apply NoDup_seqZ|].
        eapply Forall_impl; [exact Hcol|]. intros q Hq. apply elem_of_seqZ. cbn in Hq. lia.
  Qed.
End partition.

Print Assumptions C33_connectivity.
Print Assumptions C33_parts.
Print Assumptions C33_cover.
