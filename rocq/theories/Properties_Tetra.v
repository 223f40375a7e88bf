(* C30-C32: the refinement of meshes. [w] is the world (topology, coordinate system, point cloud) before
   and [w'] after tetra; [l] and [l'] are what range-for loops over the two meshes visit. The world
   [sound_world] and the nodes [fit] of S_Tetra.v are those of any client that builds its simplices
   from vertices and its nodes from points it has placed. *)
From stdpp Require Import base gmap list.
From Coq Require Import Reals Lra.
From Verif Require Import M_Tensor M_Geometry S_Geometry P_Volume Properties_Geometry.
From Verif Require Import Base M_SegAlloc S_SegAlloc P_SegAlloc M_Topology S_Topology P_Topology
  P_TopologyErase P_TopologyValid P_TopologyOrder P_TopologyVertices P_TopologyCanonical
  P_TopologyApi Properties_Topology M_Mesh S_Mesh P_Mesh P_MeshBoundary P_MeshBuild Properties_Mesh
  M_Tetra S_Tetra P_TetraGeometry P_TetraTiling P_Tetra.

Open Scope nat_scope.

Lemma elem_In {A} (x : A) l : x ∈ l ↔ In x l.
Proof. apply elem_of_list_In. Qed.

Lemma nth_error_lookup {A} (l : list A) i : nth_error l i = l !! i.
Proof. revert i. induction l as [|x l IH]; intros [|i]; cbn; [done..|apply IH]. Qed.

Section tetra.
  Context (pick : M_Topology.alloc) (Hpick : good_alloc pick) (blk : nat → nat)
    (Hblk : ∀ i j, blk i = blk j → i = j) (debug : bool) (c : chart).

  (* the hypotheses on a mesh to be refined *)
  Definition refinable (N : nat) (w : world) (m : mesh) (l : list (addr * gcell)) : Prop :=
    1 <= N <= 3 ∧ sound_world pick debug w ∧ (∃ es, mreach pick blk debug N (wtop w) m es) ∧
    mesh_cells m = Ok l ∧ ∀ x, x ∈ l → length x.2.2 = S N ∧ fit w x.2.2.

  (* the refined mesh: the cells made from each cell are consecutive, [gcss] *)
  Local Lemma refined N n w m l :
    refinable N w m l →
    ∃ K w' m' es' l' gcss, N = S K ∧ tetra pick blk debug c N n m w = Ok (w', m') ∧
      Pre pick blk debug K w' m' es' ∧ ext w w' ∧ mesh_cells m' = Ok l' ∧ l'.*2 = concat gcss ∧
      Forall2 (λ x gcs, Block c K w w' n x.2.2 gcs) l gcss ∧
      (∀ i j gi gj nd, i < j → gcss !! i = Some gi → gcss !! j = Some gj →
         nd ∈ concat (gi.*2) → nd ∈ concat (gj.*2) → nd.2 < wnext w).
  Proof.
    intros (HN & Hs & _ & Hl & Hfit). destruct N as [|K]; [lia|].
    destruct (tetra_ok pick Hpick blk Hblk debug c K n m l w) as (w' & m' & es' & gcss & E & HP & Hx & Hc & HB & Hd & _);
      [lia|done|done|done|].
    pose proof (mreach_MInv pick Hpick blk Hblk debug K _ _ _ (p_mesh _ _ _ _ _ _ _ HP)) as HM.
    destruct (mesh_cells_ok pick blk Hblk debug K _ _ _ HM) as [El _].
    exists K, w', m', es', (cells_listed es'), gcss. split_and!; done.
  Qed.

  (* ---- C30 ---- *)

  (* the refinement succeeds; it makes 2^N cells per cell and level, each an N-simplex on N + 1 distinct
     nodes, with the orientation of their order; the result is again a mesh that can be refined (or
     given to any function on meshes), and the points that had coordinates keep them *)
  Theorem C30_cells N n w m l :
    refinable N w m l →
    ∃ w' m' l', tetra pick blk debug c N n m w = Ok (w', m') ∧ refinable N w' m' l' ∧
      length l' = length l * 2 ^ (N * n) ∧
      nCells m' = (nCells m * 2 ^ (Z.of_nat N * Z.of_nat n))%Z ∧
      (∀ x, x ∈ l' → vertices_are debug (wtop w') N x.2.1 x.2.2.*1) ∧
      (∀ p x, find_point p (wsys w) = Some x → find_point p (wsys w') = Some x).
  Proof.
    intros Href. destruct (refined N n w m l Href) as (K & w' & m' & es' & l' & gcss & -> & E & HP & Hx & El & Ec & HB & _).
    destruct Href as (HN & Hs & (es & Hm) & Hl & Hfit).
    assert (Hcell : ∀ x, x ∈ l' → length x.2.2 = S (S K) ∧ fit w' x.2.2 ∧ spans (wtop w') (S K) x.2.1 x.2.2.*1).
    { intros x Hxin. apply (elem_of_list_fmap_1 snd) in Hxin. rewrite Ec in Hxin.
      apply P_Mesh.elem_of_concat in Hxin as (gcs & Hgc & (i & Hi)%elem_of_list_lookup).
      destruct (Forall2_lookup_r _ _ _ _ _ HB Hi) as (y & _ & HBi). by apply HBi. }
    assert (Hlen : length l' = length l * 2 ^ (S K * n)).
    { rewrite <- (fmap_length snd l'), Ec, (concat_length_const _ (2 ^ (S K * n))).
      - by rewrite (Forall2_length _ _ _ HB).
      - apply Forall_lookup. intros i gcs Hi.
        destruct (Forall2_lookup_r _ _ _ _ _ HB Hi) as (y & _ & HBi). apply HBi. }
    exists w', m', l'. split_and!; [done| |done| | |apply Hx].
    - split_and!; [lia|lia|split; [apply HP|apply HP]|exists es'; apply HP|done|].
      intros x Hxin. split; by apply Hcell.
    - destruct (C28_cells pick Hpick blk Hblk debug K _ _ _ Hm) as (l1 & El1 & _ & ->).
      destruct (C28_cells pick Hpick blk Hblk debug K _ _ _ (p_mesh _ _ _ _ _ _ _ HP)) as (l2 & El2 & _ & ->).
      rewrite Hl in El1. injection El1 as <-. rewrite El in El2. injection El2 as <-.
      rewrite Hlen, Nat2Z.inj_mul, Nat2Z.inj_pow, Nat2Z.inj_mul. done.
    - intros x Hxin. destruct (Hcell x Hxin) as (_ & _ & Hsp).
      destruct (vertices_spans debug (wtop w') (S K) x.2.1 x.2.2.*1 Hsp) as (us & Eu & Hr).
      exists us. split; [done|]. by apply even_reord.
  Qed.

  (* without refinement, the cells of the new mesh have the nodes of the cells of the mesh *)
  Theorem C30_copy N w m l :
    refinable N w m l →
    ∃ w' m' l', tetra pick blk debug c N 0 m w = Ok (w', m') ∧ mesh_cells m' = Ok l' ∧
      (λ x, x.2.2) <$> l' = (λ x, x.2.2) <$> l.
  Proof.
    intros Href. destruct (refined N 0 w m l Href) as (K & w' & m' & es' & l' & gcss & -> & E & HP & Hx & El & Ec & HB & _).
    exists w', m', l'. split_and!; [done|done|].
    assert ((λ x : addr * gcell, x.2.2) <$> l' = (l'.*2).*2) as -> by (by rewrite <- list_fmap_compose).
    rewrite Ec. clear -HB. induction HB as [|x gcs l gcss HB _ IH]; [done|].
    cbn. rewrite fmap_app, IH, (b_copy _ _ _ _ _ _ _ HB) by done. done.
  Qed.

  (* no two cells of a refined mesh are on the same vertices, whatever the cells of the mesh were; so
     they are different simplices *)
  Theorem C30_distinct N n w m l :
    refinable N w m l → 0 < n →
    ∃ w' m' l', tetra pick blk debug c N n m w = Ok (w', m') ∧ mesh_cells m' = Ok l' ∧
      (∀ i j x y, l' !! i = Some x → l' !! j = Some y → x.2.2.*1 ≡ₚ y.2.2.*1 → i = j) ∧
      NoDup ((λ x, x.2.1) <$> l').
  Proof.
    intros (HN & Hs & _ & Hl & Hfit) Hn. destruct N as [|K]; [lia|].
    destruct (tetra_ok pick Hpick blk Hblk debug c K n m l w) as (w' & m' & es' & gcss & E & HP & Hx & Hc & HB & _ & Hd);
      [lia|done|done|done|].
    pose proof (mreach_MInv pick Hpick blk Hblk debug K _ _ _ (p_mesh _ _ _ _ _ _ _ HP)) as HM.
    destruct (mesh_cells_ok pick blk Hblk debug K _ _ _ HM) as [El _].
    exists w', m', (cells_listed es'). split; [done|]. split; [done|].
    assert (Hap : ForallOrdPairs apart (concat gcss)).
    { apply pairs_concat.
      - intros gcs (i & Hi)%elem_of_list_lookup.
        destruct (Forall2_lookup_r _ _ _ _ _ HB Hi) as (x & _ & HBi). apply HBi.
      - apply pairs_lookup. intros i j gi gj Hij Hi Hj g h Hg Hh Hp.
        destruct (Forall2_lookup_r _ _ _ _ _ HB Hi) as (x & _ & HBi).
        destruct (b_new _ _ _ _ _ _ _ HBi Hn g Hg) as (nd & Hnd & Hf). apply Hf.
        assert (Hin : nd.1 ∈ h.2.*1) by (rewrite <- Hp; by apply elem_of_list_fmap_1).
        apply elem_of_list_fmap in Hin as (nd' & En & Hnd').
        apply (Hd i j gi gj nd nd' Hij Hi Hj); [| |done].
        + apply P_Mesh.elem_of_concat. exists g.2. split; [done|by apply elem_of_list_fmap_1].
        + apply P_Mesh.elem_of_concat. exists h.2. split; [done|by apply elem_of_list_fmap_1]. }
    rewrite <- Hc in Hap.
    assert (Hinj : ∀ i j x y, cells_listed es' !! i = Some x → cells_listed es' !! j = Some y → x.2.2.*1 ≡ₚ y.2.2.*1 → i = j).
    { intros i j x y Hi Hj Hp. destruct (Nat.lt_total i j) as [Hlt|[?|Hlt]]; [exfalso|done|exfalso].
      - eapply (pairs_lookup_1 _ _ Hap i j x.2 y.2 Hlt); [by rewrite list_lookup_fmap, Hi|by rewrite list_lookup_fmap, Hj|done].
      - eapply (pairs_lookup_1 _ _ Hap j i y.2 x.2 Hlt); [by rewrite list_lookup_fmap, Hj|by rewrite list_lookup_fmap, Hi|].
        by rewrite Hp. }
    split; [done|]. apply NoDup_alt. intros i j o Hi Hj.
    rewrite list_lookup_fmap in Hi, Hj.
    destruct (cells_listed es' !! i) as [x|] eqn:Ei; [|done]. destruct (cells_listed es' !! j) as [y|] eqn:Ej; [|done].
    injection Hi as Hi. injection Hj as Hj. apply (Hinj i j x y Ei Ej).
    assert (Hsp : ∀ z, z ∈ cells_listed es' → spans (wtop w') (S K) z.2.1 z.2.2.*1).
    { intros z Hz. apply (elem_of_list_fmap_1 snd) in Hz. rewrite Hc in Hz.
      apply P_Mesh.elem_of_concat in Hz as (gcs & Hgc & (t & Ht)%elem_of_list_lookup).
      destruct (Forall2_lookup_r _ _ _ _ _ HB Ht) as (u & _ & HBi). by apply HBi. }
    destruct (Hsp x) as (f & b & ws & Hf & Hord & Hre); [by eapply elem_of_list_lookup_2|].
    destruct (Hsp y) as (f' & b' & ws' & Hf' & Hord' & Hre'); [by eapply elem_of_list_lookup_2|].
    rewrite Hi in Hf. rewrite Hj, Hf in Hf'. injection Hf' as <- _.
    assert (HI : Inv (wtop w')) by (by eapply (Pre_Inv pick Hpick blk debug K)).
    rewrite <- (reord_perm _ _ _ Hre), <- (reord_perm _ _ _ Hre').
    by eapply (order_unique (wtop w') (S K)).
  Qed.

  (* ---- C31 ---- *)

  (* The cells made from a cell tile it, in every chart and for cells of any order N <= 3 in a space of
     any dimension: their points are the points of the cell, none is off the faces of two of them, and
     all have the same part of the oriented volume of the cell. In polar and spherical coordinates the
     cell must not meet the origin or the axis, where there are no coordinates. *)
  Theorem C31_tiling N n w m l :
    refinable N w m l →
    ∃ w' m' l' gcss, tetra pick blk debug c N n m w = Ok (w', m') ∧ mesh_cells m' = Ok l' ∧
      l'.*2 = concat gcss ∧
      Forall2 (λ (x : addr * gcell) gcs, length gcs = 2 ^ (N * n) ∧
        (∀ gc, gc ∈ gcs → length gc.2 = S N) ∧
        ∀ ps, poss c w x.2.2 ps → clear_of_axis c ps →
          ∃ qss, Forall2 (λ (gc : gcell) qs, poss c w' gc.2 qs) gcs qss ∧
            (∀ q, inside (dim c) ps q ↔ ∃ qs, qs ∈ qss ∧ inside (dim c) qs q) ∧
            (independent (dim c) ps → ∀ i j qi qj q, qss !! i = Some qi → qss !! j = Some qj →
               interior (dim c) qi q → interior (dim c) qj q → i = j) ∧
            (∀ qs, qs ∈ qss → simplex_volume qs = (simplex_volume ps / 2 ^ (N * n))%R)) l gcss.
  Proof.
    intros Href. destruct (refined N n w m l Href) as (K & w' & m' & es' & l' & gcss & -> & E & HP & Hx & El & Ec & HB & _).
    destruct Href as (HN & Hs & _ & Hl & Hfit).
    exists w', m', l', gcss. split_and!; [done|done|done|].
    apply Forall2_same_length_lookup. split; [by eapply Forall2_length|].
    intros i x gcs Hi Hg. pose proof (Forall2_lookup_lr _ _ _ _ _ _ HB Hi Hg) as HBi.
    split; [apply HBi|]. split; [intros gc Hgc; by apply HBi|]. intros ps Hps (d & Hd).
    assert (L : length ps = S (S K)).
    { rewrite <- (Forall2_length _ _ _ Hps). apply elem_of_list_lookup_2, Hfit in Hi. by destruct Hi. }
    exists (refine (S K) n ps). split_and!.
    - by eapply (b_positions _ _ _ _ _ _ _ HBi).
    - intros q. rewrite (refine_inside (S K) n HN ps (dim c) q L). by setoid_rewrite elem_In.
    - intros Hind i' j' qi qj q Hqi Hqj. rewrite <- nth_error_lookup in Hqi, Hqj.
      by eapply (refine_disjoint (S K) n HN ps).
    - intros qs Hqs%elem_In. by apply (refine_volume (S K) n HN).
  Qed.

  (* volumes as the code computes them, cells of full dimension: no child is inverted, and the volume
     of the mesh does not change *)
  Theorem C31_volume n w m l :
    supported c → refinable (dim c) w m l →
    (∀ x, x ∈ l → ∃ ps, poss c w x.2.2 ps ∧ clear_of_axis c ps) →
    ∃ w' m' l' gcss V, tetra pick blk debug c (dim c) n m w = Ok (w', m') ∧ mesh_cells m' = Ok l' ∧
      l'.*2 = concat gcss ∧
      Forall2 (λ (x : addr * gcell) gcs, ∃ v, cell_volume c (volume_form c) (wsys w) x.2.2.*2 = Ok v ∧
        ∀ gc : gcell, gc ∈ gcs →
          cell_volume c (volume_form c) (wsys w') gc.2.*2 = Ok (v / 2 ^ (dim c * n))%R) l gcss ∧
      mesh_volume c (volume_form c) (wsys w) (points_of l) = Ok V ∧
      mesh_volume c (volume_form c) (wsys w') (points_of l') = Ok V.
  Proof.
    intros Hsup Href Hpos.
    destruct (C31_tiling (dim c) n w m l Href) as (w' & m' & l' & gcss & E & El & Ec & HB).
    destruct Href as (HN & Hs & _ & Hl & Hfit).
    assert (Hvol : ∀ w0 ns ps, length ns = S (dim c) → poss c w0 ns ps →
              cell_volume c (volume_form c) (wsys w0) ns.*2 = Ok (simplex_volume ps)).
    { intros w0 ns ps Hlen H.
      assert (∃ xs, placed (wsys w0) ns.*2 xs ∧ Forall (proper c) xs ∧
                Forall2 (λ x p, same (dim c) (position c x) p) xs ps) as (xs & H1 & H2 & H3).
      { clear Hlen. induction H as [|nd p ns ps (x & ? & ? & ?) _ (xs & ? & ? & ?)].
        - exists []. split_and!; constructor.
        - exists (x :: xs). split_and!; by constructor. }
      eapply cell_volume_at; [done| |done..]. by rewrite fmap_length. }
    assert (Hlen' : ∀ x, x ∈ l → length x.2.2 = S (dim c)) by (intros x Hx; by apply Hfit).
    assert (HB' : Forall2 (λ (x : addr * gcell) gcs, ∃ v,
        cell_volume c (volume_form c) (wsys w) x.2.2.*2 = Ok v ∧ length gcs = 2 ^ (dim c * n) ∧
        ∀ gc : gcell, gc ∈ gcs →
          cell_volume c (volume_form c) (wsys w') gc.2.*2 = Ok (v / 2 ^ (dim c * n))%R) l gcss).
    { apply Forall2_same_length_lookup. split; [by eapply Forall2_length|].
      intros i x gcs Hi Hg. destruct (Forall2_lookup_lr _ _ _ _ _ _ HB Hi Hg) as (Hk & Hgl & HBi).
      apply elem_of_list_lookup_2 in Hi as Hxl. destruct (Hpos x Hxl) as (ps & Hps & Hcl).
      destruct (HBi ps Hps Hcl) as (qss & Hq & _ & _ & Hv).
      exists (simplex_volume ps). split_and!; [by apply Hvol; [apply Hlen'|]|done|].
      intros gc (k & Hgc)%elem_of_list_lookup.
      destruct (Forall2_lookup_l _ _ _ _ _ Hq Hgc) as (qs & Hqs & Hpq).
      rewrite <- (Hv qs) by (by eapply elem_of_list_lookup_2). apply Hvol; [|done].
      apply Hgl. by eapply elem_of_list_lookup_2. }
    assert (∃ vs, Forall2 (λ cell v, cell_volume c (volume_form c) (wsys w) cell = Ok v) (points_of l) vs ∧
              Forall2 (λ cell v, cell_volume c (volume_form c) (wsys w') cell = Ok v) (points_of l')
                (concat (map (λ v, repeat (v / 2 ^ (dim c * n))%R (2 ^ (dim c * n))) vs))) as (vs & Hv & Hv').
    { assert (points_of l' = (λ gc : gcell, gc.2.*2) <$> l'.*2) as ->.
      { unfold points_of. by rewrite <- list_fmap_compose. }
      rewrite Ec. clear -HB'. induction HB' as [|x gcs l gcss (v & H1 & H2 & H3) _ (vs & IH1 & IH2)].
      - exists []. split; constructor.
      - exists (v :: vs). cbn [map concat]. rewrite fmap_app. split; [by constructor|].
        apply Forall2_app; [|done]. rewrite <- H2. clear -H3.
        induction gcs as [|gc gcs IH]; cbn; constructor; [apply H3; left|]. apply IH. intros. apply H3. by right. }
    exists w', m', l', gcss, (total vs). split_and!; [done..| | |].
    - eapply Forall2_impl; [exact HB'|]. intros x gcs (v & ? & _ & ?). eauto.
    - unfold mesh_volume. rewrite (add_volumes_total _ _ _ _ _ Hv). f_equal. lra.
    - unfold mesh_volume. rewrite (add_volumes_total _ _ _ _ _ Hv'), total_split. f_equal. lra.
  Qed.

  (* ---- C32 ---- *)

  (* The refined mesh is not conforming: cells made from two different cells share no node that was not
     a node of both. Each cell makes its own node in the middle of each of its edges. *)
  Theorem C32_shared_nodes N n w m l :
    refinable N w m l →
    ∃ w' m' l' gcss, tetra pick blk debug c N n m w = Ok (w', m') ∧ mesh_cells m' = Ok l' ∧
      l'.*2 = concat gcss ∧ length gcss = length l ∧
      ∀ i j x y gi gj nd, i ≠ j → l !! i = Some x → l !! j = Some y →
        gcss !! i = Some gi → gcss !! j = Some gj →
        nd ∈ concat (gi.*2) → nd ∈ concat (gj.*2) → nd ∈ x.2.2 ∧ nd ∈ y.2.2.
  Proof.
    intros Href. destruct (refined N n w m l Href) as (K & w' & m' & es' & l' & gcss & -> & E & HP & Hx & El & Ec & HB & Hd).
    exists w', m', l', gcss. split_and!; [done|done|done|by symmetry; eapply Forall2_length|].
    intros i j x y gi gj nd Hij Hi Hj Hgi Hgj Hni Hnj.
    assert (Hlt : nd.2 < wnext w).
    { destruct (Nat.lt_total i j) as [?|[?|?]]; [|done|].
      - by eapply (Hd i j gi gj).
      - by eapply (Hd j i gj gi). }
    assert (Hold : ∀ k z gk, l !! k = Some z → gcss !! k = Some gk → nd ∈ concat (gk.*2) → nd ∈ z.2.2).
    { intros k z gk Hk Hgk (ns & Hn & (gc & -> & Hgc)%elem_of_list_fmap)%P_Mesh.elem_of_concat.
      pose proof (Forall2_lookup_lr _ _ _ _ _ _ HB Hk Hgk) as HBk.
      destruct (b_nodes _ _ _ _ _ _ _ HBk gc nd Hgc Hn); [done|lia]. }
    split; [by eapply (Hold i)|by eapply (Hold j)].
  Qed.

  (* For every mesh with two cells that share an edge, with nodes [a] and [b], and every positive number
     of levels: in the middle of the edge there is a node of the cells made from the first and another
     one of the cells made from the second, at the same position. *)
  Theorem C32_conforming_refuted N n w m l i j x y a b ps ps' pa pb :
    refinable N w m l → 0 < n → i ≠ j → l !! i = Some x → l !! j = Some y →
    a ≠ b → a ∈ x.2.2 → b ∈ x.2.2 → a ∈ y.2.2 → b ∈ y.2.2 →
    poss c w x.2.2 ps → poss c w y.2.2 ps' → clear_of_axis c ps → clear_of_axis c ps' →
    independent (dim c) ps → pos c w a pa → pos c w b pb →
    ∃ w' m' l' gcss gi gj na nb, tetra pick blk debug c N n m w = Ok (w', m') ∧ mesh_cells m' = Ok l' ∧
      l'.*2 = concat gcss ∧ gcss !! i = Some gi ∧ gcss !! j = Some gj ∧
      na ∈ concat (gi.*2) ∧ nb ∈ concat (gj.*2) ∧ na ≠ nb ∧
      pos c w' na (λ k, (pa k + pb k) / 2)%R ∧ pos c w' nb (λ k, (pa k + pb k) / 2)%R.
  Proof.
    intros Href Hn Hij Hi Hj Hab Hax Hbx Hay Hby Hps Hps' (d & Hd) (d' & Hd') Hind Hpa Hpb.
    destruct (refined N n w m l Href) as (K & w' & m' & es' & l' & gcss & -> & E & HP & Hx & El & Ec & HB & Hdj).
    destruct Href as (HN & Hs & _ & Hl & Hfit).
    destruct (Forall2_lookup_l _ _ _ _ _ HB Hi) as (gi & Hgi & HBi).
    destruct (Forall2_lookup_l _ _ _ _ _ HB Hj) as (gj & Hgj & HBj).
    assert (Hold : ∀ nd, nd ∈ concat (gi.*2) → nd ∈ concat (gj.*2) → nd ∈ x.2.2).
    { intros nd Hni Hnj. assert (Hlt : nd.2 < wnext w).
      { destruct (Nat.lt_total i j) as [?|[?|?]]; [|done|].
        - by eapply (Hdj i j gi gj).
        - by eapply (Hdj j i gj gi). }
      apply P_Mesh.elem_of_concat in Hni as (ns & Hn' & (gc & -> & Hgc)%elem_of_list_fmap).
      destruct (b_nodes _ _ _ _ _ _ _ HBi gc nd Hgc Hn'); [done|lia]. }
    assert (Huniq : ∀ w1 nd p q, pos c w1 nd p → pos c w1 nd q → same (dim c) p q).
    { intros w1 nd p q (x1 & F1 & _ & S1) (x2 & F2 & _ & S2) k Hk. rewrite F1 in F2. injection F2 as <-.
      rewrite <- (S1 k Hk). by apply S2. }
    assert (Hmid : ∀ (z : addr * gcell) gz qs e, length z.2.2 = S (S K) → Block c K w w' n z.2.2 gz → a ∈ z.2.2 → b ∈ z.2.2 →
        poss c w z.2.2 qs → Forall (on c e) qs →
        ∃ nd, nd ∈ concat (gz.*2) ∧ pos c w' nd (λ k, (pa k + pb k) / 2)%R).
    { intros z gz qs e Lz HBz Ha Hb Hqs He.
      apply elem_of_list_lookup in Ha as (ia & Hia). apply elem_of_list_lookup in Hb as (ib & Hib).
      destruct (Forall2_lookup_l _ _ _ _ _ Hqs Hia) as (qa & Hqa & Hpqa).
      destruct (Forall2_lookup_l _ _ _ _ _ Hqs Hib) as (qb & Hqb & Hpqb).
      assert (ia ≠ ib) by (intros ->; congruence).
      rewrite <- nth_error_lookup in Hqa, Hqb. destruct n as [|n]; [lia|].
      destruct (refine_mid (S K) n qs ia ib qa qb HN) as (rs & r & Hrs & Hr & Er); [|done..|].
      { by rewrite <- (Forall2_length _ _ _ Hqs). }
      apply elem_In, elem_of_list_lookup in Hrs as (t & Ht).
      destruct (Forall2_lookup_r _ _ _ _ _ (b_positions _ _ _ _ _ _ _ HBz e qs Hqs He) Ht) as (gc & Hgc & Hpg).
      apply elem_In, elem_of_list_lookup in Hr as (u & Hu).
      destruct (Forall2_lookup_r _ _ _ _ _ Hpg Hu) as (nd & Hnd & (xx & F & Pr & Sm)).
      exists nd. split.
      - apply P_Mesh.elem_of_concat. exists gc.2. split; [by eapply elem_of_list_lookup_2|].
        apply elem_of_list_fmap. exists gc. split; [done|]. by eapply elem_of_list_lookup_2.
      - exists xx. split_and!; [done|done|]. intros k Hk. rewrite (Sm k Hk), Er. unfold avg.
        by rewrite (Huniq w a qa pa Hpqa Hpa k Hk), (Huniq w b qb pb Hpqb Hpb k Hk). }
    destruct (Hmid x gi ps d) as (na & Hna & Pa);
      [apply Hfit; by eapply elem_of_list_lookup_2|done..|].
    destruct (Hmid y gj ps' d') as (nb & Hnb & Pb);
      [apply Hfit; by eapply elem_of_list_lookup_2|done..|].
    exists w', m', l', gcss, gi, gj, na, nb. split_and!; try done.
    intros <-. pose proof (Hold na Hna Hnb) as Hin.
    apply elem_of_list_lookup in Hin as (k & Hk).
    apply elem_of_list_lookup in Hax as (ia & Hia). apply elem_of_list_lookup in Hbx as (ib & Hib).
    destruct (Forall2_lookup_l _ _ _ _ _ Hps Hk) as (r & Hr & Hpr).
    destruct (Forall2_lookup_l _ _ _ _ _ Hps Hia) as (qa & Hqa & Hpqa).
    destruct (Forall2_lookup_l _ _ _ _ _ Hps Hib) as (qb & Hqb & Hpqb).
    rewrite <- nth_error_lookup in Hr, Hqa, Hqb.
    apply (mid_not_corner (S K) ps (dim c) ia ib k qa qb r HN); try done.
    { rewrite <- (Forall2_length _ _ _ Hps). apply Hfit. by eapply elem_of_list_lookup_2. }
    { intros ->. congruence. }
    intros t Ht. rewrite (Huniq w' na r _ (pos_ext _ _ _ _ _ Hx Hpr) Pa t Ht). unfold avg.
    by rewrite (Huniq w a qa pa Hpqa Hpa t Ht), (Huniq w b qb pb Hpqb Hpb t Ht).
  Qed.
End tetra.

Print Assumptions C30_cells.
Print Assumptions C30_copy.
Print Assumptions C30_distinct.
Print Assumptions C31_tiling.
Print Assumptions C31_volume.
Print Assumptions C32_shared_nodes.
Print Assumptions C32_conforming_refuted.
