(* C25-C29 and C66: meshes. The histories are those of [mreach] (S_Mesh.v): any topology history, any
   insertions and erasures, any growth of the container. [l] is what a loop over cells() visits. *)
From stdpp Require Import base gmap list.
From Verif Require Import Base M_SegAlloc S_SegAlloc P_SegAlloc M_Topology S_Topology P_Topology
  P_TopologyErase P_TopologyValid P_TopologyOrder P_TopologyVertices P_TopologyCanonical
  P_TopologyApi Properties_Topology M_Mesh S_Mesh P_Mesh P_MeshBoundary P_MeshBuild P_MeshDup.

Local Ltac splits := repeat match goal with |- _ ∧ _ => split end.
Local Ltac opps := change (- (1))%Z with (-1)%Z in *; change (- (-1))%Z with 1%Z in *.

Lemma segment_members debug st o c sub us g s :
  Inv st → Can st → composition st 1 o = Ok c → sub ∈ c → is_Some (ors st !! (1, o)) →
  vertices debug st 1 o = Ok us → ors st !! (0, sub) = Some (g, s) → g ∈ us.
Proof.
  intros HI HC Hc Hs Ho Hus Hg.
  pose proof (Can_spans debug st 1 o us HI HC ltac:(lia) Ho Hus) as (f & b & ws & Hf & Hord & Hre).
  apply order_1 in Hord as (p & q & a & b' & -> & _ & Hd & Hp & Hq).
  destruct (composition_ok st 0 o HI Ho) as (f' & s' & d' & c' & Hf' & Hd' & Hc' & HP & _).
  rewrite Hf in Hf'. injection Hf' as <- <-. rewrite Hd in Hd'. injection Hd' as <-.
  rewrite Hc in Hc'. injection Hc' as <-. rewrite HP in Hs.
  rewrite <- (reord_perm _ _ _ Hre).
  apply elem_of_cons in Hs as [->|[->|[]%elem_of_nil]%elem_of_cons].
  - rewrite Hp in Hg. injection Hg as <- <-. left.
  - rewrite Hq in Hg. injection Hg as <- <-. right. left.
Qed.

Section properties.
  Context (pick : M_Topology.alloc) (Hpick : good_alloc pick) (blk : nat → nat)
    (Hblk : ∀ i j, blk i = blk j → i = j) (debug : bool) (M : nat).
  Notation mreach := (mreach pick blk debug (S M)).
  Notation MInv := (MInv pick blk debug M).

  Local Lemma minv st m es : mreach st m es → MInv st m es.
  Proof. apply (mreach_MInv pick Hpick blk Hblk debug M). Qed.
  Local Lemma cells_eq st m es l : mreach st m es → mesh_cells m = Ok l → l = cells_listed es.
  Proof.
    intros Hr Hl. destruct (mesh_cells_ok pick blk Hblk debug M st m es (minv _ _ _ Hr)) as [E _].
    congruence.
  Qed.

  (* ---- C28 ---- *)

  (* the cells are those inserted and not erased, and nCells counts them *)
  Theorem C28_cells st m es :
    mreach st m es →
    ∃ l, mesh_cells m = Ok l ∧ l ≡ₚ map_to_list (contents ∅ es) ∧ nCells m = Z.of_nat (length l).
  Proof.
    intros Hr. pose proof (minv _ _ _ Hr) as H.
    destruct (mesh_cells_ok pick blk Hblk debug M st m es H) as [E HP].
    exists (cells_listed es). splits; [done|done|]. rewrite HP. change (length (map_to_list (contents ∅ es))) with (size (contents ∅ es)).
    destruct (m_vec _ _ _ _ _ _ _ H) as (xs & q & Hv & Hc). unfold nCells.
    by apply (vec_size blk Hblk 100 ltac:(lia) (mcells m) es xs q).
  Qed.

  (* an insertion succeeds, adds the cell at a location where there is none, and leaves the others *)
  Theorem C28_insert st m es x :
    mreach st m es → has st (S M) x.1 →
    ∃ st' m' a l l', mesh_insert blk debug (S M) x true st m = Ok (st', m', a) ∧
      mreach st' m' (es ++ [EvEmplace x true a]) ∧
      mesh_cells m = Ok l ∧ mesh_cells m' = Ok l' ∧ l' ≡ₚ (a, x) :: l ∧ a ∉ l.*1.
  Proof.
    intros Hr Hx. pose proof (minv _ _ _ Hr) as H.
    destruct (insert_total pick Hpick blk Hblk debug M st m es x H Hx) as (st' & m' & a & E).
    destruct (insert_spec pick Hpick blk Hblk debug M st m es x st' m' a H Hx E) as (H' & Ha & _).
    destruct (mesh_cells_ok pick blk Hblk debug M st m es H) as [El HP].
    destruct (mesh_cells_ok pick blk Hblk debug M st' m' _ H') as [El' HP'].
    exists st', m', a, (cells_listed es), (cells_listed (es ++ [EvEmplace x true a])).
    splits; [done|by econstructor|done|done| |].
    - rewrite HP', HP, contents_snoc. cbn [contents]. by apply map_to_list_insert.
    - rewrite HP. intros ([a' y] & -> & Hy%elem_of_map_to_list)%elem_of_list_fmap. cbn in Ha. congruence.
  Qed.

  (* an erasure at any location the mesh handed out succeeds, removes the cell there (if any) and
     leaves the others, in the same order *)
  Theorem C28_erase st m es a :
    mreach st m es → a ∈ first_uses [] es →
    ∃ m' l, mesh_erase debug (S M) a st m = Ok m' ∧
      mreach st m' (es ++ [EvErase a (bool_decide (is_Some (contents ∅ es !! a)))]) ∧
      mesh_cells m = Ok l ∧ mesh_cells m' = Ok (filter (λ p : addr * gcell, p.1 ≠ a) l).
  Proof.
    intros Hr Ha. pose proof (minv _ _ _ Hr) as H.
    destruct (erase_spec pick Hpick blk Hblk debug M st m es a H Ha) as (m' & E & H' & _).
    destruct (mesh_cells_ok pick blk Hblk debug M st m es H) as [El _].
    destruct (mesh_cells_ok pick blk Hblk debug M st m' _ H') as [El' _].
    exists m', (cells_listed es). splits; [done|by econstructor|done|]. rewrite El'. f_equal.
    unfold cells_listed. rewrite first_uses_snoc, contents_snoc. cbn [first_uses contents]. clear.
    assert (Hd : (if bool_decide (is_Some (contents ∅ es !! a)) then delete a (contents ∅ es)
             else contents ∅ es) = delete a (contents ∅ es)).
    { case_bool_decide as Hs; [done|]. rewrite delete_notin; [done|]. by apply eq_None_not_Some. }
    rewrite Hd. induction (first_uses [] es) as [|b l IH]; [done|]. cbn [base.omap list_omap].
    rewrite IH. destruct (decide (b = a)) as [->|Hb].
    - rewrite lookup_delete. destruct (contents ∅ es !! a); [|done]. cbn [fmap option_fmap option_map].
      by rewrite filter_cons_False by (cbn; tauto).
    - rewrite lookup_delete_ne by done. destruct (contents ∅ es !! b); [|done]. cbn [fmap option_fmap option_map].
      by rewrite filter_cons_True by done.
  Qed.

  (* ---- C25 ---- *)

  (* the counts are the numbers of occurrences, and a facet has an entry exactly when it occurs *)
  Theorem C25_counts_exact st m es l g :
    mreach st m es → mesh_cells m = Ok l →
    ori_at (mori m) g = (Z.of_nat (occurs g 1 (all_facets st (S M) l)),
                         Z.of_nat (occurs g (-1) (all_facets st (S M) l))) ∧
    (is_Some (mori m !! g) ↔ 0 < owners g (all_facets st (S M) l)).
  Proof.
    intros Hr Hl. rewrite (cells_eq _ _ _ _ Hr Hl). pose proof (minv _ _ _ Hr) as H.
    pose proof (counts_listed pick blk Hblk debug M st m es H) as Hc.
    split; [by apply counts_at|].
    rewrite owners_occurs.
    2:{ intros p (L & Hp & (x & -> & _)%elem_of_list_fmap)%elem_of_concat.
        eapply facets_sign; [|done]. by eapply (reach_Inv pick Hpick debug), H. }
    rewrite (Hc g). case_decide; (split; [|intros; try lia]).
    - by intros [? ?].
    - intros _. lia.
    - by eexists.
  Qed.

  (* inserting a cell and erasing it restores all counts *)
  Theorem C25_insert_erase st m es x st' m' a :
    mreach st m es → has st (S M) x.1 →
    mesh_insert blk debug (S M) x true st m = Ok (st', m', a) →
    ∃ m'', mesh_erase debug (S M) a st' m' = Ok m'' ∧ mori m'' = mori m ∧
      ∃ l l', mesh_cells m = Ok l ∧ mesh_cells m'' = Ok l' ∧ l ≡ₚ l'.
  Proof.
    intros Hr Hx E. pose proof (minv _ _ _ Hr) as H.
    destruct (insert_spec pick Hpick blk Hblk debug M st m es x st' m' a H Hx E) as (H' & Ha & Ef & Eo & _).
    set (es' := es ++ [EvEmplace x true a]) in *.
    assert (Hc' : contents ∅ es' = <[a := x]> (contents ∅ es)) by (unfold es'; by rewrite contents_snoc).
    destruct (erase_spec pick Hpick blk Hblk debug M st' m' es' a H') as (m'' & E' & H'' & _).
    { unfold es'. rewrite first_uses_snoc. cbn [first_uses]. case_decide; [done|]. set_solver. }
    assert (Hc'' : contents ∅ (es' ++ [EvErase a (bool_decide (is_Some (contents ∅ es' !! a)))]) = contents ∅ es).
    { rewrite contents_snoc. cbn [contents]. rewrite Hc', lookup_insert, bool_decide_eq_true_2 by eauto.
      by rewrite delete_insert. }
    exists m''. splits; [done| |].
    - apply (counts_unique _ _ (bag M st (contents ∅ es))); [|apply H].
      pose proof (m_count _ _ _ _ _ _ _ H'') as Hb. rewrite Hc'' in Hb.
      assert (bag M st' (contents ∅ es) = bag M st (contents ∅ es)) as <-; [|done].
      unfold bag, all_facets, facets_of, composition, fcomposition, oriented. by rewrite Ef, Eo.
    - destruct (mesh_cells_ok pick blk Hblk debug M st m es H) as [El HP].
      destruct (mesh_cells_ok pick blk Hblk debug M st' m'' _ H'') as [El' HP'].
      eexists _, _. splits; [done|done|]. by rewrite HP, HP', Hc''.
  Qed.

  (* ---- C26 ---- *)

  (* a facet of a cell is on the boundary exactly when it does not occur with opposite orientation *)
  Theorem C26_on_boundary st m es l x c sub g s :
    mreach st m es → mesh_cells m = Ok l → x ∈ l → composition st (S M) x.2.1 = Ok c → sub ∈ c →
    ors st !! (M, sub) = Some (g, s) →
    isOnBoundary (S M) st m sub = Ok (bool_decide (occurs g (- s) (all_facets st (S M) l) = 0)).
  Proof.
    intros Hr Hl Hx Hc Hs Ho. rewrite (cells_eq _ _ _ _ Hr Hl) in *. pose proof (minv _ _ _ Hr) as H.
    destruct (facet_in pick Hpick blk Hblk debug M st m es x sub c H Hx Hc Hs) as (g' & s' & Ho' & Hsg & Hin).
    rewrite Ho in Ho'. injection Ho' as <- <-.
    eapply on_boundary_spec; [by eapply counts_listed|done|done|done].
  Qed.

  (* in a consistently oriented mesh: exactly when one cell owns it *)
  Theorem C26_on_boundary_owners st m es l x c sub g s :
    mreach st m es → mesh_cells m = Ok l → consistent (all_facets st (S M) l) →
    x ∈ l → composition st (S M) x.2.1 = Ok c → sub ∈ c → ors st !! (M, sub) = Some (g, s) →
    isOnBoundary (S M) st m sub = Ok (bool_decide (owners g (all_facets st (S M) l) = 1)).
  Proof.
    intros Hr Hl Hcons Hx Hc Hs Ho. rewrite (C26_on_boundary st m es l x c sub g s) by done.
    f_equal. apply bool_decide_ext. rewrite (cells_eq _ _ _ _ Hr Hl) in *. pose proof (minv _ _ _ Hr) as H.
    destruct (facet_in pick Hpick blk Hblk debug M st m es x sub c H Hx Hc Hs) as (g' & s' & Ho' & Hsg & Hin).
    rewrite Ho in Ho'. injection Ho' as <- <-.
    assert (0 < occurs g s (all_facets st (S M) (cells_listed es))).
    { unfold occurs. apply elem_of_list_split in Hin as (l1 & l2 & ->). rewrite filter_app, filter_cons_True by done.
      rewrite app_length. cbn. lia. }
    rewrite owners_occurs.
    2:{ intros p (L & Hp & (y & -> & _)%elem_of_list_fmap)%elem_of_concat.
        eapply facets_sign; [|done]. by eapply (reach_Inv pick Hpick debug), H. }
    pose proof (Hcons g 1%Z). pose proof (Hcons g (-1)%Z). destruct Hsg as [-> | ->]; opps; lia.
  Qed.

  (* a simplex that is a facet of no cell: std::map::at throws *)
  Theorem C26_foreign st m es l sub g s :
    mreach st m es → mesh_cells m = Ok l → ors st !! (M, sub) = Some (g, s) →
    owners g (all_facets st (S M) l) = 0 → isOnBoundary (S M) st m sub = Abort.
  Proof.
    intros Hr Hl Ho Hw. rewrite (cells_eq _ _ _ _ Hr Hl) in *. pose proof (minv _ _ _ Hr) as H.
    rewrite owners_occurs in Hw.
    2:{ intros p (L & Hp & (y & -> & _)%elem_of_list_fmap)%elem_of_concat.
        eapply facets_sign; [|done]. by eapply (reach_Inv pick Hpick debug), H. }
    eapply on_boundary_foreign; [by eapply counts_listed|done|lia|lia].
  Qed.

  (* ---- C27 ---- *)

  (* the facets boundary() visits are those that do not occur with opposite orientation, each as often
     as it occurs; boundary_size counts them *)
  Theorem C27_boundary_facets st m es l :
    mreach st m es → mesh_cells m = Ok l →
    ∃ bl, boundary_facets (S M) st m = Ok bl ∧ boundary_size (S M) st m = Ok (length bl) ∧
      (λ x, ors st !! (M, x.1)) <$> bl =
        Some <$> filter (λ p : nat * Z, occurs p.1 (- p.2) (all_facets st (S M) l) = 0) (all_facets st (S M) l) ∧
      (∀ sub ns, (sub, ns) ∈ bl → ∃ x c, x ∈ l ∧ composition st (S M) x.2.1 = Ok c ∧ sub ∈ c ∧ ns = x.2.2).
  Proof.
    intros Hr Hl. rewrite (cells_eq _ _ _ _ Hr Hl) in *. pose proof (minv _ _ _ Hr) as H.
    pose proof (boundary_facets_ok pick Hpick blk Hblk debug M st m es H) as E.
    eexists. splits; [done|unfold boundary_size; by rewrite E| |].
    - destruct (blist_facets pick Hpick blk Hblk debug M st m es H) as [Hf _]. rewrite <- Hf.
      assert (Hreg : ∀ x, x ∈ blist M st (cells_listed es) → is_Some (ors st !! (M, x.1))).
      { intros [sub ns] Hx.
        apply (blist_elem pick Hpick blk Hblk debug M st m es _ _ H) in Hx as (x & c & g & s & _ & _ & _ & _ & Ho & _).
        by eexists. }
      clear -Hreg. induction (blist M st (cells_listed es)) as [|x bl IH]; [done|].
      rewrite !fmap_cons. cbn [base.omap list_omap]. destruct (Hreg x) as [p Hp]; [left|]. rewrite Hp.
      rewrite fmap_cons. f_equal. apply IH. intros; apply Hreg; by right.
    - intros sub ns Hx.
      apply (blist_elem pick Hpick blk Hblk debug M st m es _ _ H) in Hx as (x & c & g & s & Hx & -> & Hc & Hs & _).
      eauto 10.
  Qed.

  (* consistent orientation: every boundary footprint is visited once, and has one owner *)
  Theorem C27_boundary_once st m es l bl :
    mreach st m es → mesh_cells m = Ok l → consistent (all_facets st (S M) l) →
    boundary_facets (S M) st m = Ok bl →
    NoDup (footprint st M <$> bl.*1) ∧
    ∀ g, Ok g ∈ footprint st M <$> bl.*1 ↔ owners g (all_facets st (S M) l) = 1.
  Proof.
    intros Hr Hl Hc Hb.
    destruct (C27_boundary_facets st m es l Hr Hl) as (bl' & Hb' & _ & Hf & _).
    rewrite Hb in Hb'. injection Hb' as <-.
    set (L := all_facets st (S M) l) in *.
    set (F := filter (λ p : nat * Z, occurs p.1 (- p.2) L = 0) L) in *.
    assert (HsL : ∀ p, p ∈ L → sign p.2).
    { unfold L. rewrite (cells_eq _ _ _ _ Hr Hl). intros p (L' & Hp & (y & -> & _)%elem_of_list_fmap)%elem_of_concat.
      eapply facets_sign; [|done]. eapply (reach_Inv pick Hpick debug), minv. done. }
    assert (E : footprint st M <$> bl.*1 = Ok <$> F.*1).
    { clear -Hf. revert bl Hf. induction F as [|p F IH]; intros [|x bl] Hf; try done.
      injection Hf as Hx Hf. rewrite !fmap_cons. rewrite IH by done.
      f_equal. unfold footprint, oriented. by rewrite Hx. }
    rewrite E.
    assert (Hin : ∀ p, p ∈ L → 0 < occurs p.1 p.2 L).
    { intros [g s] Hin. unfold occurs. apply elem_of_list_split in Hin as (l1 & l2 & ->).
      rewrite filter_app, filter_cons_True by done. rewrite app_length. cbn. lia. }
    split.
    - apply NoDup_fmap; [intros ? ? [=]; done|]. apply NoDup_fmap_2_strong.
      + intros [g s] [g' s'] (Hn & Hg)%elem_of_list_filter (Hn' & Hg')%elem_of_list_filter [= <-].
        pose proof (HsL _ Hg) as Hs1. pose proof (HsL _ Hg') as Hs2. cbn [fst snd] in *.
        destruct Hs1 as [-> | ->], Hs2 as [-> | ->]; try done;
          pose proof (Hin _ Hg'); cbn [fst snd] in *; opps; lia.
      + by apply NoDup_filter, consistent_nodup.
    - intros g. rewrite owners_occurs by done. rewrite !elem_of_list_fmap.
      pose proof (Hc g 1%Z). pose proof (Hc g (-1)%Z). split.
      + intros (g' & [= ->] & ([g1 s] & -> & (Hn & Hg)%elem_of_list_filter)%elem_of_list_fmap).
        pose proof (Hin _ Hg). cbn [fst snd] in *. pose proof (HsL _ Hg) as Hsg. cbn [fst snd] in *. destruct Hsg as [-> | ->]; opps; lia.
      + intros Ho. exists g. split; [done|]. apply elem_of_list_fmap.
        destruct (decide (occurs g 1 L = 1)) as [E1|E1].
        * exists (g, 1%Z). split; [done|]. apply elem_of_list_filter. cbn [fst snd]. opps. split; [lia|].
          destruct (filter (λ p, p = (g, 1%Z)) L) as [|p l'] eqn:Ef; [unfold occurs in E1; by rewrite Ef in E1|].
          assert (p ∈ filter (λ p, p = (g, 1%Z)) L) as (-> & ?)%elem_of_list_filter by (rewrite Ef; left). done.
        * exists (g, (-1)%Z). split; [done|]. apply elem_of_list_filter. cbn [fst snd]. opps. split; [lia|].
          assert (E2 : occurs g (-1) L = 1) by lia.
          destruct (filter (λ p, p = (g, (-1)%Z)) L) as [|p l'] eqn:Ef; [unfold occurs in E2; by rewrite Ef in E2|].
          assert (p ∈ filter (λ p, p = (g, (-1)%Z)) L) as (-> & ?)%elem_of_list_filter by (rewrite Ef; left). done.
  Qed.

  (* ---- C29 ---- *)

  (* filter<I> visits the chains of members of each cell: all the sub-cells, and (N+1)!/(I+1)! of
     them per cell *)
  Theorem C29_filtered_cells I st m es l :
    mreach st m es → mesh_cells m = Ok l → I <= S M →
    ∃ fl, filtered_cells I (S M) st m = Ok fl ∧
      (∀ sub ns, (sub, ns) ∈ fl ↔ ∃ x, x ∈ l ∧ ns = x.2.2 ∧ sub_face st I (S M - I) x.2.1 sub) ∧
      length fl * fact (S I) = length l * fact (S (S M)) ∧
      (∀ x, x ∈ fl → is_oriented st I x.1).
  Proof.
    intros Hr Hl HI. pose proof (minv _ _ _ Hr) as H.
    pose proof (reach_Inv pick Hpick debug _ (m_reach _ _ _ _ _ _ _ H)) as Hinv.
    unfold filtered_cells. rewrite Hl. cbn [rbind].
    assert (Hreg : ∀ x, x ∈ l → is_Some (ors st !! (I + (S M - I), x.2.1))).
    { intros x Hx. rewrite (cells_eq _ _ _ _ Hr Hl) in Hx. replace (I + (S M - I)) with (S M) by lia.
      apply i_hO; [done|]. by eapply (listed_has pick blk Hblk debug M). }
    clear Hl. set (k := S M - I) in *.
    assert (HA : ∀ acc, ∃ fl,
      rfold (λ acc x, let! b := sub_cells I k st x.2.1 in
                      Ok (acc ++ ((λ sub, (sub, x.2.2)) <$> b))) acc l = Ok (acc ++ fl) ∧
      (∀ sub ns, (sub, ns) ∈ fl ↔ ∃ x : addr * gcell, x ∈ l ∧ ns = x.2.2 ∧ sub_face st I k x.2.1 sub) ∧
      length fl = length l * chains I k ∧ (∀ x, x ∈ fl → is_Some (ors st !! (I, x.1)))).
    { induction l as [|x l IH]; intros acc.
      - exists []. cbn [rfold]. rewrite app_nil_r. splits; [done| |done|].
        + intros sub ns. split; [by intros ?%elem_of_nil|]. by intros (? & ?%elem_of_nil & _).
        + by intros x ?%elem_of_nil.
      - cbn [rfold]. destruct (sub_cells_ok st Hinv I k x.2.1) as (b & -> & Hlb & Heb & Hrb); [apply Hreg; left|].
        cbn [rbind].
        destruct (IH (λ y Hy, Hreg y (elem_of_list_further _ _ _ Hy)) (acc ++ ((λ sub, (sub, x.2.2)) <$> b)))
          as (fl & -> & He & Hlen & Hrf).
        exists (((λ sub, (sub, x.2.2)) <$> b) ++ fl). rewrite <- app_assoc. splits; [done| | |].
        + intros sub ns. rewrite elem_of_app, He, elem_of_list_fmap. setoid_rewrite elem_of_cons. split.
          * intros [(o & [= -> ->] & Ho)|(y & Hy & -> & Hf)]; [exists x|exists y]; splits; auto. by apply Heb.
          * intros (y & [->|Hy] & -> & Hf); [left|right; eauto]. exists sub. split; [done|]. by apply Heb.
        + rewrite app_length, fmap_length, Hlb, Hlen. cbn [length]. lia.
        + intros y [(o & -> & Ho)%elem_of_list_fmap|Hy]%elem_of_app; [by apply Hrb|by apply Hrf]. }
    destruct (HA []) as (fl & E & He & Hlen & Hrf). exists fl. splits; [done|done| |done].
    rewrite Hlen, <- Nat.mul_assoc, chains_fact. unfold k. by replace (I + (S M - I)) with (S M) by lia.
  Qed.

  (* ---- C66 ---- *)

  (* erase_topological_duplicates keeps the first cell of each footprint, and erases while iterating
     without reading anything invalid *)
  Theorem C66_topological_duplicates st m es l :
    mreach st m es → mesh_cells m = Ok l →
    ∃ m' es' l', erase_topological_duplicates debug (S M) st m = Ok m' ∧ mreach st m' es' ∧
      mesh_cells m' = Ok l' ∧
      l' = first_of (λ x, default 0 (fst <$> ors st !! (S M, x.2.1))) [] l ∧
      NoDup ((λ x : addr * gcell, fst <$> ors st !! (S M, x.2.1)) <$> l') ∧
      ∀ x, x ∈ l → ∃ y, y ∈ l' ∧ footprint st (S M) y.2.1 = footprint st (S M) x.2.1.
  Proof.
    intros Hr Hl. pose proof (minv _ _ _ Hr) as H. pose proof (cells_eq _ _ _ _ Hr Hl) as El.
    pose proof (reach_Inv pick Hpick debug _ (m_reach _ _ _ _ _ _ _ H)) as Hinv.
    assert (Hreg : ∀ x, x ∈ l → is_Some (ors st !! (S M, x.2.1))).
    { intros x Hx. rewrite El in Hx. apply i_hO; [done|]. by eapply (listed_has pick blk Hblk debug M). }
    set (k := λ x : gcell, default 0 (fst <$> ors st !! (S M, x.1))).
    destruct (erase_duplicates_ok pick Hpick blk Hblk debug M st (λ x, footprint st (S M) x.1) k m es Hr)
      as (m' & es' & E & Hr' & Hl').
    { intros x (y & -> & Hy)%elem_of_list_fmap. rewrite <- El in Hy. destruct (Hreg y Hy) as [p Hp].
      unfold footprint, oriented, k. by rewrite Hp. }
    exists m', es', (cells_listed es').
    destruct (mesh_cells_ok pick blk Hblk debug M st m' es' (minv _ _ _ Hr')) as [E' _].
    rewrite <- El in Hl'.
    destruct (first_of_keys (k ∘ snd) l []) as (Hnd & _ & Hall).
    pose proof (first_of_sublist (k ∘ snd) [] l) as Hsub. rewrite <- Hl' in Hsub, Hnd, Hall.
    assert (Hk : ∀ x, x ∈ l → fst <$> ors st !! (S M, x.2.1) = Some ((k ∘ snd) x)).
    { intros x Hx. destruct (Hreg x Hx) as [p Hp]. unfold k. cbn. by rewrite Hp. }
    splits; [done|done|done|done| |].
    - assert ((λ x : addr * gcell, fst <$> ors st !! (S M, x.2.1)) <$> cells_listed es' =
              Some <$> ((k ∘ snd) <$> cells_listed es')) as ->.
      { rewrite <- list_fmap_compose. apply list_fmap_ext. intros i x Hx. apply Hk.
        eapply elem_of_submseteq; [by eapply elem_of_list_lookup_2|by apply sublist_submseteq]. }
      by apply NoDup_fmap_2; [apply _|].
    - intros x Hx. destruct (Hall x Hx) as [?%elem_of_nil|(y & Ey & Hy)%elem_of_list_fmap]; [done|].
      exists y. split; [done|]. assert (Hy' : y ∈ l) by (eapply elem_of_submseteq; [done|by apply sublist_submseteq]).
      pose proof (Hk x Hx) as Kx. pose proof (Hk y Hy') as Ky. rewrite <- Ey, <- Kx in Ky.
      destruct (Hreg x Hx) as [p Hp], (Hreg y Hy') as [p' Hp'].
      unfold footprint, oriented. rewrite Hp, Hp' in Ky |- *. cbn in *. congruence.
  Qed.

  Theorem C66_geometrical_duplicates st m es l :
    mreach st m es → mesh_cells m = Ok l →
    ∃ m' es' l', erase_geometrical_duplicates debug (S M) st m = Ok m' ∧ mreach st m' es' ∧
      mesh_cells m' = Ok l' ∧ l' = first_of (λ x : addr * gcell, x.2.1) [] l ∧
      NoDup ((λ x : addr * gcell, x.2.1) <$> l') ∧ ∀ x, x ∈ l → ∃ y, y ∈ l' ∧ y.2.1 = x.2.1.
  Proof.
    intros Hr Hl. pose proof (cells_eq _ _ _ _ Hr Hl) as El.
    destruct (erase_duplicates_ok pick Hpick blk Hblk debug M st (λ x, Ok x.1) fst m es Hr)
      as (m' & es' & E & Hr' & Hl'); [done|].
    exists m', es', (cells_listed es').
    destruct (mesh_cells_ok pick blk Hblk debug M st m' es' (minv _ _ _ Hr')) as [E' _].
    rewrite <- El in Hl'.
    destruct (first_of_keys (fst ∘ snd) l []) as (Hnd & _ & Hall). rewrite <- Hl' in Hnd, Hall.
    splits; [done|done|done|done|done|].
    intros x Hx. destruct (Hall x Hx) as [?%elem_of_nil|(y & Ey & Hy)%elem_of_list_fmap]; [done|].
    exists y. done.
  Qed.
End properties.

Section built.
  Context (pick : M_Topology.alloc) (Hpick : good_alloc pick) (blk : nat → nat)
    (Hblk : ∀ i j, blk i = blk j → i = j) (debug : bool).

  (* the nodes of the cells are on their vertices, which they hold (geometry/utilities.h) *)
  Definition nodes_fit (st : topo) (N : nat) (l : list (addr * gcell)) : Prop :=
    ∀ x, x ∈ l → vertices debug st N x.2.1 = Ok x.2.2.*1 ∧ ∀ n, n ∈ x.2.2 → hasF st 0 n.1.

  (* C27: boundary(mesh) for N = 2, 3 is the mesh of the facets visited. Missing: histories in which the
     client composes simplices in unusual orders (there building a facet again from its vertices may
     throw or give its flip, see C18_rebuild_refuted). *)
  Theorem C27_boundary_mesh_partial K st m es l bl :
    S (S K) <= 3 → reach_listed pick debug st → mreach pick blk debug (S (S K)) st m es →
    mesh_cells m = Ok l → nodes_fit st (S (S K)) l → boundary_facets (S (S K)) st m = Ok bl →
    ∃ st' m' l', boundary pick blk debug (S (S K)) st m = Ok (st', m') ∧
      reach_listed pick debug st' ∧ extends st st' ∧
      mesh_cells m' = Ok l' ∧ nCells m' = Z.of_nat (length bl) ∧
      Forall2 (λ b x, x.2.1 = b.1 ∧ vertices debug st (S K) b.1 = Ok x.2.2.*1 ∧
                      ∀ n, n ∈ x.2.2 → n ∈ b.2) bl l'.
  Proof.
    intros HK Hlst Hr Hl Hfit Hb. pose proof (mreach_MInv pick Hpick blk Hblk debug (S K) _ _ _ Hr) as H.
    destruct (listed_fine pick Hpick debug st Hlst) as [HI HC].
    destruct (C27_boundary_facets pick Hpick blk Hblk debug (S K) st m es l Hr Hl) as (bl' & Hb' & _ & Hf & Hin).
    rewrite Hb in Hb'. injection Hb' as <-.
    assert (Hreg : ∀ x, x ∈ bl → is_Some (ors st !! (S K, x.1))).
    { intros x Hx. assert (Hy : ors st !! (S K, x.1) ∈ (λ x, ors st !! (S K, x.1)) <$> bl).
      { apply elem_of_list_fmap. eauto. }
      rewrite Hf in Hy. apply elem_of_list_fmap in Hy as (p & Hp & _). by exists p. }
    destruct (insert_all_ok pick Hpick blk Hblk debug K bl ltac:(lia) st mesh0 [] Hlst)
      as (st' & m' & es' & gcs & E & Hl' & Hext & HC' & Hcs & HF).
    { by apply (MInv_core pick blk debug K), (MInv_init pick blk debug K), (listed_reach pick debug). }
    { done. }
    { intros [sub ns] Hx. cbn [fst snd]. pose proof (Hreg _ Hx) as Hs. split; [done|].
      destruct (Hin sub ns Hx) as (x & c & Hxl & Hc & Hsc & ->). destruct (Hfit x Hxl) as [Hv Hn].
      destruct (Can_vertices debug st (S K) sub HI HC ltac:(lia) Hs) as (us & Hus & _).
      exists us. split; [done|]. intros v Hvu.
      assert (Hvn : v ∈ x.2.2.*1).
      { eapply member_vertices; [exact HI|exact HC|exact HK|exact Hc|exact Hsc| |exact Hv|exact Hus|exact Hvu].
        apply i_hO; [done|]. rewrite (cells_eq pick Hpick blk Hblk debug (S K) _ _ _ _ Hr Hl) in Hxl.
        by eapply (listed_has pick blk Hblk debug (S K)). }
      split; [done|]. apply elem_of_list_fmap in Hvn as (n & -> & Hvn). by apply Hn. }
    exists st', m', (cells_listed es').
    assert (HM' : MInv pick blk debug K st' m' es').
    { apply MInv_core. split; [by apply (listed_reach pick debug)|done]. }
    destruct (mesh_cells_ok pick blk Hblk debug K st' m' es' HM') as [Em' HP].
    assert (Hcs' : (cells_listed es').*2 = gcs) by done.
    splits; [|done|done|done| |].
    - unfold boundary. rewrite Hb. cbn [rbind pred]. done.
    - destruct (m_vec _ _ _ _ _ _ _ HM') as (xs & q & Hv & Hc). unfold nCells.
      rewrite (vec_size blk Hblk 100 ltac:(lia) (mcells m') es' xs q Hv Hc).
      change (size (contents ∅ es')) with (length (map_to_list (contents ∅ es'))). rewrite <- HP.
      rewrite <- (fmap_length snd), Hcs', (Forall2_length _ _ _ HF). done.
    - rewrite <- Hcs' in HF. by apply Forall2_fmap_r in HF.
  Qed.

  (* C27: no boundary. Consistent orientation: every (N-2)-face occurs as often with each orientation
     in the boundaries of the facets on the boundary. *)
  Theorem C27_closed K st m es l bl h :
    mreach pick blk debug (S (S K)) st m es → mesh_cells m = Ok l →
    consistent (all_facets st (S (S K)) l) → boundary_facets (S (S K)) st m = Ok bl →
    occurs h 1 (concat (induced st (S K) <$> bl.*1)) = occurs h (-1) (concat (induced st (S K) <$> bl.*1)).
  Proof.
    intros Hr Hl Hc Hb. pose proof (mreach_MInv pick Hpick blk Hblk debug (S K) _ _ _ Hr) as H.
    rewrite (cells_eq pick Hpick blk Hblk debug (S K) _ _ _ _ Hr Hl) in Hc.
    rewrite (boundary_facets_ok pick Hpick blk Hblk debug (S K) st m es H) in Hb. injection Hb as <-.
    by eapply boundary_closed.
  Qed.

  (* C27, N = 1: the boundary of a mesh of segments is the set of nodes at its boundary vertices. Missing:
     the same histories. *)
  Theorem C27_boundary_nodes_partial st m es l bl :
    reach_listed pick debug st → mreach pick blk debug 1 st m es → mesh_cells m = Ok l →
    nodes_fit st 1 l → boundary_facets 1 st m = Ok bl →
    ∃ ns, boundary_nodes st m = Ok ns ∧ NoDup ns ∧
      (∀ n, n ∈ ns → ∃ b, b ∈ bl ∧ n ∈ b.2 ∧ footprint st 0 b.1 = Ok n.1) ∧
      (∀ b, b ∈ bl → ∃ n, n ∈ ns ∧ n ∈ b.2 ∧ footprint st 0 b.1 = Ok n.1).
  Proof.
    intros Hlst Hr Hl Hfit Hb.
    destruct (listed_fine pick Hpick debug st Hlst) as [HI HC].
    destruct (C27_boundary_facets pick Hpick blk Hblk debug 0 st m es l Hr Hl) as (bl' & Hb' & _ & Hf & Hin).
    rewrite Hb in Hb'. injection Hb' as <-.
    assert (Hn : ∀ b, b ∈ bl → ∃ g n, footprint st 0 b.1 = Ok g ∧ find_node g b.2 = Ok n ∧ n ∈ b.2 ∧ n.1 = g).
    { intros [sub ns] Hx. destruct (Hin sub ns Hx) as (x & c & Hxl & Hc & Hsc & ->). destruct (Hfit x Hxl) as [Hv _].
      assert (Hy : ors st !! (0, sub) ∈ (λ x, ors st !! (0, x.1)) <$> bl).
      { apply elem_of_list_fmap. by exists (sub, x.2.2). }
      rewrite Hf in Hy. apply elem_of_list_fmap in Hy as ([g s] & Hp & _). cbn [fst snd].
      assert (Hg : g ∈ x.2.2.*1).
      { eapply (segment_members debug st x.2.1 c sub); try done.
        apply i_hO; [done|]. rewrite (cells_eq pick Hpick blk Hblk debug 0 _ _ _ _ Hr Hl) in Hxl.
        eapply (listed_has pick blk Hblk debug 0); [|done].
        by apply (mreach_MInv pick Hpick blk Hblk debug 0). }
      destruct (find_node_ok _ _ Hg) as (n & En & Hin' & En1). exists g, n. splits; try done.
      unfold footprint, oriented. by rewrite Hp. }
    unfold boundary_nodes. rewrite Hb. cbn [rbind]. clear Hb Hf Hin.
    assert (HA : ∀ acc, NoDup acc → ∃ ns,
      rfold (λ acc x, let! v := footprint st 0 x.1 in let! n := find_node v x.2 in
                      Ok (if decide (n ∈ acc) then acc else acc ++ [n])) acc bl = Ok ns ∧ NoDup ns ∧
      (∀ n, n ∈ acc → n ∈ ns) ∧
      (∀ n, n ∈ ns → n ∈ acc ∨ ∃ b, b ∈ bl ∧ n ∈ b.2 ∧ footprint st 0 b.1 = Ok n.1) ∧
      (∀ b, b ∈ bl → ∃ n, n ∈ ns ∧ n ∈ b.2 ∧ footprint st 0 b.1 = Ok n.1)).
    { induction bl as [|b bl IH]; intros acc Hnd.
      - exists acc. splits; [done|done|done|auto|]. by intros b ?%elem_of_nil.
      - destruct (Hn b) as (g & n & Eg & En & Hnb & Eg1); [left|]. cbn [rfold]. rewrite Eg. cbn [rbind].
        rewrite En. cbn [rbind].
        set (acc' := if decide (n ∈ acc) then acc else acc ++ [n]).
        assert (Hn' : n ∈ acc') by (unfold acc'; case_decide; set_solver).
        destruct (IH (λ y Hy, Hn y (elem_of_list_further _ _ _ Hy)) acc') as (ns & -> & Hnd' & Hac & Hs & Hc').
        { unfold acc'. case_decide; [done|]. apply NoDup_app. splits; [done| |apply NoDup_singleton].
          intros x Hx ->%elem_of_list_singleton. done. }
        exists ns. splits; [done|done| | |].
        + intros x Hx. apply Hac. unfold acc'. case_decide; set_solver.
        + intros x Hx. destruct (Hs x Hx) as [Hx'|(b' & Hb' & ?)]; [|right; exists b'; split; [by right|done]].
          unfold acc' in Hx'. case_decide; [by left|].
          apply elem_of_app in Hx' as [?|Ex]; [by left|].
          apply elem_of_list_singleton in Ex as ->. right. exists b. splits; [left|done|by rewrite Eg, Eg1].
        + intros b' [->|Hb']%elem_of_cons; [|by apply Hc'].
          exists n. splits; [by apply Hac|done|by rewrite Eg, Eg1]. }
    destruct (HA []) as (ns & E & Hnd & _ & Hs & Hc'); [constructor|].
    exists ns. splits; [done|done| |done]. intros n Hn'. destruct (Hs n Hn') as [?%elem_of_nil|?]; done.
  Qed.

  (* C29: filter<I>(mesh), I > 0: the mesh of all the sub-cells of order I of all the cells. Missing: the
     same histories, and I = 0, which builds a set of nodes. *)
  Theorem C29_filter_mesh_partial I N st m es l fl :
    N <= 3 → S I <= N → reach_listed pick debug st → mreach pick blk debug N st m es →
    mesh_cells m = Ok l → nodes_fit st N l → filtered_cells (S I) N st m = Ok fl →
    ∃ st' m' l', filter_mesh pick blk debug (S I) N st m = Ok (st', m') ∧
      reach_listed pick debug st' ∧ extends st st' ∧
      mesh_cells m' = Ok l' ∧ nCells m' = Z.of_nat (length fl) ∧
      Forall2 (λ b x, x.2.1 = b.1 ∧ vertices debug st (S I) b.1 = Ok x.2.2.*1 ∧
                      ∀ n, n ∈ x.2.2 → n ∈ b.2) fl l'.
  Proof.
    intros HN HIN Hlst Hr Hl Hfit Hb. destruct N as [|M]; [lia|].
    pose proof (mreach_MInv pick Hpick blk Hblk debug M _ _ _ Hr) as H.
    destruct (listed_fine pick Hpick debug st Hlst) as [HI HC].
    destruct (C29_filtered_cells pick Hpick blk Hblk debug M (S I) st m es l Hr Hl HIN)
      as (fl' & Hb' & Hin & _ & Hreg).
    rewrite Hb in Hb'. injection Hb' as <-.
    destruct (insert_all_ok pick Hpick blk Hblk debug I fl ltac:(lia) st mesh0 [] Hlst)
      as (st' & m' & es' & gcs & E & Hl' & Hext & HC' & Hcs & HF).
    { by apply (MInv_core pick blk debug I), (MInv_init pick blk debug I), (listed_reach pick debug). }
    { done. }
    { intros [sub ns] Hx. cbn [fst snd]. pose proof (Hreg _ Hx) as Hs. split; [done|].
      apply Hin in Hx as (x & Hxl & -> & Hsf). destruct (Hfit x Hxl) as [Hv Hn].
      destruct (Can_vertices debug st (S I) sub HI HC ltac:(lia) Hs) as (us & Hus & _).
      exists us. split; [done|]. intros v Hvu.
      assert (Hvn : v ∈ x.2.2.*1).
      { eapply (sub_face_vertices debug st (S I) (S M - S I) x.2.1 sub); try done; [lia|lia| |].
        - replace (S I + (S M - S I)) with (S M) by lia.
          apply i_hO; [done|]. rewrite (cells_eq pick Hpick blk Hblk debug M _ _ _ _ Hr Hl) in Hxl.
          by eapply (listed_has pick blk Hblk debug M).
        - by replace (S I + (S M - S I)) with (S M) by lia. }
      split; [done|]. apply elem_of_list_fmap in Hvn as (n & -> & Hvn). by apply Hn. }
    exists st', m', (cells_listed es').
    assert (HM' : MInv pick blk debug I st' m' es').
    { apply MInv_core. split; [by apply (listed_reach pick debug)|done]. }
    destruct (mesh_cells_ok pick blk Hblk debug I st' m' es' HM') as [Em' HP].
    assert (Hcs' : (cells_listed es').*2 = gcs) by done.
    splits; [|done|done|done| |].
    - unfold filter_mesh. rewrite Hb. cbn [rbind]. done.
    - destruct (m_vec _ _ _ _ _ _ _ HM') as (xs & q & Hv & Hc). unfold nCells.
      rewrite (vec_size blk Hblk 100 ltac:(lia) (mcells m') es' xs q Hv Hc).
      change (size (contents ∅ es')) with (length (map_to_list (contents ∅ es'))). rewrite <- HP.
      rewrite <- (fmap_length snd), Hcs', (Forall2_length _ _ _ HF). done.
    - rewrite <- Hcs' in HF. by apply Forall2_fmap_r in HF.
  Qed.
End built.
