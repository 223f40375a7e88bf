(* Building a mesh out of faces of the cells of another: boundary and filter. *)
From stdpp Require Import base gmap list.
From Verif Require Import Base M_SegAlloc S_SegAlloc P_SegAlloc M_Topology S_Topology P_Topology
  P_TopologyErase P_TopologyValid P_TopologyOrder P_TopologyVertices P_TopologyCanonical
  P_TopologyApi Properties_Topology M_Mesh S_Mesh P_Mesh P_MeshBoundary.

(* the vertices of a member are vertices of the simplex *)
Lemma member_vertices debug st K o c sub us us' :
  Inv st → Can st → S (S K) <= 3 → composition st (S (S K)) o = Ok c → sub ∈ c →
  is_Some (ors st !! (S (S K), o)) →
  vertices debug st (S (S K)) o = Ok us → vertices debug st (S K) sub = Ok us' →
  ∀ v, v ∈ us' → v ∈ us.
Proof.
  intros HI HC HN Hc Hs Ho Hus Hus' v Hv.
  pose proof (Can_spans debug st (S (S K)) o us HI HC ltac:(lia) Ho Hus) as (f & b & ws & Hf & Hord & Hre).
  pose proof (order_shape _ _ _ _ Hord) as (Hlen & _ & _).
  apply order_SS in Hord as (_ & _ & _ & d & Hd & Hfaces).
  destruct (composition_ok st (S K) o HI Ho) as (f' & s' & d' & c' & Hf' & Hd' & Hc' & HP & _).
  rewrite Hf in Hf'. injection Hf' as <- <-. rewrite Hd in Hd'. injection Hd' as <-.
  rewrite Hc in Hc'. injection Hc' as <-. rewrite HP in Hs.
  apply elem_of_list_lookup in Hs as (i & Hi).
  destruct (Forall2_lookup_l _ _ _ _ _ Hfaces Hi) as (fv & Hfv & Hsp).
  destruct (vertices_spans debug st (S K) sub fv Hsp) as (us1 & Hus1 & Hre1).
  rewrite Hus' in Hus1. injection Hus1 as <-.
  rewrite <- (reord_perm _ _ _ Hre).
  pose proof (missing_faces (S (S K)) ws Hlen ltac:(lia)) as Hm.
  destruct (Forall2_lookup_r _ _ _ _ _ Hm Hfv) as (x & _ & Hp).
  rewrite <- Hp. right. by rewrite <- (reord_perm _ _ _ Hre1).
Qed.

Lemma find_node_ok (ns : list node) v : v ∈ ns.*1 → ∃ n, find_node v ns = Ok n ∧ n ∈ ns ∧ n.1 = v.
Proof.
  intros (n & -> & Hn)%elem_of_list_fmap. unfold find_node.
  destruct (list_find_elem_of (λ n0 : node, n0.1 = n.1) ns n Hn eq_refl) as ([i x] & E).
  rewrite E. cbn. apply list_find_Some in E as (Hi & Hx & _). exists x. split; [done|].
  split; [by eapply elem_of_list_lookup_2|done].
Qed.
Lemma find_nodes_ok (ns : list node) us :
  (∀ v, v ∈ us → v ∈ ns.*1) →
  ∃ l, rmap (λ v, find_node v ns) us = Ok l ∧ l.*1 = us ∧ (∀ n, n ∈ l → n ∈ ns).
Proof.
  induction us as [|v us IH]; intros H.
  - exists []. split_and!; [done|done|]. by intros n ?%elem_of_nil.
  - destruct (find_node_ok ns v) as (n & E & Hn & <-); [apply H; left|].
    destruct IH as (l & El & <- & Hl); [intros; apply H; by right|].
    exists (n :: l). cbn [rmap]. rewrite E. cbn [rbind]. rewrite El. split_and!; [done|done|].
    intros n' [->|?]%elem_of_cons; auto.
Qed.

Lemma elem_snoc_emplace (es : list (vevent (V:=gcell))) x a :
  a ∉ first_uses [] es → cells_listed (es ++ [EvEmplace x true a]) = cells_listed es ++ [(a, x)].
Proof.
  intros Ha. unfold cells_listed. rewrite first_uses_snoc, contents_snoc. cbn [first_uses contents].
  rewrite decide_False by done. rewrite omap_app. cbn [base.omap list_omap].
  rewrite lookup_insert. cbn. f_equal.
  induction (first_uses [] es) as [|b l IH]; [done|]. cbn [base.omap list_omap].
  apply not_elem_of_cons in Ha as [? Ha]. rewrite lookup_insert_ne by done.
  rewrite IH by done. done.
Qed.

Section build.
  Context (pick : M_Topology.alloc) (Hpick : good_alloc pick) (blk : nat → nat)
    (Hblk : ∀ i j, blk i = blk j → i = j) (debug : bool).

  (* building a registered simplex again from its vertices *)
  Lemma rebuild st N o us :
    reach_listed pick debug st → is_Some (ors st !! (N, o)) → 1 <= N <= 3 →
    vertices debug st N o = Ok us → (∀ v, v ∈ us → hasF st 0 v) →
    ∃ st0, simplex_of_vertices pick debug N us st = Ret o st0 ∧ growsd debug st st0 ∧ Inv st0 ∧
      reach_listed pick debug (holdO N o st0).
  Proof.
    intros Hr Ho HN Hus Hh. destruct (listed_fine pick Hpick debug st Hr) as [HI HC].
    pose proof (Can_spans debug st N o us HI HC HN Ho Hus) as Hsp.
    assert (Hlen : length us = S N).
    { destruct Hsp as (f & b & ws & _ & Hord & Hre). destruct (order_shape _ _ _ _ Hord) as (Hl & _).
      by rewrite <- (reord_perm _ _ _ Hre). }
    assert (Hnd : NoDup us).
    { destruct Hsp as (f & b & ws & _ & Hord & Hre). destruct (order_shape _ _ _ _ Hord) as (_ & Hn & _).
      by rewrite <- (reord_perm _ _ _ Hre). }
    assert (∃ x, legal st x ∧ well_listed debug st x ∧
                 step pick debug x = keepO N (simplex_of_vertices pick debug N us) ∧
                 wp (simplex_of_vertices pick debug N us) st
                   (λ o st', NoDup us ∧ good debug st N us o st') (refused debug st us))
      as (x & Hl & Hwl & Hstep & Hw).
    { destruct N as [|[|[|[|]]]]; try lia.
      - destruct us as [|a [|b [|]]]; try done. exists (OSegment a b).
        assert (hasF st 0 a ∧ hasF st 0 b) as (? & ?) by (split; apply Hh; set_solver).
        split_and!; try done.
        apply (wp_segment_can pick Hpick debug); [done|done|by apply (i_hF _ HI)..].
      - destruct us as [|a [|b [|c [|]]]]; try done. exists (OTriangle a b c).
        assert (hasF st 0 a ∧ hasF st 0 b ∧ hasF st 0 c) as (? & ? & ?) by (split_and!; apply Hh; set_solver).
        split_and!; try done.
        apply (wp_triangle_can pick Hpick debug); [done|done|by apply (i_hF _ HI)..].
      - destruct us as [|a [|b [|c [|d [|]]]]]; try done. exists (OTetrahedron a b c d).
        assert (hasF st 0 a ∧ hasF st 0 b ∧ hasF st 0 c ∧ hasF st 0 d) as (? & ? & ? & ?)
          by (split_and!; apply Hh; set_solver).
        split_and!; try done.
        apply (wp_tetrahedron_can pick Hpick debug); [done|done|by apply (i_hF _ HI)..]. }
    unfold wp in Hw.
    destruct (simplex_of_vertices pick debug N us st) as [o' st0|st0|] eqn:E; [|by destruct Hw as (_ & _ & _ & ?)|done].
    destruct Hw as (_ & HI0 & _ & Hg & Hsp').
    assert (He : extends st st0) by (by eapply grows_extends).
    assert (Hsp0 : spans st0 N o us).
    { apply (order_agree st st0 N); try done; [by apply extends_agree|].
      by apply (extends_or_some st). }
    destruct (spans_unique st0 N o o' true us us HI0 Hsp0 Hsp' (reord_refl us)) as (_ & _ & _ & _ & Heq).
    specialize (Heq eq_refl) as <-. exists st0. split_and!; [done|done|done|].
    eapply (listed_ret _ _ st x); [done|done|done|]. rewrite Hstep. unfold keepO, abind. by rewrite E.
  Qed.

  (* the state between the creation of the simplex and the insertion of the cell *)
  Lemma core_grows K st st0 m es :
    Inv st → Inv st0 → growsd debug st st0 → MCore blk K st m es → MCore blk K st0 m es.
  Proof.
    intros HI HI0 Hg H. pose proof Hg as (_ & _ & _ & _ & HhO & _).
    constructor; [apply H|intros o; rewrite HhO; apply H|].
    assert (bag K st0 (contents ∅ es) = bag K st (contents ∅ es)) as ->; [|apply H].
    apply bag_stable; try done.
    - by eapply extends_agree, grows_extends.
    - intros a x Hx. unfold has. rewrite HhO.
      destruct (c_vec _ _ _ _ _ H) as (xs & q & Hv & _).
      destruct (contents_cells blk m es xs q a x Hv Hx) as (y & Hy & <-).
      pose proof (c_held _ _ _ _ _ H (cval y).1.1) as Hh. pose proof (uses_pos _ _ _ Hy).
      unfold uses in Hh. unfold uses_cells in *. lia.
  Qed.

  Lemma insert_all_ok K l : S K <= 3 → ∀ st m es,
    reach_listed pick debug st → MCore blk K st m es → free_queue [] es = [] →
    (∀ x, x ∈ l → is_Some (ors st !! (S K, x.1)) ∧
       ∃ us, vertices debug st (S K) x.1 = Ok us ∧ ∀ v, v ∈ us → v ∈ x.2.*1 ∧ hasF st 0 v) →
    ∃ st' m' es' gcs, insert_all pick blk debug (S K) l st m = Ok (st', m') ∧
      reach_listed pick debug st' ∧ extends st st' ∧ MCore blk K st' m' es' ∧
      (cells_listed es').*2 = (cells_listed es).*2 ++ gcs ∧
      Forall2 (λ x gc, gc.1 = x.1 ∧ vertices debug st (S K) x.1 = Ok gc.2.*1 ∧
                       ∀ n, n ∈ gc.2 → n ∈ x.2) l gcs.
  Proof.
    intros HK. induction l as [|[o ns] l IH]; intros st m es Hr HC Hq Hall.
    - exists st, m, es, []. rewrite app_nil_r. split_and!; try done.
    - cbn [insert_all fst snd].
      destruct (Hall (o, ns)) as (Ho & us & Hus & Hvs); [left|]. cbn [fst snd] in Ho, Hus, Hvs.
      destruct (listed_fine pick Hpick debug st Hr) as [HI _].
      destruct (find_nodes_ok ns us) as (nl & Enl & Hnl & Hin); [intros v Hv; by apply Hvs|].
      destruct (rebuild st (S K) o us Hr Ho ltac:(lia) Hus) as (st0 & E0 & Hg & HI0 & Hr0);
        [intros v Hv; by apply Hvs|].
      unfold geometric_simplex, abind, aread. rewrite Hus, Enl, Hnl, E0. cbn [aret].
      destruct (insert_core blk Hblk debug K st0 m es (o, nl) HI0)
        as (m1 & a & st1 & E1 & Est & HC1 & Hfresh & Hf1 & Ho1 & Hfq).
      { by apply (core_grows K st st0). }
      { eapply grows_or_some; [exact Hg|exact Ho]. }
      rewrite E1. cbn [rbind]. rewrite Hq in Hfq. destruct Hfq as [Hnew Hcell].
      rewrite Hcell in Est. cbn [fst] in Est. subst st1.
      assert (He : extends st (holdO (S K) o st0)) by exact (grows_extends _ _ _ Hg).
      destruct (IH (holdO (S K) o st0) m1 (es ++ [EvEmplace (o, nl) true a])) as
        (st' & m' & es' & gcs & E' & Hr' & He' & HC' & Hl' & HF'); [done|done| | |].
      { rewrite free_queue_snoc, Hq. done. }
      { intros x Hx. destruct (Hall x) as (Hxo & ux & Hux & Hxv); [by right|]. split.
        - by apply (extends_or_some st).
        - exists ux. split; [by eapply vertices_mono|]. intros v Hv. destruct (Hxv v Hv) as [? Hh].
          split; [done|]. destruct Hg as (_ & _ & _ & _ & _ & HhF & _). unfold hasF. cbn [holdO upd_hO hF].
          by rewrite HhF. }
      exists st', m', es', ((o, nl) :: gcs). split_and!; [done|done| |done| |].
      + destruct He as [? ?], He' as [? ?]. split; by etrans.
      + rewrite Hl', elem_snoc_emplace by done. rewrite fmap_app, <- app_assoc. done.
      + constructor; [cbn [fst snd]; rewrite Hnl; by split_and!|]. eapply Forall2_impl; [|intros x gc H; exact H].
        apply Forall2_lookup. intros i. 
        pose proof (proj1 (Forall2_lookup _ _ _) HF' i) as Hi.
        destruct (l !! i) as [x|] eqn:Ex; inversion Hi as [x' gc (H1 & H2 & H3)|]; subst; constructor.
        split_and!; [done| |done].
        destruct (Hall x) as (_ & ux & Hux & _); [right; by eapply elem_of_list_lookup_2|].
        pose proof (vertices_mono debug _ _ _ _ _ He Hux) as H. rewrite Hux. by rewrite H in H2.
  Qed.

  (* the vertices of a face reached through members *)
  Lemma sub_face_vertices st I k : ∀ o o' us us',
    Inv st → Can st → 1 <= I → I + k <= 3 → is_Some (ors st !! (I + k, o)) →
    sub_face st I k o o' → vertices debug st (I + k) o = Ok us → vertices debug st I o' = Ok us' →
    ∀ v, v ∈ us' → v ∈ us.
  Proof.
    induction k as [|k IH]; intros o o' us us' HI HC HI1 HI3 Ho Hsf Hus Hus' v Hv.
    - inversion Hsf; subst. rewrite Nat.add_0_r in Hus. congruence.
    - inversion Hsf as [|k' o1 c sub o2 Hc Hs Hf]; subst.
      destruct I as [|I]; [lia|].
      replace (S I + S k) with (S (S (I + k))) in * by lia.
      destruct (facets_ok st (S (I + k)) o HI Ho) as (c' & Hc' & _ & Hm & _).
      rewrite Hc in Hc'. injection Hc' as <-.
      destruct (Can_vertices debug st (S (I + k)) sub HI HC) as (us1 & Hus1 & _); [lia|by apply Hm|].
      apply (member_vertices debug st (I + k) o c sub us us1 HI HC ltac:(lia) Hc Hs Ho Hus Hus1).
      apply (IH sub o' us1 us' HI HC); try done; [cbn; lia|by apply Hm].
  Qed.
End build.
