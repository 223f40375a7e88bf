(* C34: the summit writer and reader. The vocabulary is in S_Summit.v ([summit_file] is the file
   format), S_Tetra.v and Properties_Tetra.v ([refinable]: a mesh made by any history of a client that
   builds its simplices from vertices) and Properties_Partition.v ([partitionable]: its cells moreover
   have the orientation of the order of their nodes). [dec] is what becomes of a number written with 15
   digits and read again. *)
From stdpp Require Import base gmap list sorting strings.
From Coq Require Import Reals.
From Verif Require Import M_Tensor M_Geometry S_Geometry.
From Verif Require Import Base M_SegAlloc S_SegAlloc P_SegAlloc M_Topology S_Topology P_Topology
  P_TopologyErase P_TopologyValid P_TopologyOrder P_TopologyVertices P_TopologyCanonical
  P_TopologyApi Properties_Topology M_Mesh S_Mesh P_Mesh P_MeshBoundary
  P_MeshBuild Properties_Mesh M_Tetra S_Tetra P_TetraGeometry P_TetraTiling P_Tetra
  Properties_Tetra M_Partition S_Partition P_Partition Properties_Partition M_Summit S_Summit P_Summit.
Open Scope nat_scope.

Section summit.
  Context (pick : M_Topology.alloc) (Hpick : good_alloc pick) (blk : nat → nat)
    (Hblk : ∀ i j, blk i = blk j → i = j) (debug : bool) (c : chart).
  Context (dec : R → R) (entries : gmap nat Z → list (nat * Z)) (Hentries : some_order entries).

  Lemma in_mesh_points p l : p ∈ mesh_points l ↔ ∃ (x : addr * gcell) (n : node), x ∈ l ∧ n ∈ x.2.2 ∧ n.2 = p.
  Proof.
    unfold mesh_points. rewrite P_Mesh.elem_of_concat. split.
    - intros (ps & Hp & (x & -> & Hx)%elem_of_list_fmap). apply elem_of_list_fmap in Hp as (n & -> & Hn). eauto.
    - intros (x & n & Hx & Hn & <-). exists x.2.2.*2. split.
      + by apply elem_of_list_fmap_1.
      + by apply (elem_of_list_fmap_1 (λ x : addr * gcell, x.2.2.*2)).
  Qed.

  (* What is written: one line per distinct point, in the order of their first occurrence; each cell
     refers to the places of its points in that order, counting from one. *)
  Theorem C34_file N w m l element_type :
    refinable pick blk debug N w m l →
    ∃ (ps : list nat) (coords : list (list R)) (cells : list (list nat)),
      summit_write c dec entries N (wsys w) m element_type =
        Ok (summit_file (dim c) N coords cells element_type) ∧
      ps = first_seen (mesh_points l) ∧ NoDup ps ∧
      Forall2 (λ p xs, length xs = dim c ∧ ∃ x, find_point p (wsys w) = Some x ∧
                 ∀ d, d < dim c → xs !! d = Some (dec (x d))) ps coords ∧
      Forall2 (λ (x : addr * gcell) ids, length ids = length x.2.2 ∧
                 ∀ k n, x.2.2 !! k = Some n → ∃ i, ids !! k = Some (S i) ∧ ps !! i = Some n.2) l cells.
  Proof.
    intros (HN & Hs & (es & Hm) & Hl & Hfit). destruct N as [|K]; [lia|].
    set (ps := first_seen (mesh_points l)).
    set (xs := λ p, match find_point p (wsys w) with Some x => x | None => λ _, 0%R end).
    assert (Hxs : ∀ p, p ∈ mesh_points l → find_point p (wsys w) = Some (xs p)).
    { intros p (x & n & Hx & Hn & <-)%in_mesh_points. destruct (Hfit x Hx) as (_ & _ & H).
      destruct (H n Hn) as (_ & _ & y & Hy). unfold xs. by rewrite Hy. }
    eexists ps, _, _. split_and!; [|done|apply first_seen_NoDup| |].
    - apply (summit_write_ok c dec entries (S K) (wsys w) m l element_type xs); try done.
      destruct (C28_cells pick Hpick blk Hblk debug K _ _ _ Hm) as (l1 & El1 & _ & ->). congruence.
    - apply Forall2_fmap_r, Forall_Forall2_diag, Forall_forall. intros p Hp.
      apply elem_of_first_seen, Hxs in Hp. split; [by rewrite fmap_length, seq_length|].
      exists (xs p). split; [done|]. intros d Hd. rewrite list_lookup_fmap, lookup_seq_lt by done. done.
    - apply Forall2_fmap_r, Forall_Forall2_diag, Forall_forall. intros x Hx.
      split; [by rewrite fmap_length|]. intros k n Hk.
      destruct (place_of_elem 1 n.2 ps) as (i & Hpl & Hi).
      { apply elem_of_first_seen, in_mesh_points. exists x, n. split_and!; [done| |done].
        by eapply elem_of_list_lookup_2. }
      exists i. split; [|done]. rewrite list_lookup_fmap, Hk. cbn. fold ps. by rewrite Hpl.
  Qed.

  (* a sound file: coordinates of the dimension, cells on distinct points that are in the file *)
  Definition sound_file (N : nat) (coords : list (list R)) (cells : list (list nat)) : Prop :=
    Forall (λ xs : list R, length xs = dim c) coords ∧
    Forall (λ ids : list nat, length ids = S N ∧ NoDup ids ∧ Forall (λ i, 1 <= i <= length coords) ids) cells.

  (* the reader makes a new node for each point, with the coordinates of the file, and a cell for each
     cell, on the nodes it refers to *)
  Definition reads (N : nat) (w : world) (coords : list (list R)) (cells : list (list nat))
      (w' : world) (m' : mesh) : Prop :=
    ∃ nodes l', partitionable pick blk debug N w' m' l' ∧
      NoDup nodes.*1 ∧ NoDup nodes.*2 ∧ (∀ n, n ∈ nodes → find_point n.2 (wsys w) = None) ∧
      Forall2 (λ xs (n : node), ∃ x, find_point n.2 (wsys w') = Some x ∧
                 ∀ d v, xs !! d = Some v → x d = v) coords nodes ∧
      Forall2 (λ ids (x : addr * gcell),
                 Forall2 (λ i n, ∃ j, i = S j ∧ nodes !! j = Some n) ids x.2.2) cells l' ∧
      (∀ p x, find_point p (wsys w) = Some x → find_point p (wsys w') = Some x).

  Local Lemma read_start K w coords cells after :
    sound_world pick debug w → S K <= 3 → sound_file (S K) coords cells →
    ∃ w1 nodes rows, Pre pick blk debug K w1 mesh0 [] ∧ ext w w1 ∧ fit w1 nodes ∧
      nodes.*2 = seq (wnext w) (length coords) ∧
      Forall2 (λ (xs : list R) (n : node), find_point n.2 (wsys w1) = Some (λ i, nth i xs 0%R)) coords nodes ∧
      Forall2 (λ ids ns, length ids = S (S K) ∧ refers nodes ids ns) cells rows ∧
      (∀ ns, ns ∈ rows → length ns = S (S K) ∧ fit w1 ns) ∧
      reader pick blk debug c (S K) w (summit_file (dim c) (S K) coords cells after) =
        let! (w, m, _) := readElements pick blk debug (S K) (length cells) nodes
          (w1, mesh0, Some (concat ((λ ids : list nat,
             TInt (Z.of_nat (S (S K))) :: ((λ i, TInt (Z.of_nat i)) <$> ids) ++ TInt 1 :: after) <$> cells))) in
        let! _ := assert_ debug (bool_decide (nCells m = Z.of_nat (length cells))) in
        Ok (w, m).
  Proof.
    intros [Hs Hnx] HK [Hco Hce].
    assert (HP0 : Pre pick blk debug K w mesh0 []).
    { constructor; [done| |constructor; by eapply listed_reach|done|done].
      eapply (MInv_core pick blk debug K), MInv_init. by eapply listed_reach. }
    set (rest := concat ((λ ids : list nat,
             TInt (Z.of_nat (S (S K))) :: ((λ i, TInt (Z.of_nat i)) <$> ids) ++ TInt 1 :: after) <$> cells)).
    destruct (readVertices_ok pick Hpick blk debug c K HK coords rest w mesh0 [] []) as (w1 & nodes & E & HP & Hx & Hfit & Hseq & Hpos);
      [done|done| |].
    { split; [constructor|]. intros n Hn. by apply elem_of_nil in Hn. }
    change ([] ++ nodes) with nodes in *.
    assert (Hln : length nodes = length coords).
    { rewrite <- (fmap_length snd), Hseq, seq_length. done. }
    assert (∃ rows, Forall2 (λ ids ns, length ids = S (S K) ∧ refers nodes ids ns) cells rows ∧
              ∀ ns, ns ∈ rows → length ns = S (S K) ∧ fit w1 ns) as (rows & Hrows & Hrf).
    { clear -Hce Hln Hfit. induction Hce as [|ids cells (Hl & Hnd & Hi) _ (rows & IH & IH')].
      - exists []. split; [constructor|]. intros ns Hns. by apply elem_of_nil in Hns.
      - destruct (refers_exists nodes ids) as (ns & Hns); [by rewrite Hln|].
        exists (ns :: rows). split; [by constructor|]. intros ns' [->|?]%elem_of_cons; [|by apply IH'].
        split; [by rewrite <- (Forall2_length _ _ _ Hns)|]. by eapply refers_fit. }
    exists w1, nodes, rows. split_and!; try done.
    unfold reader, summit_file. rewrite read_int_ok. rewrite bool_decide_true by done.
    assert (Ha : ∀ b, b = true → assert_ debug b = Ok tt) by (intros [|]; [by destruct debug|done]).
    rewrite Ha by done. cbn [rbind]. rewrite read_int_ok.
    rewrite decide_False by lia. cbn [rbind]. rewrite !read_int_ok.
    rewrite Ha by (by apply bool_decide_true). cbn [rbind]. change (([] : list token) ++ ?r) with r.
    rewrite !Nat2Z.id. fold rest. rewrite E. cbn [rbind].
    destruct (readElements _ _ _ _ _ _ _) as [[[w2 m2] s2]| |]; [|done..]. cbn [rbind].
    rewrite Ha; [done|]. apply bool_decide_true. by rewrite Hln.
  Qed.

  Theorem C34_reader N w coords cells :
    1 <= N <= 3 → sound_world pick debug w → sound_file N coords cells →
    ∃ w' m', reader pick blk debug c N w (summit_file (dim c) N coords cells []) = Ok (w', m') ∧
      nCells m' = Z.of_nat (length cells) ∧ reads N w coords cells w' m'.
  Proof.
    intros HN Hs Hf. destruct N as [|K]; [lia|].
    destruct (read_start K w coords cells [] Hs) as (w1 & nodes & rows & HP & Hx & Hfit & Hseq & Hpos & Hrows & Hrf & E);
      [lia|done|].
    rewrite E, (readElements_ok pick blk debug K ltac:(lia) cells rows) by done.
    destruct (does_list pick Hpick blk debug c K ltac:(lia) 0 (insert_nodes pick blk debug (S K)) rows) with (w := w1) (m := mesh0) (es := @nil (vevent (V:=gcell)))
      as (w2 & m2 & es2 & gcss & E2 & HP2 & Hx2 & Hc2 & HB & _).
    { intros ns Hns. apply (insert_nodes_does pick Hpick blk Hblk debug c K); [lia|]. by apply Hrf. }
    { done. } { intros ns Hns. by apply Hrf. }
    rewrite E2. cbn [rbind].
    change (cells_listed ([] : list (vevent (V:=gcell)))) with ([] : list (addr * gcell)) in Hc2.
    assert (Hrow : (cells_listed es2).*2.*2 = rows).
    { rewrite Hc2. clear -HB. change (([] : list (addr * gcell)).*2 ++ ?r) with r.
      induction HB as [|ns gcs rows gcss HB _ IH]; [done|].
      cbn. rewrite fmap_app, IH, (b_copy _ _ _ _ _ _ _ HB) by done. done. }
    assert (Hcell : ∀ x, x ∈ cells_listed es2 → length x.2.2 = S (S K) ∧ fit w2 x.2.2 ∧ spans (wtop w2) (S K) x.2.1 x.2.2.*1).
    { intros x Hxin. apply (elem_of_list_fmap_1 snd) in Hxin. rewrite Hc2 in Hxin.
      change (([] : list (addr * gcell)).*2 ++ ?r) with r in Hxin.
      apply P_Mesh.elem_of_concat in Hxin as (gcs & Hgc & (i & Hi)%elem_of_list_lookup).
      destruct (Forall2_lookup_r _ _ _ _ _ HB Hi) as (y & _ & HBi). by apply HBi. }
    destruct (C28_cells pick Hpick blk Hblk debug K _ _ _ (p_mesh _ _ _ _ _ _ _ HP2)) as (l2 & El2 & _ & Hn2).
    pose proof (mreach_MInv pick Hpick blk Hblk debug K _ _ _ (p_mesh _ _ _ _ _ _ _ HP2)) as HM.
    destruct (mesh_cells_ok pick blk Hblk debug K _ _ _ HM) as [El _].
    rewrite El in El2. injection El2 as <-.
    assert (Hlen : length (cells_listed es2) = length cells).
    { rewrite <- (fmap_length snd), <- (fmap_length snd (_.*2)), Hrow. symmetry. by eapply Forall2_length. }
    rewrite Hn2, Hlen. rewrite bool_decide_true by done.
    assert (assert_ debug true = Ok tt) as -> by (by destruct debug). cbn [rbind].
    exists w2, m2. split_and!; [done|by rewrite Hn2, Hlen|].
    exists nodes, (cells_listed es2). split_and!.
    - split; [split_and!; [lia|lia|split; [apply HP2|apply HP2]|exists es2; apply HP2|done|]|].
      + intros x Hxin. split; by apply Hcell.
      + intros x Hxin. destruct (Hcell x Hxin) as (_ & _ & Hsp).
        destruct (vertices_spans debug (wtop w2) (S K) x.2.1 x.2.2.*1 Hsp) as (us & Eu & Hr).
        exists us. split; [done|]. by apply even_reord.
    - apply Hfit.
    - rewrite Hseq. apply NoDup_seq.
    - intros n Hn. apply Hs. apply (elem_of_list_fmap_1 snd) in Hn. rewrite Hseq in Hn.
      apply elem_of_seq in Hn. lia.
    - eapply Forall2_impl; [exact Hpos|]. intros xs n Hp. eexists. split; [exact (proj1 (proj2 (proj2 Hx2)) _ _ Hp)|].
      intros d v Hd. apply nth_lookup_Some with (d := 0%R) in Hd. done.
    - rewrite <- Hrow in Hrows. rewrite <- list_fmap_compose in Hrows. apply Forall2_fmap_r in Hrows.
      eapply Forall2_impl; [exact Hrows|]. intros ids x [_ H]. exact H.
    - intros p x Hp. by apply Hx2, Hx.
  Qed.

  (* Writing a mesh (to a file without element types) and reading the file, in the same or in another
     process, gives a mesh with the same cells, in the same order, up to a renaming [φ] of its points
     into new nodes that have the coordinates of the points as they come out of the text. Nodes that
     share a point become one node. *)
  Theorem C34_roundtrip N w m l w0 :
    refinable pick blk debug N w m l → (∀ x, x ∈ l → NoDup x.2.2.*2) → sound_world pick debug w0 →
    ∃ file w' m' l' (φ : nat → node),
      summit_write c dec entries N (wsys w) m [] = Ok file ∧
      reader pick blk debug c N w0 file = Ok (w', m') ∧
      partitionable pick blk debug N w' m' l' ∧ nCells m' = nCells m ∧
      (λ x : addr * gcell, x.2.2) <$> l' = (λ x : addr * gcell, (λ n : node, φ n.2) <$> x.2.2) <$> l ∧
      (∀ p q, p ∈ mesh_points l → q ∈ mesh_points l → (φ p).1 = (φ q).1 ∨ (φ p).2 = (φ q).2 → p = q) ∧
      (∀ p, p ∈ mesh_points l → find_point (φ p).2 (wsys w0) = None ∧
         ∃ x x', find_point p (wsys w) = Some x ∧ find_point (φ p).2 (wsys w') = Some x' ∧
           ∀ d, d < dim c → x' d = dec (x d)) ∧
      (∀ p x, find_point p (wsys w0) = Some x → find_point p (wsys w') = Some x).
  Proof.
    intros Hr Hd Hs0. destruct (C34_file N w m l [] Hr) as (ps & coords & cells & Ew & Hps & Hnd & Hco & Hce).
    pose proof Hr as (HN & _ & (es & Hm) & Hl & Hfit).
    assert (Hlc : length coords = length ps) by (symmetry; by eapply Forall2_length).
    destruct (C34_reader N w0 coords cells HN Hs0) as (w' & m' & Er & Hn & nodes & l' & Hp' & Hn1 & Hn2 & Hnew & Hpos & Hcl & Hold).
    { split.
      - apply Forall_lookup. intros i xs Hi. by destruct (Forall2_lookup_r _ _ _ _ _ Hco Hi) as (p & _ & ? & _).
      - apply Forall_lookup. intros i ids Hi. destruct (Forall2_lookup_r _ _ _ _ _ Hce Hi) as (x & Hx & Hlen & Hids).
        apply elem_of_list_lookup_2 in Hx. split_and!.
        + rewrite Hlen. by apply Hfit.
        + apply NoDup_alt. intros j k i0 Hj Hk.
          destruct (lookup_lt_is_Some_2 x.2.2 j) as [nj Hnj]; [rewrite <- Hlen; by eapply lookup_lt_Some|].
          destruct (lookup_lt_is_Some_2 x.2.2 k) as [nk Hnk]; [rewrite <- Hlen; by eapply lookup_lt_Some|].
          destruct (Hids j nj Hnj) as (a & Ha & Hpa). destruct (Hids k nk Hnk) as (b & Hb & Hpb).
          assert (a = b) as -> by congruence.
          eapply (NoDup_lookup x.2.2.*2); [by apply Hd| |]; rewrite list_lookup_fmap.
          * by rewrite Hnj. * rewrite Hnk. cbn. congruence.
        + apply Forall_lookup. intros k i0 Hk.
          destruct (lookup_lt_is_Some_2 x.2.2 k) as [nk Hnk]; [rewrite <- Hlen; by eapply lookup_lt_Some|].
          destruct (Hids k nk Hnk) as (b & Hb & Hpb). rewrite Hb in Hk. injection Hk as <-.
          apply lookup_lt_Some in Hpb. lia. }
    assert (Hln : length nodes = length ps) by (rewrite <- Hlc; symmetry; by eapply Forall2_length).
    set (φ := λ p, nodes !!! place_of 0 p ps).
    assert (Hφ : ∀ i p, ps !! i = Some p → nodes !! i = Some (φ p)).
    { intros i p Hi. unfold φ. rewrite (place_of_lookup 0 p ps i) by done. cbn.
      apply list_lookup_lookup_total. apply lookup_lt_is_Some. rewrite Hln. by eapply lookup_lt_Some. }
    assert (Hin : ∀ p, p ∈ mesh_points l → ∃ i, ps !! i = Some p ∧ nodes !! i = Some (φ p)).
    { intros p Hp. assert (p ∈ ps) as (i & Hi)%elem_of_list_lookup by (rewrite Hps; by apply elem_of_first_seen).
      exists i. split; [done|by apply Hφ]. }
    eexists _, w', m', l', φ. split_and!; [exact Ew|exact Er|done| | | | |done].
    - destruct N as [|K]; [lia|].
      destruct (C28_cells pick Hpick blk Hblk debug K _ _ _ Hm) as (l1 & El1 & _ & ->).
      rewrite Hn. f_equal. rewrite Hl in El1. injection El1 as <-. symmetry. eapply Forall2_length, Hce.
    - apply list_eq_same_length with (n := length l); [by rewrite fmap_length| |].
      { rewrite fmap_length, <- (Forall2_length _ _ _ Hcl). symmetry. eapply Forall2_length, Hce. }
      intros i a b _ Ha Hb. rewrite list_lookup_fmap in Ha, Hb.
      destruct (l' !! i) as [x'|] eqn:Ex'; [|done]. destruct (l !! i) as [x|] eqn:Ex; [|done].
      injection Ha as <-. injection Hb as <-.
      destruct (Forall2_lookup_l _ _ _ _ _ Hce Ex) as (ids & Hi & Hlen & Hids).
      pose proof (Forall2_lookup_lr _ _ _ _ _ _ Hcl Hi Ex') as Hx'.
      apply list_eq_same_length with (n := length x.2.2); [by rewrite fmap_length| |].
      { rewrite <- Hlen. symmetry. eapply Forall2_length, Hx'. }
      intros k a b _ Ha Hb. rewrite list_lookup_fmap in Hb. destruct (x.2.2 !! k) as [n|] eqn:En; [|done].
      injection Hb as <-. destruct (Hids k n En) as (j & Hj & Hpj).
      destruct (Forall2_lookup_lr _ _ _ _ _ _ Hx' Hj Ha) as (j' & [= <-] & Hj').
      rewrite (Hφ j n.2 Hpj) in Hj'. by injection Hj' as ->.
    - intros p q Hp Hq Hor. destruct (Hin p Hp) as (i & Hi & Hni). destruct (Hin q Hq) as (j & Hj & Hnj).
      assert (i = j) as ->; [|congruence]. destruct Hor as [Heq|Heq].
      + eapply (NoDup_lookup nodes.*1); [done| |]; rewrite list_lookup_fmap.
        * by rewrite Hni. * rewrite Hnj. cbn. by rewrite Heq.
      + eapply (NoDup_lookup nodes.*2); [done| |]; rewrite list_lookup_fmap.
        * by rewrite Hni. * rewrite Hnj. cbn. by rewrite Heq.
    - intros p Hp. destruct (Hin p Hp) as (i & Hi & Hni). split; [by eapply Hnew, elem_of_list_lookup_2|].
      destruct (Forall2_lookup_l _ _ _ _ _ Hco Hi) as (xs & Hxs & _ & x & Hx & Hdx).
      destruct (Forall2_lookup_lr _ _ _ _ _ _ Hpos Hxs Hni) as (x' & Hx' & Hdx').
      exists x, x'. split_and!; [done|done|]. intros d Hdim. apply Hdx'. by apply Hdx.
  Qed.

  (* A mesh of two or more cells written with an element type (any word that is not a number) cannot be
     read: in debug mode the reader stops, otherwise it returns a mesh of one cell. *)
  Theorem C34_element_type_refuted N w m l w0 element_type more :
    refinable pick blk debug N w m l → (∀ x, x ∈ l → NoDup x.2.2.*2) → sound_world pick debug w0 →
    2 <= length l →
    ∃ file, summit_write c dec entries N (wsys w) m (TWord element_type :: more) = Ok file ∧
      if debug then reader pick blk debug c N w0 file = Abort
      else ∃ w' m', reader pick blk debug c N w0 file = Ok (w', m') ∧ nCells m' = 1%Z.
  Proof.
    intros Hr Hd Hs0 Hlen2.
    destruct (C34_file N w m l (TWord element_type :: more) Hr) as (ps & coords & cells & Ew & Hps & Hnd & Hco & Hce).
    pose proof Hr as (HN & _ & _ & Hl & Hfit). destruct N as [|K]; [lia|].
    eexists. split; [exact Ew|].
    assert (Hlc : length coords = length ps) by (symmetry; by eapply Forall2_length).
    destruct (read_start K w0 coords cells (TWord element_type :: more) Hs0) as (w1 & nodes & rows & HP & Hx & Hfit1 & Hseq & Hpos & Hrows & Hrf & E); [lia| |].
    { split.
      - apply Forall_lookup. intros i xs Hi. by destruct (Forall2_lookup_r _ _ _ _ _ Hco Hi) as (p & _ & ? & _).
      - apply Forall_lookup. intros i ids Hi. destruct (Forall2_lookup_r _ _ _ _ _ Hce Hi) as (x & Hx & Hlen & Hids).
        apply elem_of_list_lookup_2 in Hx. split_and!.
        + rewrite Hlen. by apply Hfit.
        + apply NoDup_alt. intros j k i0 Hj Hk.
          destruct (lookup_lt_is_Some_2 x.2.2 j) as [nj Hnj]; [rewrite <- Hlen; by eapply lookup_lt_Some|].
          destruct (lookup_lt_is_Some_2 x.2.2 k) as [nk Hnk]; [rewrite <- Hlen; by eapply lookup_lt_Some|].
          destruct (Hids j nj Hnj) as (a & Ha & Hpa). destruct (Hids k nk Hnk) as (b & Hb & Hpb).
          assert (a = b) as -> by congruence.
          eapply (NoDup_lookup x.2.2.*2); [by apply Hd| |]; rewrite list_lookup_fmap.
          * by rewrite Hnj. * rewrite Hnk. cbn. congruence.
        + apply Forall_lookup. intros k i0 Hk.
          destruct (lookup_lt_is_Some_2 x.2.2 k) as [nk Hnk]; [rewrite <- Hlen; by eapply lookup_lt_Some|].
          destruct (Hids k nk Hnk) as (b & Hb & Hpb). rewrite Hb in Hk. injection Hk as <-.
          apply lookup_lt_Some in Hpb. lia. }
    rewrite E. clear E. assert (Hcl : 2 <= length cells) by (rewrite <- (Forall2_length _ _ _ Hce); done).
    destruct cells as [|ids [|ids' cells]]; [cbn in Hcl; lia..|].
    apply Forall2_cons_inv_l in Hrows as (ns & rows' & (Hli & Href) & Hrows & ->).
    cbn [length].
    rewrite (readElements_word pick blk debug K ltac:(lia) (ids' :: cells) ids ns) by done.
    destruct (Hrf ns) as [Hl1 Hf1]; [left|].
    destruct (insert_nodes_does pick Hpick blk Hblk debug c K ltac:(lia) ns Hl1 w1 mesh0 [] HP Hf1)
      as (w2 & m2 & es2 & gcs & E2 & HP2 & _ & Hc2 & HB).
    rewrite E2. cbn [rbind].
    destruct (C28_cells pick Hpick blk Hblk debug K _ _ _ (p_mesh _ _ _ _ _ _ _ HP2)) as (l2 & El2 & _ & Hn2).
    pose proof (mreach_MInv pick Hpick blk Hblk debug K _ _ _ (p_mesh _ _ _ _ _ _ _ HP2)) as HM.
    destruct (mesh_cells_ok pick blk Hblk debug K _ _ _ HM) as [El _].
    rewrite El in El2. injection El2 as <-.
    assert (Hone : length (cells_listed es2) = 1).
    { rewrite <- (fmap_length snd), Hc2, <- (fmap_length snd).
      change ((cells_listed ([] : list (vevent (V:=gcell)))).*2 ++ gcs) with gcs.
      by rewrite (b_copy _ _ _ _ _ _ _ HB). }
    rewrite Hn2, Hone. rewrite bool_decide_false by (cbn [length]; lia).
    destruct debug; [done|]. cbn. exists w2, m2. split; [done|]. by rewrite Hn2, Hone.
  Qed.
End summit.
Print Assumptions C34_file.
Print Assumptions C34_reader.
Print Assumptions C34_roundtrip.
Print Assumptions C34_element_type_refuted.
