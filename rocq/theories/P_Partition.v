(* Lemmas on the partition of meshes. *)
From stdpp Require Import base gmap list sorting.
From Coq Require Import Reals.
From Verif Require Import M_Tensor M_Geometry S_Geometry.
From Verif Require Import Base M_SegAlloc S_SegAlloc P_SegAlloc M_Topology S_Topology P_Topology
  P_TopologyErase P_TopologyValid P_TopologyOrder P_TopologyVertices P_TopologyCanonical
  P_TopologyApi Properties_Topology M_Mesh S_Mesh P_Mesh P_MeshBoundary P_MeshBuild Properties_Mesh
  M_Tetra S_Tetra P_TetraGeometry P_TetraTiling P_Tetra Properties_Tetra M_Partition S_Partition.

Open Scope nat_scope.

(* ---- sets as sorted lists ---- *)

Lemma set_insert_in x y l : y ∈ set_insert x l ↔ y = x ∨ y ∈ l.
Proof.
  induction l as [|z l IH]; cbn [set_insert]; [set_solver|].
  destruct (Nat.ltb_spec x z); [set_solver|]. destruct (Nat.eqb_spec x z) as [->|]; [set_solver|].
  rewrite !elem_of_cons, IH. tauto.
Qed.

Lemma set_insert_sorted x l : StronglySorted lt l → StronglySorted lt (set_insert x l).
Proof.
  induction 1 as [|z l Hs IH Hf]; cbn [set_insert]; [by repeat constructor|].
  destruct (Nat.ltb_spec x z).
  - constructor; [by constructor|]. constructor; [done|]. eapply Forall_impl; [exact Hf|]. cbn. lia.
  - destruct (Nat.eqb_spec x z) as [->|]; [by constructor|]. constructor; [done|].
    apply Forall_forall. intros y [->|Hy]%set_insert_in; [lia|]. by apply (proj1 (Forall_forall _ _) Hf).
Qed.

Lemma rfold_inv {A B} (P : A → Prop) (f : A → B → res A) l : ∀ a r,
  P a → (∀ a b r, P a → f a b = Ok r → P r) → rfold f a l = Ok r → P r.
Proof.
  induction l as [|b l IH]; intros a r Ha Hf; cbn [rfold]; [by intros [= <-]|].
  intros (a' & E & H)%rbind_ok. eapply IH; [|done|exact H]. by eapply Hf.
Qed.

Lemma fvertex_set_sorted st N : ∀ f vs r,
  StronglySorted lt vs → fvertex_set st N f vs = Ok r → StronglySorted lt r.
Proof.
  induction N as [|N IH]; intros f vs r Hs; [done|]. destruct N as [|N].
  - cbn [fvertex_set]. intros (c & _ & H)%rbind_ok. revert H.
    eapply (rfold_inv (StronglySorted lt)); [done|]. intros a b r' Ha (g & _ & [= <-])%rbind_ok.
    by apply set_insert_sorted.
  - rewrite fvertex_set_SS. intros (c & _ & H)%rbind_ok. revert H.
    eapply (rfold_inv (StronglySorted lt)); [done|]. intros a b r' Ha (g & _ & H)%rbind_ok. by eapply IH.
Qed.

Lemma sorted_nodup (l : list nat) : StronglySorted lt l → NoDup l.
Proof.
  induction 1 as [|x l Hs IH Hf]; constructor; [|done]. intros Hx.
  pose proof (proj1 (Forall_forall _ _) Hf x Hx). lia.
Qed.

(* ---- positions ---- *)

Lemma position_of_Some v ids i : position_of v ids = Some i → ids !! i = Some v.
Proof.
  revert i. induction ids as [|w ids IH]; intros i; cbn; [done|]. case_decide as Hv.
  - intros [= <-]. by rewrite Hv.
  - intros (j & Hj & ->)%fmap_Some. by apply IH.
Qed.
Lemma position_of_in v ids : v ∈ ids → is_Some (position_of v ids).
Proof.
  induction ids as [|w ids IH]; [set_solver|]. cbn. case_decide as Hv; [by eexists|].
  intros [?|Hi]%elem_of_cons; [done|]. destruct (IH Hi) as [i ->]. by eexists.
Qed.

(* ---- the connectivity ---- *)

Lemma write_next (x : nat) d y rest : write (length d) x (d ++ y :: rest) = Ok (d ++ x :: rest).
Proof.
  unfold write. rewrite app_length. cbn [length]. rewrite (proj2 (Nat.ltb_lt _ _)) by lia.
  f_equal. rewrite <- (Nat.add_0_r (length d)), insert_app_r. done.
Qed.

Definition row (ids : list nat) (ns : list node) : list nat := base.omap (λ n : node, position_of n.1 ids) ns.

Lemma row_length ids ns : Forall (λ n : node, n.1 ∈ ids) ns → length (row ids ns) = length ns.
Proof.
  induction 1 as [|n ns Hn _ IH]; [done|]. unfold row in *. cbn [base.omap list_omap].
  destruct (position_of_in _ _ Hn) as [i ->]. cbn. by rewrite IH.
Qed.
Lemma row_lookup ids ns k n i :
  Forall (λ n : node, n.1 ∈ ids) ns → ns !! k = Some n → row ids ns !! k = Some i → ids !! i = Some n.1.
Proof.
  intros H. revert k. induction H as [|m ns Hn _ IH]; intros k; [done|]. unfold row in *. cbn [base.omap list_omap].
  destruct (position_of_in _ _ Hn) as [j Ej]. rewrite Ej. destruct k as [|k]; cbn.
  - intros [= <-] [= <-]. by apply position_of_Some.
  - apply IH.
Qed.

Lemma write_row ids n e ns : ∀ d rest v,
  Forall (λ n : node, n.1 ∈ ids) ns → length d = n * e + v → length ns <= length rest →
  rfold (λ '(arr, v) (node : node),
      let! id := at_or_throw (position_of node.1 ids) in
      let! arr := write (n * e + v) id arr in
      Ok (arr, S v)) (d ++ rest, v) ns = Ok (d ++ row ids ns ++ drop (length ns) rest, v + length ns).
Proof.
  induction ns as [|nd ns IH]; intros d rest v Hin Hd Hr.
  - cbn. by rewrite drop_0, Nat.add_0_r.
  - apply Forall_cons in Hin as [Hn Hin]. destruct (position_of_in _ _ Hn) as [i Ei].
    cbn [rfold]. rewrite Ei. cbn [at_or_throw rbind]. destruct rest as [|y rest]; [cbn in Hr; lia|].
    rewrite <- Hd, write_next. cbn [rbind]. rewrite cons_middle, app_assoc.
    rewrite IH; [|done|rewrite app_length; cbn; lia|cbn in Hr; lia].
    unfold row. cbn [base.omap list_omap length drop]. rewrite Ei, <- app_assoc. cbn. do 2 f_equal. lia.
Qed.

Lemma write_rows ids N cells : ∀ d rest e,
  (∀ x, x ∈ cells → length x.2.2 = S N ∧ Forall (λ n : node, n.1 ∈ ids) x.2.2) →
  length d = S N * e → length rest = length cells * S N →
  rfold (λ '(arr, e) (x : addr * gcell),
    let! (arr, _) := rfold (λ '(arr, v) (node : node),
      let! id := at_or_throw (position_of node.1 ids) in
      let! arr := write (S N * e + v) id arr in
      Ok (arr, S v)) (arr, 0) x.2.2 in
    Ok (arr, S e)) (d ++ rest, e) cells
  = Ok (d ++ concat ((λ x : addr * gcell, row ids x.2.2) <$> cells), e + length cells).
Proof.
  induction cells as [|x cells IH]; intros d rest e Hx Hd Hr.
  - destruct rest; [|done]. cbn. by rewrite Nat.add_0_r.
  - destruct (Hx x) as [Hl Hin]; [left|]. cbn [rfold]. cbn [length] in Hr.
    rewrite write_row; [|done|lia|rewrite Hl; lia]. cbn [rbind]. rewrite app_assoc.
    rewrite IH.
    + rewrite fmap_cons. cbn [concat length]. rewrite <- app_assoc. do 2 f_equal. lia.
    + intros y Hy. apply Hx. by right.
    + rewrite app_length, row_length, Hl by done. lia.
    + rewrite drop_length, Hl. lia.
Qed.

Lemma connectivity_ok ids N cells :
  (∀ x, x ∈ cells → length x.2.2 = S N ∧ Forall (λ n : node, n.1 ∈ ids) x.2.2) →
  populate_element_connectivity N cells ids = Ok (concat ((λ x : addr * gcell, row ids x.2.2) <$> cells)).
Proof.
  intros H. unfold populate_element_connectivity.
  pose proof (write_rows ids N cells [] (replicate (length cells * S N) 0) 0 H ltac:(cbn; lia)
                ltac:(by rewrite replicate_length)) as E.
  exact (f_equal (λ r : res (list nat * nat), let! (arr, _) := r in Ok arr) E).
Qed.

Lemma concat_lookup {A} (ls : list (list A)) n e k row x :
  Forall (λ r, length r = n) ls → ls !! e = Some row → row !! k = Some x → concat ls !! (n * e + k) = Some x.
Proof.
  intros H. revert e. induction H as [|r ls Hr _ IH]; intros e; [done|]. destruct e as [|e]; cbn [lookup list_lookup].
  - intros [= ->] Hk. cbn [concat]. rewrite Nat.mul_0_r. by apply lookup_app_l_Some.
  - intros He Hk. cbn [concat]. rewrite lookup_app_r; [|rewrite Hr; lia].
    replace (n * S e + k - length r) with (n * e + k) by lia. by apply IH.
Qed.

Lemma element_index_lookup n k : ∀ s i, i < k → element_index n k s !! i = Some (s + i * n).
Proof.
  induction k as [|k IH]; intros s i Hi; [lia|]. destruct i as [|i]; cbn.
  - f_equal. lia.
  - rewrite IH by lia. f_equal. lia.
Qed.
Lemma element_index_length n k s : length (element_index n k s) = k.
Proof. revert s. induction k; intros s; cbn; auto. Qed.

(* ---- painted ---- *)

Lemma painted_nil {A} p r : painted (A:=A) p r [] = [].
Proof. unfold painted. by destruct p. Qed.
Lemma painted_cons {A} q p r (x : A) l :
  painted (q :: p) r (x :: l) = if decide (q = r) then x :: painted p r l else painted p r l.
Proof. unfold painted. cbn [zip_with]. rewrite filter_cons. cbn. by case_decide. Qed.

Lemma painted_fmap {A B} (f : A → B) p r l : painted p r (f <$> l) = f <$> painted p r l.
Proof.
  revert p. induction l as [|x l IH]; intros [|q p]; try done. rewrite fmap_cons, !painted_cons, IH. by case_decide.
Qed.

Lemma painted_sub {A} p r (l : list A) x : x ∈ painted p r l → x ∈ l.
Proof.
  revert p. induction l as [|y l IH]; intros [|q p]; rewrite ?painted_nil; try done; [by intros ?%elem_of_nil..|].
  rewrite painted_cons. case_decide; [intros [->|?]%elem_of_cons; [left|right; eauto]|right; eauto].
Qed.

(* the parts for the ranks of a list without repetition that has all colours make up the whole *)
Lemma painted_cover {A} p (l : list A) ranks :
  length p = length l → NoDup ranks → Forall (λ q, q ∈ ranks) p →
  concat ((λ r, painted p r l) <$> ranks) ≡ₚ l.
Proof.
  intros Hl Hnd. revert l Hl. induction p as [|q p IH]; intros [|x l] Hl Hp; try done.
  - clear. induction ranks as [|r ranks IH]; [done|]. rewrite fmap_cons. cbn [concat]. by rewrite painted_nil.
  - apply Forall_cons in Hp as [Hq Hp]. cbn in Hl.
    apply elem_of_list_split in Hq as (r1 & r2 & ->).
    apply NoDup_app in Hnd as (H1 & H2 & H3). apply NoDup_cons in H3 as [H3 _].
    assert (Hne : ∀ rs : list Z, q ∉ rs → (λ r, painted (q :: p) r (x :: l)) <$> rs = (λ r, painted p r l) <$> rs).
    { intros rs Hr. apply list_fmap_ext. intros i r Hi. rewrite painted_cons, decide_False; [done|].
      intros ->. by apply Hr, (elem_of_list_lookup_2 _ i). }
    rewrite fmap_app, fmap_cons, (Hne r1), (Hne r2), painted_cons, decide_True; try done.
    2:{ intros Hr. by apply (H2 q Hr); left. }
    rewrite concat_app. cbn [concat].
    change ((x :: painted p q l) ++ concat ((λ r, painted p r l) <$> r2)) with (x :: (painted p q l ++ concat ((λ r, painted p r l) <$> r2))).
    rewrite <- Permutation_middle. constructor.
    etrans; [|apply (IH l); [lia|done]]. rewrite fmap_app, concat_app. done.
Qed.

Section partition.
  Context (pick : M_Topology.alloc) (Hpick : good_alloc pick) (blk : nat → nat)
    (Hblk : ∀ i j, blk i = blk j → i = j) (debug : bool).

  (* the vertices of the cells, numbered *)
  Lemma vertices_map_ok N w m l :
    1 <= N <= 3 → Inv (wtop w) → Can (wtop w) → mesh_cells m = Ok l →
    (∀ x, x ∈ l → is_Some (ors (wtop w) !! (N, x.2.1)) ∧ vertices_are debug (wtop w) N x.2.1 x.2.2.*1) →
    ∃ ids, populate_vertices_map N (wtop w) m = Ok ids ∧ NoDup ids ∧ StronglySorted lt ids ∧
      ∀ v, v ∈ ids ↔ ∃ x n, x ∈ l ∧ n ∈ x.2.2 ∧ n.1 = v.
  Proof.
    intros HN HI HC Hl Hx. unfold populate_vertices_map. rewrite Hl. cbn [rbind].
    assert (H : ∀ vs, StronglySorted lt vs →
      ∃ ids, rfold (λ vs (x : addr * gcell), let! f := footprint (wtop w) N x.2.1 in fvertex_set (wtop w) N f vs) vs l = Ok ids ∧
        StronglySorted lt ids ∧ ∀ v, v ∈ ids ↔ v ∈ vs ∨ ∃ x n, x ∈ l ∧ n ∈ x.2.2 ∧ n.1 = v).
    { clear Hl. induction l as [|x l IH]; intros vs Hs.
      - exists vs. cbn. split_and!; [done|done|]. intros v. split; [tauto|]. intros [?|(x & n & ?%elem_of_nil & _)]; done.
      - destruct (Hx x) as (Ho & us & Hus & Hr); [left|]. apply even_reord in Hr.
        pose proof (Can_spans debug (wtop w) N x.2.1 us HI HC HN Ho Hus) as (f & b & ws & Hf & Hord & Hre).
        destruct (fvertex_set_order (wtop w) N f ws vs Hord) as (r & Er & Hin).
        cbn [rfold]. unfold footprint at 1, oriented. rewrite Hf. cbn [deref rbind fst]. rewrite Er. cbn [rbind].
        destruct (IH) with (vs := r) as (ids & E & Hs' & Hids).
        { intros y Hy. apply Hx. by right. }
        { by eapply fvertex_set_sorted. }
        exists ids. split_and!; [done|done|]. intros v. rewrite Hids, Hin.
        assert (v ∈ ws ↔ ∃ n, n ∈ x.2.2 ∧ n.1 = v) as Hv.
        { rewrite (reord_perm _ _ _ Hre), (reord_perm _ _ _ Hr). rewrite elem_of_list_fmap.
          split; intros (n & ? & ?); exists n; split; congruence. }
        rewrite Hv. split.
        + intros [[?|(n & ? & ?)]|(y & n & ? & ? & ?)]; [by left|right; exists x, n; split_and!; [left|done|done]|].
          right; exists y, n; split_and!; [by right|done|done].
        + intros [?|(y & n & [->|?]%elem_of_cons & ? & ?)]; [by do 2 left|left; right; eauto|right; eauto]. }
    destruct (H []) as (ids & E & Hs & Hids); [constructor|].
    exists ids. split_and!; [done|by apply sorted_nodup|done|]. intros v. rewrite Hids.
    split; [intros [?%elem_of_nil|?]; [done|done]|tauto].
  Qed.

  (* the insertion of the cells painted [r] *)
  Lemma create_ok K l r : ∀ p0 p w m es,
    Pre pick blk debug K w m es →
    (∀ x, x ∈ l → is_Some (ors (wtop w) !! (S K, x.2.1)) ∧ has (wtop w) (S K) x.2.1) →
    length p = length l →
    ∃ w' m' es' e', rfold (λ '(w, m, e) (x : addr * gcell),
        let! p := deref ((p0 ++ p) !! e) in
        if decide (p = r) then
          let! (st, m, _) := mesh_insert blk debug (S K) x.2 true (wtop w) m in
          Ok (World st (wsys w) (wnext w), m, S e)
        else Ok (w, m, S e)) (w, m, length p0) l = Ok (w', m', e') ∧
      Pre pick blk debug K w' m' es' ∧ ext w w' ∧
      (cells_listed es').*2 = (cells_listed es).*2 ++ painted p r l.*2.
  Proof.
    induction l as [|x l IH]; intros p0 p w m es HP Hx Hlen.
    - exists w, m, es, (length p0). cbn. rewrite painted_nil, app_nil_r. split_and!; [done|done|apply ext_refl|done].
    - destruct p as [|q p]; [done|]. cbn [rfold]. rewrite list_lookup_middle by done. cbn [deref rbind].
      rewrite fmap_cons, painted_cons.
      assert (Hnext : ∀ w1 m1 es1 (b : bool), Pre pick blk debug K w1 m1 es1 → ext w w1 →
        (∀ x, x ∈ l → has (wtop w1) (S K) x.2.1) →
        (cells_listed es1).*2 = (cells_listed es).*2 ++ (if b then [x.2] else []) →
        ∃ w' m' es' e', rfold (λ '(w, m, e) (x : addr * gcell),
          let! p := deref ((p0 ++ q :: p) !! e) in
          if decide (p = r) then
            let! (st, m, _) := mesh_insert blk debug (S K) x.2 true (wtop w) m in
            Ok (World st (wsys w) (wnext w), m, S e)
          else Ok (w, m, S e)) (w1, m1, S (length p0)) l = Ok (w', m', e') ∧
        Pre pick blk debug K w' m' es' ∧ ext w w' ∧
        (cells_listed es').*2 = (cells_listed es).*2 ++ (if b then [x.2] else []) ++ painted p r l.*2).
      { intros w1 m1 es1 b HP1 Hw1 Hh Hc.
        destruct (IH (p0 ++ [q]) p w1 m1 es1 HP1) as (w' & m' & es' & e' & E & HP' & Hw' & Hc').
        - intros y Hy. split; [|by apply Hh]. apply (extends_or_some (wtop w)); [apply Hw1|]. apply Hx. by right.
        - cbn in Hlen. lia.
        - exists w', m', es', e'. rewrite app_length, Nat.add_1_r, <- app_assoc in E. cbn [app] in E.
          split_and!; [exact E|done|by eapply ext_trans|]. by rewrite Hc', Hc, <- app_assoc. }
      assert (HI : Inv (wtop w)) by (by eapply Pre_Inv).
      case_decide as Hq.
      + destruct (Hx x) as [Ho Hhas]; [left|].
        pose proof HP as [Hr HC Hm Hfq Hn].
        destruct (insert_core blk Hblk debug K (wtop w) m es x.2 HI HC Ho) as (m1 & a & st1 & E & Est & HC1 & Hfresh & Hf1 & Ho1 & Hloc).
        rewrite Hfq in Hloc. destruct Hloc as [Hnew Hcell]. rewrite Hcell in Est.
        rewrite E. cbn [rbind].
        destruct (Hnext (World st1 (wsys w) (wnext w)) m1 (es ++ [EvEmplace x.2 true a]) true) as (w' & m' & es' & e' & E' & H');
          [| | | |by exists w', m', es', e'].
        * constructor; cbn [wtop wsys wnext]; [|done| |by rewrite free_queue_snoc, Hfq|done].
          -- subst st1. eapply (listed_ret _ _ (wtop w) (OCopy (S K) x.2.1)); [done|done|done|]. cbn [step keepO].
             unfold keepO, abind, aret. reflexivity.
          -- by eapply mreach_insert.
        * split_and!; cbn [wtop wsys wnext]; [split; [by rewrite Hf1|by rewrite Ho1]| |done|lia].
          subst st1. intros v Hv. exact Hv.
        * cbn [wtop]. subst st1. intros y Hy. unfold has. rewrite held_holdO.
          destruct (Hx y) as [_ Hy']; [by right|]. unfold has in Hy'. lia.
        * rewrite elem_snoc_emplace by done. by rewrite fmap_app.
      + destruct (Hnext w m es false HP (ext_refl w)) as (w' & m' & es' & e' & E' & H');
          [| |by exists w', m', es', e'].
        * intros y Hy. apply Hx. by right.
        * by rewrite app_nil_r.
  Qed.
End partition.
