(* What the summit writer writes and what the reader makes of a file. *)
From stdpp Require Import base gmap list sorting strings.
From Coq Require Import Reals.
From Verif Require Import M_Tensor M_Geometry S_Geometry.
From Verif Require Import Base M_SegAlloc S_SegAlloc P_SegAlloc M_Topology S_Topology P_Topology
  P_TopologyErase P_TopologyValid P_TopologyOrder P_TopologyVertices P_TopologyCanonical
  P_TopologyApi Properties_Topology M_Mesh S_Mesh P_Mesh P_MeshBoundary P_MeshBuild M_Tetra
  S_Tetra P_TetraGeometry P_Tetra M_Summit S_Summit.
Open Scope nat_scope.

Section first_seen.
  Context {A : Type} `{EqDecision A}.
  Implicit Types (l : list A).

  Lemma elem_of_first_seen x l : x ∈ first_seen l ↔ x ∈ l.
  Proof.
    revert x. induction l as [|y l IH]; intros x; [done|]. cbn.
    rewrite !elem_of_cons, elem_of_list_filter, IH. destruct (decide (x = y)); naive_solver.
  Qed.

  Lemma first_seen_NoDup l : NoDup (first_seen l).
  Proof.
    induction l as [|y l IH]; [constructor|]. cbn. constructor.
    - rewrite elem_of_list_filter. naive_solver.
    - by apply NoDup_filter.
  Qed.

  Lemma first_seen_snoc l x :
    first_seen (l ++ [x]) = if decide (x ∈ l) then first_seen l else first_seen l ++ [x].
  Proof.
    induction l as [|y l IH].
    - cbn. rewrite decide_False by apply not_elem_of_nil. done.
    - cbn. rewrite IH. clear IH. destruct (decide (x ∈ l)) as [Hx|Hx].
      + rewrite decide_True by (by right). done.
      + rewrite filter_app. cbn [filter list_filter]. destruct (decide (x = y)) as [->|Hy].
        * rewrite (decide_True (P := y ∈ y :: l)) by left.
          rewrite (decide_False (P := y ≠ y)) by auto. by rewrite app_nil_r.
        * rewrite (decide_False (P := x ∈ y :: l)) by (rewrite elem_of_cons; naive_solver).
          rewrite (decide_True (P := x ≠ y)) by auto. done.
  Qed.

  Lemma place_of_shift n x l : place_of (S n) x l = S (place_of n x l).
  Proof. revert n. induction l as [|y l IH]; intros n; [done|]. cbn. case_decide; [done|apply IH]. Qed.

  Lemma place_of_app n x l l' : x ∈ l → place_of n x (l ++ l') = place_of n x l.
  Proof.
    revert n. induction l as [|y l IH]; intros n Hx; [by apply elem_of_nil in Hx|]. cbn.
    case_decide; [done|]. apply IH. apply elem_of_cons in Hx as [?|?]; [done|done].
  Qed.

  Lemma place_of_end n x l l' : x ∉ l → place_of n x (l ++ x :: l') = n + length l.
  Proof.
    revert n. induction l as [|y l IH]; intros n Hx; cbn.
    - rewrite decide_True by done. lia.
    - rewrite decide_False by (intros ->; apply Hx; left). rewrite IH; [lia|].
      intros ?. apply Hx. by right.
  Qed.

  Lemma place_of_lookup n x l i : NoDup l → l !! i = Some x → place_of n x l = n + i.
  Proof.
    intros Hnd Hi. apply elem_of_list_split_length in Hi as (l1 & l2 & -> & ->).
    apply place_of_end. apply NoDup_app in Hnd as (_ & H & _). intros Hx. apply (H x Hx). left.
  Qed.

  Lemma place_of_elem n x l : x ∈ l → ∃ i, place_of n x l = n + i ∧ l !! i = Some x.
  Proof.
    revert n. induction l as [|y l IH]; intros n Hx; [by apply elem_of_nil in Hx|]. cbn.
    case_decide as E; [exists 0; split; [lia|by rewrite E]|].
    apply elem_of_cons in Hx as [?|Hx]; [done|]. destruct (IH (S n) Hx) as (i & -> & Hi).
    exists (S i). split; [lia|done].
  Qed.
End first_seen.

Definition numbered (ps : list nat) (m : gmap nat Z) : Prop :=
  ∀ p, m !! p = if decide (p ∈ ps) then Some (Z.of_nat (place_of 1 p ps)) else None.

Lemma number_points_ok l : numbered (first_seen (mesh_points l)) (number_points l).
Proof.
  set (f := λ '(points, index) (p : nat),
        match (points : gmap nat Z) !! p with
        | Some _ => (points, index)
        | None => (<[p := index]> points, (index + 1)%Z)
        end).
  assert (Hf : ∀ l s, foldl (λ s (x : addr * gcell),
      foldl (λ '(points, index) (n : node),
        match (points : gmap nat Z) !! n.2 with
        | Some _ => (points, index)
        | None => (<[n.2 := index]> points, (index + 1)%Z)
        end) s x.2.2) s l = foldl f s (mesh_points l)).
  { clear l. induction l as [|x l IH]; intros s; [done|]. cbn. rewrite IH. unfold mesh_points. cbn.
    rewrite foldl_app. f_equal. clear. revert s. induction x.2.2 as [|n ns IH]; intros s; [done|].
    cbn. rewrite IH. f_equal. by destruct s. }
  unfold number_points. rewrite Hf. clear Hf.
  assert (H : ∀ qs, ∃ m, foldl f (∅, 1%Z) qs = (m, Z.of_nat (S (length (first_seen qs)))) ∧
                 numbered (first_seen qs) m).
  { induction qs as [|q qs IH] using rev_ind.
    - exists ∅. split; [done|]. intros p. cbn. by rewrite lookup_empty.
    - destruct IH as (m & E & Hm). rewrite foldl_app, E. cbn [foldl f]. rewrite first_seen_snoc.
      pose proof (Hm q) as Hq. destruct (decide (q ∈ qs)) as [Hin|Hin].
      + rewrite decide_True in Hq by (by rewrite elem_of_first_seen). rewrite Hq. by exists m.
      + rewrite decide_False in Hq by (by rewrite elem_of_first_seen). rewrite Hq.
        eexists. split; [f_equal; rewrite app_length; cbn; lia|].
        intros p. destruct (decide (p = q)) as [->|Hne].
        * rewrite lookup_insert, decide_True by (apply elem_of_app; right; left).
          f_equal. f_equal. rewrite place_of_end by (by rewrite elem_of_first_seen). done.
        * rewrite lookup_insert_ne by done. rewrite Hm.
          destruct (decide (p ∈ first_seen qs)) as [Hp|Hp].
          -- rewrite decide_True by (apply elem_of_app; by left). by rewrite place_of_app.
          -- rewrite decide_False; [done|]. rewrite elem_of_app, elem_of_list_singleton. naive_solver. }
  destruct (H (mesh_points l)) as (m & -> & Hm). done.
Qed.

Lemma numbered_entries ps m p z :
  NoDup ps → numbered ps m → (p, z) ∈ map_to_list m ↔ ∃ i, ps !! i = Some p ∧ z = Z.of_nat (S i).
Proof.
  intros Hnd Hm. rewrite elem_of_map_to_list, Hm. split.
  - case_decide as Hp; [|done]. intros [= <-]. destruct (place_of_elem 1 p ps Hp) as (i & -> & Hi). eauto.
  - intros (i & Hi & ->). rewrite decide_True by (by eapply elem_of_list_lookup_2).
    by rewrite (place_of_lookup 1 p ps i).
Qed.

Lemma numbered_size ps m : NoDup ps → numbered ps m → size m = length ps.
Proof.
  intros Hnd Hm. rewrite <- (size_list_to_set (C := gset nat)) by done. rewrite <- size_dom.
  f_equal. apply set_eq. intros p. rewrite elem_of_dom, elem_of_list_to_set, Hm.
  case_decide; split; [done|by eauto|by intros []|done].
Qed.

Lemma points_vector_ok entries ps m :
  some_order entries → NoDup ps → numbered ps m → points_vector entries m = Ok (Some <$> ps).
Proof.
  intros He Hnd Hm. unfold points_vector. rewrite (numbered_size ps m) by done.
  assert (H : ∀ es v, length v = length ps →
    (∀ p z, (p, z) ∈ es → ∃ i, ps !! i = Some p ∧ z = Z.of_nat (S i)) →
    ∃ v', rfold (λ v '(p, index),
      if decide (0 <= index - 1 < Z.of_nat (length v))%Z
      then Ok (<[Z.to_nat (index - 1) := Some p]> v) else Ub) v es = Ok v' ∧ length v' = length ps ∧
      ∀ i p, ps !! i = Some p → (v !! i = Some (Some p) ∨ (p, Z.of_nat (S i)) ∈ es) → v' !! i = Some (Some p)).
  { induction es as [|[p z] es IH]; intros v Hv Hes.
    - exists v. split_and!; [done|done|]. intros i p Hi [?|H]; [done|by apply elem_of_nil in H].
    - cbn [rfold]. destruct (Hes p z) as (j & Hj & ->); [left|].
      pose proof (lookup_lt_Some _ _ _ Hj) as Hlt.
      rewrite decide_True by lia. cbn [rbind].
      replace (Z.to_nat (Z.of_nat (S j) - 1)) with j by lia.
      destruct (IH (<[j := Some p]> v)) as (v' & E & Hl & Hv').
      { by rewrite insert_length. } { intros. apply Hes. by right. }
      exists v'. split_and!; [done|done|]. intros i q Hi Hor. apply Hv'; [done|].
      destruct (decide (i = j)) as [->|Hne].
      + left. rewrite list_lookup_insert by lia. congruence.
      + rewrite list_lookup_insert_ne by done. destruct Hor as [?|Hin]; [by left|].
        right. apply elem_of_cons in Hin as [[= _ ?]|?]; [lia|done]. }
  destruct (H (entries m) (replicate (length ps) None)) as (v' & E & Hl & Hv').
  { by rewrite replicate_length. }
  { intros p z. rewrite (He m). by apply numbered_entries. }
  rewrite E. f_equal. apply list_eq_same_length with (n := length ps); [by rewrite fmap_length|done|].
  intros i x y Hi. rewrite list_lookup_fmap. destruct (ps !! i) as [p|] eqn:Ep; [|done].
  cbn. intros Hx [= <-]. rewrite (Hv' i p) in Hx; [congruence|done|].
  right. rewrite (He m). apply numbered_entries with (ps := ps); [done|done|]. eauto.
Qed.

Lemma rmap_Forall2 {A B} (f : A → res B) l l' : Forall2 (λ a b, f a = Ok b) l l' → rmap f l = Ok l'.
Proof. induction 1 as [|a b l l' E _ IH]; [done|]. cbn. by rewrite E, IH. Qed.

Lemma rmap_fmap {A B} (f : A → res B) (g : A → B) l :
  (∀ a, a ∈ l → f a = Ok (g a)) → rmap f l = Ok (g <$> l).
Proof.
  intros H. apply rmap_Forall2. induction l as [|a l IH]; constructor.
  - apply H. left.
  - apply IH. intros. apply H. by right.
Qed.

Lemma cell_type_ok N : 1 <= N <= 3 → cell_type N = Z.of_nat (S N).
Proof. intros H. destruct N as [|[|[|[|N]]]]; cbn; lia. Qed.

Lemma summit_write_ok c dec entries N cs m l et (xs : nat → vec) :
  some_order entries → 1 <= N <= 3 → mesh_cells m = Ok l → nCells m = Z.of_nat (length l) →
  (∀ p, p ∈ mesh_points l → find_point p cs = Some (xs p)) →
  summit_write c dec entries N cs m et =
    Ok (summit_file (dim c) N
          ((λ p, (λ d, dec (xs p d)) <$> seq 0 (dim c)) <$> first_seen (mesh_points l))
          ((λ x : addr * gcell, (λ n : node, place_of 1 n.2 (first_seen (mesh_points l))) <$> x.2.2) <$> l) et).
Proof.
  intros He HN Hl Hn Hx. unfold summit_write. rewrite Hl. cbn [rbind].
  set (ps := first_seen (mesh_points l)).
  pose proof (number_points_ok l) as Hnum. fold ps in Hnum. set (pm := number_points l) in *.
  assert (Hnd : NoDup ps) by apply first_seen_NoDup.
  rewrite (points_vector_ok entries ps pm) by done. cbn [rbind].
  rewrite (rmap_Forall2 _ _ ((λ p, (λ d, TReal (dec (xs p d))) <$> seq 0 (dim c)) <$> ps)).
  2:{ apply Forall2_fmap, Forall_Forall2_diag, Forall_forall. intros p Hp. unfold write_point.
      cbn [at_or_throw rbind]. unfold coordinates. rewrite (Hx p) by (by apply elem_of_first_seen). done. }
  cbn [rbind].
  rewrite (rmap_fmap _ (λ x : addr * gcell, TInt (Z.of_nat (S N)) ::
    ((λ i, TInt (Z.of_nat i)) <$> ((λ n : node, place_of 1 n.2 ps) <$> x.2.2)) ++ TInt 1 :: et)).
  2:{ intros x Hxl. unfold write_cell.
      rewrite (rmap_fmap _ (λ n : node, Z.of_nat (place_of 1 n.2 ps))).
      - cbn [rbind]. rewrite cell_type_ok by done. do 2 f_equal. f_equal. rewrite <- !list_fmap_compose. done.
      - intros n Hn'. rewrite Hnum, decide_True; [done|]. apply elem_of_first_seen.
        unfold mesh_points. apply elem_of_concat. exists x.2.2.*2. split.
        + by apply elem_of_list_fmap_1.
        + by apply (elem_of_list_fmap_1 (λ x : addr * gcell, x.2.2.*2)). }
  cbn [rbind]. unfold summit_file. rewrite !fmap_length, (numbered_size ps pm), Hn by done.
  do 2 f_equal. f_equal.
  - f_equal. rewrite <- list_fmap_compose. apply list_fmap_ext. intros ? p _. cbn. by rewrite <- list_fmap_compose.
  - f_equal. by rewrite <- list_fmap_compose.
Qed.

(* ---- the reader ---- *)

Lemma read_reals_ok xs rest :
  read_reals (length xs) (Some ((TReal <$> xs) ++ rest)) = (xs, Some rest).
Proof. induction xs as [|x xs IH]; [done|]. cbn. by rewrite IH. Qed.

Lemma read_ids_ok (ids : list nat) rest :
  read_ids (length ids) (Some (((λ i, TInt (Z.of_nat i)) <$> ids) ++ rest)) =
    ((λ i, (Z.of_nat i - 1)%Z) <$> ids, Some rest).
Proof. induction ids as [|x xs IH]; [done|]. cbn. by rewrite IH. Qed.

Lemma read_int_ok z l rest : read_int (Some ((TInt z :: l) ++ rest)) = (z, Some (l ++ rest)).
Proof. done. Qed.
Lemma read_word_ok z (l rest : list token) : read_word (Some ((z :: l) ++ rest)) = Some (l ++ rest).
Proof. done. Qed.

(* the cell of a file with the ids [ids] has the nodes [ns] *)
Definition refers (nodes : list node) (ids : list nat) (ns : list node) : Prop :=
  Forall2 (λ i n, ∃ j, i = S j ∧ nodes !! j = Some n) ids ns.

Lemma at_index_ok nodes ids ns :
  refers nodes ids ns → rmap (at_index nodes) ((λ i, (Z.of_nat i - 1)%Z) <$> ids) = Ok ns.
Proof.
  intros H. apply rmap_Forall2. induction H as [|i n ids ns (j & -> & Hj) _ IH]; constructor; [|done].
  unfold at_index. rewrite decide_True by lia. replace (Z.to_nat (Z.of_nat (S j) - 1)) with j by lia.
  by rewrite Hj.
Qed.

Lemma refers_exists nodes ids :
  Forall (λ i, 1 <= i <= length nodes) ids → ∃ ns, refers nodes ids ns.
Proof.
  induction 1 as [|i ids Hi _ (ns & IH)]; [by exists []; constructor|].
  destruct (lookup_lt_is_Some_2 nodes (pred i)) as [n Hn]; [lia|].
  exists (n :: ns). constructor; [|done]. exists (pred i). split; [lia|done].
Qed.

Lemma refers_fit w nodes ids ns : NoDup ids → refers nodes ids ns → fit w nodes → fit w ns.
Proof.
  intros Hnd Hr [Hnn Hin]. split.
  - revert Hnd. induction Hr as [|i n ids ns (j & -> & Hj) Hr IH]; [constructor|].
    intros [Hi Hnd]%NoDup_cons. cbn. constructor; [|by apply IH].
    intros (n' & E & Hn')%elem_of_list_fmap. apply elem_of_list_lookup in Hn' as (k & Hk).
    destruct (Forall2_lookup_r _ _ _ _ _ Hr Hk) as (i' & Hi' & j' & -> & Hj').
    assert (j = j') as ->.
    { eapply NoDup_lookup; [exact Hnn| |]; rewrite list_lookup_fmap.
      - by rewrite Hj. - rewrite Hj'. cbn. by rewrite E. }
    apply Hi. by eapply elem_of_list_lookup_2.
  - intros n Hn. apply elem_of_list_lookup in Hn as (k & Hk).
    destruct (Forall2_lookup_r _ _ _ _ _ Hr Hk) as (i' & _ & j' & _ & Hj').
    apply Hin. by eapply elem_of_list_lookup_2.
Qed.

Section reader.
  Context (pick : M_Topology.alloc) (Hpick : good_alloc pick) (blk : nat → nat)
    (Hblk : ∀ i j, blk i = blk j → i = j) (debug : bool) (c : chart) (K : nat) (HK : S K <= 3).

  Lemma readVertices_ok coords rest w m es nodes :
    Forall (λ xs : list R, length xs = dim c) coords → Pre pick blk debug K w m es → fit w nodes →
    ∃ w' new, readVertices pick c (length coords) w
        (Some (concat ((λ xs : list R, TReal <$> xs) <$> coords) ++ rest)) nodes =
        Ok (w', Some rest, nodes ++ new) ∧
      Pre pick blk debug K w' m es ∧ ext w w' ∧ fit w' (nodes ++ new) ∧
      new.*2 = seq (wnext w) (length coords) ∧
      Forall2 (λ (xs : list R) (n : node), find_point n.2 (wsys w') = Some (λ i, nth i xs 0%R)) coords new.
  Proof.
    intros Hc. revert w nodes. induction Hc as [|xs coords Hxs Hc IH]; intros w nodes HP Hfit.
    - exists w, []. rewrite app_nil_r. split_and!; [done|done|apply ext_refl|done|done|constructor].
    - cbn [length readVertices fmap list_fmap concat].
      rewrite <- app_assoc, <- Hxs, read_reals_ok.
      destruct (new_node_ok pick Hpick blk debug K HK (λ i, nth i xs 0%R) w m es nodes HP Hfit)
        as (w1 & n & E & HP1 & Hx1 & Hn & _ & Hf & Hfit1).
      rewrite E. cbn [rbind].
      destruct (IH w1 (nodes ++ [n]) HP1) as (w' & new & E' & HP' & Hx' & Hfit' & Hseq & HF).
      { eapply fit_sub; [|exact Hfit1]. rewrite Permutation_app_comm. done. }
      exists w', (n :: new). rewrite E', <- app_assoc. rewrite <- app_assoc in Hfit'.
      split_and!; [done|done|by eapply ext_trans|done| |].
      + cbn. rewrite Hn, Hseq. f_equal. f_equal.
        clear -E. unfold new_node, place in E. destruct (find_point (wnext w) (wsys w)); [discriminate|].
        destruct (vertex_f pick (wtop w)); [|discriminate..]. by injection E as <- _.
      + constructor; [by apply Hx'|done].
  Qed.

  Lemma readElements_failed n nodes w m :
    readElements pick blk debug (S K) n nodes (w, m, None) = Ok (w, m, None).
  Proof.
    induction n as [|n IH]; [done|]. cbn [readElements read_int]. rewrite decide_False; [done|].
    rewrite cell_type_ok by lia. lia.
  Qed.

  (* a file without anything after the material of a cell *)
  Lemma readElements_ok cells rows nodes w m :
    Forall2 (λ ids ns, length ids = S (S K) ∧ refers nodes ids ns) cells rows →
    readElements pick blk debug (S K) (length cells) nodes
      (w, m, Some (concat ((λ ids : list nat,
         TInt (Z.of_nat (S (S K))) :: ((λ i, TInt (Z.of_nat i)) <$> ids) ++ [TInt 1]) <$> cells))) =
    let! (w, m) := rfold (λ s ns, insert_nodes pick blk debug (S K) ns s) (w, m) rows in
    Ok (w, m, Some []).
  Proof.
    intros H. revert w m. induction H as [|ids ns cells rows [Hl Hr] _ IH]; intros w m; [done|].
    cbn [length readElements fmap list_fmap concat rfold].
    rewrite read_int_ok, decide_True by (by rewrite cell_type_ok by lia).
    unfold readElement. rewrite <- Hl, <- app_assoc, read_ids_ok.
    rewrite (at_index_ok nodes ids ns) by done. cbn [rbind].
    destruct (insert_nodes pick blk debug (S K) ns (w, m)) as [[w1 m1]| |]; [|done..].
    cbn [rbind]. rewrite read_word_ok. rewrite Hl. apply IH.
  Qed.

  (* a file with a word after the material of each cell *)
  Lemma readElements_word cells ids ns nodes w m word after :
    length ids = S (S K) → refers nodes ids ns →
    readElements pick blk debug (S K) (S (length cells)) nodes
      (w, m, Some (concat ((λ ids : list nat,
         TInt (Z.of_nat (S (S K))) :: ((λ i, TInt (Z.of_nat i)) <$> ids) ++ TInt 1 :: TWord word :: after) <$>
           (ids :: cells)))) =
    let! (w, m) := insert_nodes pick blk debug (S K) ns (w, m) in
    Ok (w, m, match cells with
              | [] => Some (TWord word :: after)
              | _ => None
              end).
  Proof.
    intros Hl Hr. cbn [length readElements fmap list_fmap concat].
    rewrite read_int_ok, decide_True by (by rewrite cell_type_ok by lia).
    unfold readElement. rewrite <- Hl, <- app_assoc, read_ids_ok.
    rewrite (at_index_ok nodes ids ns) by done. cbn [rbind].
    destruct (insert_nodes pick blk debug (S K) ns (w, m)) as [[w1 m1]| |]; [|done..].
    cbn [rbind]. rewrite read_word_ok. destruct cells as [|ids' cells]; [cbn; by rewrite app_nil_r|].
    cbn [length readElements].
    match goal with |- context [read_int (Some ((?a :: ?l) ++ ?r))] =>
      change (read_int (Some ((a :: l) ++ r))) with ((0%Z, None) : Z * stream) end.
    cbv beta iota zeta. rewrite decide_False by (rewrite cell_type_ok by lia; lia).
    cbn [rbind]. apply readElements_failed.
  Qed.
End reader.
