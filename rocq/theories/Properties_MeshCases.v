(* C25-C29, C66: cases that meet the hypotheses of the theorems of Properties_Mesh.v, and
   counterexamples to the properties the code does not have. *)
From stdpp Require Import base gmap list.
From Verif Require Import Base M_SegAlloc S_SegAlloc P_SegAlloc M_Topology S_Topology P_Topology
  Properties_Topology Properties_TopologyCases M_Mesh S_Mesh P_Mesh P_MeshBoundary P_MeshBuild P_MeshDup
  Properties_Mesh.

Local Ltac splits := cbv zeta; repeat match goal with |- _ ∧ _ => split end.
Local Ltac decided :=
  match goal with |- ?P => refine (@by_decision P _ _) end; vm_compute; reflexivity.

Definition blk0 : nat → nat := id.
Lemma blk0_inj i j : blk0 i = blk0 j → i = j.
Proof. done. Qed.

(* insertions and erasures in turn, those that are not legal skipped *)
Inductive mop := MInsert (x : gcell) | MErase (a : addr).
Notation mstate := (topo * mesh * list (vevent (V:=gcell)))%type.
Definition mstep (debug : bool) (N : nat) (x : mop) (s : mstate) : mstate :=
  let '(st, m, es) := s in
  match x with
  | MInsert x =>
      if decide (has st N x.1) then
        match mesh_insert blk0 debug N x true st m with
        | Ok (st', m', a) => (st', m', es ++ [EvEmplace x true a])
        | _ => s
        end
      else s
  | MErase a =>
      if decide (a ∈ first_uses [] es) then
        match mesh_erase debug N a st m with
        | Ok m' => (st, m', es ++ [EvErase a (bool_decide (is_Some (contents ∅ es !! a)))])
        | _ => s
        end
      else s
  end.
Definition mrun (debug : bool) (N : nat) (l : list mop) (st : topo) : mstate :=
  fold_left (λ s x, mstep debug N x s) l (st, mesh0, []).
Lemma mrun_reach debug N l st :
  reach al0 debug st →
  let s := mrun debug N l st in mreach al0 blk0 debug N s.1.1 s.1.2 s.2.
Proof.
  intros Hr. cbv zeta. unfold mrun.
  assert (H0 : mreach al0 blk0 debug N (st, mesh0, [] : list (vevent (V:=gcell))).1.1
    (st, mesh0, [] : list (vevent (V:=gcell))).1.2 (st, mesh0, [] : list (vevent (V:=gcell))).2) by (by constructor).
  revert H0. generalize (st, mesh0, [] : list (vevent (V:=gcell))).
  induction l as [|x l IH]; intros [[st' m] es] H; [done|]. cbn [fold_left]. apply IH. cbn [fst snd] in H.
  destruct x as [x|a]; cbn [mstep].
  - destruct (decide (has st' N x.1)) as [Hx|]; [|done].
    destruct (mesh_insert blk0 debug N x true st' m) as [[[st2 m2] a]| |] eqn:E; [|done..].
    cbn [fst snd]. by eapply mreach_insert.
  - destruct (decide (a ∈ first_uses [] es)) as [Ha|]; [|done].
    destruct (mesh_erase debug N a st' m) as [m2| |] eqn:E; [|done..]. cbn [fst snd]. by eapply mreach_erase.
Qed.

(* two triangles 123 and 324 with a common edge, consistently oriented; the nodes are vertices paired
   with points of the same number *)
Definition stA := run true [OVertex; OVertex; OVertex; OVertex; OTriangle 1 2 3; OTriangle 3 2 4] topo0.
Definition nds (l : list nat) : list node := (λ v, (v, v)) <$> l.
Definition opsA := [MInsert (10, nds [1; 2; 3]); MInsert (16, nds [3; 2; 4])].
Definition A := mrun true 2 opsA stA.
Definition B := mrun true 2 (opsA ++ [MErase (0, 0); MInsert (16, nds [3; 2; 4]); MInsert (10, nds [1; 2; 3])]) stA.
#[local] Typeclasses Opaque has hasF sign legal run step stA A B mrun.

Lemma A_reach : mreach al0 blk0 true 2 A.1.1 A.1.2 A.2.
Proof. apply mrun_reach, run_reach. constructor. Qed.
Lemma B_reach : mreach al0 blk0 true 2 B.1.1 B.1.2 B.2.
Proof. apply mrun_reach, run_reach. constructor. Qed.
Lemma nodup_consistent L : NoDup L → consistent L.
Proof.
  intros H g s. unfold occurs. induction H as [|p L Hp _ IH]; [cbn; lia|].
  destruct (decide (p = (g, s))) as [->|]; [|by rewrite filter_cons_False].
  rewrite filter_cons_True by done.
  assert (filter (λ p, p = (g, s)) L = []) as ->; [|done].
  apply elem_of_nil_inv. intros q (-> & Hq)%elem_of_list_filter. done.
Qed.
(* the pointers the cells take are copies a client can make *)
Lemma A_listed : reach_listed al0 true A.1.1.
Proof.
  assert (E : A.1.1 = run true [OVertex; OVertex; OVertex; OVertex; OTriangle 1 2 3; OTriangle 3 2 4;
    OCopy 2 10; OCopy 2 16] topo0) by (vm_compute; reflexivity).
  rewrite E. apply run_listed; [done|constructor].
Qed.

(* C25, C26, C27, C28, C29: the hypotheses, and what the theorems say there *)
Example C28_case :
  mesh_cells A.1.2 = Ok [((0, 0), (10, nds [1; 2; 3])); ((0, 1), (16, nds [3; 2; 4]))] ∧
  nCells A.1.2 = 2%Z ∧ has A.1.1 2 10 ∧ (0, 1) ∈ first_uses [] A.2 ∧
  mesh_cells B.1.2 = Ok [((0, 0), (16, nds [3; 2; 4])); ((0, 1), (16, nds [3; 2; 4]));
                         ((0, 2), (10, nds [1; 2; 3]))] ∧ nCells B.1.2 = 3%Z.
Proof. splits; first [vm_compute; reflexivity|decided]. Qed.
Example C25_case : ori_at (mori A.1.2) 6 = (1, 1)%Z ∧ ori_at (mori A.1.2) 5 = (1, 0)%Z ∧
  ori_at (mori B.1.2) 6 = (1, 2)%Z.
Proof. splits; vm_compute; reflexivity. Qed.
Example C26_case :
  consistent (all_facets A.1.1 2 [((0, 0), (10, nds [1; 2; 3])); ((0, 1), (16, nds [3; 2; 4]))]) ∧
  composition A.1.1 2 10 = Ok [3; 6; 9] ∧ ors A.1.1 !! (1, 6) = Some (6, 1%Z) ∧
  isOnBoundary 2 A.1.1 A.1.2 6 = Ok false ∧ isOnBoundary 2 A.1.1 A.1.2 3 = Ok true.
Proof. splits; [apply nodup_consistent; decided|vm_compute; reflexivity..]. Qed.
Example C26_foreign_case :
  let C := mrun true 2 [MInsert (10, nds [1; 2; 3])] stA in
  ors C.1.1 !! (1, 13) = Some (9, 1%Z) ∧ isOnBoundary 2 C.1.1 C.1.2 13 = Abort.
Proof. splits; vm_compute; reflexivity. Qed.
Example C27_case :
  nodes_fit true A.1.1 2 [((0, 0), (10, nds [1; 2; 3])); ((0, 1), (16, nds [3; 2; 4]))] ∧
  boundary_facets 2 A.1.1 A.1.2 = Ok [(3, nds [1; 2; 3]); (9, nds [1; 2; 3]);
                                      (13, nds [3; 2; 4]); (15, nds [3; 2; 4])] ∧
  concat (fmap (M:=list) (induced A.1.1 1) [3; 9; 13; 15]) =
    [(1, (-1)%Z); (2, 1%Z); (3, (-1)%Z); (1, 1%Z); (2, (-1)%Z); (4, 1%Z); (4, (-1)%Z); (3, 1%Z)].
Proof.
  splits; [|vm_compute; reflexivity..].
  intros x [->|[->|[]%elem_of_nil]%elem_of_cons]%elem_of_cons; (split; [vm_compute; reflexivity|]);
    intros n Hn; revert n Hn; apply Forall_forall; decided.
Qed.
(* C27, N = 1: the ends of a path of two segments *)
Example C27_nodes_case :
  let C := mrun true 1 [MInsert (3, nds [1; 2]); MInsert (6, nds [2; 3])]
    (run true [OVertex; OVertex; OVertex; OSegment 1 2; OSegment 2 3] topo0) in
  mesh_cells C.1.2 = Ok [((0, 0), (3, nds [1; 2])); ((0, 1), (6, nds [2; 3]))] ∧
  nodes_fit true C.1.1 1 [((0, 0), (3, nds [1; 2])); ((0, 1), (6, nds [2; 3]))] ∧
  boundary_nodes C.1.1 C.1.2 = Ok (nds [1; 3]).
Proof.
  splits; [vm_compute; reflexivity| |vm_compute; reflexivity].
  intros x [->|[->|[]%elem_of_nil]%elem_of_cons]%elem_of_cons; (split; [vm_compute; reflexivity|]);
    intros n Hn; revert n Hn; apply Forall_forall; decided.
Qed.
Example C29_case :
  filtered_cells 1 2 A.1.1 A.1.2 = Ok (map (λ o, (o, nds [1; 2; 3])) [3; 6; 9]
                                       ++ map (λ o, (o, nds [3; 2; 4])) [11; 13; 15]).
Proof. vm_compute; reflexivity. Qed.
(* C66: the second copy of the cell on 324 goes, the first stays *)
Definition cells_of (r : res mesh) : res (list (addr * gcell)) := let! m := r in mesh_cells m.
Example C66_case :
  cells_of (erase_topological_duplicates true 2 B.1.1 B.1.2) =
    Ok [((0, 0), (16, nds [3; 2; 4])); ((0, 2), (10, nds [1; 2; 3]))] ∧
  cells_of (erase_geometrical_duplicates true 2 B.1.1 B.1.2) =
    Ok [((0, 0), (16, nds [3; 2; 4])); ((0, 2), (10, nds [1; 2; 3]))].
Proof. splits; vm_compute; reflexivity. Qed.

(* ---- counterexamples ---- *)

(* C26: a cell whose footprint was created with the opposite orientation. The cells 213 and 124 go
   through their common edge 12 in opposite directions, but composition() of the first lists the
   edges as the other orientation does: the edge is reported on the boundary by both cells. *)
Theorem C26_reversed_cell_refuted :
  ∃ st m es l, mreach al0 blk0 true 2 st m es ∧ mesh_cells m = Ok l ∧
    (λ x : addr * gcell, vertices true st 2 x.2.1) <$> l = [Ok [2; 1; 3]; Ok [1; 2; 4]] ∧
    (λ x : addr * gcell, composition st 2 x.2.1) <$> l = [Ok [6; 3; 9]; Ok [3; 16; 18]] ∧
    vertices true st 1 3 = Ok [1; 2] ∧ isOnBoundary 2 st m 3 = Ok true.
Proof.
  set (C := mrun true 2 [MInsert (14, nds [2; 1; 3]); MInsert (19, nds [1; 2; 4])]
    (run true [OVertex; OVertex; OVertex; OVertex; OTriangle 1 2 3; OTriangle 2 1 3; OTriangle 1 2 4] topo0)).
  exists C.1.1, C.1.2, C.2. eexists. split; [apply mrun_reach, run_reach; constructor|].
  splits; vm_compute; reflexivity.
Qed.

(* C27: the boundary of the boundary of one tetrahedron is not empty when one of its faces existed
   before with the other orientation *)
Theorem C27_boundary_of_boundary_refuted :
  ∃ st m es, reach_listed al0 true st ∧ mreach al0 blk0 true 3 st m es ∧ nCells m = 1%Z ∧
    match boundary al0 blk0 true 3 st m with
    | Ok (st', m') => nCells m' = 4%Z ∧ boundary_size 2 st' m' = Ok 6
    | _ => False
    end.
Proof.
  set (C := mrun true 3 [MInsert (26, nds [1; 2; 3; 4])]
    (run true [OVertex; OVertex; OVertex; OVertex; OTriangle 2 1 3; OTetrahedron 1 2 3 4] topo0)).
  exists C.1.1, C.1.2, C.2. split.
  { assert (E : C.1.1 = run true [OVertex; OVertex; OVertex; OVertex; OTriangle 2 1 3;
      OTetrahedron 1 2 3 4; OCopy 3 26] topo0) by (vm_compute; reflexivity).
    rewrite E. apply run_listed; [done|constructor]. }
  split; [apply mrun_reach, run_reach; constructor|]. split; [vm_compute; reflexivity|].
  vm_compute. split; reflexivity.
Qed.

(* C28: a cell of the mesh cannot be inserted again after it was erased. If its slot is the next one
   to be reused the argument is destroyed before it is read; otherwise the copy is born invalid: it is
   counted, its facets are registered, and no loop visits it. *)
Theorem C28_reinsert_refuted :
  ∃ st m es, mreach al0 blk0 true 2 st m es ∧ contents ∅ es !! (0, 1) = None ∧
    mesh_insert_ref blk0 true 2 (0, 0) st m = Ub ∧
    match mesh_insert_ref blk0 true 2 (0, 1) st m with
    | Ok (_, m', _) => nCells m' = 1%Z ∧ mesh_cells m' = Ok [] ∧ ori_at (mori m') 6 = (0, 1)%Z
    | _ => False
    end.
Proof.
  set (C := mrun true 2 (opsA ++ [MErase (0, 0); MErase (0, 1)]) stA).
  exists C.1.1, C.1.2, C.2. split; [apply mrun_reach, run_reach; constructor|].
  split; [vm_compute; reflexivity|]. split; [vm_compute; reflexivity|]. vm_compute. splits; reflexivity.
Qed.

Print Assumptions C28_cells.
Print Assumptions C28_insert.
Print Assumptions C28_erase.
Print Assumptions C25_counts_exact.
Print Assumptions C25_insert_erase.
Print Assumptions C26_on_boundary.
Print Assumptions C26_on_boundary_owners.
Print Assumptions C26_foreign.
Print Assumptions C27_boundary_facets.
Print Assumptions C27_boundary_once.
Print Assumptions C27_boundary_mesh_partial.
Print Assumptions C27_closed.
Print Assumptions C27_boundary_nodes_partial.
Print Assumptions C29_filtered_cells.
Print Assumptions C29_filter_mesh_partial.
Print Assumptions C66_topological_duplicates.
Print Assumptions C66_geometrical_duplicates.
Print Assumptions C26_reversed_cell_refuted.
Print Assumptions C27_boundary_of_boundary_refuted.
Print Assumptions C28_reinsert_refuted.
