(* C33: cases, and partitions computed by processes with different addresses. *)
From stdpp Require Import base gmap list sorting.
From Coq Require Import Reals.
From Verif Require Import M_Tensor M_Geometry S_Geometry.
From Verif Require Import Base M_SegAlloc S_SegAlloc P_SegAlloc M_Topology S_Topology P_Topology
  P_TopologyOrder P_TopologyCanonical Properties_Topology Properties_TopologyCases M_Mesh S_Mesh P_Mesh
  Properties_Mesh Properties_MeshCases M_Tetra S_Tetra P_Tetra
  Properties_Tetra Properties_TetraCases M_Partition S_Partition P_Partition Properties_Partition.
Open Scope nat_scope.

Local Ltac decided :=
  match goal with |- ?P => refine (@by_decision P _ _) end; vm_compute; reflexivity.

(* A partitioner that looks at the number of the first vertex of the first element. *)
Definition metis0 (args : metis_args) : list Z :=
  if decide (a_partitions args <= 0)%Z then replicate (a_elements args) 0%Z
  else match a_connectivity args with
       | 0 :: _ => (λ e, Z.of_nat e `mod` a_partitions args)%Z <$> seq 0 (a_elements args)
       | _ => (λ e, (Z.of_nat e + 1) `mod` a_partitions args)%Z <$> seq 0 (a_elements args)
       end.

Lemma metis0_paints : paints metis0.
Proof.
  intros args HP. unfold metis0. rewrite decide_False by lia.
  destruct (a_connectivity args) as [|[|] ?]; (split; [by rewrite fmap_length, seq_length|]);
    apply Forall_fmap, Forall_forall; intros e _; cbn; apply Z.mod_pos_bound; lia.
Qed.

(* two triangles: the hypotheses, what METIS is given and the partitions for its answer *)
Lemma wA_partitionable : partitionable al0 blk0 true 2 wA A.1.2 lA.
Proof.
  split; [exact wA_refinable|]. intros x Hx. unfold lA in Hx.
  repeat (apply elem_of_cons in Hx as [->|Hx]); [..|by apply elem_of_nil in Hx].
  - exists [1; 2; 3]. split; [vm_compute; reflexivity|]. exists 0. split; [by exists 0|constructor].
  - exists [3; 2; 4]. split; [vm_compute; reflexivity|]. exists 0. split; [by exists 0|constructor].
Qed.
Example C33_case :
  metis_input 2 A.1.1 A.1.2 2 = Ok (Args 2 4 [0; 3; 6] [0; 1; 2; 2; 1; 3] 2 2%Z) ∧
  metis0 (Args 2 4 [0; 3; 6] [0; 1; 2; 2; 1; 3] 2 2%Z) = [0; 1]%Z ∧
  painted [0; 1]%Z 0 lA.*2 = [(10, nds [1; 2; 3])] ∧ painted [0; 1]%Z 1 lA.*2 = [(16, nds [3; 2; 4])].
Proof. split_and!; vm_compute; reflexivity. Qed.
Example C33_case_cover :
  ∃ parts, Forall2 (λ r part, ∃ w' m' l', partition al0 blk0 true metis0 2 A.1.2 2 r wA = Ok (w', m') ∧
        mesh_cells m' = Ok l' ∧ l'.*2 = part) (seqZ 0 2) parts ∧ concat parts ≡ₚ lA.*2.
Proof. apply (C33_cover al0 al0_good blk0 blk0_inj true metis0 2 wA _ _ 2 wA_partitionable metis0_paints). lia. Qed.

(* ---- processes ---- *)

(* The partitions of one mesh are computed by different processes, one per rank. The numbers of the
   vertices depend on their addresses, so METIS may be given different numberings of the same mesh.
   Here the second process runs the same program with an allocator that hands out decreasing
   addresses. *)
Definition al1 : M_Topology.alloc := Alloc
  (λ st N, let f := 50 - size (fps st) in
           if decide (fps st !! (N, f) = None) then f else pickF al0 st N)
  (pickO al0).
Lemma al1_good : good_alloc al1.
Proof.
  intros st N. destruct (al0_good st N) as [HF HO]. split; [|exact HO]. cbn [pickF al1].
  case_decide; done.
Qed.

Fixpoint run1 (l : list op) (st : topo) : topo :=
  match l with
  | [] => st
  | x :: l =>
      run1 l (if decide (legal st x) then
                match step al1 true x st with Ret _ st => st | Throw st => st | Undef => st end
              else st)
  end.
Lemma run1_listed l st :
  forallb no_composition l = true → reach_listed al1 true st → reach_listed al1 true (run1 l st).
Proof.
  revert st. induction l as [|x l IH]; intros st Hf Hr; cbn [run1]; [done|].
  cbn [forallb] in Hf. apply andb_true_iff in Hf as [Hx Hf]. apply IH; [done|].
  assert (Hw : well_listed true st x) by (by destruct x).
  destruct (decide (legal st x)) as [Hl|]; [|done]. destruct (step al1 true x st) eqn:E; [| |done].
  - by eapply listed_ret.
  - by eapply listed_throw.
Qed.

Definition opsD : list op := [OVertex; OVertex; OVertex; OVertex; OTriangle 50 49 48; OTriangle 48 49 47].
Definition D : mstate :=
  mrun true 2 [MInsert (10, nds [50; 49; 48]); MInsert (16, nds [48; 49; 47])] (run1 opsD topo0).
Definition lD : list (addr * gcell) := [((0, 0), (10, nds [50; 49; 48])); ((0, 1), (16, nds [48; 49; 47]))].
Definition squareD : csys :=
  [(50, vec2 0%R 0%R); (49, vec2 1%R 0%R); (48, vec2 0%R 1%R); (47, vec2 1%R 1%R)].
Definition wD : world := World D.1.1 squareD 51.

Lemma D_listed : reach_listed al1 true D.1.1.
Proof.
  assert (E : D.1.1 = run1 (opsD ++ [OCopy 2 10; OCopy 2 16]) topo0) by (vm_compute; reflexivity).
  rewrite E. apply run1_listed; [done|constructor].
Qed.
Lemma mrun_reach_in al debug N l st :
  reach al debug st → let s := mrun debug N l st in mreach al blk0 debug N s.1.1 s.1.2 s.2.
Proof.
  intros Hr. cbv zeta. unfold mrun.
  assert (H0 : mreach al blk0 debug N (st, mesh0, [] : list (vevent (V:=gcell))).1.1
    (st, mesh0, [] : list (vevent (V:=gcell))).1.2 (st, mesh0, [] : list (vevent (V:=gcell))).2) by (by constructor).
  revert H0. generalize (st, mesh0, [] : list (vevent (V:=gcell))).
  induction l as [|x l IH]; intros [[st' m] es] H; [done|]. cbn [fold_left]. apply IH. cbn [fst snd] in H.
  destruct x as [x|a]; cbn [mstep].
  - destruct (decide (has st' N x.1)) as [Hx|]; [|done].
    destruct (mesh_insert blk0 debug N x true st' m) as [[[st2 m2] a]| |] eqn:E; [|done..].
    cbn [fst snd]. by eapply mreach_insert.
  - destruct (decide (a ∈ first_uses [] es)) as [Ha|]; [|done].
    destruct (mesh_erase debug N a st' m) as [m2| |] eqn:E; [|done..]. cbn [fst snd]. by eapply mreach_erase.
Qed.
Lemma D_reach : mreach al1 blk0 true 2 D.1.1 D.1.2 D.2.
Proof. apply mrun_reach_in, listed_reach, run1_listed; [done|constructor]. Qed.
Lemma wD_partitionable : partitionable al1 blk0 true 2 wD D.1.2 lD.
Proof.
  pose proof D_listed as HL. pose proof D_reach as HR.
  assert (HC : mesh_cells D.1.2 = Ok lD) by (vm_compute; reflexivity).
  assert (HV1 : vertices true D.1.1 2 10 = Ok [50; 49; 48]) by (vm_compute; reflexivity).
  assert (HV2 : vertices true D.1.1 2 16 = Ok [48; 49; 47]) by (vm_compute; reflexivity).
  assert (HF : Forall (hasF D.1.1 0) [50; 49; 48; 47]) by decided.
  unfold wD. revert HL HR HC HV1 HV2 HF. generalize D. intros [[st m] es]. cbn [fst snd].
  intros HL HR HC HV1 HV2 HF. split; [split_and!; [lia|lia|split; [done|]|by exists es|done|]|].
  - intros p Hp. cbn [wsys wnext] in *. do 51 (destruct p as [|p]; [lia|]). done.
  - intros x Hx. assert (x.2.2 ⊆ nds [50; 49; 48; 47] ∧ length x.2.2 = 3 ∧ NoDup x.2.2.*1) as (Hs & Hl & Hn).
    { unfold lD in Hx. repeat (apply elem_of_cons in Hx as [->|Hx]); [..|by apply elem_of_nil in Hx];
        (split_and!; [cbn; set_solver|done|decided]). }
    split; [done|]. split; [done|]. intros nd (v & -> & Hv)%Hs%elem_of_list_fmap. cbn [fst snd wtop wsys wnext].
    split; [by apply (proj1 (Forall_forall _ _) HF)|].
    repeat (apply elem_of_cons in Hv as [->|Hv]); [..|by apply elem_of_nil in Hv]; (split; [lia|by eexists]).
  - intros x Hx. unfold lD in Hx. repeat (apply elem_of_cons in Hx as [->|Hx]); [..|by apply elem_of_nil in Hx].
    + exists [50; 49; 48]. split; [done|]. exists 0. split; [by exists 0|constructor].
    + exists [48; 49; 47]. split; [done|]. exists 0. split; [by exists 0|constructor].
Qed.

Lemma same_mesh x (n : node) : x ∈ lA → n ∈ x.2.2 → 51 - n.1 < 51 ∧ 51 - (51 - n.1) = n.1.
Proof.
  intros Hx Hn. assert (Forall (λ x : addr * gcell, Forall (λ n : node, 0 < n.1 < 51) x.2.2) lA) as H.
  { repeat constructor; cbn; lia. }
  rewrite Forall_forall in H. specialize (H x Hx). rewrite Forall_forall in H. specialize (H n Hn). cbn in H. lia.
Qed.

(* Two processes have the same mesh of two triangles: the second one has the vertex [f v] where the first
   one has [v]. Rank 0 of the first and rank 1 of the second both have the first cell; the second cell is
   nowhere. METIS answers within its contract. *)
Theorem C33_across_processes_refuted :
  ∃ metis w m l w' m' l' (f : nat → nat) v1 p1 v2 p2 lp1 lp2,
    paints metis ∧ partitionable al0 blk0 true 2 w m l ∧ partitionable al1 blk0 true 2 w' m' l' ∧
    (∀ x n, x ∈ l → n ∈ x.2.2 → f n.1 < 51 ∧ 51 - f n.1 = n.1) ∧
    (λ x : addr * gcell, x.2.2.*1) <$> l' = (λ x : addr * gcell, f <$> x.2.2.*1) <$> l ∧
    partition al0 blk0 true metis 2 m 2 0 w = Ok (v1, p1) ∧ mesh_cells p1 = Ok lp1 ∧
    partition al1 blk0 true metis 2 m' 2 1 w' = Ok (v2, p2) ∧ mesh_cells p2 = Ok lp2 ∧
    length l = 2 ∧ lp1.*2 = take 1 l.*2 ∧ lp2.*2 = take 1 l'.*2.
Proof.
  destruct (C33_parts al0 al0_good blk0 blk0_inj true metis0 2 wA A.1.2 lA 2 0 wA_partitionable metis0_paints ltac:(lia))
    as (v1 & p1 & lp1 & q1 & E1 & Hp1 & _ & _ & H1). destruct (H1 ltac:(lia)) as ((a1 & Ea1 & ->) & _ & Hc1).
  destruct (C33_parts al1 al1_good blk0 blk0_inj true metis0 2 wD D.1.2 lD 2 1 wD_partitionable metis0_paints ltac:(lia))
    as (v2 & p2 & lp2 & q2 & E2 & Hp2 & _ & _ & H2). destruct (H2 ltac:(lia)) as ((a2 & Ea2 & ->) & _ & Hc2).
  assert (Ha1 : metis_input 2 (wtop wA) A.1.2 2 = Ok (Args 2 4 [0; 3; 6] [0; 1; 2; 2; 1; 3] 2 2%Z)) by (vm_compute; reflexivity).
  assert (Ha2 : metis_input 2 (wtop wD) D.1.2 2 = Ok (Args 2 4 [0; 3; 6] [3; 2; 1; 1; 2; 0] 2 2%Z)) by (vm_compute; reflexivity).
  rewrite Ha1 in Ea1. injection Ea1 as <-. rewrite Ha2 in Ea2. injection Ea2 as <-.
  exists metis0, wA, A.1.2, lA, wD, D.1.2, lD, (λ v, 51 - v), v1, p1, v2, p2, lp1, lp2.
  split_and!; [exact metis0_paints|exact wA_partitionable|exact wD_partitionable| |vm_compute; reflexivity|exact E1|apply Hp1|exact E2|apply Hp2|reflexivity| |].
  - exact same_mesh.
  - rewrite Hc1. vm_compute. reflexivity.
  - rewrite Hc2. vm_compute. reflexivity.
Qed.
Print Assumptions C33_across_processes_refuted.
