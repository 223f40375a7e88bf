(* C85: a job of three processes that have the unit square at different addresses, and one of two processes
   that have its vertices in opposite orders. *)
From stdpp Require Import base gmap list sorting.
From Coq Require Import Reals Lra.
From Verif Require Import M_Tensor M_Geometry S_Geometry P_Volume Properties_Geometry M_Functions P_Functions.
From Verif Require Import M_Quadrature S_Quadrature P_Quadrature P_Integrator Properties_Integrator.
From Verif Require Import Base M_SegAlloc S_SegAlloc P_SegAlloc M_Topology S_Topology P_Topology
  P_TopologyOrder P_TopologyCanonical Properties_Topology Properties_TopologyCases M_Mesh S_Mesh P_Mesh
  Properties_Mesh Properties_MeshCases M_Tetra S_Tetra P_Tetra
  Properties_Tetra Properties_TetraCases M_Partition S_Partition P_Partition Properties_Partition Properties_PartitionCases.
From Verif Require Import M_Parallel S_Parallel P_Parallel Properties_Parallel.
Local Open Scope nat_scope.

Local Ltac decided :=
  match goal with |- ?P => refine (@by_decision P _ _) end; vm_compute; reflexivity.

(* the square, with the corners numbered 0 to 3 *)
Definition sq_cells : list (list nat) := [[0; 1; 2]; [2; 1; 3]].
Definition sq_at (v : nat) : vec := match v with 0 => vec2 0 0 | 1 => vec2 1 0 | 2 => vec2 0 1 | _ => vec2 1 1 end.

(* a process that made another vertex before *)
Definition stG := run true [OVertex; OVertex; OVertex; OVertex; OVertex; OTriangle 2 3 4; OTriangle 4 3 5] topo0.
Definition G := mrun true 2 [MInsert (10, nds [2; 3; 4]); MInsert (16, nds [4; 3; 5])] stG.
Definition squareG : csys := [(2, vec2 0%R 0%R); (3, vec2 1%R 0%R); (4, vec2 0%R 1%R); (5, vec2 1%R 1%R)].
Definition wG : world := World G.1.1 squareG 6.
Definition lG : list (addr * gcell) := [((0, 0), (10, nds [2; 3; 4])); ((0, 1), (16, nds [4; 3; 5]))].
#[local] Typeclasses Opaque has hasF sign legal run step stG G mrun.

Lemma G_listed : reach_listed al0 true G.1.1.
Proof.
  assert (E : G.1.1 = run true [OVertex; OVertex; OVertex; OVertex; OVertex; OTriangle 2 3 4; OTriangle 4 3 5; OCopy 2 10; OCopy 2 16] topo0)
    by (vm_compute; reflexivity).
  rewrite E. apply run_listed; [done|constructor].
Qed.
Lemma wG_partitionable : partitionable al0 blk0 true 2 wG G.1.2 lG.
Proof.
  pose proof G_listed as HL. assert (HR : mreach al0 blk0 true 2 G.1.1 G.1.2 G.2) by (apply mrun_reach, run_reach; constructor).
  assert (HC : mesh_cells G.1.2 = Ok lG) by (vm_compute; reflexivity).
  assert (HV1 : vertices true G.1.1 2 10 = Ok [2; 3; 4]) by (vm_compute; reflexivity).
  assert (HV2 : vertices true G.1.1 2 16 = Ok [4; 3; 5]) by (vm_compute; reflexivity).
  assert (HF : Forall (hasF G.1.1 0) [2; 3; 4; 5]) by decided.
  unfold wG. revert HL HR HC HV1 HV2 HF. generalize G. intros [[st m] es]. cbn [fst snd].
  intros HL HR HC HV1 HV2 HF. split; [split_and!; [lia|lia|split; [done|]|by exists es|done|]|].
  - intros p Hp. cbn [wsys wnext] in *. do 6 (destruct p as [|p]; [lia|]). done.
  - intros x Hx. assert (x.2.2 ⊆ nds [2; 3; 4; 5] ∧ length x.2.2 = 3 ∧ NoDup x.2.2.*1) as (Hs & Hl & Hn).
    { unfold lG in Hx. repeat (apply elem_of_cons in Hx as [->|Hx]); [..|by apply elem_of_nil in Hx];
        (split_and!; [cbn; set_solver|done|decided]). }
    split; [done|]. split; [done|]. intros nd (v & -> & Hv)%Hs%elem_of_list_fmap. cbn [fst snd wtop wsys wnext].
    split; [by apply (proj1 (Forall_forall _ _) HF)|].
    repeat (apply elem_of_cons in Hv as [->|Hv]); [..|by apply elem_of_nil in Hv]; (split; [lia|by eexists]).
  - intros x Hx. unfold lG in Hx. repeat (apply elem_of_cons in Hx as [->|Hx]); [..|by apply elem_of_nil in Hx].
    + exists [2; 3; 4]. split; [done|]. exists 0. split; [by exists 0|constructor].
    + exists [4; 3; 5]. split; [done|]. exists 0. split; [by exists 0|constructor].
Qed.

Definition procA := Process al0 blk0 wA A.1.2.
Definition procG := Process al0 blk0 wG G.1.2.
Definition procD := Process al1 blk0 wD D.1.2.

Lemma A_has : has_mesh procA lA sq_cells sq_at (λ v, v + 1).
Proof.
  split_and!; [exact A_cells|decided|]. unfold lA, sq_cells. cbn [p_world procA wsys wA].
  repeat constructor.
Qed.
Lemma G_has : has_mesh procG lG sq_cells sq_at (λ v, v + 2).
Proof.
  split_and!; [vm_compute; reflexivity|decided|]. unfold lG, sq_cells. cbn [p_world procG wsys wG].
  repeat constructor.
Qed.
(* the addresses decrease *)
Lemma D_has : has_mesh procD lD sq_cells sq_at (λ v, 50 - v).
Proof.
  split_and!; [vm_compute; reflexivity|decided|]. unfold lD, sq_cells. cbn [p_world procD wsys wD].
  repeat constructor.
Qed.

Lemma case_ready p : p ∈ [procA; procG; procA] → ∃ l adr, ready true 2 sq_cells sq_at p l adr.
Proof.
  assert (HA : ready true 2 sq_cells sq_at procA lA (λ v, v + 1)).
  { split_and!; [exact al0_good|exact blk0_inj|exact wA_partitionable|exact A_has|intros u v _ _; lia]. }
  assert (HG : ready true 2 sq_cells sq_at procG lG (λ v, v + 2)).
  { split_and!; [exact al0_good|exact blk0_inj|exact wG_partitionable|exact G_has|intros u v _ _; lia]. }
  intros Hp. repeat (apply elem_of_cons in Hp as [->|Hp]); [..|by apply elem_of_nil in Hp]; eauto.
Qed.

#[local] Opaque A G D.

Lemma A_integral q f : integrate_mesh true (Cartesian 2) (volume_form (Cartesian 2)) q f (wsys wA) A.1.2
  = Ok (S_Geometry.total (map (λ xs, simplex_volume xs * S_Geometry.total (map (λ pw, snd pw * f (barycentric 2 xs (fst pw))) q))
      (map (map sq_at) sq_cells)))%R.
Proof.
  unfold integrate_mesh. rewrite A_cells. cbn [rbind]. apply cartesian_value; [lia|]. split.
  - apply NoDup_ListNoDup. decided.
  - unfold lA, sq_cells. cbn. repeat constructor.
Qed.

(* Three processes, whatever METIS and MPI do: the integral of x y over the square is 1/4. *)
Example C85_case metis order : paints metis → (∀ l, order l ≡ₚ l) →
  global_result true metis 2 (Cartesian 2) (volume_form (Cartesian 2)) triangle_2 (poly [(1%R, [1; 1])]) order [procA; procG; procA] = Ok (1 / 4)%R.
Proof.
  intros Hm Ho. apply (C85_integral_partial true metis Hm 2 (Cartesian 2) (volume_form (Cartesian 2)) triangle_2 _ order Ho sq_cells sq_at
    [procA; procG; procA] ltac:(done) case_ready procA); [left|]. cbn [p_world p_mesh procA]. rewrite A_integral.
  f_equal. unfold sq_cells, simplex_volume, S_Geometry.total, vsub, barycentric, combo, poly. cbn.
  unfold S_Geometry.total. cbn. lra.
Qed.
Example C85_case_cover metis : paints metis → ∃ parts : list (list (list nat)), length parts = 3 ∧ concat parts ≡ₚ sq_cells.
Proof.
  intros Hm. destruct (C85_cover_partial true metis Hm 2 sq_cells sq_at [procA; procG; procA] ltac:(done) case_ready) as (parts & HF & Hc).
  exists parts. split; [|done]. by rewrite <- (Forall2_length _ _ _ HF).
Qed.

Local Lemma local_one metis p k w' m' l' q f gcs v : 
  partition (p_pick p) (p_blk p) true metis 2 (p_mesh p) (n_tasks k) (task_id k) (p_world p) = Ok (w', m') →
  mesh_cells m' = Ok l' → l'.*2 = gcs →
  integrate true (Cartesian 2) (volume_form (Cartesian 2)) (wsys (p_world p)) q ((λ gc : gcell, (gc.1, gc.2.*2)) <$> gcs) f = Ok v →
  local_result true metis 2 (Cartesian 2) (volume_form (Cartesian 2)) q f k p = Ok v.
Proof.
  intros E El Eg Ev. unfold local_result. rewrite E. cbn [rbind]. rewrite (partition_wsys _ _ _ _ _ _ _ _ _ _ _ E).
  unfold integrate_mesh. rewrite El. cbn [rbind]. rewrite <- Ev, <- Eg. f_equal. by rewrite <- list_fmap_compose.
Qed.

(* Two processes have the square, one with the addresses of the vertices in the opposite order: with a METIS
   that answers within its contract, what they compute for the integral of x is not the integral of x. *)
Theorem C85_addresses_refuted : ∃ metis job l0 l1 adr0 adr1 f,
  paints metis ∧ length job = 2 ∧
  (∃ p, job !! 0 = Some p ∧ has_mesh p l0 sq_cells sq_at adr0 ∧ partitionable (p_pick p) (p_blk p) true 2 (p_world p) (p_mesh p) l0 ∧
    integrate_mesh true (Cartesian 2) (volume_form (Cartesian 2)) triangle_1 f (wsys (p_world p)) (p_mesh p) = Ok (1 / 2)%R) ∧
  (∃ p, job !! 1 = Some p ∧ has_mesh p l1 sq_cells sq_at adr1 ∧ partitionable (p_pick p) (p_blk p) true 2 (p_world p) (p_mesh p) l1) ∧
  global_result true metis 2 (Cartesian 2) (volume_form (Cartesian 2)) triangle_1 f (λ l, l) job = Ok (1 / 3)%R.
Proof.
  exists metis0, [procA; procD], lA, lD, (λ v, v + 1), (λ v, 50 - v), (λ y : vec, y 0). split; [exact metis0_paints|]. split; [done|].
  split; [|split].
  - exists procA. split_and!; [done|exact A_has|exact wA_partitionable|]. cbn [p_world p_mesh procA]. rewrite A_integral.
    f_equal. unfold sq_cells, simplex_volume, S_Geometry.total, vsub, barycentric, combo. cbn. lra.
  - exists procD. split_and!; [done|exact D_has|exact wD_partitionable].
  - destruct (C33_parts al0 al0_good blk0 blk0_inj true metis0 2 wA A.1.2 lA 2 0 wA_partitionable metis0_paints ltac:(lia))
      as (v1 & p1 & lp1 & q1 & E1 & Hp1 & _ & _ & H1). destruct (H1 ltac:(lia)) as ((a1 & Ea1 & ->) & _ & Hc1).
    destruct (C33_parts al1 al1_good blk0 blk0_inj true metis0 2 wD D.1.2 lD 2 1 wD_partitionable metis0_paints ltac:(lia))
      as (v2 & p2 & lp2 & q2 & E2 & Hp2 & _ & _ & H2). destruct (H2 ltac:(lia)) as ((a2 & Ea2 & ->) & _ & Hc2).
    assert (Ha1 : metis_input 2 (wtop wA) A.1.2 2 = Ok (Args 2 4 [0; 3; 6] [0; 1; 2; 2; 1; 3] 2 2%Z)) by (vm_compute; reflexivity).
    assert (Ha2 : metis_input 2 (wtop wD) D.1.2 2 = Ok (Args 2 4 [0; 3; 6] [3; 2; 1; 1; 2; 0] 2 2%Z)) by (vm_compute; reflexivity).
    rewrite Ha1 in Ea1. injection Ea1 as <-. rewrite Ha2 in Ea2. injection Ea2 as <-.
    assert (Hc1' : lp1.*2 = [(10, nds [1; 2; 3])]) by (rewrite Hc1; vm_compute; reflexivity).
    assert (Hc2' : lp2.*2 = [(10, nds [50; 49; 48])]) by (rewrite Hc2; vm_compute; reflexivity).
    unfold global_result. change (zip (contexts (length [procA; procD])) [procA; procD]) with [(Context 0 2, procA); (Context 1 2, procD)]. cbn [rfold fst snd].
    rewrite (local_one metis0 procA (Context 0 2) v1 p1 lp1 triangle_1 (λ y : vec, y 0) _ (1 / 6)%R E1 ltac:(apply Hp1) Hc1').
    2:{ rewrite (cartesian_value true 2 _ _ _ [[vec2 0 0; vec2 1 0; vec2 0 1]]%R); [|lia|split; [apply NoDup_ListNoDup; decided|cbn; repeat constructor]].
        f_equal. unfold simplex_volume, S_Geometry.total, vsub, barycentric, combo. cbn. lra. }
    cbn [rbind List.app fst snd].
    rewrite (local_one metis0 procD (Context 1 2) v2 p2 lp2 triangle_1 (λ y : vec, y 0) _ (1 / 6)%R E2 ltac:(apply Hp2) Hc2').
    2:{ rewrite (cartesian_value true 2 _ _ _ [[vec2 0 0; vec2 1 0; vec2 0 1]]%R); [|lia|split; [apply NoDup_ListNoDup; decided|cbn; repeat constructor]].
        f_equal. unfold simplex_volume, S_Geometry.total, vsub, barycentric, combo. cbn. lra. }
    cbn [rbind List.app fold_left]. f_equal. lra.
Qed.
Print Assumptions C85_addresses_refuted.
