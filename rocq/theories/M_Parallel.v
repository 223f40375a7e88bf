(* Model of a program run by several processes: tests/mito.lib/integration/quadrature_load_mesh_2D_mpi.cc,
   composed of the models of Partitioner.icc, Integrator.h and simulation/Context.icc. The processes have
   separate memories and communicate only in the final MPI_Reduce. *)
From stdpp Require Import base gmap list.
From Coq Require Import Reals.
From Verif Require Import M_Tensor M_Geometry M_Functions M_Quadrature.
From Verif Require Import Base M_SegAlloc M_Topology M_Mesh M_Tetra M_Partition.

(* One process: how its memory hands out addresses, its memory and the mesh it has loaded (lines 39-41 of
   the test; the reader is in M_Summit.v). *)
Record process := Process {
  p_pick : M_Topology.alloc;
  p_blk : nat → nat;
  p_world : world;
  p_mesh : mesh;
}.

(* simulation/Context.h and Context.icc lines 13-30 and 40-50: the rank of the process and the number of
   processes, as MPI tells them (0 and 1 without MPI). *)
Record context := Context {
  task_id : Z;
  n_tasks : Z;
}.
(* Context.icc lines 13-30: MPI_Comm_rank numbers the processes of the job from zero. *)
Definition contexts (n : nat) : list context := (λ r, Context (Z.of_nat r) (Z.of_nat n)) <$> seq 0 n.

Section parallel.
  Context (debug : bool) (metis : metis_args → list Z).
  (* the type of the cells, the coordinates, the volume form of the manifold, the rule and the integrand *)
  Context (N : nat) (c : chart) (w : vec → option val) (q : rule) (f : vec → R).

  (* Integrator.h lines 52-72 on the manifold of a mesh (lines 51-58 of the test). The simplex and the
     points of the nodes of each cell, in the order of the iteration. *)
  Definition integrate_mesh (cs : csys) (m : mesh) : res R :=
    let! l := mesh_cells m in
    integrate debug c w cs q (map (λ x : addr * gcell, (x.2.1, map snd x.2.2)) l) f.

  (* lines 43-58 of the test: the partition of the task and the integral on it *)
  Definition local_result (k : context) (p : process) : res R :=
    let! (w', m') := partition (p_pick p) (p_blk p) debug metis N (p_mesh p) (n_tasks k) (task_id k) (p_world p) in
    integrate_mesh (wsys w') m'.

  (* lines 58-61 of the test: the local results, and MPI_Reduce with MPI_SUM, which adds them in an order
     of its choice. The reduction does not return if a task does not reach it. *)
  Definition global_result (order : list R → list R) (job : list process) : res R :=
    let! locals := rfold (λ locals kp, let! v := local_result kp.1 kp.2 in Ok (locals ++ [v])) []
                     (zip (contexts (length job)) job) in
    Ok (fold_left Rplus (order locals) 0%R).
End parallel.
