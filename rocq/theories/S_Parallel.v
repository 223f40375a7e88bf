(* Specification vocabulary for the processes of a job. *)
From stdpp Require Import base gmap list.
From Coq Require Import Reals.
From Verif Require Import M_Tensor M_Geometry S_Geometry.
From Verif Require Import Base M_SegAlloc M_Topology S_Topology M_Mesh S_Mesh M_Tetra S_Tetra M_Partition S_Partition M_Parallel.

Local Open Scope nat_scope.

(* The process has the mesh whose cells have the vertices [cells] (vertices are numbers here) at the
   positions [X]: its i-th cell has the i-th nodes, the vertex [v] is at the address [adr v] and the node on
   it is at [X v]. The cells are on different simplices. *)
Definition has_mesh (p : process) (l : list (addr * gcell)) (cells : list (list nat)) (X : nat → vec) (adr : nat → nat) : Prop :=
  mesh_cells (p_mesh p) = Ok l ∧ NoDup (l.*2.*1) ∧
  Forall2 (λ (x : addr * gcell) c, Forall2 (λ (n : node) v, n.1 = adr v ∧ find_point n.2 (wsys (p_world p)) = Some (X v)) x.2.2 c) l cells.

(* The addresses of the vertices are in the order of their numbers. *)
Definition in_order (cells : list (list nat)) (adr : nat → nat) : Prop :=
  ∀ u v, u ∈ concat cells → v ∈ concat cells → u < v → adr u < adr v.

(* The cell (by the numbers of its vertices) of a cell in the memory of a process. *)
Definition stands_for (adr : nat → nat) (gc : gcell) (c : list nat) : Prop := gc.2.*1 = adr <$> c.
