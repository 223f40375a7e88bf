(* Model of lib/mito/mesh/metis/Partitioner.icc. METIS itself is external: [metis] is what
   METIS_PartMeshDual writes in {painting}, as a function of what it is given. *)
From stdpp Require Import base gmap list.
From Verif Require Import M_Tensor M_Geometry.
From Verif Require Import Base M_SegAlloc M_Topology M_Mesh M_Tetra.

(* Partitioner.icc lines 12-39. {id_to_vertex} is the set of the vertices in the order of their ids
   (SharedPointer.h lines 95-101); the map {vertex_to_id} sends the vertex at position [i] to [i], and
   is represented by that vector: a lookup is a search for the position. *)
Definition populate_vertices_map (N : nat) (st : topo) (m : mesh) : res (list nat) :=
  let! l := mesh_cells m in
  rfold (λ vs x, let! f := footprint st N x.2.1 in fvertex_set st N f vs) [] l.

(* `vertex_to_id.at(v)`. Partitioner.icc line 63. *)
Fixpoint position_of (v : nat) (ids : list nat) : option nat :=
  match ids with
  | [] => None
  | w :: ids => if decide (v = w) then Some 0 else S <$> position_of v ids
  end.

(* Partitioner.icc lines 41-74: a vector of zeros, then one write per node of each cell. A write past
   the end of the vector is undefined. *)
Definition write (i x : nat) (arr : list nat) : res (list nat) :=
  if i <? length arr then Ok (<[i := x]> arr) else Ub.
(* Partitioner.icc lines 41-74, all the cells. *)
Definition populate_element_connectivity (N : nat) (cells : list (addr * gcell)) (ids : list nat)
    : res (list nat) :=
  let n_vertices_per_element := S N in
  let! (arr, _) := rfold (λ '(arr, e) x,
    let! (arr, _) := rfold (λ '(arr, v) (node : node),
      let! id := at_or_throw (position_of node.1 ids) in
      let! arr := write (n_vertices_per_element * e + v) id arr in
      Ok (arr, S v)) (arr, 0) x.2.2 in
    Ok (arr, S e)) (replicate (length cells * n_vertices_per_element) 0, 0) cells in
  Ok arr.

(* Partitioner.icc lines 92-96: {element_index} *)
Fixpoint element_index (n_vertices_per_element n : nat) (node_index : nat) : list nat :=
  match n with
  | 0 => []
  | S n => node_index :: element_index n_vertices_per_element n (node_index + n_vertices_per_element)
  end.

(* the arguments of METIS_PartMeshDual (lines 108-110) *)
Record metis_args := Args {
  a_elements : nat;
  a_vertices : nat;
  a_index : list nat;
  a_connectivity : list nat;
  a_common : nat;
  a_partitions : Z;
}.

Section partition.
  Context (pick : M_Topology.alloc) (blk : nat → nat) (debug : bool).
  Context (metis : metis_args → list Z).

  (* Partitioner.icc lines 119-139; reading past the end of {painting} is undefined *)
  Definition create_partitioned_mesh (N : nat) (cells : list (addr * gcell)) (painting : list Z)
      (n_rank : Z) (w : world) : res (world * mesh) :=
    let! (w, m, _) := rfold (λ '(w, m, e) x,
      let! p := deref (painting !! e) in
      if decide (p = n_rank) then
        let! (st, m, _) := mesh_insert blk debug N x.2 true (wtop w) m in
        Ok (World st (wsys w) (wnext w), m, S e)
      else Ok (w, m, S e)) (w, mesh0, 0) cells in
    Ok (w, m).

  (* what is handed to METIS: lines 161-177 and 76-117 *)
  Definition metis_input (N : nat) (st : topo) (m : mesh) (n_partitions : Z) : res metis_args :=
    let! ids := populate_vertices_map N st m in
    let! l := mesh_cells m in
    let! conn := populate_element_connectivity N l ids in
    Ok (Args (length l) (length ids) (element_index (S N) (S (length l)) 0) conn N n_partitions).

  (* Partitioner.icc lines 141-184. The copy made for a single partition is inserted from the nodes of
     each cell, as in Mesh.h lines 190-202. *)
  Definition partition (N : nat) (m : mesh) (n_partitions n_rank : Z) (w : world)
      : res (world * mesh) :=
    if decide (n_partitions = 1%Z) then
      let! l := mesh_cells m in
      rfold (λ s x, insert_nodes pick blk debug N x.2.2 s) (w, mesh0) l
    else
      let! args := metis_input N (wtop w) m n_partitions in
      let! l := mesh_cells m in
      create_partitioned_mesh N l (metis args) n_rank w.
End partition.
