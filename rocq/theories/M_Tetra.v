(* Model of lib/mito/mesh/tetra.h and of the node factory of lib/mito/geometry/factories.h.

   Simplifications. A new point is numbered by the number of points made before it (PointCloud.h
   lines 56-60: the points of the cloud are never erased, so its repository never gives the address
   of a point again). A node made here is a node of a cell of the new mesh, so its pointer to its
   vertex is not released. What is thrown ends the refinement. *)
From stdpp Require Import base gmap list.
From Verif Require Import M_Tensor M_Geometry.
From Verif Require Import Base M_SegAlloc M_Topology M_Mesh.

(* what the refinement changes besides the new mesh: the topology, the coordinate system and the
   point cloud. The arguments of mesh/tetra.h lines 165-210. *)
Record world := World {
  wtop : topo;
  wsys : csys;
  wnext : nat;
}.

Section tetra.
  Context (pick : M_Topology.alloc) (blk : nat → nat) (debug : bool) (c : chart).

  (* geometry/factories.h lines 35-52; GeometricSimplex.h lines 186-189 *)
  Definition new_node (x : vec) (w : world) : res (world * node) :=
    let p := wnext w in
    match place (wsys w) p x with
    | (_, false) => Abort
    | (cs, true) =>
        match vertex_f pick (wtop w) with
        | Ret v st => Ok (World (holdF 0 v st) cs (S p), (v, p))
        | Throw _ => Abort
        | Undef => Ub
        end
    end.

  (* tetra.h lines 12-21 *)
  Definition midnode (a b : node) (w : world) : res (world * node) :=
    let! x := midpoint c (wsys w) a.2 b.2 in new_node x w.

  (* Mesh.h lines 190-202, with the constructor of the cell from its nodes, GeometricSimplex.h lines
     76-84 and 98-104. Here the facets are registered before the cell is placed; the two steps are
     independent. *)
  Definition insert_nodes (N : nat) (ns : list node) (s : world * mesh) : res (world * mesh) :=
    let w := s.1 in
    match simplex_of_vertices pick debug N (ns.*1) (wtop w) with
    | Ret o st =>
        let! (st, m, _) := mesh_insert blk debug N (o, ns) true st s.2 in
        Ok (World st (wsys w) (wnext w), m)
    | Throw _ => Abort
    | Undef => Ub
    end.

  (* tetra.h lines 23-50. {n_refinements} < 1 recurses without end. *)
  Fixpoint subdivide_segment (n_refinements : nat) (node_0 node_1 : node) (s : world * mesh)
      : res (world * mesh) :=
    match n_refinements with
    | 0 => Ub
    | S n =>
        let! (w, node_01) := midnode node_0 node_1 s.1 in
        let s := (w, s.2) in
        match n with
        | 0 =>
            rfold (λ s ns, insert_nodes 1 ns s) s
              [ [node_0; node_01];
                [node_01; node_1] ]
        | _ =>
            rfold (λ s '(a, b), subdivide_segment n a b s) s
              [ (node_0, node_01);
                (node_01, node_1) ]
        end
    end.

  (* tetra.h lines 52-90 *)
  Fixpoint subdivide_triangle (n_refinements : nat) (node_0 node_1 node_2 : node)
      (s : world * mesh) : res (world * mesh) :=
    match n_refinements with
    | 0 => Ub
    | S n =>
        let! (w, node_01) := midnode node_0 node_1 s.1 in
        let! (w, node_12) := midnode node_1 node_2 w in
        let! (w, node_20) := midnode node_2 node_0 w in
        let s := (w, s.2) in
        match n with
        | 0 =>
            rfold (λ s ns, insert_nodes 2 ns s) s
              [ [node_0; node_01; node_20];
                [node_01; node_1; node_12];
                [node_12; node_2; node_20];
                [node_20; node_01; node_12] ]
        | _ =>
            rfold (λ s '(a, b, c), subdivide_triangle n a b c s) s
              [ (node_0, node_01, node_20);
                (node_01, node_1, node_12);
                (node_12, node_2, node_20);
                (node_20, node_01, node_12) ]
        end
    end.

  (* tetra.h lines 92-163 *)
  Fixpoint subdivide_tetrahedron (n_refinements : nat) (node_0 node_1 node_2 node_3 : node)
      (s : world * mesh) : res (world * mesh) :=
    match n_refinements with
    | 0 => Ub
    | S n =>
        let! (w, node_01) := midnode node_0 node_1 s.1 in
        let! (w, node_02) := midnode node_0 node_2 w in
        let! (w, node_03) := midnode node_0 node_3 w in
        let! (w, node_12) := midnode node_1 node_2 w in
        let! (w, node_13) := midnode node_1 node_3 w in
        let! (w, node_23) := midnode node_2 node_3 w in
        let s := (w, s.2) in
        match n with
        | 0 =>
            rfold (λ s ns, insert_nodes 3 ns s) s
              [ [node_0; node_01; node_02; node_03];
                [node_1; node_01; node_13; node_12];
                [node_2; node_02; node_12; node_23];
                [node_3; node_13; node_03; node_23];
                [node_02; node_01; node_13; node_03];
                [node_02; node_03; node_13; node_23];
                [node_02; node_13; node_01; node_12];
                [node_02; node_23; node_13; node_12] ]
        | _ =>
            rfold (λ s '(a, b, c, d), subdivide_tetrahedron n a b c d s) s
              [ (node_0, node_01, node_02, node_03);
                (node_1, node_01, node_13, node_12);
                (node_2, node_02, node_12, node_23);
                (node_03, node_3, node_13, node_23);
                (node_02, node_01, node_13, node_03);
                (node_02, node_03, node_13, node_23);
                (node_01, node_02, node_13, node_12);
                (node_02, node_23, node_13, node_12) ]
        end
    end.

  (* tetra.h lines 193-205: the overload for the order of the cells; there is none for other
     orders *)
  Definition subdivide (N n_refinements : nat) (nodes : list node) (s : world * mesh)
      : res (world * mesh) :=
    match N, nodes with
    | 1, [a; b] => subdivide_segment n_refinements a b s
    | 2, [a; b; c] => subdivide_triangle n_refinements a b c s
    | 3, [a; b; c; d] => subdivide_tetrahedron n_refinements a b c d s
    | _, _ => Ub
    end.

  (* tetra.h lines 165-210. A negative {n_refinements} (recursion without end on a mesh with cells)
     is not modelled. *)
  Definition tetra (N n_refinements : nat) (m : mesh) (w : world) : res (world * mesh) :=
    let! l := mesh_cells m in
    match n_refinements with
    | 0 => rfold (λ s x, insert_nodes N x.2.2 s) (w, mesh0) l
    | _ => rfold (λ s x, subdivide N n_refinements x.2.2 s) (w, mesh0) l
    end.
End tetra.
