(* Model of lib/mito/io/vtk: MeshVTKWriter.h, NodeVTKWriter.h, PointCloudVTKWriter.h, FieldVTKWriter.h,
   vtk_point.h.

   Simplifications: a vtk grid is the list of its points and, for each cell, the ids of its points; the
   kind of cell that is inserted (vtk_cell.h) and the files vtk writes are not modelled. *)
From stdpp Require Import base gmap list.
From Coq Require Import Reals.
From Verif Require Import M_Tensor M_Geometry.
From Verif Require Import Base M_SegAlloc M_Topology M_Mesh M_Discrete.
Open Scope nat_scope.

Record grid := Grid {
  g_points : list vec;
  g_cells : list (list nat);
}.

(* vtk_point.h lines 15-70; there is none for other coordinates (they do not link) *)
Definition vtk_point (c : chart) (coord : vec) : res vec :=
  match c with
  | Cartesian 3 => Ok (vec3 (coord 0) (coord 1) (coord 2))
  | Cartesian 2 => Ok (vec3 (coord 0) (coord 1) 0%R)
  | Cartesian 1 => Ok (vec3 (coord 0) 0%R 0%R)
  | Spherical =>
      let x := spherical_to_cart coord in Ok (vec3 (x 0) (x 1) (x 2))
  | Polar =>
      let x := polar_to_cart coord in Ok (vec3 (x 0) (x 1) 0%R)
  | _ => Abort
  end.

Section writer.
  Context {A : Type} `{Countable A}.
  Context (debug : bool) (c : chart) (cs : csys).
  (* what a node of a cell is numbered by: MeshVTKWriter.h, the node itself; NodeVTKWriter.h, the
     discretization node {function_space.node_map().at(node)} *)
  Context (key : node → res A).

  (* MeshVTKWriter.h lines 36-56, NodeVTKWriter.h lines 45-68: the map, the next index and the points *)
  Definition vtk_number (cells : list (list node)) : res (gmap A nat * nat * list vec) :=
    rfold (λ s nodes,
      rfold (λ '(ids, index, points) (n : node),
        let! k := key n in
        match (ids : gmap A nat) !! k with
        | Some _ => Ok (ids, index, points)
        | None =>
            let! coord := coordinates cs n.2 in
            let! p := vtk_point c coord in
            Ok (<[k := index]> ids, S index, points ++ [p])
        end) s nodes) (∅, 0, []) cells.

  (* MeshVTKWriter.h lines 58-81, NodeVTKWriter.h lines 70-95 *)
  Definition vtk_cell (ids : gmap A nat) (nodes : list node) : res (list nat) :=
    rmap (λ n : node,
      let! k := key n in
      let! _ := assert_ debug (bool_decide (is_Some (ids !! k))) in
      at_or_throw (ids !! k)) nodes.

  (* MeshVTKWriter.h lines 34-96, NodeVTKWriter.h lines 42-111: the map {_nodes} and the grid *)
  Definition create_vtk_grid (cells : list (list node)) : res (gmap A nat * grid) :=
    let! (ids, _, points) := vtk_number cells in
    let! cs := rmap (vtk_cell ids) cells in
    Ok (ids, Grid points cs).

  (* FieldVTKWriter.h lines 84-130, first branch. [visit]: the order of the loop over the map {_nodes};
     a tuple that is not set is [None]; to set one out of the array is undefined. *)
  Definition attach_nodal_field {Y} (visit : gmap A nat → list (A * nat)) (ids : gmap A nat) (g : grid)
      (field : gmap A Y) : res (list (option Y)) :=
    rfold (λ arr '(k, index),
      let! y := read field k in
      if index <? length arr then Ok (<[index := Some y]> arr) else Ub)
      (replicate (length (g_points g)) None) (visit ids).
End writer.

(* the writer of a mesh. MeshVTKWriter.h lines 34-88, vtk/factories.h lines 12-18. *)
Definition mesh_vtk_writer (debug : bool) (c : chart) (cs : csys) (m : mesh) : res (gmap node nat * grid) :=
  let! l := mesh_cells m in
  create_vtk_grid debug c cs (λ n : node, Ok n) ((λ x : addr * gcell, x.2.2) <$> l).

(* the writer of a function space, from its elements (their cells) and its node map. NodeVTKWriter.h
   lines 42-102, vtk/factories.h lines 28-35. *)
Definition node_vtk_writer (debug : bool) (c : chart) (cs : csys) (cells : list (list node))
    (node_map : gmap node nat) : res (gmap nat nat * grid) :=
  create_vtk_grid debug c cs (λ n : node, at_or_throw (node_map !! n)) cells.

Section cloud.
  Context (c : chart) (cs : csys).
  (* the order in which a loop over the set {_points} visits it: the same in both loops, since the set
     is not changed between them *)
  Context (order : gset nat → list nat).

  (* PointCloudVTKWriter.h lines 36-59 *)
  Definition cloud_vtk_writer (cloud : list nat) : res (gset nat * grid) :=
    let points := foldl (λ points p, {[p]} ∪ points) ∅ cloud in
    let! ps := rmap (λ p, let! coord := coordinates cs p in vtk_point c coord) (order points) in
    Ok (points, Grid ps []).

  (* FieldVTKWriter.h lines 84-130, second branch *)
  Definition attach_point_field {Y} (points : gset nat) (g : grid) (field : gmap nat Y)
      : res (list (option Y)) :=
    let! (arr, _) := rfold (λ '(arr, index) p,
      let! y := read field p in
      if index <? length arr then Ok (<[index := Some y]> arr, S index) else Ub)
      (replicate (length (g_points g)) None, 0) (order points) in
    Ok arr.
End cloud.
