(* Model of lib/mito/mesh/Mesh.h, Boundary.icc, Filter.icc and of the part of
   lib/mito/geometry/utilities.h and GeometricSimplex.h they use. *)
From stdpp Require Import base gmap list.
From Verif Require Import Base M_SegAlloc M_Topology.

(* GeometricSimplex.h lines 218-221: a node is a vertex and a point (ids); nodes are held by shared
   pointers (std::shared_ptr), compared by address; simplification: the model
   identifies the nodes that ride on the same vertex and the same point. *)
Notation node := (nat * nat)%type.

(* GeometricSimplex.h lines 160-164: the oriented simplex (its id) and the nodes *)
Notation gcell := (nat * list node)%type.

(* Mesh.h lines 43-45, 210-215: `_cells`, and `_orientations`, which maps the id of a footprint of
   order N-1 to the numbers of times it appears with orientation +1 and -1 *)
Record mesh := Mesh {
  mcells : cont (gcell * bool);
  mori : gmap nat (Z * Z);
}.

(* Mesh.h lines 49-52 *)
Definition mesh0 : mesh := Mesh (cont_init 100) ∅.

(* `_orientations[id]`: a new entry is value initialised. Mesh.h lines 76-77, 115-119. *)
Definition ori_at (m : gmap nat (Z * Z)) (g : nat) : Z * Z := default (0, 0)%Z (m !! g).
(* Mesh.h lines 76-77 and 114-116: `+= 1` or `-= 1` to the count of the orientation [s]. *)
Definition ori_add (m : gmap nat (Z * Z)) (g : nat) (s d : Z) : gmap nat (Z * Z) :=
  let p := ori_at m g in
  <[g := if decide (s = 1%Z) then (p.1 + d, p.2)%Z else (p.1, p.2 + d)%Z]> m.

Section with_topology.
  (* the order N > 0 of the cells; [blk k] is the k-th block of memory of the container *)
  Context (pick : M_Topology.alloc) (blk : nat → nat) (debug : bool).

  (* Mesh.h lines 70-82 *)
  Definition register (st : topo) (N o : nat) (m : gmap nat (Z * Z)) : res (gmap nat (Z * Z)) :=
    let! c := composition st N o in
    rfold (λ m sub,
      let! (g, s) := oriented st (pred N) sub in
      Ok (ori_add m g s 1)) m c.

  (* Mesh.h lines 111-122 *)
  Definition unregister (st : topo) (N o : nat) (m : gmap nat (Z * Z)) : res (gmap nat (Z * Z)) :=
    let! c := composition st N o in
    rfold (λ m sub,
      let! (g, s) := oriented st (pred N) sub in
      let m := ori_add m g s (-1) in
      Ok (if decide (m !! g = Some (0, 0)%Z) then delete g m else m)) m c.

  (* Mesh.h lines 180-188, insert(cell), of a cell with simplex [o] and nodes [ns]; [valid] is the
     flag copied from the source. The new cell holds a pointer to the simplex; when a slot is reused
     the cell that was left in it is destroyed and releases its pointer. *)
  Definition mesh_insert (N : nat) (x : gcell) (valid : bool) (st : topo) (m : mesh)
      : res (topo * mesh * addr) :=
    let! ori := register st N x.1 (mori m) in
    let! (c, a) := vec_emplace blk debug x valid (mcells m) in
    let st := holdO N x.1 st in
    let st := match cells (mcells m) !! a with
              | Some old => dropO N (cval old).1.1 st
              | None => st
              end in
    Ok (st, Mesh c ori, a).

  (* Mesh.h lines 180-188 when the argument is a reference to a cell of the mesh itself, at [loc]: if
     the slot reused is that of the argument, the argument is destroyed before it is copied
     (SegmentedVector.h lines 80-86). *)
  Definition mesh_insert_ref (N : nat) (loc : addr) (st : topo) (m : mesh)
      : res (topo * mesh * addr) :=
    let! x := deref (cells (mcells m) !! loc) in
    let! (_, location, reused) := location_for_placement blk (al (mcells m)) in
    if (reused : bool) && bool_decide (location = loc) then Ub
    else mesh_insert N (cval x).1 (cval x).2 st m.

  (* Mesh.h lines 104-127; the cell erased keeps its pointer to the simplex until its slot is reused *)
  Definition mesh_erase (N : nat) (loc : addr) (st : topo) (m : mesh) : res mesh :=
    let! (c, erased) := vec_erase debug loc (mcells m) in
    if (erased : bool) then
      let! x := deref (cells c !! loc) in
      let! ori := unregister st N (cval x).1.1 (mori m) in
      Ok (Mesh c ori)
    else Ok (Mesh c (mori m)).

  (* Mesh.h lines 85-101 *)
  Definition nCells (m : mesh) : Z := cont_size (mcells m).
  (* a range-for over `cells()`. Mesh.h lines 91-101. *)
  Definition mesh_cells (m : mesh) : res (list (addr * gcell)) :=
    let! l := cont_range obj_valid true (mcells m) in
    Ok ((λ p : addr * (gcell * bool), (p.1, p.2.1)) <$> l).

  (* Mesh.h lines 163-177, of an oriented simplex of order N-1 *)
  Definition isOnBoundary (N : nat) (st : topo) (m : mesh) (sub : nat) : res bool :=
    let! (g, s) := oriented st (pred N) sub in
    let! p := at_or_throw (mori m !! g) in
    Ok (bool_decide ((if decide (s = (-1)%Z) then p.1 else p.2) = 0%Z)).

  (* Mesh.h lines 130-161: a loop over the cells that erases those whose footprint (topological) or
     simplex (geometrical) was seen before. [key] gives what is inserted in the set. *)
  Fixpoint erase_seen (N : nat) (key : gcell → res nat) (fuel : nat) (st : topo) (m : mesh)
      (seen : list nat) (it : iter) (e : ptr) : res mesh :=
    match fuel with
    | 0 => Ub
    | S fuel =>
        if decide (iptr it = e) then Ok m
        else
          let! a := deref (iptr it) in
          let! x := read true (mcells m) a in
          let! k := key x.1 in
          let! m := (if decide (k ∈ seen) then mesh_erase N a st m else Ok m) in
          let! it := citer_next obj_valid (cfuel (mcells m)) true (mcells m) it in
          erase_seen N key fuel st m (k :: seen) it e
    end.
  (* Mesh.h lines 135-140 and 152-157, the loop from begin() to end(). *)
  Definition erase_duplicates (N : nat) (key : gcell → res nat) (st : topo) (m : mesh) : res mesh :=
    let! b := cont_begin obj_valid true (mcells m) in
    let! e := cont_end obj_valid true (mcells m) in
    erase_seen N key (cfuel (mcells m)) st m [] b (iptr e).
  (* Mesh.h lines 130-144. *)
  Definition erase_topological_duplicates (N : nat) (st : topo) (m : mesh) : res mesh :=
    erase_duplicates N (λ x, footprint st N x.1) st m.
  (* Mesh.h lines 147-161. *)
  Definition erase_geometrical_duplicates (N : nat) (st : topo) (m : mesh) : res mesh :=
    erase_duplicates N (λ x, Ok x.1) st m.

  (* ---- Boundary.icc ---- *)

  (* `composition() | filter(isOnBoundary)` of one cell. Boundary.icc lines 43-46. *)
  Fixpoint on_boundary (N : nat) (st : topo) (m : mesh) (c : list nat) : res (list nat) :=
    match c with
    | [] => Ok []
    | sub :: c =>
        let! b := isOnBoundary N st m sub in
        let! l := on_boundary N st m c in
        Ok (if b : bool then sub :: l else l)
    end.
  (* the facets on the boundary with the nodes of their cell, in the order of the loops of lines
     20-27 and 41-52 *)
  Definition boundary_facets (N : nat) (st : topo) (m : mesh) : res (list (nat * list node)) :=
    let! l := mesh_cells m in
    rfold (λ acc x,
      let! c := composition st N x.2.1 in
      let! b := on_boundary N st m c in
      Ok (acc ++ ((λ sub, (sub, x.2.2)) <$> b))) [] l.
  (* lines 12-31 *)
  Definition boundary_size (N : nat) (st : topo) (m : mesh) : res nat :=
    let! l := boundary_facets N st m in Ok (length l).

  (* Topology.icc lines 103-133: topology.simplex<N>({vertices...}), N = 1, 2, 3 *)
  Definition simplex_of_vertices (N : nat) (vs : list nat) : act nat :=
    match N, vs with
    | 1, [a; b] => segment pick debug a b
    | 2, [a; b; c] => triangle pick debug a b c
    | 3, [a; b; c; d] => tetrahedron pick debug a b c d
    | _, _ => λ _, Undef
    end.

  (* geometry/utilities.h lines 98-106: the first node on a vertex; dereferencing the end of the
     range is undefined *)
  Definition find_node (v : nat) (ns : list node) : res node :=
    deref (list_find (λ n : node, n.1 = v) ns ≫= λ p, Some p.2).

  (* geometry/utilities.h lines 79-112, N > 0: the simplex is built again from its vertices *)
  Definition geometric_simplex (N o : nat) (ns : list node) : act gcell :=
    do! vs := aread (λ st, vertices debug st N o) in
    do! l := aread (λ _, rmap (λ v, find_node v ns) vs) in
    do! o' := simplex_of_vertices N (l.*1) in
    aret (o', l).

  (* insertion of a list of facets in a new mesh of order N: Boundary.icc lines 48-51, Filter.icc
     lines 20-24. What is thrown ends the construction. *)
  Fixpoint insert_all (N : nat) (l : list (nat * list node)) (st : topo) (m : mesh)
      : res (topo * mesh) :=
    match l with
    | [] => Ok (st, m)
    | x :: l =>
        match geometric_simplex N x.1 x.2 st with
        | Ret gc st =>
            let! (st, m, _) := mesh_insert N gc true st m in
            insert_all N l st m
        | Throw _ => Abort
        | Undef => Ub
        end
    end.

  (* Boundary.icc lines 33-56, N > 1 *)
  Definition boundary (N : nat) (st : topo) (m : mesh) : res (topo * mesh) :=
    let! l := boundary_facets N st m in
    insert_all (pred N) l st mesh0.

  (* Boundary.icc lines 33-56 with Boundary.h lines 27-36, N = 1: a set of nodes, here as a list
     without repetitions in order of first insertion *)
  Definition boundary_nodes (st : topo) (m : mesh) : res (list node) :=
    let! l := boundary_facets 1 st m in
    rfold (λ acc x,
      let! v := footprint st 0 x.1 in
      let! n := find_node v x.2 in
      Ok (if decide (n ∈ acc) then acc else acc ++ [n])) [] l.

  (* ---- Filter.icc ---- *)

  (* lines 12-42: the sub-cells of order I of a cell of order I + k, in the order of insertion *)
  Fixpoint sub_cells (I k : nat) (st : topo) (o : nat) : res (list nat) :=
    match k with
    | 0 => Ok [o]
    | S k' =>
        let! c := composition st (I + k) o in
        rfold (λ acc sub, let! l := sub_cells I k' st sub in Ok (acc ++ l)) [] c
    end.
  (* lines 44-59 *)
  Definition filtered_cells (I N : nat) (st : topo) (m : mesh) : res (list (nat * list node)) :=
    let! l := mesh_cells m in
    rfold (λ acc x,
      let! b := sub_cells I (N - I) st x.2.1 in
      Ok (acc ++ ((λ sub, (sub, x.2.2)) <$> b))) [] l.
  (* Filter.icc lines 44-59: all the cells, into a new mesh. *)
  Definition filter_mesh (I N : nat) (st : topo) (m : mesh) : res (topo * mesh) :=
    let! l := filtered_cells I N st m in
    insert_all I l st mesh0.
End with_topology.
