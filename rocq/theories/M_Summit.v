(* Model of lib/mito/io/summit: MeshSummitWriter.h, summit_cell.h, reader.h.

   Simplifications. A file is the list of the words in it, as the formatted input and output of
   streams see them; blanks and ends of lines are not represented. [dec] is what becomes of a number
   written with {std::setprecision(15)} and read again. *)
From stdpp Require Import base gmap list strings.
From Coq Require Import Reals.
From Verif Require Import M_Tensor M_Geometry.
From Verif Require Import Base M_SegAlloc M_Topology M_Mesh M_Tetra.
Open Scope nat_scope.

(* the words of a file: an integer, a number with a decimal point or exponent, another word. Read
   with `>>` in reader.h lines 23, 54, 101, 116, 147, 160, 167, 171. *)
Inductive token :=
  | TInt (z : Z)
  | TReal (x : R)
  | TWord (s : string).

(* an input stream: what is left to read, [None] once an extraction has failed. The `std::ifstream`
   of reader.h lines 135-180. *)
Notation stream := (option (list token)).

(* `int i = 0; fileStream >> i;` leaves zero in [i] when it fails (C++11). Simplification: it fails
   on a number that is not an integer (it would read the part before the decimal point). reader.h
   lines 54, 116, 147, 160, 167, 171. *)
Definition read_int (s : stream) : Z * stream :=
  match s with
  | Some (TInt z :: s) => (z, Some s)
  | _ => (0%Z, None)
  end.
(* `double x; fileStream >> x;`. Simplification: zero also for a stream that had failed before (it
   would leave [x] as it is). reader.h line 23. *)
Definition read_real (s : stream) : R * stream :=
  match s with
  | Some (TReal x :: s) => (x, Some s)
  | Some (TInt z :: s) => (IZR z, Some s)
  | _ => (0%R, None)
  end.
(* `std::string w; fileStream >> w;`. reader.h line 101. *)
Definition read_word (s : stream) : stream :=
  match s with
  | Some (_ :: s) => Some s
  | _ => None
  end.

(* summit_cell.h lines 16-32: segments, triangles, tetrahedra; there is none for other cells *)
Definition cell_type (N : nat) : Z :=
  match N with
  | 1 => 2%Z
  | 2 => 3%Z
  | 3 => 4%Z
  | _ => 0%Z
  end.

Section summit.
  Context (pick : M_Topology.alloc) (blk : nat → nat) (debug : bool) (c : chart).
  Context (dec : R → R).
  (* the order in which a loop over an {std::unordered_map} visits its entries *)
  Context (entries : gmap nat Z → list (nat * Z)).

  (* ---- MeshSummitWriter.h ---- *)

  (* the constructor: lines 35-59 *)
  Definition number_points (l : list (addr * gcell)) : gmap nat Z :=
    (foldl (λ s x,
      foldl (λ '(points, index) (n : node),
        match points !! n.2 with
        | Some _ => (points, index)
        | None => (<[n.2 := index]> points, (index + 1)%Z)
        end) s x.2.2) (∅, 1%Z) l).1.

  (* lines 79-83: the vector is filled with null pointers first; a write out of its range is
     undefined *)
  Definition points_vector (points : gmap nat Z) : res (list (option nat)) :=
    rfold (λ v '(p, index),
      if decide (0 <= index - 1 < Z.of_nat (length v))%Z
      then Ok (<[Z.to_nat (index - 1) := Some p]> v) else Ub)
      (replicate (size points) None) (entries points).

  (* lines 85-92; the coordinates of a null pointer are not in the map *)
  Definition write_point (cs : csys) (p : option nat) : res (list token) :=
    let! p := at_or_throw p in
    let! coord := coordinates cs p in
    Ok ((λ d, TReal (dec (coord d))) <$> seq 0 (dim c)).

  (* lines 94-102 *)
  Definition write_cell (N : nat) (points : gmap nat Z) (element_type : list token)
      (x : addr * gcell) : res (list token) :=
    let! ids := rmap (λ n : node, at_or_throw (points !! n.2)) x.2.2 in
    Ok (TInt (cell_type N) :: (TInt <$> ids) ++ TInt 1 :: element_type).

  (* lines 64-109 *)
  Definition summit_write (N : nat) (cs : csys) (m : mesh) (element_type : list token)
      : res (list token) :=
    let! l := mesh_cells m in
    let points := number_points l in
    let! v := points_vector points in
    let! coords := rmap (write_point cs) v in
    let! cells := rmap (write_cell N points element_type) l in
    Ok ([TInt (Z.of_nat (dim c)); TInt (Z.of_nat (size points)); TInt (nCells m); TInt 1]
          ++ concat coords ++ concat cells).

  (* ---- reader.h ---- *)

  (* lines 20-24 *)
  Fixpoint read_reals (n : nat) (s : stream) : list R * stream :=
    match n with
    | 0 => ([], s)
    | S n =>
        let '(x, s) := read_real s in
        let '(xs, s) := read_reals n s in (x :: xs, s)
    end.

  (* lines 11-38 *)
  Fixpoint readVertices (n : nat) (w : world) (s : stream) (nodes : list node)
      : res (world * stream * list node) :=
    match n with
    | 0 => Ok (w, s, nodes)
    | S n =>
        let '(xs, s) := read_reals (dim c) s in
        let! (w, node) := new_node pick (λ i, nth i xs 0%R) w in
        readVertices n w s (nodes ++ [node])
    end.

  (* lines 49-59 *)
  Fixpoint read_ids (n : nat) (s : stream) : list Z * stream :=
    match n with
    | 0 => ([], s)
    | S n =>
        let '(id, s) := read_int s in
        let '(ids, s) := read_ids n s in ((id - 1)%Z :: ids, s)
    end.

  (* `nodes[index]`: undefined out of the range of the vector. reader.h lines 70 and 90. *)
  Definition at_index (nodes : list node) (i : Z) : res node :=
    if decide (0 <= i)%Z then deref (nodes !! Z.to_nat i) else Ub.

  (* lines 40-105. A continuous and a discontinuous mesh differ in the instances of the nodes, which
     the model does not distinguish (M_Mesh.v). *)
  Definition readElement (N : nat) (nodes : list node) (wms : world * mesh * stream)
      : res (world * mesh * stream) :=
    let '(w, m, s) := wms in
    let '(index, s) := read_ids (S N) s in
    let! ns := rmap (at_index nodes) index in
    let! (w, m) := insert_nodes pick blk debug N ns (w, m) in
    Ok (w, m, read_word s).

  (* lines 107-127 *)
  Fixpoint readElements (N : nat) (n : nat) (nodes : list node) (wms : world * mesh * stream)
      : res (world * mesh * stream) :=
    match n with
    | 0 => Ok wms
    | S n =>
        let '(w, m, s) := wms in
        let '(ty, s) := read_int s in
        let! wms :=
          if decide (ty = cell_type N) then readElement N nodes (w, m, s) else Ok (w, m, s) in
        readElements N n nodes wms
    end.

  (* lines 129-191, for a stream that is open; {nodes.reserve} throws for a negative number *)
  Definition reader (N : nat) (w : world) (file : list token) : res (world * mesh) :=
    let s := Some file in
    let '(d, s) := read_int s in
    let! _ := assert_ debug (bool_decide (d = Z.of_nat (dim c))) in
    let '(N_vertices, s) := read_int s in
    let! _ := if decide (N_vertices < 0)%Z then Abort else Ok tt in
    let '(N_cells, s) := read_int s in
    let '(N_cell_types, s) := read_int s in
    let! _ := assert_ debug (bool_decide (N_cell_types = 1%Z)) in
    let! (w, s, nodes) := readVertices (Z.to_nat N_vertices) w s [] in
    let! (w, m, _) := readElements N (Z.to_nat N_cells) nodes (w, mesh0, s) in
    let! _ := assert_ debug (bool_decide (Z.of_nat (length nodes) = N_vertices)) in
    let! _ := assert_ debug (bool_decide (nCells m = N_cells)) in
    Ok (w, m).
End summit.
