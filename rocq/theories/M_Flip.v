(* Model of lib/mito/topology/FlipDiagonal.icc.

   A {std::set} of pointers is the increasing list of their ids (SharedPointer.h lines 95-101). The
   pointers held by the local variables are not counted: nothing is erased meanwhile. *)
From stdpp Require Import base gmap list.
From Verif Require Import Base M_Perm M_Topology.

(* the first entry of a list that passes a test, in a loop with a return or a break. As in
   FlipDiagonal.icc lines 18-28 and 68-74. *)
Definition first_match (test : nat → res bool) (l : list nat) : res (option nat) :=
  rfold (λ acc y,
    match acc with
    | Some _ => Ok acc
    | None => let! b := test y in Ok (if b : bool then Some y else None)
    end) None l.

(* lines 13-33 *)
Definition find_shared_simplex (st : topo) (t0 t1 : nat) : res nat :=
  let! c0 := composition st 2 t0 in
  let! found := first_match (λ x,
    let! c1 := composition st 2 t1 in
    let! found := first_match (λ y,
      let! f := footprint st 1 x in
      let! g := footprint st 1 y in
      Ok (f =? g)) c1 in
    Ok (match found with Some _ => true | None => false end)) c0 in
  let! x := at_or_throw found in
  footprint st 1 x.

(* lines 35-60. {std::set_difference} of two increasing sequences: the entries of the first that are
   not in the second. *)
Definition opposite_vertices (debug : bool) (st : topo) (t0 t1 shared : nat) : res (list nat) :=
  let! f0 := footprint st 2 t0 in
  let! vs := fvertex_set st 2 f0 [] in
  let! f1 := footprint st 2 t1 in
  let! vs := fvertex_set st 2 f1 vs in
  let! ws := fvertex_set st 1 shared [] in
  let opposite := filter (λ v, v ∉ ws) vs in
  let! _ := assert_ debug (length opposite =? 2) in
  Ok opposite.

(* lines 100-105 and 108-113 *)
Definition boundary_insert (st : topo) (t shared : nat) (boundary : list nat) : res (list nat) :=
  let! c := composition st 2 t in
  rfold (λ boundary x,
    let! f := footprint st 1 x in
    Ok (if f =? shared then boundary else set_insert x boundary)) boundary c.

(* an array of pointers; [None] is a null pointer, which must not be dereferenced. FlipDiagonal.icc
   lines 116-117. *)
Notation pointers := (list (option nat)).

(* lines 63-76: the set, the array and {subsimplex_to_erase} after it *)
Definition erase_subsimplex (st : topo) (i : nat) (s : list nat * pointers * nat) : res (list nat * pointers * nat) :=
  let '(boundary, c, to_erase) := s in
  let! found := first_match (λ y,
    let! p := entry c i in
    let! x := deref p in
    head_tail_connected st x y) boundary in
  let '(c, to_erase) := match found with
    | Some y => (<[S i := Some y]> c, y)
    | None => (c, to_erase)
    end in
  Ok (filter (λ y, y ≠ to_erase) boundary, c, to_erase).

(* {assert(headTailConnected(c[2], c[0]))}: nothing is evaluated in a release build.
   FlipDiagonal.icc lines 127 and 138. *)
Definition assert_closed (debug : bool) (st : topo) (c : pointers) : res unit :=
  if debug then
    let! p := entry c 2 in
    let! x := deref p in
    let! q := entry c 0 in
    let! y := deref q in
    let! b := head_tail_connected st x y in
    assert_ debug b
  else Ok tt.

(* lines 98-138: the compositions of the two new triangles, from the two diagonals *)
Definition new_compositions (debug : bool) (st : topo) (t0 t1 shared diagonal opposite : nat) : res (pointers * pointers) :=
  let! boundary := boundary_insert st t0 shared [] in
  let! _ := assert_ debug (length boundary =? 2) in
  let! boundary := boundary_insert st t1 shared boundary in
  let! _ := assert_ debug (length boundary =? 4) in
  let! to_erase := entry boundary 0 in
  let! s := erase_subsimplex st 0 (boundary, [Some diagonal; None; None], to_erase) in
  let! (boundary, c0, to_erase) := erase_subsimplex st 1 s in
  let! _ := assert_ debug (length boundary =? 2) in
  let! _ := assert_closed debug st c0 in
  let! s := erase_subsimplex st 0 (boundary, [Some opposite; None; None], to_erase) in
  let! (boundary, c1, to_erase) := erase_subsimplex st 1 s in
  let! _ := assert_ debug (length boundary =? 0) in
  let! _ := assert_closed debug st c1 in
  Ok (c0, c1).

(* lines 78-146 *)
Definition flip_diagonal (al : alloc) (debug : bool) (t0 t1 : nat) : act (nat * nat) :=
  do! shared := aread (λ st, find_shared_simplex st t0 t1) in
  do! vs := aread (λ st, opposite_vertices debug st t0 t1 shared) in
  do! v0 := aread (λ _, entry vs 0) in
  do! v1 := aread (λ _, entry vs 1) in
  do! diagonal := segment al debug v0 v1 in
  do! opposite := segment al debug v1 v0 in
  do! cs := aread (λ st, new_compositions debug st t0 t1 shared diagonal opposite) in
  do! c0 := aread (λ _, rmap deref cs.1) in
  do! n0 := simplex al debug 2 c0 in
  do! c1 := aread (λ _, rmap deref cs.2) in
  do! n1 := simplex al debug 2 c1 in
  aret (n0, n1).
