(* Model of lib/mito/topology: Simplex.h, OrientedSimplex.h, utilities.h, SimplexFactory.h,
   OrientedSimplexFactory.h, Topology.icc.

   A footprint (an `unoriented_simplex_t<N>`) and an oriented simplex (a `simplex_t<N>`) are denoted
   by natural numbers, their ids (`SharedPointer::id()`, the address); ids are only unique among the
   live objects of the same kind and order N, and an id freed by an erasure may be handed out again.
   The order N, a template parameter, is an argument. *)
From stdpp Require Import base gmap list.
From Verif Require Import Base M_Perm.

(* The state of the topology (Topology.h: one OrientedSimplexFactory<N> per order N, each holding a
   SimplexFactory<N>):
   - [fps]: the repositories `_simplices` of the SimplexFactory<N>; a footprint is its `_simplices`
     array (Simplex.h line 189), a list of ids of oriented simplices of order N-1; it is empty for a
     vertex (Simplex<0>, lines 201-234);
   - [ors]: the repositories `_oriented_simplices`; an oriented simplex is its `_footprint` and its
     `_orientation` (OrientedSimplex.h lines 169-171);
   - [cmap]: the maps `_compositions` (SimplexFactory.h line 140);
   - [omap]: the maps `_orientations` (OrientedSimplexFactory.h line 257);
   - [hO], [hF]: the numbers of pointers to each oriented simplex and to each footprint that are
     held outside of the repositories: by variables of the client and by local variables of the
     functions below;
   - [clk]: a counter of the allocations, so that the allocator may answer differently at different
     times. *)
Record topo : Type := Topo {
  fps : gmap (nat * nat) (list nat);
  ors : gmap (nat * nat) (nat * Z);
  cmap : gmap (nat * list nat) nat;
  omap : gmap (nat * nat * Z) nat;
  hO : gmap (nat * nat) nat;
  hF : gmap (nat * nat) nat;
  clk : nat
}.

(* Topology.icc lines 10-16: all factories are created empty. *)
Definition topo0 : topo := Topo ∅ ∅ ∅ ∅ ∅ ∅ 0.

(* Outcomes of the functions that change the state. [Throw] is a firewall, an assert or an
   exception; the state it leaves behind matters because a client may catch it. As in
   OrientedSimplexFactory.h line 150 and Topology.icc line 143. *)
Inductive out (A : Type) : Type :=
  | Ret (a : A) (st : topo)
  | Throw (st : topo)
  | Undef.
Arguments Ret {A} a st.
Arguments Throw {A} st.
Arguments Undef {A}.

(* vocabulary of the model: a function of the state (Topology.h, the factories), no line of its own *)
Definition act (A : Type) : Type := topo → out A.

(* sequencing: vocabulary of the model, no line of its own in /repo. *)
Definition abind {A B} (m : act A) (k : A → act B) : act B := λ st,
  match m st with
  | Ret a st => k a st
  | Throw st => Throw st
  | Undef => Undef
  end.

(* notation for it: no line of /repo. *)
Notation "'do!' x ':=' m 'in' k" := (abind m (fun x => k))
  (at level 200, x pattern, m at level 100, k at level 200, right associativity).

(* `return a;`: vocabulary of the model, no line of /repo. *)
Definition aret {A} (a : A) : act A := λ st, Ret a st.
(* a firewall or a failed assert, as in OrientedSimplexFactory.h line 150, Topology.icc lines 143,
   159, 177. *)
Definition athrow {A} : act A := λ st, Throw st.

(* a function that only reads the state. Such as Simplex.h lines 56-185 and OrientedSimplex.h lines
   68-165. *)
Definition aread {A} (f : topo → res A) : act A := λ st,
  match f st with
  | Ok a => Ret a st
  | Abort => Throw st
  | Ub => Undef
  end.

(* ---- pointers held outside of the repositories, and reference counts ---- *)

(* the pointers counted in [hO] and [hF]: the clients' and the local ones among those counted by
   Shareable.icc lines 32-44. *)
Definition held (h : gmap (nat * nat) nat) (k : nat * nat) : nat := default 0 (h !! k).

(* a change of the number of pointers to oriented simplices (Shareable.icc lines 32-44). *)
Definition upd_hO (f : gmap (nat * nat) nat → gmap (nat * nat) nat) (st : topo) : topo :=
  Topo (fps st) (ors st) (cmap st) (omap st) (f (hO st)) (hF st) (clk st).
(* a change of the number of pointers to footprints (Shareable.icc lines 32-44). *)
Definition upd_hF (f : gmap (nat * nat) nat → gmap (nat * nat) nat) (st : topo) : topo :=
  Topo (fps st) (ors st) (cmap st) (omap st) (hO st) (f (hF st)) (clk st).

(* Shareable.icc lines 32-37: one more. *)
Definition inc (k : nat * nat) (h : gmap (nat * nat) nat) : gmap (nat * nat) nat :=
  <[k := S (held h k)]> h.
(* Shareable.icc lines 39-44: one less. *)
Definition dec (k : nat * nat) (h : gmap (nat * nat) nat) : gmap (nat * nat) nat :=
  <[k := pred (held h k)]> h.

(* a new pointer to an oriented simplex, to a footprint; the end of such a pointer.
   SharedPointer.icc lines 100-117. *)
Definition holdO (N o : nat) : topo → topo := upd_hO (inc (N, o)).
(* SharedPointer.icc lines 87-93, of a pointer to an oriented simplex. *)
Definition dropO (N o : nat) : topo → topo := upd_hO (dec (N, o)).
(* SharedPointer.icc lines 100-117, of a pointer to a footprint. *)
Definition holdF (N f : nat) : topo → topo := upd_hF (inc (N, f)).
(* SharedPointer.icc lines 87-93, of a pointer to a footprint. *)
Definition dropF (N f : nat) : topo → topo := upd_hF (dec (N, f)).

(* number of times [x] occurs in [l]. How many pointers of a composition (Simplex.h line 189) refer
   to the same simplex. *)
Definition count (x : nat) (l : list nat) : nat := length (filter (x =.) l).

(* SharedPointer::references() of a pointer to an oriented simplex of order [N]: the pointers held
   outside and the entries of the compositions of the footprints of order N+1. The counter is stored
   in the resource and equals the number of pointers (property C04); the model counts the pointers.
   SharedPointer.icc lines 37-43. *)
Definition refsO (st : topo) (N o : nat) : nat :=
  held (hO st) (N, o) +
  sum_list_with (λ '((d, _), c), if decide (d = S N) then count o c else 0) (map_to_list (fps st)).

(* SharedPointer::references() of a pointer to a footprint: the pointers held outside and the
   `_footprint` members of the oriented simplices of the same order. SharedPointer.icc lines 37-43 *)
Definition refsF (st : topo) (N f : nat) : nat :=
  held (hF st) (N, f) +
  sum_list_with (λ '((d, _), (g, _)), if decide (d = N ∧ g = f) then 1 else 0)
    (map_to_list (ors st)).

(* ---- reading ---- *)

(* run [f] over a list, left to right, with an accumulator (a range-for loop). As in Simplex.h lines
   66-74, utilities.h lines 147-157. *)
Fixpoint rfold {A B} (f : A → B → res A) (a : A) (l : list B) : res A :=
  match l with
  | [] => Ok a
  | b :: l => let! a := f a b in rfold f a l
  end.

(* the results of [f] on each entry. As in SimplexFactory.h lines 146-193. *)
Fixpoint rmap {A B} (f : A → res B) (l : list A) : res (list B) :=
  match l with
  | [] => Ok []
  | a :: l => let! b := f a in let! bs := rmap f l in Ok (b :: bs)
  end.

(* OrientedSimplex.h lines 68-76: `s->footprint()` and `s->orientation()`; reading a simplex that is
   not in the repository is undefined. *)
Definition oriented (st : topo) (N o : nat) : res (nat * Z) := deref (ors st !! (N, o)).
(* OrientedSimplex.h lines 68-71. *)
Definition footprint (st : topo) (N o : nat) : res nat :=
  let! p := oriented st N o in Ok p.1.

(* Simplex.h lines 56-59 *)
Definition fcomposition (st : topo) (N f : nat) : res (list nat) := deref (fps st !! (N, f)).

(* std::swap of the first two entries (of an array with at least two entries). OrientedSimplex.h
   lines 86 and 109. *)
Definition swap01 (l : list nat) : list nat :=
  match l with
  | a :: b :: l => b :: a :: l
  | _ => l
  end.

(* OrientedSimplex.h lines 79-90 *)
Definition composition (st : topo) (N o : nat) : res (list nat) :=
  let! (f, s) := oriented st N o in
  let! c := fcomposition st N f in
  Ok (if decide (s = (-1)%Z) then swap01 c else c).

(* insertion in a std::set ordered by id (SharedPointer.h lines 95-101) *)
Fixpoint set_insert (x : nat) (l : list nat) : list nat :=
  match l with
  | [] => [x]
  | y :: l' => if x <? y then x :: l
               else if x =? y then l
               else y :: set_insert x l'
  end.

(* Simplex.h lines 62-76: insert the vertices of a footprint in a set; the vertices of a member are
   those of its footprint (OrientedSimplex.h lines 93-97). Not instantiated for N = 0. *)
Fixpoint fvertex_set (st : topo) (N f : nat) (vs : list nat) : res (list nat) :=
  match N with
  | 0 => Ub
  | S N' =>
      let! c := fcomposition st N f in
      rfold (λ vs o,
        let! g := footprint st N' o in
        match N' with
        | 0 => Ok (set_insert g vs)
        | _ => fvertex_set st N' g vs
        end) vs c
  end.

(* entry [i] of an array. As in Simplex.h lines 92-131, utilities.h lines 110-127. *)
Definition entry {A} (l : list A) (i : nat) : res A := deref (l !! i).

(* append the entries of [l] that are not yet in the vector [vs] (Simplex.h lines 108-116) *)
Definition append_new (vs l : list nat) : list nat :=
  fold_left (λ vs v, if decide (v ∈ vs) then vs else vs ++ [v]) l vs.

(* Simplex.h lines 92-131 and OrientedSimplex.h lines 100-114: append the vertices of a footprint to
   a vector, in order. The vertices of the first member (an oriented simplex of order N-1 > 0) are
   those of its footprint with the first two exchanged if its orientation is -1. *)
Fixpoint fvertex_list (debug : bool) (st : topo) (N f : nat) (vs : list nat) : res (list nat) :=
  match N with
  | 0 => Ub
  | S N' =>
      let! c := fcomposition st N f in
      let! o0 := entry c 0 in
      let! o1 := entry c 1 in
      let! (g0, s0) := oriented st N' o0 in
      match N' with
      | 0 =>
          let! g1 := footprint st N' o1 in
          Ok (vs ++ [g0; g1])
      | _ =>
          let! vs := fvertex_list debug st N' g0 vs in
          let vs := if decide (s0 = (-1)%Z) then swap01 vs else vs in
          let! _ := assert_ debug (length vs =? N) in
          let! g1 := footprint st N' o1 in
          let! new := fvertex_set st N' g1 [] in
          Ok (append_new vs new)
      end
  end.

(* OrientedSimplex.h lines 134-155, N > 0. In a release build a vector longer than the array
   overruns it; a shorter one leaves null pointers at the end of the array, which the model
   represents by the shorter list. *)
Definition vertices (debug : bool) (st : topo) (N o : nat) : res (list nat) :=
  let! (f, s) := oriented st N o in
  let! vs := fvertex_list debug st N f [] in
  let vs := if decide (s = (-1)%Z) then swap01 vs else vs in
  let! _ := assert_ debug (length vs =? S N) in
  if S N <? length vs then Ub else Ok vs.

(* Simplex.h lines 135-160: the edges of a footprint of order N > 1, inserted in a set of segments
   ordered by id *)
Fixpoint fedges (st : topo) (N f : nat) (es : list nat) : res (list nat) :=
  match N with
  | 0 => Ub
  | S N' =>
      let! c := fcomposition st N f in
      match N' with
      | 0 => Ub
      | 1 => Ok (fold_left (λ es o, set_insert o es) c es)
      | _ => rfold (λ es o, let! g := footprint st N' o in fedges st N' g es) es c
      end
  end.

(* Simplex.h lines 163-185, and lines 224-229 for a vertex *)
Fixpoint fsanity (st : topo) (N f : nat) : res bool :=
  match N with
  | 0 => Ok true
  | S N' =>
      let! c := fcomposition st N f in
      let! ok := rfold (λ ok o,
        if ok : bool then let! g := footprint st N' o in fsanity st N' g else Ok false) true c in
      if ok then
        let! vs := fvertex_set st N f [] in Ok (length vs =? S N)
      else Ok false
  end.

(* OrientedSimplex.h lines 157-165 *)
Definition edges (st : topo) (N o : nat) : res (list nat) :=
  let! f := footprint st N o in fedges st N f [].
(* OrientedSimplex.h lines 164-165. *)
Definition sanity_check (st : topo) (N o : nat) : res bool :=
  let! f := footprint st N o in fsanity st N f.

(* utilities.h lines 110-127 *)
Definition tail (st : topo) (o : nat) : res nat :=
  let! c := composition st 1 o in let! v := entry c 0 in footprint st 0 v.
(* utilities.h lines 115-118. *)
Definition head (st : topo) (o : nat) : res nat :=
  let! c := composition st 1 o in let! v := entry c 1 in footprint st 0 v.
(* utilities.h lines 120-127. *)
Definition head_tail_connected (st : topo) (o1 o2 : nat) : res bool :=
  let! h := head st o1 in let! t := tail st o2 in Ok (h =? t).

(* `orientation_map[k] += z`. utilities.h lines 154-155. *)
Definition bump (m : gmap nat Z) (k : nat) (z : Z) : gmap nat Z :=
  <[k := (default 0 (m !! k) + z)%Z]> m.

(* utilities.h lines 147-157: the net orientations of the (N-2)-simplices of a composition of
   simplices of order [M] = N-1 *)
Definition net_orientations (st : topo) (M : nat) (c : list nat) : res (gmap nat Z) :=
  rfold (λ m o,
    let! (_, s) := oriented st M o in
    let! d := composition st M o in
    rfold (λ m p,
      let! (g, t) := oriented st (pred M) p in
      Ok (bump m g (t * s)%Z)) m d) ∅ c.

(* utilities.h lines 134-193, [isValid<N>] *)
Definition is_valid (debug : bool) (st : topo) (N : nat) (c : list nat) : res bool :=
  match N with
  | 0 => Ub
  | 1 =>
      let! o0 := entry c 0 in
      let! o1 := entry c 1 in
      let! (f0, s0) := oriented st 0 o0 in
      let! (f1, s1) := oriented st 0 o1 in
      Ok (negb (bool_decide (f0 = f1)) && negb (bool_decide (s0 = s1)))
  | S M =>
      let! m := net_orientations st M c in
      let! _ := assert_ debug (size m =? (N + 1) * N / 2) in
      Ok (bool_decide (map_Forall (λ _ z, z = 0%Z) m))
  end.

(* ---- the factory of footprints ---- *)

(* SimplexFactory.h lines 146-193; the same text for N = 1, 2, 3, here for every N > 0 *)
Definition footprints (st : topo) (N : nat) (c : list nat) : res (list nat) :=
  rmap (footprint st (pred N)) c.
(* SimplexFactory.h lines 146-193: the sorted footprints. *)
Definition representative (st : topo) (N : nat) (c : list nat) : res (list nat) :=
  let! l := footprints st N c in Ok (sort Nat.leb l).

(* SimplexFactory.h lines 56-75; a null pointer is [None]. `_simplices.resource(id)`
   (Repository.h lines 122-128) turns the id back into a pointer. *)
Definition find_simplex (st : topo) (N : nat) (c : list nat) : res (option nat) :=
  let! r := representative st N c in Ok (cmap st !! (N, r)).

(* The allocator: the id given to a new footprint or oriented simplex. The only fact known about the
   choice is [good_alloc]: it is not the id of a live object of the same kind. Repository.h lines
   82-98, SegmentedAllocator.h lines 213-233. *)
Record alloc : Type := Alloc {
  pickF : topo → nat → nat;
  pickO : topo → nat → nat
}.
(* a location given out is not one of a live object (Repository.h lines 82-98; proved of the
   allocator in C57-C60). *)
Definition good_alloc (al : alloc) : Prop :=
  ∀ st N, fps st !! (N, pickF al st N) = None ∧ ors st !! (N, pickO al st N) = None.

Section factories.
  Context (al : alloc) (debug : bool).

  (* Repository.h lines 82-98: `_simplices.emplace(composition)` *)
  Definition emplace_footprint (N : nat) (c : list nat) : act nat := λ st,
    let f := pickF al st N in
    Ret f (Topo (<[(N, f) := c]> (fps st)) (ors st) (cmap st) (omap st) (hO st) (hF st)
             (S (clk st))).

  (* `_compositions.insert(...)`; std::map::insert does not replace an existing entry.
     SimplexFactory.h line 100. *)
  Definition insert_cmap (N : nat) (r : list nat) (f : nat) : act unit := λ st,
    Ret tt (Topo (fps st) (ors st)
              (match cmap st !! (N, r) with Some _ => cmap st | None => <[(N, r) := f]> (cmap st) end)
              (omap st) (hO st) (hF st) (clk st)).

  (* SimplexFactory.h lines 80-105 *)
  Definition simplex_f (N : nat) (c : list nat) : act nat :=
    do! r := aread (λ st, representative st N c) in
    do! found := aread (λ st, Ok (cmap st !! (N, r))) in
    match found with
    | Some f => aret f
    | None =>
        do! f := emplace_footprint N c in
        do! _ := insert_cmap N r f in
        aret f
    end.

  (* SimplexFactory.h lines 212-216 *)
  Definition vertex_f : act nat := emplace_footprint 0 [].

  (* ---- the factory of oriented simplices ---- *)

  (* OrientedSimplexFactory.h lines 87-108 *)
  Definition find_oriented (st : topo) (N f : nat) (s : Z) : option nat := omap st !! (N, f, s).

  (* OrientedSimplexFactory.h lines 76-85 *)
  Definition exists_oriented (st : topo) (N f : nat) (s : Z) : bool :=
    match find_oriented st N f s with Some _ => true | None => false end.

  (* OrientedSimplexFactory.h lines 225-247 *)
  Definition orientation (st : topo) (N : nat) (c : list nat) (f : nat) : res Z :=
    let! ref := fcomposition st N f in
    let! a := footprints st N c in
    let! b := footprints st N ref in
    permutation_sign Nat.leb debug a b.

  (* OrientedSimplexFactory.h lines 53-74 *)
  Definition exists_composition (st : topo) (N : nat) (c : list nat) : res bool :=
    let! found := find_simplex st N c in
    match found with
    | Some f => let! s := orientation st N c f in Ok (exists_oriented st N f s)
    | None => Ok false
    end.

  (* Repository.h lines 82-98: `_oriented_simplices.emplace(simplex, orientation)` *)
  Definition emplace_oriented (N f : nat) (s : Z) : act nat := λ st,
    let o := pickO al st N in
    Ret o (Topo (fps st) (<[(N, o) := (f, s)]> (ors st)) (cmap st) (omap st) (hO st) (hF st)
             (S (clk st))).

  (* `_orientations.insert(...)`. OrientedSimplexFactory.h line 136. *)
  Definition insert_omap (N f : nat) (s : Z) (o : nat) : act unit := λ st,
    Ret tt (Topo (fps st) (ors st) (cmap st)
              (match omap st !! (N, f, s) with
               | Some _ => omap st | None => <[(N, f, s) := o]> (omap st) end)
              (hO st) (hF st) (clk st)).

  (* OrientedSimplexFactory.h lines 114-141; Topology.icc lines 76-83 *)
  Definition oriented_simplex (N f : nat) (s : Z) : act nat :=
    do! found := aread (λ st, Ok (find_oriented st N f s)) in
    match found with
    | Some o => aret o
    | None =>
        do! o := emplace_oriented N f s in
        do! _ := insert_omap N f s o in
        aret o
    end.

  (* OrientedSimplexFactory.h lines 146-165; Topology.icc lines 85-92. The firewall of line 150
     throws in every build (pyre's firewalls are fatal unless reconfigured). *)
  Definition simplex (N : nat) (c : list nat) : act nat :=
    do! ok := aread (λ st, is_valid debug st N c) in
    if ok : bool then
      do! f := simplex_f N c in
      do! s := aread (λ st, orientation st N c f) in
      oriented_simplex N f s
    else athrow.

  (* OrientedSimplexFactory.h lines 167-176; Topology.icc lines 94-101 *)
  Definition simplex0 (s : Z) : act nat :=
    do! f := vertex_f in oriented_simplex 0 f s.

  (* `assert(permutation_sign(s->vertices(), vertices) == +1)`; nothing is evaluated in a release
     build. Topology.icc lines 143, 159, 177. *)
  Definition assert_vertices (N o : nat) (vs : list nat) : act unit :=
    if debug then
      do! ws := aread (λ st, vertices debug st N o) in
      do! s := aread (λ _, permutation_sign Nat.leb debug ws vs) in
      if decide (s = 1%Z) then aret tt else athrow
    else aret tt.

  (* Topology.icc lines 135-147. The members of a braced list are evaluated from left to right. *)
  Definition segment (v0 v1 : nat) : act nat :=
    do! t := oriented_simplex 0 v0 (-1) in
    do! h := oriented_simplex 0 v1 1 in
    do! o := simplex 1 [t; h] in
    do! _ := assert_vertices 1 o [v0; v1] in
    aret o.

  (* Topology.icc lines 149-163 *)
  Definition triangle (v0 v1 v2 : nat) : act nat :=
    do! a := segment v0 v1 in
    do! b := segment v1 v2 in
    do! c := segment v2 v0 in
    do! o := simplex 2 [a; b; c] in
    do! _ := assert_vertices 2 o [v0; v1; v2] in
    aret o.

  (* Topology.icc lines 165-181 *)
  Definition tetrahedron (v0 v1 v2 v3 : nat) : act nat :=
    do! a := triangle v0 v1 v2 in
    do! b := triangle v1 v3 v2 in
    do! c := triangle v3 v1 v0 in
    do! d := triangle v3 v0 v2 in
    do! o := simplex 3 [a; b; c; d] in
    do! _ := assert_vertices 3 o [v0; v1; v2; v3] in
    aret o.

  (* Topology.icc lines 183-188: std::size of a repository counts the objects emplaced and not
     erased (property C61) *)
  Definition n_simplices (st : topo) (N : nat) : nat :=
    length (filter (λ '((d, _), _), d = N) (map_to_list (ors st))).

  (* Topology.icc lines 190-195 *)
  Definition exists_flipped (st : topo) (N o : nat) : res bool :=
    let! (f, s) := oriented st N o in Ok (exists_oriented st N f (- s)).

  (* Topology.icc lines 197-203 *)
  Definition flip (N o : nat) : act nat :=
    do! (f, s) := aread (λ st, oriented st N o) in oriented_simplex N f (- s).

  (* Topology.icc lines 258-282 *)
  Definition exists_segment (st : topo) (v0 v1 : nat) : res bool :=
    match find_oriented st 0 v0 (-1), find_oriented st 0 v1 1 with
    | Some t, Some h => exists_composition st 1 [t; h]
    | _, _ => Ok false
    end.
End factories.

(* ---- erasing ---- *)

(* SimplexFactory.h lines 109-128 and, for N = 0, lines 220-233. The caller's pointer is one of the
   pointers counted by `references()`. *)
Definition erase_footprint (N f : nat) (st : topo) : res topo :=
  if 1 <? refsF st N f then Ok st
  else
    match N with
    | 0 =>
        let! _ := fcomposition st N f in
        Ok (Topo (delete (N, f) (fps st)) (ors st) (cmap st) (omap st) (hO st) (hF st) (clk st))
    | _ =>
        let! c := fcomposition st N f in
        let! r := representative st N c in
        Ok (Topo (delete (N, f) (fps st)) (ors st) (delete (N, r) (cmap st)) (omap st) (hO st)
              (hF st) (clk st))
    end.

(* OrientedSimplexFactory.h lines 194-222. The boolean tells whether the caller's pointer was reset
   (Repository.h lines 103-119). Destroying the oriented simplex releases its pointer to the
   footprint; the local copy {footprint} (line 203) lives until the end of the function or until it
   is reset by the erasure of the footprint. *)
Definition erase_oriented (N o : nat) (st : topo) : res (topo * bool) :=
  if 1 <? refsO st N o then Ok (st, false)
  else
    let! (f, s) := oriented st N o in
    let st := holdF N f st in
    let st := Topo (fps st) (delete (N, o) (ors st)) (cmap st) (delete (N, f, s) (omap st))
                (hO st) (hF st) (clk st) in
    let st := dropO N o st in
    let! st := erase_footprint N f st in
    Ok (dropF N f st, true).

(* Topology.icc lines 205-235. [composition] is a local array of pointers; an entry is reset when
   its simplex is erased, the other entries are released at the end of the function. *)
Fixpoint erase_ (N o : nat) (st : topo) : res (topo * bool) :=
  match N with
  | 0 => erase_oriented 0 o st
  | S N' =>
      let! c := composition st N o in
      let st := fold_left (λ st x, holdO N' x st) c st in
      let! (st, gone) := erase_oriented N o st in
      let! (st, kept) := rfold (λ '(st, kept) x,
        let! (st, b) := erase_ N' x st in
        Ok (st, if b : bool then kept else kept ++ [x])) (st, []) c in
      Ok (fold_left (λ st x, dropO N' x st) kept st, gone)
  end.

(* Topology.icc lines 237-249; a null pointer is [None] *)
Definition erase (N : nat) (p : option nat) (st : topo) : res (topo * bool) :=
  match p with
  | None => Ok (st, false)
  | Some o => erase_ N o st
  end.

(* ---- clients ---- *)

(* What a client may do with the topology, in terms of the pointers it holds. Topology.icc lines
   76-203, 237-256; SharedPointer.icc lines 87-117; OrientedSimplex.h lines 68-90. *)
Inductive op : Type :=
  | OVertex                                    (* vertex() *)
  | OVertexO (s : Z)                           (* simplex<0>(s) *)
  | OOriented (N f : nat) (s : Z)              (* simplex<N>(f, s) *)
  | OComposition (N : nat) (c : list nat)      (* simplex<N>(c), segment/triangle/tetrahedron(c) *)
  | OSegment (v0 v1 : nat)
  | OTriangle (v0 v1 v2 : nat)
  | OTetrahedron (v0 v1 v2 v3 : nat)
  | OFlip (N o : nat)
  | OErase (N o : nat)
  | OCopy (N o : nat) | ODrop (N o : nat)      (* copy or destroy a pointer to an oriented simplex *)
  | OCopyF (N f : nat) | ODropF (N f : nat)    (* copy or destroy a pointer to a footprint *)
  | OFootprint (N o : nat)                     (* copy s->footprint() *)
  | OMember (N o i : nat).                     (* copy s->composition()[i] *)

(* what the client gets: nothing, a pointer to a footprint or a pointer to an oriented simplex. The
   types returned in Topology.icc lines 76-203. *)
Inductive answer : Type :=
  | ANone
  | AFootprint (N f : nat)
  | AOriented (N o : nat).

(* The pointers an operation uses are pointers the client holds; orientations are +1 or -1; the
   length of an array is fixed by its type. The client holds a pointer to this oriented simplex: an
   argument of Topology.icc lines 76-256. *)
Definition has (st : topo) (N o : nat) : Prop := 0 < held (hO st) (N, o).
(* the client holds a pointer to this footprint: an argument of Topology.icc lines 76-83, 135-181 *)
Definition hasF (st : topo) (N f : nat) : Prop := 0 < held (hF st) (N, f).
(* orientation_t has two values (OrientedSimplexFactory.h lines 114-141). *)
Definition sign (s : Z) : Prop := s = 1%Z ∨ s = (-1)%Z.

(* the calls a client can write: the arguments of Topology.icc lines 76-256 are pointers it holds *)
Definition legal (st : topo) (x : op) : Prop :=
  match x with
  | OVertex => True
  | OVertexO s => sign s
  | OOriented N f s => hasF st N f ∧ sign s
  | OComposition N c => 0 < N ∧ length c = S N ∧ Forall (has st (pred N)) c
  | OSegment v0 v1 => hasF st 0 v0 ∧ hasF st 0 v1
  | OTriangle v0 v1 v2 => hasF st 0 v0 ∧ hasF st 0 v1 ∧ hasF st 0 v2
  | OTetrahedron v0 v1 v2 v3 => hasF st 0 v0 ∧ hasF st 0 v1 ∧ hasF st 0 v2 ∧ hasF st 0 v3
  | OFlip N o | OErase N o | OCopy N o | ODrop N o | OFootprint N o => has st N o
  | OCopyF N f | ODropF N f => hasF st N f
  | OMember N o i => has st N o ∧ 0 < N ∧ i < S N
  end.

Section client.
  Context (al : alloc) (debug : bool).

  (* the client keeps the pointer it is given. The results of Topology.icc lines 76-203. *)
  Definition keepO (N : nat) (m : act nat) : act answer :=
    do! o := m in λ st, Ret (AOriented N o) (holdO N o st).
  (* the same for a footprint, Topology.icc lines 250-256. *)
  Definition keepF (N : nat) (m : act nat) : act answer :=
    do! f := m in λ st, Ret (AFootprint N f) (holdF N f st).

  (* one call of a client: Topology.icc lines 76-203, 237-256, as listed in [op]. *)
  Definition step (x : op) : act answer :=
    match x with
    | OVertex => keepF 0 (vertex_f al)
    | OVertexO s => keepO 0 (simplex0 al s)
    | OOriented N f s => keepO N (oriented_simplex al N f s)
    | OComposition N c => keepO N (simplex al debug N c)
    | OSegment v0 v1 => keepO 1 (segment al debug v0 v1)
    | OTriangle v0 v1 v2 => keepO 2 (triangle al debug v0 v1 v2)
    | OTetrahedron v0 v1 v2 v3 => keepO 3 (tetrahedron al debug v0 v1 v2 v3)
    | OFlip N o => keepO N (flip al N o)
    | OErase N o => λ st,
        match erase N (Some o) st with
        | Ok (st, _) => Ret ANone st
        | Abort => Throw st
        | Ub => Undef
        end
    | OCopy N o => keepO N (aret o)
    | ODrop N o => λ st, Ret ANone (dropO N o st)
    | OCopyF N f => keepF N (aret f)
    | ODropF N f => λ st, Ret ANone (dropF N f st)
    | OFootprint N o => keepF N (aread (λ st, footprint st N o))
    | OMember N o i => keepO (pred N) (aread (λ st, let! c := composition st N o in entry c i))
    end.

  (* the states reachable by a client from an empty topology; a client may catch what is thrown and
     go on. The calls are those of Topology.icc lines 76-256. *)
  Inductive reach : topo → Prop :=
    | reach_init : reach topo0
    | reach_ret st x a st' : reach st → legal st x → step x st = Ret a st' → reach st'
    | reach_throw st x st' : reach st → legal st x → step x st = Throw st' → reach st'.
End client.
