(* Model of lib/mito/utilities/SegmentedAllocator.h, SegmentedAllocatorIterator.h,
   SegmentedContainerIterator.h, SegmentedVector.h, Invalidatable.h *)
From stdpp Require Import base gmap list.
From Verif Require Import Base.

(* An address is a block returned by ::operator new and an offset in units of the element size; two
   different blocks never overlap. [None] is nullptr. SegmentedAllocator.h lines 134-164, where
   blocks are obtained. *)
Notation addr := (nat * nat)%type.
(* SegmentedAllocator.h lines 333-348: `_begin`, `_end` and `_end_allocation` may be null. *)
Notation ptr := (option (nat * nat)%type).

(* Pointer + integer. nullptr + k is formed by SegmentedAllocator::begin on an empty container and
   never dereferenced; it is modelled by nullptr. SegmentedAllocator.h lines 159-161, 281;
   SegmentedAllocatorIterator.h lines 68-90. *)
Definition padd (p : ptr) (k : nat) : ptr := (λ a, (a.1, a.2 + k)) <$> p.

(* SegmentedAllocator.h lines 333-348: the data members.
   [links] is the memory cell just after the last slot of each block (`*tail`, line 150), and
   [nalloc] the number of blocks obtained so far from ::operator new. *)
Record alloc := Alloc {
  ssize : nat;                (* _segment_size *)
  abegin : ptr;               (* _begin *)
  aend : ptr;                 (* _end *)
  aend_alloc : ptr;           (* _end_allocation *)
  nsegs : nat;                (* _n_segments *)
  nelems : Z;                 (* _n_elements *)
  avail : list addr;          (* _available_locations *)
  starts : gmap nat addr;     (* _start_of_segment *)
  links : gmap nat addr;
  nalloc : nat;
}.

(* lines 64-71 *)
Definition alloc_init (size : nat) : alloc := Alloc size None None None 0 0 [] ∅ ∅ 0.

Section allocator.
  (* [blk k] is the block returned by the k-th allocation of this container. *)
  Context (blk : nat → nat).

  (* lines 134-164, [_allocate_new_segment]. Line 150 writes through {_end_allocation}: the write
     is in bounds only at the link cell of a block of this container. *)
  Definition allocate_new_segment (s : alloc) : res (alloc * addr) :=
    let segment : addr := (blk (nalloc s), 0) in
    let! s := (if decide (abegin s = aend s) then
                 Ok (Alloc (ssize s) (Some segment) (aend s) (aend_alloc s) (nsegs s) (nelems s)
                       (avail s) (<[nsegs s := segment]> (starts s)) (links s) (nalloc s))
               else
                 match aend_alloc s with
                 | Some (b, off) =>
                     if decide (off = ssize s) then
                       Ok (Alloc (ssize s) (abegin s) (aend s) (aend_alloc s) (nsegs s) (nelems s)
                             (avail s) (<[nsegs s := segment]> (starts s)) (<[b := segment]> (links s))
                             (nalloc s))
                     else Ub
                 | None => Ub
                 end) in
    Ok (Alloc (ssize s) (abegin s) (Some segment) (padd (Some segment) (ssize s)) (S (nsegs s))
          (nelems s) (avail s) (starts s) (links s) (S (nalloc s)), segment).

  (* lines 166-193, [_next_available_location] *)
  Definition next_available_location (s : alloc) : ptr * bool :=
    match avail s with
    | location :: _ => (Some location, true)
    | [] => if decide (aend s = aend_alloc s) then (None, false) else (aend s, false)
    end.

  (* lines 213-233, [location_for_placement] *)
  Definition location_for_placement (s : alloc) : res (alloc * addr * bool) :=
    let '(location, reused) := next_available_location s in
    let! (s, location) := match location with
                           | None => allocate_new_segment s
                           | Some location => Ok (s, location)
                           end in
    let s := if decide (Some location = aend s)
             then Alloc (ssize s) (abegin s) (padd (aend s) 1) (aend_alloc s) (nsegs s) (nelems s)
                    (avail s) (starts s) (links s) (nalloc s)
             else s in
    Ok (s, location, reused).

  (* lines 238-253, [insert] *)
  Definition alloc_insert (debug : bool) (element : addr) (s : alloc) : res alloc :=
    let mk := λ q, Alloc (ssize s) (abegin s) (aend s) (aend_alloc s) (nsegs s) (nelems s + 1)
                     q (starts s) (links s) (nalloc s) in
    match avail s with
    | [] => Ok (mk [])
    | front :: q => let! _ := assert_ debug (bool_decide (element = front)) in Ok (mk q)
    end.

  (* lines 195-210, [_erase_check]: comparing addresses, in a segment means same block and offset
     in range. *)
  Definition erase_check (element : addr) (s : alloc) : bool :=
    existsb (λ i, match starts s !! i with
                  | Some seg => bool_decide (element.1 = seg.1) && (seg.2 <=? element.2)
                                && (element.2 <? seg.2 + ssize s)
                  | None => false
                  end) (seq 0 (nsegs s)).

  (* lines 258-271, [erase] *)
  Definition alloc_erase (debug : bool) (element : addr) (s : alloc) : res alloc :=
    let s := Alloc (ssize s) (abegin s) (aend s) (aend_alloc s) (nsegs s) (nelems s - 1)
               (avail s ++ [element]) (starts s) (links s) (nalloc s) in
    let! _ := assert_ debug (erase_check element s) in
    Ok s.

  (* lines 123-129 *)
  Definition alloc_capacity (s : alloc) : Z := Z.of_nat (nsegs s) * Z.of_nat (ssize s).
  (* SegmentedAllocator.h line 129. *)
  Definition alloc_size (s : alloc) : Z := nelems s.

  (* lines 295-320, [operator[]]: i / _segment_size and i % _segment_size truncate toward zero;
     `.at` throws for a segment that does not exist. *)
  Definition alloc_index (s : alloc) (i : Z) : res addr :=
    if decide (ssize s = 0) then Ub else
    let n_segment := Z.quot i (Z.of_nat (ssize s)) in
    let position := Z.rem i (Z.of_nat (ssize s)) in
    let! p := at_or_throw (if (n_segment <? 0)%Z then None else starts s !! Z.to_nat n_segment) in
    if (position <? 0)%Z then Ub else Ok (p.1, p.2 + Z.to_nat position).

  (* lines 74-90, the move constructor: (the new container, the source). The moved-from
     std::queue and std::unordered_map are taken to be empty, as in all implementations. The blocks
     the source allocates later are those of another sequence, so its count starts from 0. *)
  Definition alloc_move (s : alloc) : alloc * alloc :=
    (s, Alloc (ssize s) None None None 0 0 [] ∅ ∅ 0).

  (* lines 93-120, the destructor: the blocks deleted, in order. The walk follows the links. *)
  Fixpoint free_segments (fuel : nat) (s : alloc) (p : addr) : res (list nat) :=
    match fuel with
    | 0 => Ub
    | S fuel =>
        if decide (padd (Some p) (ssize s) = aend_alloc s) then Ok [p.1]
        else
          let! next := deref (links s !! p.1) in
          let! l := free_segments fuel s next in
          Ok (p.1 :: l)
    end.
  (* SegmentedAllocator.h lines 93-120, the destructor: nothing to do when no segment was allocated *)
  Definition alloc_destroy (s : alloc) : res (list nat) :=
    match abegin s with
    | None => Ok []
    | Some p => free_segments (S (nsegs s)) s p
    end.

  (* ---- SegmentedAllocatorIterator.h ---- *)

  (* lines 105-114 *)
  Record iter := Iter { iptr : ptr; isegend : ptr; iend : ptr }.

  (* SegmentedAllocator.h lines 277-292 *)
  Definition alloc_begin (s : alloc) : iter :=
    Iter (abegin s) (padd (abegin s) (ssize s)) (aend s).
  (* SegmentedAllocator.h lines 285-292. *)
  Definition alloc_end (s : alloc) : iter := Iter (aend s) (aend_alloc s) (aend s).

  (* SegmentedAllocatorIterator.h lines 68-90, prefix ++ ; the link is read from the block of the
     segment just exhausted *)
  Definition iter_next (s : alloc) (it : iter) : res iter :=
    let p := padd (iptr it) 1 in
    if decide (p = iend it) then Ok (Iter p (isegend it) (iend it))
    else if decide (p = isegend it) then
      let! b := deref p in
      let! q := deref (links s !! b.1) in
      Ok (Iter (Some q) (padd (Some q) (ssize s)) (iend it))
    else Ok (Iter p (isegend it) (iend it)).

  (* a range-for over the raw slots: `for (it = begin(); it != end(); ++it)`; the addresses visited.
     Running out of fuel (non termination) is reported as Ub. SegmentedAllocatorIterator.h lines
     68-90, 132-148. *)
  Fixpoint raw_loop (fuel : nat) (s : alloc) (it : iter) (e : ptr) : res (list addr) :=
    match fuel with
    | 0 => Ub
    | S fuel =>
        if decide (iptr it = e) then Ok []
        else
          let! a := deref (iptr it) in
          let! it' := iter_next s it in
          let! l := raw_loop fuel s it' e in
          Ok (a :: l)
    end.
  (* SegmentedAllocator.h lines 277-292: the loop started at begin() and stopped at end(). *)
  Definition raw_range (s : alloc) : res (list addr) :=
    raw_loop (S (nsegs s * ssize s)) s (alloc_begin s) (aend s).

  (* ---- containers: memory cells of the slots ---- *)

  (* An object in a slot: a serial number given at construction, whether its lifetime has not ended,
     and the content of its memory. Placed by SegmentedVector.h line 86 and Repository.h line 88. *)
  Record cell (A : Type) := Cell { cid : nat; calive : bool; cval : A }.
  Arguments Cell {A}. Arguments cid {A}. Arguments calive {A}. Arguments cval {A}.

  (* the observable events: placement new (SegmentedVector.h line 86, Repository.h line 88),
     destructor calls (SegmentedVector.h lines 49-55 and 80-83, Repository.h lines 71-77), deletion
     of a block (SegmentedAllocator.h lines 93-120). *)
  Inductive mevent := Constructed (id : nat) | Destroyed (id : nat) | Freed (block : nat).

  (* SegmentedVector.h and Repository.h, data member `_resources`, with the memory it manages and
     the log of the events. *)
  Record cont (A : Type) := Cont {
    al : alloc;
    cells : gmap addr (cell A);
    serial : nat;
    mlog : list mevent;
  }.
  Arguments Cont {A}. Arguments al {A}. Arguments cells {A}. Arguments serial {A}.
  Arguments mlog {A}.

  Section container.
    Context {A : Type} (is_valid : A → bool).

    (* SegmentedVector.h line 43, Repository.h line 68: the constructors. *)
    Definition cont_init (size : nat) : cont A := Cont (alloc_init size) ∅ 0 [].

    (* placement new at [a]; out of the slots of a block it is an out of bounds write.
       SegmentedVector.h line 86, Repository.h line 88. *)
    Definition construct (a : addr) (v : A) (c : cont A) : res (cont A) :=
      if decide (a.2 < ssize (al c)) then
        Ok (Cont (al c) (<[a := Cell (serial c) true v]> (cells c)) (S (serial c))
              (mlog c ++ [Constructed (serial c)]))
      else Ub.

    (* an explicit destructor call on the object at [a]; the memory keeps its content.
       SegmentedVector.h lines 49-55 and 80-83, Repository.h lines 71-77. *)
    Definition destroy (a : addr) (c : cont A) : res (cont A) :=
      let! x := deref (cells c !! a) in
      Ok (Cont (al c) (<[a := Cell (cid x) false (cval x)]> (cells c)) (serial c)
            (mlog c ++ [Destroyed (cid x)])).

    (* reading the object at [a]: with [strict], reading after its lifetime ended is undefined;
       otherwise the read finds what is left in memory. SegmentedContainerIterator.h lines 50 and
       92, and the `*it` of the client. *)
    Definition read (strict : bool) (c : cont A) (a : addr) : res A :=
      let! x := deref (cells c !! a) in
      if strict && negb (calive x) then Ub else Ok (cval x).

    (* SegmentedContainerIterator.h lines 82-99, prefix ++ (the recursion on line 94 as fuel) *)
    Fixpoint citer_next (fuel : nat) (strict : bool) (c : cont A) (it : iter) : res iter :=
      match fuel with
      | 0 => Ub
      | S fuel =>
          let! it := iter_next (al c) it in
          if decide (iptr it = iend it) then Ok it
          else
            let! a := deref (iptr it) in
            let! v := read strict c a in
            if is_valid v then Ok it else citer_next fuel strict c it
      end.

    (* lines 102-110, postfix ++: advances the raw iterator only *)
    Definition citer_next_postfix (c : cont A) (it : iter) : res iter := iter_next (al c) it.

    (* a bound on the recursion of SegmentedContainerIterator.h line 94: one more than the number of
       slots. *)
    Definition cfuel (c : cont A) : nat := S (nsegs (al c) * ssize (al c)).

    (* lines 44-55, the constructor *)
    Definition citer_make (strict : bool) (c : cont A) (it : iter) : res iter :=
      if decide (iptr it = iend it) then Ok it
      else
        let! a := deref (iptr it) in
        let! v := read strict c a in
        if is_valid v then Ok it else citer_next (cfuel c) strict c it.

    (* SegmentedVector.h lines 129-139, Repository.h lines 146-156: begin(), end() *)
    Definition cont_begin (strict : bool) (c : cont A) : res iter := citer_make strict c (alloc_begin (al c)).
    (* SegmentedVector.h lines 135-139, Repository.h lines 152-156. *)
    Definition cont_end (strict : bool) (c : cont A) : res iter := citer_make strict c (alloc_end (al c)).

    (* range-for over a container: the elements visited. SegmentedContainerIterator.h lines 82-99,
       138-156. *)
    Fixpoint cont_loop (fuel : nat) (strict : bool) (c : cont A) (it : iter) (e : ptr) : res (list (addr * A)) :=
      match fuel with
      | 0 => Ub
      | S fuel =>
          if decide (iptr it = e) then Ok []
          else
            let! a := deref (iptr it) in
            let! v := read strict c a in
            let! it' := citer_next (cfuel c) strict c it in
            let! l := cont_loop fuel strict c it' e in
            Ok ((a, v) :: l)
      end.
    (* the whole loop, from begin() to end(): SegmentedVector.h lines 129-139, Repository.h lines
       146-156. *)
    Definition cont_range (strict : bool) (c : cont A) : res (list (addr * A)) :=
      let! b := cont_begin strict c in
      let! e := cont_end strict c in
      cont_loop (cfuel c) strict c b (iptr e).

    (* begin() advanced [k] times with ++it; advancing past end() is undefined.
       SegmentedContainerIterator.h lines 82-99. *)
    Fixpoint cont_advance (k : nat) (strict : bool) (c : cont A) : res iter :=
      match k with
      | 0 => cont_begin strict c
      | S k =>
          let! it := cont_advance k strict c in
          if decide (iptr it = aend (al c)) then Ub else citer_next (cfuel c) strict c it
      end.

    (* destruction of every raw slot, SegmentedVector.h lines 49-55 and Repository.h lines 71-77 *)
    Fixpoint destroy_all (l : list addr) (c : cont A) : res (cont A) :=
      match l with
      | [] => Ok c
      | a :: l => let! c := destroy a c in destroy_all l c
      end.
    (* SegmentedVector.h lines 49-55, Repository.h lines 71-77, then the destructor of the
       allocator, SegmentedAllocator.h lines 93-120. *)
    Definition cont_destroy (c : cont A) : res (cont A) :=
      let! l := raw_range (al c) in
      let! c := destroy_all l c in
      let! bs := alloc_destroy (al c) in
      Ok (Cont (al c) (cells c) (serial c) (mlog c ++ (Freed <$> bs))).

    (* SegmentedVector.h line 46, the move constructor: the elements stay where they are *)
    Definition cont_move (c : cont A) : cont A * cont A :=
      let '(a1, a0) := alloc_move (al c) in
      (Cont a1 (cells c) (serial c) (mlog c), Cont a0 ∅ 0 []).

    (* SegmentedVector.h lines 58-69 and 113-123, Repository.h lines 130-140 *)
    Definition cont_index (c : cont A) (i : Z) : res addr := alloc_index (al c) i.
    (* SegmentedVector.h lines 113-117, Repository.h lines 130-134. *)
    Definition cont_size (c : cont A) : Z := alloc_size (al c).
    (* SegmentedVector.h lines 119-123, Repository.h lines 136-140. *)
    Definition cont_capacity (c : cont A) : Z := alloc_capacity (al c).
  End container.

  (* ---- SegmentedVector.h ---- *)

  (* a resource: a value and the flag of Invalidatable. Invalidatable.h line 48. *)
  Notation obj V := (V * bool)%type.
  Section vector.
    Context {V : Type} (debug : bool).

    (* Invalidatable.icc lines 12-17. *)
    Definition obj_valid (x : obj V) : bool := x.2.

    (* lines 73-93, [emplace]; [valid] is the flag of the object constructed: true for an object
       built from other arguments (Invalidatable.icc), that of the source for a copy *)
    Definition vec_emplace (v : V) (valid : bool) (c : cont (obj V)) : res (cont (obj V) * addr) :=
      let! (a, location, reused) := location_for_placement (al c) in
      let c := Cont a (cells c) (serial c) (mlog c) in
      let! c := (if (reused : bool) then destroy location c else Ok c) in
      let! c := construct location (v, valid) c in
      let! a := alloc_insert debug location (al c) in
      Ok (Cont a (cells c) (serial c) (mlog c), location).

    (* lines 96-111, [erase] of the resource at [loc] *)
    Definition vec_erase (loc : addr) (c : cont (obj V)) : res (cont (obj V) * bool) :=
      let! x := deref (cells c !! loc) in
      if negb (calive x) then Ub
      else if negb (obj_valid (cval x)) then Ok (c, false)
      else
        let c := Cont (al c) (<[loc := Cell (cid x) true ((cval x).1, false)]> (cells c))
                   (serial c) (mlog c) in
        let! a := alloc_erase debug loc (al c) in
        Ok (Cont a (cells c) (serial c) (mlog c), true).

    (* the calls of a client: emplace (SegmentedVector.h lines 73-93) and erase (lines 96-111). *)
    Inductive vop := Emplace (v : V) (valid : bool) | Erase (loc : addr).

    (* what the client sees of each call. SegmentedVector.h lines 73-111, the values returned. *)
    Inductive vevent := EvEmplace (v : V) (valid : bool) (loc : addr) | EvErase (loc : addr) (ok : bool).

    (* one call: SegmentedVector.h lines 73-93 or 96-111. *)
    Definition vstep (c : cont (obj V)) (o : vop) : res (cont (obj V) * vevent) :=
      match o with
      | Emplace v valid => let! (c, a) := vec_emplace v valid c in Ok (c, EvEmplace v valid a)
      | Erase a => let! (c, b) := vec_erase a c in Ok (c, EvErase a b)
      end.

    (* a sequence of calls (SegmentedVector.h lines 73-111). *)
    Fixpoint vrun (c : cont (obj V)) (os : list vop) : res (cont (obj V) * list vevent) :=
      match os with
      | [] => Ok (c, [])
      | o :: os =>
          let! (c, e) := vstep c o in
          let! (c, es) := vrun c os in
          Ok (c, e :: es)
      end.
  End vector.
End allocator.
Arguments Cell {A}. Arguments cid {A}. Arguments calive {A}. Arguments cval {A}.
Arguments Cont {A}. Arguments al {A}. Arguments cells {A}. Arguments serial {A}.
Arguments mlog {A}.
