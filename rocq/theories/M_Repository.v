(* Model of lib/mito/utilities/Repository.h: a segmented container of reference counted resources. *)
From stdpp Require Import base gmap list.
From Verif Require Import Base M_SegAlloc.

Section repository.
  (* [strict]: touching an object whose lifetime has ended is undefined behaviour, as in the C++
     standard; otherwise it finds what is left in memory, as compiled code usually does. *)
  Context {V : Type} (blk : nat → nat) (strict debug : bool).

  (* a resource and its reference count (Shareable.h line 53) *)
  Notation rsc := (V * Z)%type.

  (* Shareable.icc lines 12-17, [is_valid] *)
  Definition rsc_valid (x : rsc) : bool := (0 <? x.2)%Z.

  (* Shareable.icc lines 32-44 through SharedPointer.icc lines 171-196: ++ and -- of the count of the
     resource at [a] *)
  Definition add_ref (d : Z) (a : addr) (c : cont rsc) : res (cont rsc) :=
    let! x := deref (cells c !! a) in
    if strict && negb (calive x) then Ub
    else Ok (Cont (al c) (<[a := Cell (cid x) (calive x) ((cval x).1, (cval x).2 + d)%Z]> (cells c))
               (serial c) (mlog c)).

  (* Repository.h lines 81-98, [emplace]; the pointer returned holds one reference
     (SharedPointer.icc lines 101-107, then elided or moved) *)
  Definition repo_emplace (v : V) (c : cont rsc) : res (cont rsc * addr) :=
    let! (a, location, _) := location_for_placement blk (al c) in
    let c := Cont a (cells c) (serial c) (mlog c) in
    let! c := construct location (v, 0%Z) c in
    let! a := alloc_insert debug location (al c) in
    let c := Cont a (cells c) (serial c) (mlog c) in
    let! c := add_ref 1 location c in
    Ok (c, location).

  (* Repository.h lines 103-119, [erase] through a non-null pointer to [loc]; it always returns
     true. Line 115, reset(), releases the reference after the destructor ran. *)
  Definition repo_erase (loc : addr) (c : cont rsc) : res (cont rsc) :=
    let! a := alloc_erase debug loc (al c) in
    let c := Cont a (cells c) (serial c) (mlog c) in
    let! c := destroy loc c in
    add_ref (-1) loc c.

  (* calls of the client: emplace; copying, dropping a shared pointer to [a]; erase through one.
     Repository.h lines 82-119, SharedPointer.icc lines 87-93, 109-117. *)
  Inductive rop := REmplace (v : V) | RCopy (a : addr) | RDrop (a : addr) | RErase (a : addr).

  (* Repository.h lines 82-119: what the client sees of each call. *)
  Inductive revent := EvREmplace (v : V) (a : addr) | EvRCopy (a : addr) | EvRDrop (a : addr) | EvRErase (a : addr).

  (* one call: Repository.h lines 82-98 or 103-119, SharedPointer.icc lines 87-93 or 109-117. *)
  Definition rstep (c : cont rsc) (o : rop) : res (cont rsc * revent) :=
    match o with
    | REmplace v => let! (c, a) := repo_emplace v c in Ok (c, EvREmplace v a)
    | RCopy a => let! c := add_ref 1 a c in Ok (c, EvRCopy a)
    | RDrop a => let! c := add_ref (-1) a c in Ok (c, EvRDrop a)
    | RErase a => let! c := repo_erase a c in Ok (c, EvRErase a)
    end.

  (* a sequence of such calls (Repository.h lines 82-119). *)
  Fixpoint rrun (c : cont rsc) (os : list rop) : res (cont rsc * list revent) :=
    match os with
    | [] => Ok (c, [])
    | o :: os =>
        let! (c, e) := rstep c o in
        let! (c, es) := rrun c os in
        Ok (c, e :: es)
    end.
End repository.
