(* Model of lib/mito/utilities/SharedPointer.{h,icc} and Shareable.{h,icc} *)
From stdpp Require Import base gmap.
From Verif Require Import Base.

(* SharedPointer.h, the class; the objects of the client. *)
Definition var := nat.      (* a SharedPointer object of the program *)
(* SharedPointer.icc lines 28-35, the value of `handle()`. *)
Definition handle := nat.   (* the address of a Shareable resource *)

(* [vars]: the SharedPointer objects alive and their `_handle` (None: nullptr); [counts]: the
   Shareable resources alive and their `_reference_count`. SharedPointer.icc lines 28-43,
   Shareable.h: `_handle` and `_reference_count`. *)
Record pstate := PState {
  vars : gmap var (option handle);
  counts : gmap handle Z;
}.

(* the start of a program: no pointer (SharedPointer.icc lines 95-107 not yet run) and no resource *)
Definition pinit : pstate := PState ∅ ∅.

(* SharedPointer.icc lines 171-179 and Shareable.icc lines 32-37, [_acquire]: dereferences the
   handle without a null check. *)
Definition acquire (h : option handle) (s : pstate) : res pstate :=
  match h with
  | None => Ub
  | Some h => let! c := deref (counts s !! h) in Ok (PState (vars s) (<[h := (c + 1)%Z]> (counts s)))
  end.

(* SharedPointer.icc lines 181-196 and Shareable.icc lines 39-44, [_release]. *)
Definition release (h : option handle) (s : pstate) : res pstate :=
  match h with
  | None => Ok s
  | Some h => let! c := deref (counts s !! h) in Ok (PState (vars s) (<[h := (c - 1)%Z]> (counts s)))
  end.

(* the writes to `_handle`: SharedPointer.icc lines 53, 95-127, 129-168. *)
Definition set_handle (x : var) (h : option handle) (s : pstate) : pstate :=
  PState (<[x := h]> (vars s)) (counts s).

(* Storage for a new SharedPointer object; the variable must not be in use. SharedPointer.icc lines
   95-127, the constructors. *)
Definition declare (x : var) (s : pstate) : res unit :=
  match vars s !! x with Some _ => Ub | None => Ok tt end.

(* the calls of a client: SharedPointer.icc lines 45-57 (reset), 87-168 (destructor, constructors,
   assignments); Shareable.icc line 23. *)
Inductive pop :=
  | NewResource (h : handle)             (* Shareable.icc line 23: counter starts at 0 *)
  | CtorHandle (x : var) (h : option handle)
  | CtorDefault (x : var)
  | CopyCtor (x y : var)
  | MoveCtor (x y : var)
  | CopyAssign (x y : var)
  | MoveAssign (x y : var)
  | Reset (x : var)
  | Destroy (x : var).

(* SharedPointer.icc lines 45-57 and 87-168, by kind of call; the lines are given in each branch. *)
Definition pstep (s : pstate) (o : pop) : res pstate :=
  match o with
  | NewResource h =>
      match counts s !! h with
      | Some _ => Ub
      | None => Ok (PState (vars s) (<[h := 0%Z]> (counts s)))
      end
  | CtorHandle x h =>                       (* SharedPointer.icc lines 101-107 *)
      let! _ := declare x s in
      acquire h (set_handle x h s)
  | CtorDefault x =>                        (* lines 96-98 *)
      let! _ := declare x s in
      Ok (set_handle x None s)
  | CopyCtor x y =>                         (* lines 110-117 *)
      let! _ := declare x s in
      let! h := deref (vars s !! y) in
      acquire h (set_handle x h s)
  | MoveCtor x y =>                         (* lines 120-127 *)
      let! _ := declare x s in
      let! h := deref (vars s !! y) in
      Ok (set_handle y None (set_handle x h s))
  | CopyAssign x y =>                       (* lines 130-147 *)
      let! hx := deref (vars s !! x) in
      let! hy := deref (vars s !! y) in
      if decide (hy = hx) then Ok s
      else
        let! s := release hx s in
        acquire hy (set_handle x hy s)
  | MoveAssign x y =>                       (* lines 150-168 *)
      let! hx := deref (vars s !! x) in
      let! hy := deref (vars s !! y) in
      if decide (hy = hx) then Ok (set_handle y None s)
      else
        let! s := release hx s in
        Ok (set_handle y None (set_handle x hy s))
  | Reset x =>                              (* lines 45-57 *)
      let! h := deref (vars s !! x) in
      let! s := release h s in
      Ok (set_handle x None s)
  | Destroy x =>                            (* lines 88-93 *)
      let! h := deref (vars s !! x) in
      let! s := release h s in
      Ok (PState (delete x (vars s)) (counts s))
  end.

(* a sequence of such calls (SharedPointer.icc lines 45-168), which stops at the first that does not
   return. *)
Fixpoint prun (s : pstate) (os : list pop) : res pstate :=
  match os with
  | [] => Ok s
  | o :: os => let! s := pstep s o in prun s os
  end.

(* SharedPointer.icc lines 37-43, [references] *)
Definition references (s : pstate) (x : var) : res Z :=
  let! h := deref (vars s !! x) in
  let! h := deref h in
  deref (counts s !! h).

(* Shareable.icc lines 12-17, [is_valid] *)
Definition is_valid (c : Z) : bool := (0 <? c)%Z.
