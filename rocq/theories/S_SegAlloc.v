(* Specification of a segmented vector in terms of the trace of calls a client made and what they
   returned; nothing here looks inside the container. *)
From stdpp Require Import base gmap list.
From Verif Require Import Base M_SegAlloc.

Section spec.
  Context {V : Type}.

  (* the elements emplaced and not erased since, by location *)
  Fixpoint contents (m : gmap addr V) (es : list (vevent (V:=V))) : gmap addr V :=
    match es with
    | [] => m
    | EvEmplace v _ a :: es => contents (<[a := v]> m) es
    | EvErase a ok :: es => contents (if ok : bool then delete a m else m) es
    end.

  (* the locations ever handed out, in order of first use *)
  Fixpoint first_uses (l : list addr) (es : list (vevent (V:=V))) : list addr :=
    match es with
    | [] => l
    | EvEmplace _ _ a :: es => first_uses (if decide (a ∈ l) then l else l ++ [a]) es
    | EvErase _ _ :: es => first_uses l es
    end.

  (* the locations freed and not reused since, oldest first *)
  Fixpoint free_queue (q : list addr) (es : list (vevent (V:=V))) : list addr :=
    match es with
    | [] => q
    | EvEmplace _ _ a :: es => free_queue (tail q) es
    | EvErase a ok :: es => free_queue (if ok : bool then q ++ [a] else q) es
    end.

  (* every object is constructed from arguments, not copied from an invalidated one *)
  Definition fresh_objects (os : list (vop (V:=V))) : Prop :=
    ∀ v valid, Emplace v valid ∈ os → valid = true.
End spec.

(* number of times an event occurs in a memory log *)
Global Instance mevent_eq_dec : EqDecision mevent.
Proof. solve_decision. Defined.
Definition occurrences (e : mevent) (l : list mevent) : nat := length (filter (λ x, x = e) l).
