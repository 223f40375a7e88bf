(* Specification of a repository in terms of the trace of the client's calls. *)
From stdpp Require Import base gmap list.
From Verif Require Import Base M_SegAlloc M_Repository.

Section spec.
  Context {V : Type}.
  Implicit Types (es : list (revent (V:=V))).

  (* the resources emplaced and not erased, with the number of pointers to each that are in use *)
  Definition held1 (m : gmap addr (V * Z)) (e : revent (V:=V)) : gmap addr (V * Z) :=
    match e with
    | EvREmplace v a => <[a := (v, 1%Z)]> m
    | EvRCopy a => alter (λ x, (x.1, x.2 + 1)%Z) a m
    | EvRDrop a => alter (λ x, (x.1, x.2 - 1)%Z) a m
    | EvRErase a => delete a m
    end.
  Definition held (m : gmap addr (V * Z)) es : gmap addr (V * Z) := fold_left held1 es m.

  (* The client copies and drops only pointers it holds to resources that are in the repository, and
     erases a resource only through the last pointer to it. *)
  Fixpoint disciplined (m : gmap addr (V * Z)) es : Prop :=
    match es with
    | [] => True
    | e :: es =>
        match e with
        | EvREmplace _ _ => True
        | EvRCopy a | EvRDrop a => ∃ v k, m !! a = Some (v, k) ∧ (1 <= k)%Z
        | EvRErase a => ∃ v, m !! a = Some (v, 1%Z)
        end ∧ disciplined (held1 m e) es
    end.

  Fixpoint rfirst_uses (l : list addr) es : list addr :=
    match es with
    | [] => l
    | EvREmplace _ a :: es => rfirst_uses (if decide (a ∈ l) then l else l ++ [a]) es
    | _ :: es => rfirst_uses l es
    end.

  Fixpoint rfree_queue (q : list addr) es : list addr :=
    match es with
    | [] => q
    | EvREmplace _ _ :: es => rfree_queue (tail q) es
    | EvRErase a :: es => rfree_queue (q ++ [a]) es
    | _ :: es => rfree_queue q es
    end.
End spec.
