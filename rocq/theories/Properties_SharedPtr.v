(* C04: utilities/SharedPointer *)
From stdpp Require Import base gmap.
From Verif Require Import Base M_SharedPtr S_SharedPtr P_SharedPtr.

(* C04, for every history without a move assignment between two pointers to the same resource: the
   counter of every resource is exactly the number of pointers designating it. *)
Theorem C04_count_is_number_of_pointers :
  ∀ os s h c, prun pinit os = Ok s → ¬ aliased_move os → counts s !! h = Some c →
    c = pointers_to s h.
Proof. exact prun_exact. Qed.
Print Assumptions C04_count_is_number_of_pointers.

(* C04, for every history: the counter never under-reports. *)
Theorem C04_count_never_too_small :
  ∀ os s h c, prun pinit os = Ok s → counts s !! h = Some c → (pointers_to s h <= c)%Z.
Proof. exact prun_safe. Qed.
Print Assumptions C04_count_never_too_small.

(* C04, for every history: a pointer that is not null designates a live, valid resource, and
   references() on it is defined and positive. *)
Theorem C04_no_dangling_pointer :
  ∀ os s x h, prun pinit os = Ok s → vars s !! x = Some (Some h) →
    ∃ c, counts s !! h = Some c ∧ references s x = Ok c ∧ (1 <= c)%Z ∧ is_valid c = true.
Proof. exact prun_no_dangling. Qed.
Print Assumptions C04_no_dangling_pointer.

(* C04: after any history, an operation is defined exactly when it is not one of the listed client
   errors (copying a null pointer is one: the code dereferences it). *)
Theorem C04_defined_iff_no_misuse :
  ∀ os s o, prun pinit os = Ok s → (∃ s', pstep s o = Ok s') ↔ ¬ misuse s o.
Proof. exact prun_defined. Qed.
Print Assumptions C04_defined_iff_no_misuse.

(* C04 as stated (no restriction on moves) is false: after `y = x; y = std::move(x)` only y
   designates the resource but the counter says 2; after both are destroyed it still says 1. *)
Theorem C04_count_exact_refuted :
  ∃ os s h c, prun pinit os = Ok s ∧ counts s !! h = Some c ∧
    pointers_to s h = 0%Z ∧ c = 1%Z ∧ map_to_list (vars s) = [].
Proof.
  exists [NewResource 7; CtorHandle 0 (Some 7); CopyCtor 1 0; MoveAssign 1 0; Destroy 0; Destroy 1].
  eexists _, 7, 1%Z. split; [reflexivity|]. split_and!; vm_compute; reflexivity.
Qed.
Print Assumptions C04_count_exact_refuted.

(* Self-move, as in `x = std::move(x)`, loses the resource the same way. *)
Theorem C04_self_move_refuted :
  ∃ os s h, prun pinit os = Ok s ∧ counts s !! h = Some 1%Z ∧ vars s !! 0 = Some None ∧
    pointers_to s h = 0%Z.
Proof.
  exists [NewResource 7; CtorHandle 0 (Some 7); MoveAssign 0 0].
  eexists _, 7. split; [reflexivity|]. split_and!; vm_compute; reflexivity.
Qed.
Print Assumptions C04_self_move_refuted.

(* Non-vacuity: a history using every operation, with sharing, ends with count 2 for two pointers. *)
Example nonvacuous_history :
  ∃ s, prun pinit
    [NewResource 7; NewResource 9; CtorHandle 0 (Some 7); CopyCtor 1 0; CtorDefault 2; CopyAssign 2 0;
     CtorHandle 3 (Some 9); MoveAssign 3 2; MoveCtor 4 1; Reset 0; CopyAssign 0 4; Destroy 3] = Ok s ∧
    counts s !! 7 = Some 2%Z ∧ counts s !! 9 = Some 0%Z ∧ pointers_to s 7 = 2%Z.
Proof. eexists. split; [reflexivity|]. split_and!; vm_compute; reflexivity. Qed.
