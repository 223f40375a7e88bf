(* Specification vocabulary for shared pointers. *)
From stdpp Require Import base gmap.
From Verif Require Import Base M_SharedPtr.

(* the number of pointers alive that designate [h] *)
Definition pointers_to (s : pstate) (h : handle) : Z :=
  Z.of_nat (length (filter (λ xh, xh.2 = Some h) (map_to_list (vars s)))).

(* Somewhere in the run of [os] two pointers designating the same resource are move-assigned (the
   same pointer twice included). *)
Definition aliased_move (os : list pop) : Prop :=
  ∃ pre x y post s h, os = pre ++ MoveAssign x y :: post ∧ prun pinit pre = Ok s ∧
    vars s !! x = Some (Some h) ∧ vars s !! y = Some (Some h).

(* What a C++ client must not do: use a pointer object outside its lifetime, construct one twice,
   construct or copy from null, adopt an address where no resource lives, create a resource twice. *)
Definition misuse (s : pstate) (o : pop) : Prop :=
  match o with
  | NewResource h => is_Some (counts s !! h)
  | CtorHandle x h => is_Some (vars s !! x) ∨ h = None ∨ (∃ a, h = Some a ∧ counts s !! a = None)
  | CtorDefault x => is_Some (vars s !! x)
  | CopyCtor x y => is_Some (vars s !! x) ∨ vars s !! y = None ∨ vars s !! y = Some None
  | MoveCtor x y => is_Some (vars s !! x) ∨ vars s !! y = None
  | CopyAssign x y => vars s !! x = None ∨ vars s !! y = None ∨
      (vars s !! y = Some None ∧ ∃ a, vars s !! x = Some (Some a))
  | MoveAssign x y => vars s !! x = None ∨ vars s !! y = None
  | Reset x | Destroy x => vars s !! x = None
  end.
