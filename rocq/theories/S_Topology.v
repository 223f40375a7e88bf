(* Specification vocabulary for the topology, stated on the registered objects and the pointers held
   by clients only. *)
From stdpp Require Import base gmap list.
From Verif Require Import Base S_Perm M_Perm M_Topology.

(* registered objects *)
Definition is_oriented (st : topo) (N o : nat) : Prop := is_Some (ors st !! (N, o)).
Definition is_footprint (st : topo) (N f : nat) : Prop := is_Some (fps st !! (N, f)).

(* [ids] are the footprints of the oriented simplices [c] of order [N], entry by entry *)
Definition footprints_are (st : topo) (N : nat) (c ids : list nat) : Prop :=
  Forall2 (λ o f, ∃ s, ors st !! (N, o) = Some (f, s)) c ids.

(* two states have the same registered objects and registries (the number of allocations made and
   the pointers held outside may differ) *)
Definition same_objects (st st' : topo) : Prop :=
  fps st' = fps st ∧ ors st' = ors st ∧ cmap st' = cmap st ∧ omap st' = omap st.

(* every object registered in [st] is registered, unchanged, in [st'] *)
Definition extends (st st' : topo) : Prop :=
  fps st ⊆ fps st' ∧ ors st ⊆ ors st'.

(* What erasing the oriented simplex [o0] of order [N0] must remove from [st]: the simplex itself, a
   footprint on which only removed simplices ride and to which nobody else holds a pointer, and a
   member of a removed footprint which only removed footprints list and to which nobody else holds a
   pointer. *)
Inductive goneO (st : topo) (N0 o0 : nat) : nat → nat → Prop :=
  | gone_root : goneO st N0 o0 N0 o0
  | gone_member k f c m :
      goneF st N0 o0 (S k) f → fps st !! (S k, f) = Some c → m ∈ c →
      held (hO st) (k, m) = 0 →
      (∀ f' c', fps st !! (S k, f') = Some c' → m ∈ c' → goneF st N0 o0 (S k) f') →
      goneO st N0 o0 k m
with goneF (st : topo) (N0 o0 : nat) : nat → nat → Prop :=
  | gone_footprint k f o s :
      goneO st N0 o0 k o → ors st !! (k, o) = Some (f, s) →
      held (hF st) (k, f) = 0 →
      (∀ o' s', ors st !! (k, o') = Some (f, s') → goneO st N0 o0 k o') →
      goneF st N0 o0 k f.

(* the oriented simplex is used by somebody: it is a member of a footprint, or more than one pointer
   to it is held *)
Definition used_elsewhere (st : topo) (N o : nat) : Prop :=
  (∃ f c, fps st !! (S N, f) = Some c ∧ o ∈ c) ∨ 1 < held (hO st) (N, o).

(* even and odd reorderings *)
Definition even_reordering (l l' : list nat) : Prop := ∃ n, Nat.Even n ∧ exchanges n l l'.
Definition odd_reordering (l l' : list nat) : Prop := ∃ n, Nat.Odd n ∧ exchanges n l l'.

(* The compositions given by the client are listed as the constructors from vertices list them: a
   segment from its tail to its head, a triangle around its boundary, a tetrahedron with vertices
   a, b, c, d as the faces abc, bdc, dba, dac (Topology.icc lines 135-181). *)
Definition vertices_are (debug : bool) (st : topo) (N o : nat) (vs : list nat) : Prop :=
  ∃ us, vertices debug st N o = Ok us ∧ even_reordering us vs.

Definition well_listed (debug : bool) (st : topo) (x : op) : Prop :=
  match x with
  | OComposition 1 [p; q] => ∃ a, ors st !! (0, p) = Some (a, (-1)%Z)
  | OComposition 2 [x; y; z] =>
      head_tail_connected st x y = Ok true ∧ head_tail_connected st y z = Ok true ∧
      head_tail_connected st z x = Ok true
  | OComposition 3 [w; x; y; z] =>
      ∃ a b c d, vertices_are debug st 2 w [a; b; c] ∧ vertices_are debug st 2 x [b; d; c] ∧
                 vertices_are debug st 2 y [d; b; a] ∧ vertices_are debug st 2 z [d; a; c]
  | _ => True
  end.

(* the states reachable by clients that list their compositions in this way *)
Inductive reach_listed (al : alloc) (debug : bool) : topo → Prop :=
  | listed_init : reach_listed al debug topo0
  | listed_ret st x a st' :
      reach_listed al debug st → legal st x → well_listed debug st x →
      step al debug x st = Ret a st' → reach_listed al debug st'
  | listed_throw st x st' :
      reach_listed al debug st → legal st x → well_listed debug st x →
      step al debug x st = Throw st' → reach_listed al debug st'.

(* the requests that give the vertices of the simplex, with its order and these vertices *)
Definition built_from (x : op) : option (nat * list nat) :=
  match x with
  | OSegment a b => Some (1, [a; b])
  | OTriangle a b c => Some (2, [a; b; c])
  | OTetrahedron a b c d => Some (3, [a; b; c; d])
  | _ => None
  end.

(* the requests that return an oriented simplex *)
Definition is_request (x : op) : Prop :=
  match x with
  | OOriented _ _ _ | OComposition _ _ | OSegment _ _ | OTriangle _ _ _ | OTetrahedron _ _ _ _
  | OFlip _ _ => True
  | _ => False
  end.

(* the two ends of a segment, in either order *)
Definition ends (st : topo) (e a b : nat) : Prop :=
  ∃ f s p q sp sq, ors st !! (1, e) = Some (f, s) ∧
    ors st !! (0, p) = Some (a, sp) ∧ ors st !! (0, q) = Some (b, sq) ∧
    (fps st !! (1, f) = Some [p; q] ∨ fps st !! (1, f) = Some [q; p]).

(* the three vertices of a triangle: its members are segments between them *)
Definition corners (st : topo) (t a b c : nat) : Prop :=
  NoDup [a; b; c] ∧ ∃ f s d x y z, ors st !! (2, t) = Some (f, s) ∧ fps st !! (2, f) = Some d ∧ d ≡ₚ [x; y; z] ∧
    ends st x a b ∧ ends st y b c ∧ ends st z c a.
