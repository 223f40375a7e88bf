(* Specification vocabulary for flipping the diagonal of a quadrilateral. *)
From stdpp Require Import base gmap list.
From Verif Require Import Base M_Topology S_Topology.

(* a registered triangle with these vertices, in this order up to an even reordering *)
Definition triangle_with (debug : bool) (st : topo) (t : nat) (vs : list nat) : Prop :=
  is_oriented st 2 t ∧ vertices_are debug st 2 t vs.

(* the orientation of a triangle relative to its footprint, as {orientation()} returns it *)
Definition orientation_is (st : topo) (t : nat) (s : Z) : Prop := ∃ f, ors st !! (2, t) = Some (f, s).

(* no triangle with these vertices is registered, in either orientation *)
Definition no_such_triangle (debug : bool) (st : topo) (vs : list nat) : Prop :=
  ∀ f us, is_footprint st 2 f → fvertex_list debug st 2 f [] = Ok us → ¬ us ≡ₚ vs.

(* two pairs are equal up to order *)
Definition same_pair (x y : nat * nat) : Prop := x = y ∨ x = (y.2, y.1).
