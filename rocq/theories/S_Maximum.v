(* Where a field is expected to have a sign: the points of a cell, and the cells without obtuse angles. *)
From Coq Require Import Reals List.
From Verif Require Import Base M_Tensor M_Geometry S_Geometry M_Fem.
Open Scope R_scope.

(* The parametric coordinates of the points of a segment, or triangle. *)
Definition in_reference (E : element_type) (p : vec) : Prop :=
  match E with
  | Seg1 => 0 <= p 0%nat <= 1
  | _ => 0 <= p 0%nat /\ 0 <= p 1%nat /\ p 0%nat + p 1%nat <= 1
  end.

(* The angle at a corner of a triangle is at most a right angle: the product of the sides that start there. *)
Definition corner_product (corners : list vec) (i j k : nat) : R :=
  let c n := nth n corners vzero in
  (c j 0%nat - c i 0%nat) * (c k 0%nat - c i 0%nat) + (c j 1%nat - c i 1%nat) * (c k 1%nat - c i 1%nat).
Definition not_obtuse (corners : list vec) : Prop :=
  0 <= corner_product corners 0 1 2 /\ 0 <= corner_product corners 1 2 0 /\ 0 <= corner_product corners 2 0 1.

(* Linear elements on segments, or on triangles without obtuse angles. *)
Definition linear_not_obtuse (E : element_type) (corners : list vec) : Prop :=
  match E with
  | Seg1 => True
  | Tri1 => not_obtuse corners
  | Tri2 => False
  end.
