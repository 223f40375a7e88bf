(* Specification vocabulary for the refinement of meshes. *)
From stdpp Require Import base gmap list.
From Verif Require Import M_Tensor M_Geometry S_Geometry.
From Verif Require Import Base M_SegAlloc M_Topology S_Topology M_Mesh M_Tetra.

(* A topology reached by requests on lists of vertices, and points that have coordinates only if they
   are in the cloud. *)
Definition sound_world (pick : M_Topology.alloc) (debug : bool) (w : world) : Prop :=
  reach_listed pick debug (wtop w) ∧ ∀ p, wnext w <= p → find_point p (wsys w) = None.

(* nodes that can be the nodes of a cell: distinct vertices that are held, points of the cloud with
   coordinates *)
Definition fit (w : world) (ns : list node) : Prop :=
  NoDup ns.*1 ∧
  ∀ n, n ∈ ns → hasF (wtop w) 0 n.1 ∧ n.2 < wnext w ∧ ∃ x, find_point n.2 (wsys w) = Some x.

(* the position of a node, of nodes, with coordinates in the domain of the chart *)
Definition pos (c : chart) (w : world) (n : node) (p : vec) : Prop :=
  ∃ x, find_point n.2 (wsys w) = Some x ∧ proper c x ∧ same (dim c) (position c x) p.
Definition poss (c : chart) (w : world) (ns : list node) (ps : list vec) : Prop :=
  Forall2 (pos c w) ns ps.

(* the points of the nodes of the cells of a mesh *)
Definition points_of (l : list (addr * gcell)) : list (list nat) := (λ x : addr * gcell, x.2.2.*2) <$> l.
