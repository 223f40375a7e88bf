(* What the divergence theorem says: fluxes, normal fields, polynomial fields, and oriented meshes. *)
From stdpp Require Import base gmap list.
From Coq Require Import Reals.
From Verif Require Import Base M_Tensor M_Geometry S_Geometry M_Quadrature S_Quadrature.
From Verif Require Import M_SegAlloc M_Topology M_Mesh S_Functions.
Open Scope R_scope.

(* The first D components of the field are polynomials of degree at most r in D variables. *)
Definition polynomial_field (D r : nat) (F : vec → vec) : Prop :=
  ∃ P : nat → polynomial, ∀ i, (i < D)%nat → of_degree D r (P i) ∧ ∀ x, F x i = poly (P i) x.

(* The vectors from the first corner to the others. *)
Definition sides (xs : list vec) : list vec :=
  match xs with
  | [] => []
  | x0 :: ds => map (λ x, vsub x x0) ds
  end.

(* The oriented facet with the given D corners in dimension D: what flows through it at a point, per
   unit of the area of the parametrization by barycentric coordinates, is the determinant of the
   field and the sides; [u] is the flux, the integral of that. *)
Definition flux (D : nat) (xs : list vec) (F : vec → vec) (u : R) : Prop :=
  reference_integral (D - 1) (λ s, det_vecs (F (barycentric (D - 1) xs s) :: sides xs)) u.

(* A normal field of the facet, as one writes it for a polygon or a polyhedron: a unit vector
   orthogonal to the sides, the same at all points off the border of the facet. At the corners,
   where several facets meet, the field may have other components too. *)
Definition normal_field (D : nat) (xs : list vec) (n : vec → vec) : Prop :=
  ∃ nu : vec, dot D nu nu = 1 ∧ (∀ t, In t (sides xs) → dot D nu t = 0) ∧
    (∀ y, interior D xs y → same D (n y) nu) ∧ (∀ x, In x xs → dot D (n x) nu = 1).

(* The sum of the partial derivatives of the components. *)
Definition is_divergence (D : nat) (F : vec → vec) (g : vec → R) : Prop :=
  ∀ y, ∃ d : nat → R, (∀ i, (i < D)%nat → is_partial F i i y (d i)) ∧ g y = rsum D d.

(* The orientation of the facets of the simplices mito builds (Topology.icc lines 149-181), relative
   to that in which the flux is outward: the edges of a triangle of positive area go around it with
   the triangle on their left; the faces of a tetrahedron of positive volume are turned inward. *)
Definition facets_sign (D : nat) : R :=
  match D with
  | 2%nat => 1
  | _ => -1
  end.

(* What the manifold has (manifolds/Manifold.h line 76, elements): the oriented simplex and the points
   of the nodes of the cells of a mesh. *)
Definition elements (l : list (addr * gcell)) : list M_Quadrature.cell :=
  map (λ x : addr * gcell, (x.2.1, map snd x.2.2)) l.

(* The nodes on a vertex are all placed at one position. *)
Definition positions (cs : csys) (X : nat → vec) (l : list (addr * gcell)) : Prop :=
  ∀ x n, x ∈ l → n ∈ x.2.2 → find_point n.2 cs = Some (X n.1).

(* The positions of the corners of a cell. *)
Definition corners_at (X : nat → vec) (x : addr * gcell) : list vec := map (λ n : node, X n.1) x.2.2.

(* The simplices of the cells were created with the orientation they have. *)
Definition as_created (st : topo) (N : nat) (l : list (addr * gcell)) : Prop :=
  ∀ x, x ∈ l → ∃ f, ors st !! (N, x.2.1) = Some (f, 1%Z).
