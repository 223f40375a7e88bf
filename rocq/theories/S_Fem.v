(* What finite elements are expected to be, in terms of positions, polynomials and integrals. *)
From Coq Require Import Reals List Bool Arith.
From Verif Require Import Base M_Tensor M_Geometry S_Geometry.
From Verif Require Import M_Functions S_Functions M_Quadrature S_Quadrature M_Fem.
Import ListNotations.
Open Scope R_scope.

(* The nodes of the reference elements: the ends of the unit segment; the corners of the unit
   triangle, then the midpoints of its sides 01, 12 and 20. *)
Definition reference_node (E : element_type) (a : nat) : vec :=
  match E with
  | Seg1 => nth a [vec1 0; vec1 1] vzero
  | Tri1 => nth a [vec2 1 0; vec2 0 1; vec2 0 0] vzero
  | Tri2 => nth a [vec2 1 0; vec2 0 1; vec2 0 0; vec2 (1 / 2) (1 / 2); vec2 0 (1 / 2); vec2 (1 / 2) 0] vzero
  end.

(* The nodes of an element with the given corners. *)
Definition middle (u v : vec) : vec := fun i => (u i + v i) / 2.
Definition node (E : element_type) (corners : list vec) (a : nat) : vec :=
  match E with
  | Tri2 =>
      let c k := nth k corners vzero in
      nth a [c 0%nat; c 1%nat; c 2%nat; middle (c 0%nat) (c 1%nat); middle (c 1%nat) (c 2%nat);
             middle (c 2%nat) (c 0%nat)] vzero
  | _ => nth a corners vzero
  end.

(* An element made from a cell whose vertices have the coordinates [corners]. *)
Definition made {E} (e : element E) (corners : list vec) : Prop :=
  exists cs cell nodes, make_element E cs cell nodes = Ok e /\ placed cs cell corners /\
    length corners = S (edim E).

(* The value of a shape function at a point of the parametric space, and the point of the element
   that it is mapped to. *)
Definition phi (E : element_type) (a : nat) (p : vec) : R := eval (shape_function E a) p 0%nat.
Definition image {E} (e : element E) (p : vec) : vec := eval (mapping e) p.

(* Two vectors with the same first D components. *)
Definition agree (D : nat) (u v : vec) : Prop := forall i, (i < D)%nat -> u i = v i.

(* [l] is the partial derivative of [g] with respect to the j-th coordinate at [x]. *)
Definition partial (g : vec -> R) (j : nat) (x : vec) (l : R) : Prop :=
  is_partial (fun y => num (g y)) j 0 x l.

(* A rule that integrates exactly all the polynomials of degree at most r. *)
Definition exact_to (D r : nat) (q : rule) : Prop :=
  forall p v, of_degree D r p -> reference_integral D (poly p) v -> quadrature D q (poly p) = v.

(* The quadratic form of a matrix. *)
Definition form (n : nat) (m : mat) (u v : vec) : R := rsum n (fun a => rsum n (fun b => u a * m a b * v b)).

(* The combination of the shape functions with the given coefficients. *)
Definition interpolant (E : element_type) (u : vec) (p : vec) : R :=
  rsum (n_nodes E) (fun a => u a * phi E a p).

(* [v] is the integral over the element of a function of the parametric coordinates: its integral
   over the reference simplex times the ratio of the (oriented) volumes. *)
Definition element_integral (E : element_type) (corners : list vec) (f : vec -> R) (v : R) : Prop :=
  reference_integral (edim E) (fun p => f p * (simplex_volume corners / area (edim E))) v.

(* The value of a field at the point of an element with the given parametric coordinates: a field
   with values at the nodes is interpolated, the others are functions of the position. *)
Definition field_value {E} (u : field E) (e : element E) (p : vec) : R :=
  match u with
  | Nodal values => interpolant E (fun a => values (connectivity e a)) p
  | Analytic f => eval f (image e p) 0%nat
  end.

(* Three points in a plane that are not on a line. *)
Definition not_aligned (p q r : vec) : Prop :=
  (q 0%nat - p 0%nat) * (r 1%nat - p 1%nat) <> (q 1%nat - p 1%nat) * (r 0%nat - p 0%nat).

(* The rule has enough points (with positive weights) to see the gradient of every function of the
   element: one, or three that are not aligned when the gradient is not constant. *)
Definition sees_gradients (E : element_type) (q : rule) : Prop :=
  match E with
  | Tri2 => exists p1 w1 p2 w2 p3 w3, In (p1, w1) q /\ In (p2, w2) q /\ In (p3, w3) q /\
      0 < w1 /\ 0 < w2 /\ 0 < w3 /\ not_aligned p1 p2 p3
  | _ => exists p w, In (p, w) q /\ 0 < w
  end.

(* The elementary mass matrices of a segment of length 1 (times 6), a linear and a quadratic triangle
   of area 1 (times 12 and 180), as found in textbooks. *)
Definition mass_matrix (E : element_type) (a b : nat) : R :=
  match E with
  | Seg1 => nth b (nth a [[2; 1]; [1; 2]] []) 0 / 6
  | Tri1 => nth b (nth a [[2; 1; 1]; [1; 2; 1]; [1; 1; 2]] []) 0 / 12
  | Tri2 => nth b (nth a
      [[ 6; -1; -1;  0; -4;  0];
       [-1;  6; -1;  0;  0; -4];
       [-1; -1;  6; -4;  0;  0];
       [ 0;  0; -4; 32; 16; 16];
       [-4;  0;  0; 16; 32; 16];
       [ 0; -4;  0; 16; 16; 32]] []) 0 / 180
  end.
