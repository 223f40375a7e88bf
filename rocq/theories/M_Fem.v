(* Finite elements: shape functions, isoparametric elements, elementary blocks and norms
   (lib/mito/fem/elements, lib/mito/fem/blocks, lib/mito/fem/norms.h, localize.h, FemField.h).

   Simplifications. Scalars are real numbers (no rounding). An expression that does not compile
   (a symbolic derivative without a rule) is [None]; the value of [None] at a point is zero, and a
   theorem says that it does not occur for the shape functions. *)
From Coq Require Import Reals List Bool Arith.
From Verif Require Import Base M_Tensor M_Geometry.
From Verif Require Import M_Functions M_Quadrature.
Import ListNotations.
Open Scope R_scope.

(* elements/elements_library.h, elements/*/api.h: the element types of the library. *)
Inductive element_type := Seg1 | Tri1 | Tri2.

(* IsoparametricSegment.h line 20, IsoparametricTriangle.h line 19: dim. *)
Definition edim (E : element_type) : nat := match E with Seg1 => 1 | Tri1 => 2 | Tri2 => 2 end.
(* IsoparametricSegmentP1.h line 21, IsoparametricTriangleP1.h line 21, IsoparametricTriangleP2.h
   line 21: degree. *)
Definition degree (E : element_type) : nat := match E with Seg1 => 1 | Tri1 => 1 | Tri2 => 2 end.
(* ShapeSegmentP1.h line 18, ShapeTriangleP1.h line 18, ShapeTriangleP2.h line 18: N. *)
Definition n_nodes (E : element_type) : nat := match E with Seg1 => 2 | Tri1 => 3 | Tri2 => 6 end.

(* ShapeSegmentP1.h lines 22-29. *)
Definition shapes_segment_p1 : list (fn (vector 1) scalar) :=
  let xi_0 := xi 1 0 in
  let phi_0 := c_sub_f (num 1.0) xi_0 in
  let phi_1 := xi_0 in
  [phi_0; phi_1].

(* ShapeTriangleP1.h lines 22-32. *)
Definition shapes_triangle_p1 : list (fn (vector 2) scalar) :=
  let xi_0 := xi 2 0 in
  let xi_1 := xi 2 1 in
  let phi_0 := xi_0 in
  let phi_1 := xi_1 in
  let phi_2 := f_sub (c_sub_f (num 1.0) xi_0) xi_1 in
  [phi_0; phi_1; phi_2].

(* ShapeTriangleP2.h lines 22-35. *)
Definition shapes_triangle_p2 : list (fn (vector 2) scalar) :=
  let times := mul_sa scalar in
  let xi_0 := xi 2 0 in
  let xi_1 := xi 2 1 in
  let xi_2 := f_sub (c_sub_f (num 1.0) xi_0) xi_1 in
  let phi_3 := f_mul times (c_mul_f times (num 4.0) xi_0) xi_1 in
  let phi_4 := f_mul times (c_mul_f times (num 4.0) xi_1) xi_2 in
  let phi_5 := f_mul times (c_mul_f times (num 4.0) xi_0) xi_2 in
  let phi_0 := f_sub (f_sub xi_0 (c_mul_f times (num 0.5) phi_5)) (c_mul_f times (num 0.5) phi_3) in
  let phi_1 := f_sub (f_sub xi_1 (c_mul_f times (num 0.5) phi_3)) (c_mul_f times (num 0.5) phi_4) in
  let phi_2 := f_sub (f_sub xi_2 (c_mul_f times (num 0.5) phi_5)) (c_mul_f times (num 0.5) phi_4) in
  [phi_0; phi_1; phi_2; phi_3; phi_4; phi_5].

(* the shape functions of each element: IsoparametricSegmentP1.h line 30, IsoparametricTriangleP1.h,
   IsoparametricTriangleP2.h, the member `shape_functions`, of the classes above (ShapeSegmentP1.h,
   ShapeTriangleP1.h, ShapeTriangleP2.h lines 22-35). *)
Definition shapes (E : element_type) : list (fn (vector (edim E)) scalar) :=
  match E with
  | Seg1 => shapes_segment_p1
  | Tri1 => shapes_triangle_p1
  | Tri2 => shapes_triangle_p2
  end.

(* shape<a>: ShapeSegmentP1.h lines 37-43, ShapeTriangleP1.h lines 40-46, ShapeTriangleP2.h lines
   45-51, and the elements' own: IsoparametricSegmentP1.h lines 79-85, IsoparametricTriangleP1.h
   lines 68-74, IsoparametricTriangleP2.h lines 68-74. An {a} out of range does not compile. *)
Definition shape_function (E : element_type) (a : nat) : fn (vector (edim E)) scalar :=
  nth a (shapes E) (Constant zero_).
(* dshape<a>: ShapeSegmentP1.h lines 32-33, 46-52 and alike: fields::gradient. *)
Definition dshape (E : element_type) (a : nat) : option (fn (vector (edim E)) (vector (edim E))) :=
  gradient_scalar (shape_function E a).

(* Calling a function that compiles at a point. function.h, the `operator()` of each class; as in
   IsoparametricTriangleP1.h lines 77-95. *)
Definition call {x y} (f : option (fn x y)) (p : vec) : vec :=
  match f with Some g => eval g p | None => vzero end.

(* IsoparametricSegment.h lines 34-41, 63-69, IsoparametricTriangle.h lines 34-42, 66-76,
   IsoparametricSegmentP1.h lines 38-44 and alike: the position vectors of the vertices, the
   isoparametric mapping (parametrization(): IsoparametricTriangle.h line 64,
   IsoparametricSegmentP1.h lines 68-76) and the discretization nodes, here numbers. The
   parametrization of a triangle is that of its cell; that of a segment is a linear combination with
   vector coefficients, here the sum of the products. Simplification: they are computed when the
   element is made; the coordinates of a point do not change. *)
Record element (E : element_type) := Element {
  vertex : nat -> vec;
  mapping : fn (vector (edim E)) (vector (edim E));
  connectivity : nat -> nat }.
Arguments vertex {E}.
Arguments mapping {E}.
Arguments connectivity {E}.

(* IsoparametricSegmentP1.h lines 68-76: x0 * phi_0 + x1 * phi_1. *)
Definition segment_mapping (x0 x1 : vec) : fn (vector 1) (vector 1) :=
  fold_add (f_mul_c (mul_sa (vector 1)) (shape_function Seg1 0) x0)
    [f_mul_c (mul_sa (vector 1)) (shape_function Seg1 1) x1].

(* The constructors, as called by the discretizers (seg1/DiscretizerCG.h line 47, tri1 line 49, tri2
   lines 80-83) with a cell of the mesh, the coordinate system, and the discretization nodes. *)
Definition make_element (E : element_type) (cs : csys) (cell : list nat) (nodes : list nat)
    : res (element E) :=
  rbind (all_coordinates cs cell) (fun xs =>
  let x k := csub (Cartesian (edim E)) (nth k xs vzero) origin in
  match E return (nat -> vec) -> res (element E) with
  | Seg1 => fun x =>
      Ok (Element Seg1 x (segment_mapping (x 0%nat) (x 1%nat)) (fun a => nth a nodes 0%nat))
  | Tri1 => fun x =>
      match cell with
      | [p0; p1; p2] =>
          rbind (parametrization (Cartesian 2) cs [p0; p1; p2]) (fun F =>
          Ok (Element Tri1 x F (fun a => nth a nodes 0%nat)))
      | _ => Ub
      end
  | Tri2 => fun x =>
      match cell with
      | [p0; p1; p2] =>
          rbind (parametrization (Cartesian 2) cs [p0; p1; p2]) (fun F =>
          Ok (Element Tri2 x F (fun a => nth a nodes 0%nat)))
      | _ => Ub
      end
  end x).

(* tensor::dyadic (pyre::tensor). External; used in IsoparametricTriangleP1.h lines 89-90. *)
Definition dyadic (u v : vec) : mat := fun i j => u i * v j.
(* matrix + matrix (pyre::tensor, external), used in IsoparametricTriangleP1.h lines 89-90. *)
Definition madd (m n : mat) : mat := fun i j => m i j + n i j.

(* jacobian()(xi): IsoparametricSegmentP1.h lines 88-105, IsoparametricTriangleP1.h lines 77-95,
   IsoparametricTriangleP2.h lines 77-103. *)
Definition element_jacobian {E} (e : element E) (p : vec) : mat :=
  let d a := call (dshape E a) p in
  let x := vertex e in
  match E with
  | Seg1 =>
      let dx_dxi := dot 1 (x 0%nat) (d 0%nat) + dot 1 (x 1%nat) (d 1%nat) in
      fun _ _ => dx_dxi
  | Tri1 =>
      madd (madd (dyadic (x 0%nat) (d 0%nat)) (dyadic (x 1%nat) (d 1%nat)))
        (dyadic (x 2%nat) (d 2%nat))
  | Tri2 =>
      let x3 := vscale 0.5 (vadd (x 0%nat) (x 1%nat)) in
      let x4 := vscale 0.5 (vadd (x 1%nat) (x 2%nat)) in
      let x5 := vscale 0.5 (vadd (x 2%nat) (x 0%nat)) in
      madd (madd (madd (madd (madd (dyadic (x 0%nat) (d 0%nat)) (dyadic (x 1%nat) (d 1%nat)))
        (dyadic (x 2%nat) (d 2%nat))) (dyadic x3 (d 3%nat))) (dyadic x4 (d 4%nat)))
        (dyadic x5 (d 5%nat))
  end.

(* gradient<a>()(xi): IsoparametricSegmentP1.h lines 108-126, IsoparametricTriangleP1.h lines
   98-115, IsoparametricTriangleP2.h lines 106-123: vector * matrix. *)
Definition element_gradient {E} (e : element E) (a : nat) (p : vec) : vec :=
  let J_inv := minv (edim E) (element_jacobian e p) in
  fun j => rsum (edim E) (fun i => call (dshape E a) p i * J_inv i j).

(* The factor of a quadrature point: GradGradBlock.h lines 43-48 and alike. *)
Definition factor {E} (e : element E) (pw : vec * R) : R :=
  area (edim E) * snd pw * mdet (edim E) (element_jacobian e (fst pw)).

(* GradGradBlock.h lines 27-67. The default constructor of a tensor sets it to zero (pyre::tensor). *)
Definition grad_grad_block {E} (q : rule) (e : element E) : mat :=
  fold_left (fun m pw => fun a b =>
    m a b + dot (edim E) (vscale (factor e pw) (element_gradient e a (fst pw)))
              (element_gradient e b (fst pw))) q (fun _ _ => 0).

(* MassBlock.h lines 27-67. *)
Definition mass_block {E} (q : rule) (e : element E) : mat :=
  fold_left (fun m pw => fun a b =>
    m a b + factor e pw * eval (shape_function E a) (fst pw) 0%nat
            * eval (shape_function E b) (fst pw) 0%nat) q (fun _ _ => 0).

(* SourceTermBlock.h lines 36-73. *)
Definition source_term_block {E} (q : rule) (f : vec -> R) (e : element E) : vec :=
  fold_left (fun v pw => fun a =>
    v a + factor e pw * f (eval (mapping e) (fst pw)) * eval (shape_function E a) (fst pw) 0%nat)
    q (fun _ => 0).

(* L2NormBlock.h lines 37-63, for a function with [n] components: factor * f(xi) * f(xi), the last
   product being a contraction. *)
Definition l2_norm_block {E} (q : rule) (n : nat) (f : vec -> vec) (e : element E) : R :=
  fold_left (fun s pw => s + dot n (vscale (factor e pw) (f (fst pw))) (f (fst pw))) q 0.

(* The arguments of the norms: localize.h lines 13-24. A FEM field has a value at every
   discretization node (FemField.h lines 66-78); the others are functions of the coordinates. *)
Inductive field (E : element_type) :=
  | Nodal (values : nat -> R)
  | Analytic (f : fn (vector (edim E)) scalar).
Arguments Nodal {E}.
Arguments Analytic {E}.

(* localize.h lines 13-24 and FemField.h lines 66-78. *)
Definition localize {E} (u : field E) (e : element E) : fn (vector (edim E)) scalar :=
  match u with
  | Nodal values =>
      let term a := f_mul_c (mul_sa scalar) (shape_function E a) (num (values (connectivity e a))) in
      fold_add (term 0%nat) (map term (seq 1 (n_nodes E - 1)))
  | Analytic f => f_call f (mapping e)
  end.

(* compute_l2_norm: norms.h lines 13-39. *)
Definition compute_l2_norm {E} (q : rule) (elements : list (element E)) (u1 u2 : field E) : R :=
  sqrt (fold_left (fun norm e =>
    norm + l2_norm_block q 1 (eval (f_sub (localize u1 e) (localize u2 e))) e) elements 0.0).

(* compute_h1_norm: norms.h lines 43-75. *)
Definition compute_h1_norm {E} (q : rule) (elements : list (element E)) (u1 u2 : field E) : R :=
  sqrt (fold_left (fun norm e =>
    norm
    + (l2_norm_block q 1 (eval (f_sub (localize u1 e) (localize u2 e))) e
       + l2_norm_block q (edim E)
           (call (obind (gradient_scalar (localize u1 e)) (fun g1 =>
                  obind (gradient_scalar (localize u2 e)) (fun g2 => Some (f_sub g1 g2))))) e))
    elements 0.0).
