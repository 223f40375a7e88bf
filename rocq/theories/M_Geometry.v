(* Coordinate systems, metric spaces and volumes: lib/mito/coordinates, lib/mito/geometry,
   lib/mito/manifolds.

   Simplifications: real arithmetic (see M_Tensor.v); std::sin, std::cos, std::sqrt are the real
   functions, and std::atan2 is [atan2] below (the distinction between +0 and -0 is lost). Points
   are identified by numbers (their addresses). *)
From Coq Require Import Reals List Bool.
From Verif Require Import Base M_Tensor.
Import ListNotations.
Open Scope R_scope.

(* std::atan2(y, x), as the C standard defines it on numbers without signed zeros. Used in
   coordinate_transformation.h lines 22, 46, 47, polar/algebra.h line 31, spherical/algebra.h lines
   39 and 47. *)
Definition atan2 (y x : R) : R :=
  if Rlt_dec 0 x then atan (y / x)
  else if Rlt_dec x 0 then
    (if Rle_dec 0 y then atan (y / x) + PI else atan (y / x) - PI)
  else if Rlt_dec 0 y then PI / 2
  else if Rlt_dec y 0 then - (PI / 2)
  else 0.

(* std::hypot. Used in coordinate_transformation.h line 46. *)
Definition hypot (x y : R) : R := sqrt (x * x + y * y).

(* coordinates/public.h and geometry/public.h: the coordinate systems of the library. Cartesian
   coordinates exist in every dimension; their algebra is specialised for D = 1, 2, 3. *)
Inductive chart : Type :=
  | Cartesian (D : nat)
  | Polar
  | Spherical.

(* Coordinates::dim: Coordinates.h line 40. *)
Definition dim (c : chart) : nat :=
  match c with
  | Cartesian D => D
  | Polar => 2
  | Spherical => 3
  end.

(* functions::component<coordT, I>: functions/library_functions.h lines 15-31. *)
Definition component (I : nat) (x : vec) : R := x I.

(* cartesian/api.h lines 27-40: the three coordinate functions. *)
Definition x_0 : vec -> R := component 0.
(* cartesian/api.h lines 32-35. *)
Definition x_1 : vec -> R := component 1.
(* cartesian/api.h lines 37-40: the index is 1 in the code (finding). *)
Definition x_2 : vec -> R := component 1.
(* polar/api.h lines 22-26, spherical/api.h lines 22-29. *)
Definition polar_r : vec -> R := component 0.
(* polar/api.h line 26. *)
Definition polar_theta : vec -> R := component 1.
(* spherical/api.h line 23. *)
Definition spherical_r : vec -> R := component 0.
(* spherical/api.h line 26. *)
Definition spherical_theta : vec -> R := component 1.
(* spherical/api.h line 29. *)
Definition spherical_phi : vec -> R := component 2.

(* The basis of the vector fields: cartesian/basis.h lines 17-23, polar/basis.h lines 21-35,
   spherical/basis.h lines 23-44. *)
Definition e (c : chart) (I : nat) (x : vec) : vec :=
  match c with
  | Cartesian _ => unitv I
  | Polar =>
      match I with
      | 0%nat => unitv 0
      | _ => vscale (component 0 x) (unitv 1)
      end
  | Spherical =>
      match I with
      | 0%nat => unitv 0
      | 1%nat => vscale (component 0 x) (unitv 1)
      | _ => vscale (component 0 x * sin (component 1 x)) (unitv 2)
      end
  end.

(* e_00, e_11, e_22 (pyre::tensor). tensor/api.h lines 45-47, 57-59, 77-79. *)
Definition mdiag (I : nat) : mat := fun i j => if Nat.eqb i I && Nat.eqb j I then 1 else 0.
(* matrix + matrix (pyre::tensor, external), used in polar/metric.h line 26. *)
Definition madd (m n : mat) : mat := fun i j => m i j + n i j.
(* scalar * matrix (pyre::tensor, external), used in polar/metric.h line 26. *)
Definition mscale (a : R) (m : mat) : mat := fun i j => a * m i j.

(* functions::pow<2>: functions/library_functions.h lines 216-237. *)
Definition pow2 (a : R) : R := a * a.

(* The metric field: cartesian/metric.h lines 15-19, polar/metric.h lines 15-27,
   spherical/metric.h lines 15-33. *)
Definition metric (c : chart) (x : vec) : mat :=
  match c with
  | Cartesian _ => mid
  | Polar => madd (mdiag 0) (mscale (pow2 (component 0 x)) (mdiag 1))
  | Spherical =>
      madd (madd (mdiag 0) (mscale (pow2 (component 0 x)) (mdiag 1)))
        (mscale (pow2 (component 0 x * sin (component 1 x))) (mdiag 2))
  end.

(* g_inv: metric_space.h lines 38-39. *)
Definition metric_inv (c : chart) (x : vec) : mat := minv (dim c) (metric c x).

(* dx<I>: metric_space.h lines 41-44 and 94-105. *)
Definition dx (c : chart) (I : nat) (x : vec) : val :=
  one_form_of (dim c) (e c I x) (metric_inv c x).

(* w: metric_space.h lines 46-59; the wedge of fields is pointwise (fields_algebra.h lines
   34-60). *)
Definition volume_form (c : chart) (x : vec) : option val :=
  match wedge (map (fun I => dx c I x) (seq 0 (dim c))) with
  | Some f => mul (Sc (sqrt (mdet (dim c) (metric c x)))) f
  | None => None
  end.

(* metric_equivalent of a one-form field: metric_space.h lines 69-84. The one-form is given by
   its values on vectors. *)
Definition sharp (c : chart) (omega : vec -> R) (x : vec) : vec :=
  fun i => rsum (dim c) (fun K =>
    mvec (dim c) (mscale (omega (e c K x)) (metric_inv c x)) (e c K x) i).

(* metric_equivalent of a vector field: metric_space.h lines 86-92. *)
Definition flat (c : chart) (v : vec) (x : vec) : val :=
  one_form_of (dim c) v (metric_inv c x).

(* coordinates + vector: cartesian/algebra.h lines 12-19, 31-38, 50-57 (one componentwise
   definition here for the three dimensions); polar/algebra.h lines 12-35; spherical/algebra.h
   lines 12-64. *)
Definition polar_add (A v : vec) : vec :=
  let r_A := A 0%nat in
  let theta_A := A 1%nat in
  let e_r := e Polar 0 A in
  let e_theta := e Polar 1 A in
  let v_r := dot 2 v e_r in
  let v_theta := dot 2 v e_theta / dot 2 e_theta e_theta in
  let r_B := sqrt ((r_A + v_r) * (r_A + v_r) + v_theta * r_A * v_theta * r_A) in
  let theta_B := theta_A + atan2 (v_theta * r_A) (r_A + v_r) in
  vec2 r_B theta_B.

(* spherical/algebra.h lines 12-64. *)
Definition spherical_add (A v : vec) : vec :=
  let r_A := A 0%nat in
  let theta_A := A 1%nat in
  let phi_A := A 2%nat in
  let sin_theta_A := sin theta_A in
  let cos_theta_A := cos theta_A in
  let e_r := e Spherical 0 A in
  let e_theta := e Spherical 1 A in
  let e_phi := e Spherical 2 A in
  let v_r := dot 3 v e_r in
  let v_theta := dot 3 v e_theta / dot 3 e_theta e_theta in
  let v_phi := dot 3 v e_phi / dot 3 e_phi e_phi in
  let phi_B := phi_A + atan2 (v_phi * r_A * sin_theta_A)
                         ((r_A + v_r) * sin_theta_A + v_theta * r_A * cos_theta_A) in
  let sin_phi_A_B := sin (phi_B - phi_A) in
  let cos_phi_A_B := cos (phi_B - phi_A) in
  let theta_B := atan2
    (v_phi * r_A * sin_theta_A * sin_phi_A_B
     + (v_theta * r_A * cos_theta_A + (r_A + v_r) * sin_theta_A) * cos_phi_A_B)
    (- v_theta * r_A * sin_theta_A + (r_A + v_r) * cos_theta_A) in
  let sin_theta_B := sin theta_B in
  let cos_theta_B := cos theta_B in
  let r_B :=
    (v_r + r_A) * (sin_theta_A * sin_theta_B * cos_phi_A_B + cos_theta_A * cos_theta_B)
    + v_theta * r_A * (cos_theta_A * sin_theta_B * cos_phi_A_B - sin_theta_A * cos_theta_B)
    + v_phi * r_A * sin_theta_A * sin_theta_B * sin_phi_A_B in
  vec3 r_B theta_B phi_B.

(* coordinates + vector in a chart: the three overloads, cartesian/algebra.h lines 12-57,
   polar/algebra.h lines 12-35, spherical/algebra.h lines 12-64. *)
Definition cadd (c : chart) (A v : vec) : vec :=
  match c with
  | Cartesian _ => fun i => A i + v i
  | Polar => polar_add A v
  | Spherical => spherical_add A v
  end.

(* coordinates - coordinates, B - A: cartesian/algebra.h lines 21-28, 40-47, 59-66;
   polar/algebra.h lines 37-50; spherical/algebra.h lines 66-91. *)
Definition polar_sub (B A : vec) : vec :=
  let r_A := A 0%nat in
  let r_B := B 0%nat in
  let theta_A := A 1%nat in
  let theta_B := B 1%nat in
  vadd (vscale (r_B * cos (theta_B - theta_A) - r_A) (e Polar 0 A))
    (vdiv (vscale (r_B * sin (theta_B - theta_A)) (e Polar 1 A)) r_A).

(* spherical/algebra.h lines 66-91. *)
Definition spherical_sub (B A : vec) : vec :=
  let r_A := A 0%nat in
  let r_B := B 0%nat in
  let sin_theta_A := sin (A 1%nat) in
  let sin_theta_B := sin (B 1%nat) in
  let cos_theta_A := cos (A 1%nat) in
  let cos_theta_B := cos (B 1%nat) in
  let cos_phi_A_B := cos (B 2%nat - A 2%nat) in
  let sin_phi_A_B := sin (B 2%nat - A 2%nat) in
  vadd
    (vadd
      (vscale (r_B * (sin_theta_A * sin_theta_B * cos_phi_A_B + cos_theta_A * cos_theta_B) - r_A)
        (e Spherical 0 A))
      (vdiv
        (vscale (r_B * (sin_theta_B * cos_theta_A * cos_phi_A_B - sin_theta_A * cos_theta_B))
          (e Spherical 1 A)) r_A))
    (vdiv (vscale (r_B * sin_theta_B * sin_phi_A_B) (e Spherical 2 A)) (r_A * sin_theta_A)).

(* B - A in a chart: the overloads of cartesian/algebra.h lines 21-67, polar/algebra.h lines 37-50,
   spherical/algebra.h lines 66-91. *)
Definition csub (c : chart) (B A : vec) : vec :=
  match c with
  | Cartesian _ => fun i => B i - A i
  | Polar => polar_sub B A
  | Spherical => spherical_sub B A
  end.

(* distance of two sets of coordinates: algebra_coordinates.h lines 28-33. *)
Definition distance (c : chart) (xA xB : vec) : R := norm (dim c) (csub c xA xB).

(* transform_coordinates: coordinate_transformation.h lines 15-24, 26-35, 37-50, 52-63. *)
Definition cart_to_polar (p : vec) : vec :=
  let x := p 0%nat in
  let y := p 1%nat in
  let r := sqrt (x * x + y * y) in
  let theta := atan2 y x in
  vec2 r theta.

(* coordinate_transformation.h lines 26-35. *)
Definition polar_to_cart (p : vec) : vec :=
  let r := p 0%nat in
  let theta := p 1%nat in
  let x := r * cos theta in
  let y := r * sin theta in
  vec2 x y.

(* coordinate_transformation.h lines 37-50. *)
Definition cart_to_spherical (p : vec) : vec :=
  let x := p 0%nat in
  let y := p 1%nat in
  let z := p 2%nat in
  let r := sqrt (x * x + y * y + z * z) in
  let theta := atan2 (hypot y x) z in
  let phi := atan2 y x in
  vec3 r theta phi.

(* coordinate_transformation.h lines 52-63. *)
Definition spherical_to_cart (p : vec) : vec :=
  let r := p 0%nat in
  let theta := p 1%nat in
  let phi := p 2%nat in
  let x := r * sin theta * cos phi in
  let y := r * sin theta * sin phi in
  let z := r * cos theta in
  vec3 x y z.

(* transform_coordinates<coordT2>(coordT1): the four specialisations; other pairs do not link.
   coordinate_transformation.h lines 11-63. *)
Definition transform (from to : chart) : option (vec -> vec) :=
  match from, to with
  | Cartesian 2, Polar => Some cart_to_polar
  | Polar, Cartesian 2 => Some polar_to_cart
  | Cartesian 3, Spherical => Some cart_to_spherical
  | Spherical, Cartesian 3 => Some spherical_to_cart
  | _, _ => None
  end.

(* ------------------------------------------------------------------------------------------- *)
(* CoordinateSystem. *)

(* CoordinateSystem.h lines 107-108: the map from points to coordinates, as the list of its
   entries (in the order in which iterating it would meet them). *)
Definition csys := list (nat * vec).

(* CoordinateSystem() : line 31. *)
Definition csys_empty : csys := [].

(* unordered_map::find. CoordinateSystem.h lines 67 and 88. *)
Fixpoint find_point (p : nat) (cs : csys) : option vec :=
  match cs with
  | [] => None
  | (q, x) :: cs' => if Nat.eqb q p then Some x else find_point p cs'
  end.

(* place: lines 63-82. A second placement of a point triggers the firewall (which throws, as in
   the rest of the model) and leaves the first coordinates in the map. *)
Definition place (cs : csys) (p : nat) (x : vec) : csys * bool :=
  match find_point p cs with
  | Some _ => (cs, false)
  | None => (cs ++ [(p, x)], true)
  end.

(* coordinates: lines 84-89 ([.at] throws). *)
Definition coordinates (cs : csys) (p : nat) : res vec := at_or_throw (find_point p cs).

(* The constructor for a change of coordinates: lines 33-44: every entry of the other map, in
   whatever order, is placed with its coordinates transformed. [false]: a firewall was hit. *)
Fixpoint place_all (T : vec -> vec) (entries : list (nat * vec)) (cs : csys) : csys * bool :=
  match entries with
  | [] => (cs, true)
  | (p, x) :: entries' =>
      match place cs p (T x) with
      | (cs', true) => place_all T entries' cs'
      | (cs', false) => (cs', false)
      end
  end.

(* CoordinateSystem.h lines 33-44, from an empty map. *)
Definition change_coordinates (T : vec -> vec) (other : csys) : csys * bool :=
  place_all T other csys_empty.

(* origin: lines 91-92. *)
Definition origin : vec := vzero.

(* midpoint: lines 94-100. *)
Definition midpoint (c : chart) (cs : csys) (a b : nat) : res vec :=
  rbind (coordinates cs a) (fun xa =>
  rbind (coordinates cs b) (fun xb =>
  Ok (cadd c xa (vscale (/ 2) (csub c xb xa))))).

(* geometry::distance of two points: utilities.h lines 33-43. *)
Definition point_distance (c : chart) (cs : csys) (a b : nat) : res R :=
  rbind (coordinates cs a) (fun xa =>
  rbind (coordinates cs b) (fun xb =>
  Ok (distance c xa xb))).

(* The coordinates of a list of points, in order; the first missing one throws. As in
   geometry/utilities.h lines 13-31 and GeometricSimplex.h lines 139-155. *)
Fixpoint all_coordinates (cs : csys) (ps : list nat) : res (list vec) :=
  match ps with
  | [] => Ok []
  | p :: ps' =>
      rbind (coordinates cs p) (fun x =>
      rbind (all_coordinates cs ps') (fun xs =>
      Ok (x :: xs)))
  end.

(* barycenter: utilities.h lines 12-31; a cell is the list of the points of its nodes, never
   empty (reading the first node of no nodes would be undefined). *)
Definition barycenter (c : chart) (cs : csys) (cell : list nat) : res vec :=
  match cell with
  | [] => Ub
  | p0 :: _ =>
      rbind (coordinates cs p0) (fun coord_0 =>
      rbind (all_coordinates cs cell) (fun xs =>
      let result := fold_left (fun acc x => vadd acc (csub c x coord_0)) xs
                      (csub c coord_0 coord_0) in
      let result := vdiv result (INR (length cell)) in
      Ok (cadd c coord_0 result)))
  end.

(* directors: utilities.h lines 45-75. *)
Definition directors (c : chart) (cs : csys) (cell : list nat) : res (vec * list vec) :=
  match cell with
  | [] => Ub
  | p0 :: ps =>
      rbind (coordinates cs p0) (fun x0 =>
      rbind (all_coordinates cs ps) (fun xs =>
      Ok (x0, map (fun x => csub c x x0) xs)))
  end.

(* Manifold::volume of a cell: Manifold.h lines 118-139, for a volume form [w]. An ill-typed
   contraction does not compile; it is [Ub] here. *)
Definition cell_volume (c : chart) (w : vec -> option val) (cs : csys) (cell : list nat) : res R :=
  rbind (directors c cs cell) (fun '(point, dirs) =>
  match app_of (w point) (map Some dirs) with
  | Some (Sc r) => Ok (1 / INR (fact (length dirs)) * r)
  | _ => Ub
  end).

(* Manifold::volume: Manifold.h lines 108-116, over the cells in the order of the iteration. *)
Fixpoint add_volumes (c : chart) (w : vec -> option val) (cs : csys) (cells : list (list nat))
    (result : R) : res R :=
  match cells with
  | [] => Ok result
  | cell :: cells' =>
      rbind (cell_volume c w cs cell) (fun v => add_volumes c w cs cells' (result + v))
  end.

(* Manifold.h lines 108-116: the sum starts at zero. *)
Definition mesh_volume (c : chart) (w : vec -> option val) (cs : csys) (cells : list (list nat))
    : res R := add_volumes c w cs cells 0.

(* submanifold: manifolds/factories.h lines 44-91: the metric volume form contracted with the
   normal fields, [k] slots (1 or 2) left open. *)
Definition sub_volume_form (c : chart) (normals : list (vec -> vec)) (k : nat) (x : vec)
    : option val :=
  app_of (volume_form c x) (map (fun n => Some (n x)) normals ++ repeat None k).
