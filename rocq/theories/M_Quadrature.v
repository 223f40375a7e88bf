(* Reference simplices, parametrizations, quadrature rules and integration:
   lib/mito/geometry/ReferenceSimplex.h, lib/mito/geometry/GeometricSimplex.h (parametrization),
   lib/mito/quadrature.

   Simplifications. Scalars are real numbers (no rounding): a literal stands for the decimal number
   written in the source. A cell of a mesh is its oriented simplex, known by a number (two cells
   have the same number when [simplex()] compares equal), and the points of its nodes. *)
From Coq Require Import Reals List Bool Arith.
From Verif Require Import Base M_Tensor M_Geometry.
From Verif Require Import M_Functions.
Import ListNotations.
Open Scope R_scope.

(* ReferenceSimplex.h line 19: the area of the reference simplex of order N. *)
Definition area (N : nat) : R := 1 / INR (fact N).

(* ReferenceSimplex.h lines 22-27: 1 - xi0 - xi1 - ... - xi(N-1), a left fold. *)
Definition one_minus_xis (N : nat) : fn (vector N) scalar :=
  match N with
  | O => Constant (num 1)
  | S M => fold_left (fun f a => f_sub f (Component a)) (seq 1 M)
             (c_sub_f (num 1) (Component 0))
  end.

(* ReferenceSimplex.h lines 33-43: the I-th barycentric coordinate. *)
Definition xi (N I : nat) : fn (vector N) scalar :=
  if Nat.ltb I N then Component I else one_minus_xis N.

(* The fold (fs + ...) over a pack that is not empty (the head is given apart). As in
   GeometricSimplex.h lines 148-154 and FemField.h line 74. *)
Fixpoint fold_add {x y} (f : fn x y) (fs : list (fn x y)) : fn x y :=
  match fs with
  | [] => f
  | g :: gs => f_add f (fold_add g gs)
  end.

(* Whether B - A divides by zero: polar/algebra.h line 49, spherical/algebra.h lines 86-90. *)
Definition divides_by_zero (c : chart) (A : vec) : bool :=
  match c with
  | Cartesian _ => false
  | Polar => if Req_EM_T (A 0%nat) 0 then true else false
  | Spherical => if Req_EM_T (A 0%nat * sin (A 1%nat)) 0 then true else false
  end.

(* GeometricSimplex.h lines 137-158: the parametrization of a cell, xi<0> * x0 + ..., with xa the
   difference of the coordinates of the a-th node and those of the origin. *)
Definition parametrization (c : chart) (cs : csys) (cell : list nat)
    : res (fn (vector (length cell - 1)) (vector (dim c))) :=
  rbind (all_coordinates cs cell) (fun xs =>
  let N := (length cell - 1)%nat in
  let term a x := f_mul_c (mul_sa (vector (dim c))) (xi N a) (csub c x origin) in
  match xs with
  | [] => Ub
  | x :: xs =>
      if divides_by_zero c origin then Ub
      else Ok (fold_add (term 0%nat x)
                 (map (fun ax => term (fst ax) (snd ax)) (combine (seq 1 (length xs)) xs)))
  end).

(* ------------------------------------------------------------------------------------------- *)
(* Quadrature tables: QuadratureTable.h lines 12-48. A table is the sequence of its points (in
   parametric coordinates) and weights. *)
Definition rule := list (vec * R).

(* quadrature_tables_segments.icc lines 12-21. *)
Definition segment_1 : rule := [(vec1 0.5, 1.0)].
(* lines 23-36. *)
Definition segment_2 : rule :=
  let a := 0.788675134594813 in
  let b := 0.211324865405187 in
  [(vec1 a, 0.5); (vec1 b, 0.5)].

(* quadrature_tables_triangles.icc lines 12-21. *)
Definition triangle_1 : rule := [(vec2 (1.0 / 3.0) (1.0 / 3.0), 1.0)].
(* lines 23-34. *)
Definition triangle_2 : rule :=
  [(vec2 (2.0 / 3.0) (1.0 / 6.0), 1.0 / 3.0);
   (vec2 (1.0 / 6.0) (2.0 / 3.0), 1.0 / 3.0);
   (vec2 (1.0 / 6.0) (1.0 / 6.0), 1.0 / 3.0)].
(* lines 36-55. *)
Definition triangle_3 : rule :=
  let a := 0.16288285039589191090016180418490635 in
  let b := 0.47791988356756370000000000000000000 in
  let w1 := 0.28114980244097964825351432270207695 in
  let w2 := 0.05218353089235368507981901063125638 in
  [(vec2 (1.0 - 2.0 * a) a, w1);
   (vec2 a (1.0 - 2.0 * a), w1);
   (vec2 a a, w1);
   (vec2 (1.0 - 2.0 * b) b, w2);
   (vec2 b (1.0 - 2.0 * b), w2);
   (vec2 b b, w2)].
(* lines 57-77. *)
Definition triangle_4 : rule :=
  let a := 0.816847572980458513080857 in
  let b := 0.091576213509770743459571 in
  let c := 0.108103018168070227363167 in
  let d := 0.445948490915964886318329 in
  let w1 := 0.109951743655321867638326 in
  let w2 := 0.223381589678011465695007 in
  [(vec2 a b, w1); (vec2 b a, w1);
   (vec2 b b, w1); (vec2 c d, w2);
   (vec2 d c, w2); (vec2 d d, w2)].

(* quadrature_tables_tetrahedra.icc lines 12-22. *)
Definition tetrahedron_1 : rule := [(vec3 (1.0 / 4.0) (1.0 / 4.0) (1.0 / 4.0), 1.0)].
(* lines 24-40. *)
Definition tetrahedron_2 : rule :=
  let a := 0.5854101966249685 in
  let b := 0.1381966011250105 in
  [(vec3 a b b, 1.0 / 4.0);
   (vec3 b a b, 1.0 / 4.0);
   (vec3 b b a, 1.0 / 4.0);
   (vec3 b b b, 1.0 / 4.0)].

(* QuadratureTable: QuadratureTable.h lines 50-52 and the specializations above: the table of the
   reference simplex of order N for the degree r; the others do not compile. *)
Definition quadrature_table (N r : nat) : option rule :=
  match N, r with
  | 1%nat, 1%nat => Some segment_1
  | 1%nat, 2%nat => Some segment_2
  | 2%nat, 1%nat => Some triangle_1
  | 2%nat, 2%nat => Some triangle_2
  | 2%nat, 3%nat => Some triangle_3
  | 2%nat, 4%nat => Some triangle_4
  | 3%nat, 1%nat => Some tetrahedron_1
  | 3%nat, 2%nat => Some tetrahedron_2
  | _, _ => None
  end.

(* ------------------------------------------------------------------------------------------- *)
(* Integrator. *)

(* A cell: the number of its oriented simplex and the points of its nodes. GeometricSimplex.h lines
   160-164. *)
Definition cell := (nat * list nat)%type.

(* Integrator.h lines 31-32: the coordinates of the quadrature points of each oriented simplex, as
   the list of the entries of the map. *)
Definition quadrature_field := list (nat * list vec).

(* the look-up in the map of DiscreteField.h lines 59-70 and 79. *)
Fixpoint find_simplex (s : nat) (m : quadrature_field) : option (list vec) :=
  match m with
  | [] => None
  | (k, xs) :: m' => if Nat.eqb k s then Some xs else find_simplex s m'
  end.

(* DiscreteField::insert: DiscreteField.h lines 75-86: {emplace} does not overwrite, and in debug
   mode the entry must be new. *)
Definition insert (debug : bool) (s : nat) (xs : list vec) (m : quadrature_field)
    : res quadrature_field :=
  match find_simplex s m with
  | Some _ => if debug then Abort else Ok m
  | None => Ok (m ++ [(s, xs)])
  end.

(* Integrator.h lines 34-50: the coordinates of the quadrature points of every element. The vector
   that the parametrization returns becomes the coordinates, as it is (Coordinates.h line 50). *)
Fixpoint compute_points (debug : bool) (c : chart) (cs : csys) (q : rule) (cells : list cell)
    (m : quadrature_field) : res quadrature_field :=
  match cells with
  | [] => Ok m
  | (s, nodes) :: cells' =>
      rbind (parametrization c cs nodes) (fun F =>
      rbind (insert debug s (map (fun pw => eval F (fst pw)) q) m) (fun m =>
      compute_points debug c cs q cells' m))
  end.

(* Integrator.h lines 65-68: the contributions of the quadrature points of one element. Reading
   past the end of the array is undefined. *)
Fixpoint add_points (f : vec -> R) (q : rule) (xs : list vec) (volume : res R) (result : R) : res R :=
  match q with
  | [] => Ok result
  | (_, w) :: q' =>
      match xs with
      | [] => Ub
      | x :: xs' =>
          rbind volume (fun v => add_points f q' xs' volume (result + f x * w * v))
      end
  end.

(* Integrator.h lines 60-72: assemble elementary contributions. *)
Fixpoint add_cells (c : chart) (w : vec -> option val) (cs : csys) (q : rule) (f : vec -> R)
    (m : quadrature_field) (cells : list cell) (result : R) : res R :=
  match cells with
  | [] => Ok result
  | (s, nodes) :: cells' =>
      rbind (at_or_throw (find_simplex s m)) (fun xs =>
      rbind (add_points f q xs (cell_volume c w cs nodes) result) (fun result =>
      add_cells c w cs q f m cells' result))
  end.

(* Integrator.h lines 52-72: an integrator on the manifold with the given cells (in the order in
   which the loops visit them), coordinate system and volume form, then its {integrate}. *)
Definition integrate (debug : bool) (c : chart) (w : vec -> option val) (cs : csys) (q : rule)
    (cells : list cell) (f : vec -> R) : res R :=
  rbind (compute_points debug c cs q cells []) (fun m => add_cells c w cs q f m cells 0).
