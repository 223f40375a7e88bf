(* The geometry that the coordinate systems are supposed to describe: points of a Euclidean space
   given by their Cartesian coordinates, and tangent vectors given by their components in the
   orthonormal frame of the coordinate system. Textbook formulas, independent of the model. *)
From Coq Require Import Reals List.
From Verif Require Import M_Tensor M_Geometry.
Import ListNotations.
Open Scope R_scope.

(* Where a point is, from its coordinates. *)
Definition position (c : chart) (x : vec) : vec :=
  match c with
  | Cartesian D => x
  | Polar => vec2 (x 0%nat * cos (x 1%nat)) (x 0%nat * sin (x 1%nat))
  | Spherical =>
      vec3 (x 0%nat * sin (x 1%nat) * cos (x 2%nat)) (x 0%nat * sin (x 1%nat) * sin (x 2%nat))
        (x 0%nat * cos (x 1%nat))
  end.

(* The vector with components [v] in the orthonormal frame at the point of coordinates [x]: the
   frame is (radial, hoop) in polar and (radial, colatitude, longitude) in spherical
   coordinates. *)
Definition in_frame (c : chart) (x v : vec) : vec :=
  match c with
  | Cartesian D => v
  | Polar =>
      let t := x 1%nat in
      vec2 (v 0%nat * cos t - v 1%nat * sin t) (v 0%nat * sin t + v 1%nat * cos t)
  | Spherical =>
      let t := x 1%nat in
      let p := x 2%nat in
      vec3
        (v 0%nat * (sin t * cos p) + v 1%nat * (cos t * cos p) - v 2%nat * sin p)
        (v 0%nat * (sin t * sin p) + v 1%nat * (cos t * sin p) + v 2%nat * cos p)
        (v 0%nat * cos t - v 1%nat * sin t)
  end.

(* The points where the frame of the coordinates exists: off the origin in polar coordinates, off
   the axis in spherical ones. *)
Definition regular (c : chart) (x : vec) : Prop :=
  match c with
  | Cartesian D => True
  | Polar => x 0%nat <> 0
  | Spherical => x 0%nat <> 0 /\ sin (x 1%nat) <> 0
  end.

(* The domain of the chart: r > 0, and the colatitude strictly between the poles (up to full
   turns). *)
Definition proper (c : chart) (x : vec) : Prop :=
  match c with
  | Cartesian D => True
  | Polar => 0 < x 0%nat
  | Spherical => 0 < x 0%nat /\ 0 < sin (x 1%nat)
  end.

(* The coordinates that name a point once: r > 0, angles in their ranges. *)
Definition principal (c : chart) (x : vec) : Prop :=
  match c with
  | Cartesian D => True
  | Polar => 0 < x 0%nat /\ - PI < x 1%nat <= PI
  | Spherical => 0 < x 0%nat /\ 0 < x 1%nat < PI /\ - PI < x 2%nat <= PI
  end.

(* Equality of the first D components. *)
Definition same (D : nat) (u v : vec) : Prop := forall i, (i < D)%nat -> u i = v i.

(* The dimensions in which mito computes. *)
Definition supported (c : chart) : Prop :=
  match c with
  | Cartesian D => (1 <= D <= 3)%nat
  | _ => True
  end.

(* The determinant of D vectors of dimension D, D = 1, 2, 3. *)
Definition det_vecs (vs : list vec) : R :=
  match vs with
  | [u] => u 0%nat
  | [u; v] => u 0%nat * v 1%nat - u 1%nat * v 0%nat
  | [u; v; w] =>
      u 0%nat * (v 1%nat * w 2%nat - v 2%nat * w 1%nat)
      - u 1%nat * (v 0%nat * w 2%nat - v 2%nat * w 0%nat)
      + u 2%nat * (v 0%nat * w 1%nat - v 1%nat * w 0%nat)
  | _ => 0
  end.

(* The oriented volume of the simplex with the given corner positions. *)
Definition simplex_volume (corners : list vec) : R :=
  match corners with
  | [] => 0
  | p0 :: ps => det_vecs (map (fun p => vsub p p0) ps) / INR (fact (length ps))
  end.

(* The Euclidean distance. *)
Definition euclid (D : nat) (p q : vec) : R := sqrt (rsum D (fun i => (p i - q i) * (p i - q i))).

(* The average of a list of positions. *)
Definition average (ps : list vec) : vec :=
  fun i => fold_right (fun p acc => p i + acc) 0 ps / INR (length ps).

(* The first coordinates under which a history of placements names a point. *)
Definition first_placed (p : nat) (history : list (nat * vec)) : option vec :=
  option_map snd (List.find (fun entry => Nat.eqb (fst entry) p) history).

(* The coordinate system after a history of calls of place, starting from a new one; a call that
   ends in the firewall leaves what it leaves. *)
Definition placements (history : list (nat * vec)) : csys :=
  fold_left (fun cs entry => fst (place cs (fst entry) (snd entry))) history csys_empty.

(* A list reached by exchanging neighbours; the flag says whether an odd number of exchanges was
   made. *)
Inductive swaps {A : Type} : bool -> list A -> list A -> Prop :=
  | swaps_none l : swaps false l l
  | swaps_one odd l pre x y post :
      swaps odd l (pre ++ x :: y :: post) -> swaps (negb odd) l (pre ++ y :: x :: post).

Definition sign_of (odd : bool) : R := if odd then -1 else 1.

(* The coordinates of the points of a cell. *)
Definition placed (cs : csys) (cell : list nat) (xs : list vec) : Prop :=
  Forall2 (fun p x => find_point p cs = Some x) cell xs.

(* The sum of a list of numbers. *)
Definition total (vs : list R) : R := fold_right Rplus 0 vs.

(* Weighted sums of positions; the points of the simplex with the given corners, those off its
   faces, and corners that span a simplex without redundancy. *)
Definition combo (ws : list R) (ps : list vec) (i : nat) : R :=
  fold_right (fun wp s => fst wp * snd wp i + s) 0 (combine ws ps).
Definition inside (D : nat) (ps : list vec) (q : vec) : Prop :=
  exists ws, length ws = length ps /\ Forall (fun a => 0 <= a) ws /\ total ws = 1 /\
    forall i, (i < D)%nat -> q i = combo ws ps i.
Definition interior (D : nat) (ps : list vec) (q : vec) : Prop :=
  exists ws, length ws = length ps /\ Forall (fun a => 0 < a) ws /\ total ws = 1 /\
    forall i, (i < D)%nat -> q i = combo ws ps i.
Definition independent (D : nat) (ps : list vec) : Prop :=
  forall ws, length ws = length ps -> total ws = 0 ->
    (forall i, (i < D)%nat -> combo ws ps i = 0) -> Forall (fun a => a = 0) ws.

(* The corners are on one side of a line through the origin (polar coordinates) or of a plane
   through the axis (spherical coordinates): the simplex does not meet the origin or the axis. *)
Definition on_side (c : chart) (d p : vec) : Prop :=
  match c with
  | Cartesian _ => True
  | _ => 0 < d 0%nat * p 0%nat + d 1%nat * p 1%nat
  end.
Definition clear_of_axis (c : chart) (ps : list vec) : Prop := exists d, Forall (on_side c d) ps.
