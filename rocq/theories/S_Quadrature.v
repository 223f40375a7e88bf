(* What quadrature is expected to compute: polynomials, and their integrals over the reference
   simplices and over the cells of a mesh. *)
From Coq Require Import Reals List Bool Arith.
From Coquelicot Require Import Hierarchy RInt.
From Verif Require Import M_Tensor M_Geometry S_Geometry M_Quadrature.
Import ListNotations.
Open Scope R_scope.

(* A polynomial in several variables: a list of terms, each a coefficient and the exponents of the
   variables. *)
Definition polynomial := list (R * list nat).

(* x_0 ^ e_0 * x_1 ^ e_1 * ... *)
Fixpoint monomial (exponents : list nat) (x : vec) : R :=
  match exponents with
  | [] => 1
  | e :: es => x 0%nat ^ e * monomial es (fun i => x (S i))
  end.
Definition poly (p : polynomial) (x : vec) : R :=
  total (map (fun t => fst t * monomial (snd t) x) p).

(* A polynomial in D variables of total degree at most r. *)
Definition of_degree (D r : nat) (p : polynomial) : Prop :=
  Forall (fun t => length (snd t) = D /\ (list_sum (snd t) <= r)%nat) p.

(* The sum of the absolute values of the coefficients. *)
Definition size (p : polynomial) : R := total (map (fun t => Rabs (fst t)) p).

(* [v] is the integral of [f] over the simplex of the points of D nonnegative coordinates with
   sum at most [s]: an iterated integral ([is_RInt] is the Riemann integral of Coquelicot). *)
Fixpoint is_integral (D : nat) (s : R) (f : vec -> R) (v : R) : Prop :=
  match D with
  | O => v = f vzero
  | S D' => exists g : R -> R,
      (forall t, 0 <= t <= s ->
         is_integral D' (s - t) (fun x => f (fun i => match i with O => t | S j => x j end)) (g t)) /\
      is_RInt g 0 s v
  end.

(* The integral over the reference simplex of dimension D. *)
Definition reference_integral (D : nat) (f : vec -> R) (v : R) : Prop := is_integral D 1 f v.

(* What the table computes for a function on the reference simplex. *)
Definition quadrature (D : nat) (q : rule) (f : vec -> R) : R :=
  area D * total (map (fun pw => snd pw * f (fst pw)) q).

(* The point of barycentric coordinates x_0, ..., x_(D-1), 1 - x_0 - ... in the simplex with the
   given corners. *)
Definition barycentric (D : nat) (corners : list vec) (x : vec) : vec :=
  fun i => combo (map x (seq 0 D) ++ [1 - rsum D x]) corners i.

(* [v] is the integral of [f] over the oriented simplex with the given corners, in the
   parametrization by barycentric coordinates: the integral over the reference simplex times the
   ratio of the (oriented) volumes. *)
Definition cell_integral (D : nat) (corners : list vec) (f : vec -> R) (v : R) : Prop :=
  exists u, reference_integral D (fun x => f (barycentric D corners x)) u /\
    v = simplex_volume corners / area D * u.

(* A Cartesian mesh of cells of full dimension: the oriented simplices of the cells are different
   and the corners of the cells are placed. *)
Definition described (D : nat) (cs : csys) (cells : list cell) (corners : list (list vec)) : Prop :=
  NoDup (map fst cells) /\
  Forall2 (fun cl xs => placed cs (snd cl) xs /\ length xs = S D) cells corners.

(* The tables whose entries are written as fractions, and the bound on the error (for each unit of
   the coefficients) of those written in decimals. *)
Definition tolerance (N r : nat) : R :=
  match N, r with
  | 1%nat, 2%nat => 1 / 10 ^ 15
  | 2%nat, 3%nat => 1 / 10 ^ 35
  | 2%nat, 4%nat => 1 / 10 ^ 22
  | 3%nat, 2%nat => 1 / 10 ^ 17
  | _, _ => 0
  end.

(* A point with nonnegative barycentric coordinates in the reference simplex. *)
Definition in_reference (D : nat) (x : vec) : Prop :=
  (forall i, (i < D)%nat -> 0 <= x i) /\ rsum D x <= 1.

(* The same rule whichever corner of the simplex comes first: exchanging two neighbouring corners
   leaves the sum of the values at the points unchanged. *)
Definition symmetric (D : nat) (q : rule) : Prop :=
  forall corners corners' odd f, length corners = S D -> swaps odd corners corners' ->
    total (map (fun pw => snd pw * f (barycentric D corners' (fst pw))) q)
    = total (map (fun pw => snd pw * f (barycentric D corners (fst pw))) q).
