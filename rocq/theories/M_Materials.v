(* Materials: the linear elastic and the Gent material, and the consistency test
   (lib/mito/materials).

   Simplifications. Scalars are real numbers (no rounding); std::log and the divisions are those of
   the real numbers, so that the theorems have the conditions under which they are defined as
   hypotheses. Tensors are functions of their indices; the default constructor of a tensor sets it to
   zero (pyre::tensor). A symmetric matrix is a matrix: its packing is not modelled. The density is
   stored and never read; it is left out. *)
From Coq Require Import Reals List Bool Arith.
From Verif Require Import Base M_Tensor.
Import ListNotations.
Open Scope R_scope.

(* tangents_type: LinearElastic.h lines 80-98, Gent.h lines 99-149; the components by their four
   indices. *)
Definition tensor4 := nat -> nat -> nat -> nat -> R.

(* pyre::tensor. External; used in Gent.h lines 65, 87, 96, 112. *)
Definition transpose (m : mat) : mat := fun i j => m j i.
(* tensor::trace (pyre::tensor, external), used in LinearElastic.h line 74, Gent.h line 65. *)
Definition trace (m : mat) : R := rsum 3 (fun i => m i i).
(* matrix + matrix (pyre::tensor, external), used in LinearElastic.h line 77. *)
Definition mplus (m n : mat) : mat := fun i j => m i j + n i j.
(* matrix - matrix (pyre::tensor, external), used in LinearElastic.h lines 61 and 71. *)
Definition mminus (m n : mat) : mat := fun i j => m i j - n i j.
(* scalar * matrix (pyre::tensor, external), used in LinearElastic.h line 77. *)
Definition mscale (a : R) (m : mat) : mat := fun i j => a * m i j.
(* tensor::symmetric: the symmetric part. External; used in LinearElastic.h lines 61 and 71. *)
Definition symmetric (m : mat) : mat := fun i j => 0.5 * (m i j + m j i).
(* tensor::dot of two second order tensors: the sum of the products of the components. External;
   used in LinearElastic.h line 64. *)
Definition mdot (m n : mat) : R := rsum 3 (fun i => rsum 3 (fun j => m i j * n i j)).

(* LinearElastic.h lines 26-32, 44-54. *)
Record linear_elastic := LinearElastic { le_E : R; le_nu : R; le_lambda : R; le_mu : R }.
(* LinearElastic.h lines 26-32, the constructor. *)
Definition make_linear_elastic (E nu : R) : linear_elastic :=
  LinearElastic E nu (E * nu / ((1.0 + nu) * (1.0 - 2.0 * nu))) (E / (2.0 * (1.0 + nu))).

(* LinearElastic.h lines 67-78. *)
Definition le_stress (m : linear_elastic) (F : mat) : mat :=
  let epsilon := symmetric (mminus F mid) in
  let tr := trace epsilon in
  mplus (mscale (le_lambda m * tr) mid) (mscale (2.0 * le_mu m) epsilon).
(* LinearElastic.h lines 57-65. *)
Definition le_energy (m : linear_elastic) (F : mat) : R :=
  let epsilon := symmetric (mminus F mid) in
  0.5 * mdot (le_stress m F) epsilon.

(* C[{ i, j, k, l }] += x. LinearElastic.h lines 90-92, Gent.h lines 136-141. *)
Definition add_at (C : tensor4) (i j k l : nat) (x : R) : tensor4 := fun a b c d =>
  if Nat.eqb a i && Nat.eqb b j && Nat.eqb c k && Nat.eqb d l then C a b c d + x else C a b c d.
(* A loop over 0, 1, 2. LinearElastic.h lines 88-89, Gent.h lines 134-145, MaterialConsistencyTest.h
   lines 29-100. *)
Definition for3 {A} (body : nat -> A -> A) (x : A) : A := fold_left (fun y i => body i y) [0; 1; 2]%nat x.

(* LinearElastic.h lines 80-98. *)
Definition le_tangents (m : linear_elastic) (_ : mat) : tensor4 :=
  for3 (fun a => for3 (fun b C =>
    let C := add_at C a a b b (le_lambda m) in
    let C := add_at C a b a b (le_mu m) in
    add_at C b a a b (le_mu m))) (fun _ _ _ _ => 0).

(* Gent.h lines 25-31, 43-51. *)
Record gent := Gent { g_kappa : R; g_mu : R; g_Jm : R }.

(* Gent.h lines 54-72. *)
Definition g_energy (m : gent) (F : mat) : R :=
  let detF := mdet 3 F in
  let Jsq_minus_1 := detF * detF - 1 in
  let logJ := ln detF in
  let trC := trace (mmul 3 (transpose F) F) in
  let A := 0.5 * Jsq_minus_1 - logJ in
  (-0.5) * g_mu m * (g_Jm m * ln (1 - (trC - 3) / g_Jm m) + 2 * logJ) + 0.5 * g_kappa m * A * A * A * A.

(* Gent.h lines 74-97. *)
Definition g_stress (m : gent) (F : mat) : mat :=
  let invF := minv 3 F in
  let detF := mdet 3 F in
  let Jsq_minus_1 := detF * detF - 1 in
  let logJ := ln detF in
  let trC := trace (mmul 3 (transpose F) F) in
  let A := 0.5 * Jsq_minus_1 - logJ in
  let C := g_Jm m - trC + 3 in
  let B := g_Jm m / C in
  mplus (mscale (g_mu m * B) F)
    (mscale (2 * g_kappa m * A * A * A * Jsq_minus_1 - g_mu m) (transpose invF)).

(* Gent.h lines 99-149. *)
Definition g_tangents (m : gent) (F : mat) : tensor4 :=
  let invF := minv 3 F in
  let detF := mdet 3 F in
  let Jsq_minus_1 := detF * detF - 1 in
  let logJ := ln detF in
  let trC := trace (mmul 3 (transpose F) F) in
  let A := 0.5 * Jsq_minus_1 - logJ in
  let C := g_Jm m - trC + 3 in
  let B := g_Jm m / C in
  let coef_0 := g_mu m * B in
  let coef_1 := 2.0 * g_mu m * g_Jm m / (C * C) in
  let coef_2 := g_mu m - 2 * g_kappa m * A * A * A * Jsq_minus_1 in
  let coef_3 := 2.0 * g_kappa m
      * (3.0 * A * A * Jsq_minus_1 * Jsq_minus_1 + 2.0 * detF * detF * A * A * A) in
  for3 (fun i => for3 (fun J T =>
    let T := add_at T i J i J coef_0 in
    for3 (fun k => for3 (fun L T =>
      add_at T i J k L (coef_1 * F i J * F k L + coef_2 * invF J k * invF L i
                        + coef_3 * invF J i * invF L k))) T)) (fun _ _ _ _ => 0).

(* MaterialConsistencyTest.h: a material is what the template uses of it. *)
Record material := Material {
  energy : mat -> R;
  stress : mat -> mat;
  tangents : mat -> tensor4 }.
(* MaterialConsistencyTest.h lines 20-26, with material_type = LinearElastic. *)
Definition linear_elastic_material (m : linear_elastic) : material :=
  Material (le_energy m) (le_stress m) (le_tangents m).
(* MaterialConsistencyTest.h lines 20-26, with material_type = Gent. *)
Definition gent_material (m : gent) : material := Material (g_energy m) (g_stress m) (g_tangents m).

(* F[{ i, j }] = x. MaterialConsistencyTest.h lines 42-55, 77-82, 94. *)
Definition set_at (F : mat) (i j : nat) (x : R) : mat := fun a b =>
  if Nat.eqb a i && Nat.eqb b j then x else F a b.

(* _energy_increment: lines 29-61. The state of the loops is F_perturbed and the increments. *)
Definition energy_increment (m : material) (perturbation : R) (F : mat) : mat :=
  snd (for3 (fun i => for3 (fun j state =>
    let '(F_perturbed, increment) := state in
    let F_perturbed := set_at F_perturbed i j (F_perturbed i j + perturbation) in
    let q_plus := energy m F_perturbed in
    let F_perturbed := set_at F_perturbed i j (F_perturbed i j - 2.0 * perturbation) in
    let q_minus := energy m F_perturbed in
    (set_at F_perturbed i j (F i j), set_at increment i j (q_plus - q_minus))))
    (F, fun _ _ => 0)).

(* T[{ i, j, k, l }] = x. MaterialConsistencyTest.h line 89. *)
Definition set_at4 (T : tensor4) (i j k l : nat) (x : R) : tensor4 := fun a b c d =>
  if Nat.eqb a i && Nat.eqb b j && Nat.eqb c k && Nat.eqb d l then x else T a b c d.

(* _stress_increment: lines 63-100. *)
Definition stress_increment (m : material) (perturbation : R) (F : mat) : tensor4 :=
  snd (for3 (fun k => for3 (fun l state =>
    let '(F_perturbed, increment) := state in
    let F_perturbed := set_at F_perturbed k l (F_perturbed k l + perturbation) in
    let P_plus := stress m F_perturbed in
    let F_perturbed := set_at F_perturbed k l (F_perturbed k l - 2.0 * perturbation) in
    let P_minus := stress m F_perturbed in
    let increment := for3 (fun i => for3 (fun j T => set_at4 T i j k l (P_plus i j - P_minus i j))) increment in
    (set_at F_perturbed k l (F k l), increment)))
    (F, fun _ _ _ _ => 0)).

(* tensor::norm (pyre::tensor): the square root of the sum of the squares of the components. Used in
   MaterialConsistencyTest.h line 119. *)
Definition mnorm (m : mat) : R := sqrt (rsum 3 (fun i => rsum 3 (fun j => m i j * m i j))).
(* the same for a fourth order tensor, used in MaterialConsistencyTest.h line 144. *)
Definition norm4 (T : tensor4) : R :=
  sqrt (rsum 3 (fun i => rsum 3 (fun j => rsum 3 (fun k => rsum 3 (fun l => T i j k l * T i j k l))))).

(* test_stress: lines 104-126 (without the report). *)
Definition stress_residual (m : material) (perturbation : R) (F : mat) : R :=
  mnorm (mminus (energy_increment m perturbation F) (fun i j => stress m F i j * 2.0 * perturbation)).
(* MaterialConsistencyTest.h lines 104-126: the comparison with the tolerance. *)
Definition test_stress (m : material) (perturbation tolerance : R) (F : mat) : bool :=
  if Rlt_dec (stress_residual m perturbation F) tolerance then true else false.

(* test_tangents: lines 129-151 (without the report). *)
Definition tangents_residual (m : material) (perturbation : R) (F : mat) : R :=
  norm4 (fun i j k l => stress_increment m perturbation F i j k l - tangents m F i j k l * 2.0 * perturbation).
(* MaterialConsistencyTest.h lines 129-151: the comparison with the tolerance. *)
Definition test_tangents (m : material) (perturbation tolerance : R) (F : mat) : bool :=
  if Rlt_dec (tangents_residual m perturbation F) tolerance then true else false.
