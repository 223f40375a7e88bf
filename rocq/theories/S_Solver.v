(* What the solution of the Poisson equation on a mesh is expected to be, in terms of the cells, of the
   positions of their nodes and of polynomials on the cells. *)
From stdpp Require Import base gmap list.
From Coq Require Import Reals.
From Verif Require Import Base M_Tensor M_Geometry S_Geometry M_Functions M_Quadrature S_Quadrature M_Fem S_Fem M_System S_System.
Open Scope nat_scope.

(* The point at the fraction [t] of the way from one position to another. *)
Definition between (t : R) (u v : vec) : vec := λ i, ((1 - t) * u i + t * v i)%R.

(* The point of a segment, or triangle, with the given parametric coordinates. *)
Definition position (E : element_type) (corners : list vec) (p : vec) : vec := λ i,
  match E with
  | Seg1 => ((1 - p 0%nat) * nth 0%nat corners vzero i + p 0%nat * nth 1%nat corners vzero i)%R
  | _ => (p 0%nat * nth 0%nat corners vzero i + p 1%nat * nth 1%nat corners vzero i + (1 - p 0%nat - p 1%nat) * nth 2%nat corners vzero i)%R
  end.

(* [G] is the gradient of the function [g]. *)
Definition has_gradient (D : nat) (g : vec → R) (G : vec → vec) : Prop :=
  ∀ y j, j < D → partial g j y (G y j).

Section mesh.
  Context {K : Type} (E : element_type) (x : K → vec) (cells domain : list (list K)).

  (* Cells with the right number of nodes and a positive volume. *)
  Definition good_cells : Prop := ∀ c, c ∈ cells → length c = S (edim E) ∧ (0 < simplex_volume (x <$> c))%R.

  (* The domain of the constraints: ends of segments, or sides of triangles. *)
  Definition good_domain : Prop :=
    ∀ b, b ∈ domain → length b = edim E ∧ NoDup b ∧ ∃ c, c ∈ cells ∧ b ⊆ c.

  (* Every node is joined by cells to the domain of the constraints. *)
  Definition linked (k l : K) : Prop := ∃ c, c ∈ cells ∧ k ∈ c ∧ l ∈ c.
  Definition anchored : Prop := ∀ k, k ∈ concat cells → ∃ l, l ∈ concat domain ∧ rtc linked k l.

  (* The functions among which a solution is sought: a polynomial in each cell, of the degree of the
     elements; continuous: two cells with two nodes in common, or one, have the same values on the segment
     between them; zero on the domain of the constraints. *)
  Definition piecewise (F : list K → polynomial) : Prop :=
    (∀ c, c ∈ cells → of_degree (edim E) (degree E) (F c)) ∧
    (∀ c c' k l t, c ∈ cells → c' ∈ cells → k ∈ c → k ∈ c' → l ∈ c → l ∈ c' →
       poly (F c) (between t (x k) (x l)) = poly (F c') (between t (x k) (x l))) ∧
    (∀ c b k l t, c ∈ cells → b ∈ domain → k ∈ c → k ∈ b → l ∈ c → l ∈ b →
       poly (F c) (between t (x k) (x l)) = 0%R).

  (* The sum over the cells of the integrals of a function, by a rule. *)
  Definition mesh_integral (q : rule) (g : list K → vec → R) : R :=
    S_Geometry.total (map (λ c, (simplex_volume (x <$> c) *
      S_Geometry.total (map (λ pw, (snd pw * g c (position E (x <$> c) (fst pw)))%R) q))%R) cells).

  (* The weak form of the equation  - div grad U = f. *)
  Definition weak_solution (q : rule) (f : vec → R) (U : list K → polynomial) : Prop :=
    ∀ V GU GV, piecewise V →
      (∀ c, c ∈ cells → has_gradient (edim E) (poly (U c)) (GU c)) →
      (∀ c, c ∈ cells → has_gradient (edim E) (poly (V c)) (GV c)) →
      mesh_integral q (λ c y, dot (edim E) (GU c y) (GV c y)) = mesh_integral q (λ c y, (f y * poly (V c) y)%R).
End mesh.

(* What is expected of a matrix solver: the vector keeps its size, and it holds the solution after a
   successful call; the call is successful if the matrix is symmetric and positive definite. *)
Definition entries (s : linear_system) (i j : nat) : R := s_matrix s (Z.of_nat i) (Z.of_nat j).
Definition good_solver (ksp : linear_system → list R → list R * bool) : Prop :=
  (∀ s v, length (ksp s v).1 = length v) ∧
  (∀ s v, Z.of_nat (length v) = s_equations s → (ksp s v).2 = true → solves (s_matrix s) (s_rhs s) (ksp s v).1) ∧
  (∀ s v, Z.of_nat (length v) = s_equations s → symmetric (length v) (entries s) → positive_definite (length v) (entries s) →
     (ksp s v).2 = true).

(* The weak form that is the sum of the given ones. *)
Definition superposed {C : Type} (forms : list (C * list nat → (nat → nat → R) * (nat → R))) (e : C * list nat)
    : (nat → nat → R) * (nat → R) :=
  (λ a b, sumR ((λ w, (w e).1 a b) <$> forms), λ a, sumR ((λ w, (w e).2 a) <$> forms)).

(* A field satisfies the equations of a weak form: at every node that is not constrained the matrices of the
   elements applied to the field give the vectors of the elements; it is zero at the others. *)
Definition solution_of {C : Type} (n : nat) (form : C * list nat → (nat → nat → R) * (nat → R)) (es : list (C * list nat))
    (constrained : gset nat) (field : gmap nat R) : Prop :=
  (∀ p, node_of es p → p ∈ constrained → field !! p = Some 0%R) ∧
  (∀ p, node_of es p → p ∉ constrained → action n form es field p = global_vector n form es p).
