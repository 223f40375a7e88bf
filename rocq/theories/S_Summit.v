(* Specification vocabulary for reading and writing meshes. *)
From stdpp Require Import base gmap list strings.
From Coq Require Import Reals.
From Verif Require Import M_Tensor M_Geometry.
From Verif Require Import Base M_SegAlloc M_Topology M_Mesh M_Tetra M_Summit.
Open Scope nat_scope.

(* a list without its repetitions, in the order of first occurrence *)
Fixpoint first_seen {A} `{EqDecision A} (l : list A) : list A :=
  match l with
  | [] => []
  | x :: l => x :: filter (λ y, y ≠ x) (first_seen l)
  end.

(* the points of the nodes of the cells of a mesh, cell by cell *)
Definition mesh_points (l : list (addr * gcell)) : list nat := concat ((λ x : addr * gcell, x.2.2.*2) <$> l).

(* the place of an element in a list, counting from [n] *)
Fixpoint place_of {A} `{EqDecision A} (n : nat) (x : A) (l : list A) : nat :=
  match l with
  | [] => n
  | y :: l => if decide (x = y) then n else place_of (S n) x l
  end.

(* The summit format: the dimension; the numbers of points, of cells and of materials; the
   coordinates of each point; for each cell its kind, the numbers of its points (the first point is
   number 1) and its material. *)
Definition summit_file (D N : nat) (coords : list (list R)) (cells : list (list nat))
    (after_cell : list token) : list token :=
  [TInt (Z.of_nat D); TInt (Z.of_nat (length coords)); TInt (Z.of_nat (length cells)); TInt 1]
  ++ concat ((λ xs : list R, TReal <$> xs) <$> coords)
  ++ concat ((λ ids : list nat,
       TInt (Z.of_nat (S N)) :: ((λ i, TInt (Z.of_nat i)) <$> ids) ++ TInt 1 :: after_cell) <$> cells).

(* a loop over an unordered map visits its entries once each, in some order *)
Definition some_order (entries : gmap nat Z → list (nat * Z)) : Prop :=
  ∀ m, entries m ≡ₚ map_to_list m.
