(* Cases that meet the hypotheses of the theorems of Properties_System.v, and the mesh of two triangles
   123 and 324 with some of its nodes constrained. *)
From stdpp Require Import base gmap list sorting.
From Coq Require Import Reals Lra.
From Verif Require Import Base M_Perm M_Topology M_Discrete S_Discrete P_VTK M_System S_System P_System Properties_System Properties_TopologyCases.
Open Scope nat_scope.

Local Ltac decided := match goal with |- ?P => refine (@by_decision P _ _) end; vm_compute; reflexivity.

Definition fresh0 (s : gset nat) : nat := base.fresh s.
Lemma fresh0_ok : fresh_ok fresh0.
Proof. intros s. apply is_fresh. Qed.

Definition tris : list (list nat) := [[1; 2; 3]; [3; 2; 4]].

(* two triangles, six and nine nodes, two sides of the boundary constrained *)
Example C55_triangles_case :
  fs_elements <$> (match discretize_tri1 fresh0 {[0]} tris [[1; 2]; [2; 4]] with Ok fs => Some fs | _ => None end) =
    Some [([1; 2; 3], [1; 2; 3]); ([3; 2; 4], [3; 2; 4])] ∧
  Forall (λ c, length c = 3) tris ∧ Forall (λ k, k ∈ concat tris) (concat [[1; 2]; [2; 4]]).
Proof. split_and!; [vm_compute; reflexivity|decided|decided]. Qed.

Example C55_second_order_case :
  (match discretize_tri2 fresh0 {[0]} tris [[1; 2]; [4; 2]] with
   | Ok fs => Some (fs_elements fs, elements (fs_constrained fs)) | _ => None end) =
    Some ([([1; 2; 3], [1; 2; 3; 4; 5; 6]); ([3; 2; 4], [3; 2; 7; 5; 8; 9])], elements ({[1; 2; 4; 7; 8]} : gset nat)).
Proof. vm_compute. reflexivity. Qed.

Example C55_second_order_hypotheses :
  Forall (λ c, length c = 3) tris ∧
  (∀ c, c ∈ [[1; 2]; [4; 2]] → ∃ a b, c = [a; b] ∧ ∃ x, x ∈ concat (sides <$> tris) ∧ same_side x (a, b)).
Proof.
  split; [decided|]. intros c. rewrite !elem_of_cons, elem_of_nil. intros [->|[->|[]]].
  - exists 1, 2. split; [done|]. exists (1, 2). split; [decided|by left].
  - exists 4, 2. split; [done|]. exists (2, 4). split; [decided|by right].
Qed.

(* 1 and 4 are nodes of the mesh and no side joins them *)
Example C55_second_order_foreign_case : discretize_tri2 fresh0 ∅ tris [[1; 4]] = Abort.
Proof.
  apply C55_second_order_foreign; [exact fresh0_ok|decided|decided|decided|].
  intros x Hx [->| ->]; revert Hx; decided.
Qed.
Example C55_triangles_foreign_case : discretize_tri1 fresh0 ∅ tris [[2; 5]] = Ub.
Proof. apply (C55_triangles_foreign fresh0 fresh0_ok ∅ tris [[2; 5]] 5); decided. Qed.

Example C55_segments_case :
  ∃ fs φ, discretize_seg1 fresh0 ∅ [[1; 2]; [2; 3]] [1; 3] = Ok fs ∧ first_order ∅ [[1; 2]; [2; 3]] [1; 3] fs φ.
Proof.
  apply C55_segments; [exact fresh0_ok|decided|]. intros k. rewrite !elem_of_cons, elem_of_nil. intros [->|[->|[]]]; decided.
Qed.
Example C55_segments_foreign_case : discretize_seg1 fresh0 ∅ [[1; 2]; [2; 3]] [1; 4] = Ub.
Proof. apply (C55_segments_foreign fresh0 fresh0_ok ∅ [[1; 2]; [2; 3]] [1; 4] 4); decided. Qed.

(* ---- a system ---- *)

Definition es0 : list (list nat * list nat) := [([1; 2; 3], [11; 12; 13]); ([3; 2; 4], [13; 12; 14])].
Definition eqs0 : gmap nat Z := {[11 := (-1)%Z; 12 := 0%Z; 13 := 1%Z; 14 := 2%Z]}.

(* the node 11 is constrained and so is the node 20, of another mesh *)
Example C52_case : build_equation_map es0 {[11]} = (eqs0, 3%Z).
Proof. decided. Qed.
Example C52_case_foreign : (build_equation_map es0 {[11; 20]}).1 !! 20 = Some (-1)%Z.
Proof. vm_compute. reflexivity. Qed.

(* the matrix of an element: 2 on the diagonal and -1 elsewhere; its vector: 1 *)
Definition blocks0 (e : list nat * list nat) : (nat → nat → R) * (nat → R) :=
  (λ a b, if decide (a = b) then 2%R else (-1)%R, λ _, 1%R).

Local Ltac crunch := cbv -[Rplus Rmult IZR Rinv Ropp].

(* the equations of the nodes 12, 13, 14: 4x - 2y - z = 2, -2x + 4y - z = 2, -x - y + 2z = 1 *)
Example C53_case :
  ∃ s, assemble true 3 eqs0 3%Z blocks0 es0 (create 3%Z) = Ok s ∧
    s_matrix s 0 0 = 4%R ∧ s_matrix s 0 1 = (-2)%R ∧ s_matrix s 2 1 = (-1)%R ∧ s_matrix s 2 2 = 2%R ∧ s_rhs s 0 = 2%R ∧ s_rhs s 2 = 1%R.
Proof.
  destruct (C53_assembly true 3 blocks0 es0 {[11]} eqs0 3%Z (create 3%Z) C52_case) as (s & E & _ & Hm & Hv & _ & _).
  { intros e. unfold es0. rewrite !elem_of_cons, elem_of_nil. intros [->|[->|[]]]; reflexivity. }
  { reflexivity. }
  assert (H12 : node_of es0 12) by (eexists; split; [left|decided]).
  assert (H13 : node_of es0 13) by (eexists; split; [left|decided]).
  assert (H14 : node_of es0 14) by (eexists; split; [right; left|decided]).
  assert (12 ∉ ({[11]} : gset nat)) by decided. assert (13 ∉ ({[11]} : gset nat)) by decided.
  assert (14 ∉ ({[11]} : gset nat)) by decided.
  exists s. split; [exact E|].
  rewrite (Hm 12 12), (Hm 12 13), (Hm 14 13), (Hm 14 14), (Hv 12), (Hv 14); try assumption; try reflexivity.
  split_and!; crunch; lra.
Qed.

Example C68_case :
  ∃ s, assemble true 3 eqs0 3%Z blocks0 es0 (create 3%Z) = Ok s ∧ solves (s_matrix s) (s_rhs s) [(5/2)%R; (5/2)%R; 3%R].
Proof.
  destruct (C53_assembly true 3 blocks0 es0 {[11]} eqs0 3%Z (create 3%Z) C52_case) as (s & E & _ & Hm & Hv & _ & _).
  { intros e. unfold es0. rewrite !elem_of_cons, elem_of_nil. intros [->|[->|[]]]; reflexivity. }
  { reflexivity. }
  assert (H12 : node_of es0 12) by (eexists; split; [left|decided]).
  assert (H13 : node_of es0 13) by (eexists; split; [left|decided]).
  assert (H14 : node_of es0 14) by (eexists; split; [right; left|decided]).
  assert (12 ∉ ({[11]} : gset nat)) by decided. assert (13 ∉ ({[11]} : gset nat)) by decided.
  assert (14 ∉ ({[11]} : gset nat)) by decided.
  exists s. split; [exact E|]. unfold solves. change (length [(5/2)%R; (5/2)%R; 3%R]) with 3.
  assert (Hn : ∀ i, i < 3 → ∃ p, eqs0 !! p = Some (Z.of_nat i) ∧ node_of es0 p ∧ p ∉ ({[11]} : gset nat) ∧
     p = match i with 0 => 12 | 1 => 13 | _ => 14 end).
  { intros i Hi. exists (match i with 0 => 12 | 1 => 13 | _ => 14 end).
    destruct i as [|[|[|]]]; [..|lia]; split_and!; first [reflexivity|assumption]. }
  intros i Hi. destruct (Hn i Hi) as (p & Hp & Hp1 & Hp2 & Hp3).
  rewrite (Hv p _ Hp1 Hp2 Hp). cbn [seq]. rewrite !fmap_cons.
  rewrite (Hm p 12 (Z.of_nat i) (Z.of_nat 0)), (Hm p 13 (Z.of_nat i) (Z.of_nat 1)), (Hm p 14 (Z.of_nat i) (Z.of_nat 2)); try assumption; try reflexivity.
  destruct i as [|[|[|]]]; [..|lia]; subst p; crunch; lra.
Qed.

(* the constrained node 11, where the value 7 may have been prescribed, gets the value 0 *)
Example C54_refuted_case u :
  length u = 3 → ∃ f f', fem_field true elements es0 = Ok f ∧ read_solution map_to_list eqs0 u f = Ok f' ∧ f' !! 11 ≠ Some 7%R.
Proof.
  intros Hu. assert (Ho : visits_set (elements : gset nat → list nat)) by (intros s; reflexivity).
  assert (Hv : visits (map_to_list : gmap nat Z → list (nat * Z))) by (intros s; reflexivity).
  destruct (C54_initial true elements Ho es0) as (f & Ef & _).
  destruct (C54_prescribed_value_refuted true elements Ho map_to_list Hv es0 {[11]} eqs0 3%Z u f 7%R 11) as (f' & E & _ & Hne);
    [exact C52_case|lia|exact Ef|eexists; split; [left|decided]|decided|lra|].
  exists f, f'. split; [exact Ef|]. split; assumption.
Qed.
