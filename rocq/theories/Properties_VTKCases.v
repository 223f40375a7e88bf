(* C35, C58: the two triangles of Properties_MeshCases.v meet the hypotheses of the theorems of
   Properties_VTK.v. *)
From stdpp Require Import base gmap list sorting.
From Coq Require Import Reals.
From Verif Require Import M_Tensor M_Geometry S_Geometry.
From Verif Require Import Base M_SegAlloc S_SegAlloc P_SegAlloc M_Topology S_Topology P_Topology
  Properties_Topology Properties_TopologyCases M_Mesh S_Mesh P_Mesh Properties_Mesh Properties_MeshCases
  M_Tetra S_Tetra P_TetraGeometry P_Tetra Properties_Tetra Properties_TetraCases S_Summit P_Summit
  M_Discrete S_Discrete M_VTK P_VTK Properties_VTK.
Open Scope nat_scope.

Local Ltac decided :=
  match goal with |- ?P => refine (@by_decision P _ _) end; vm_compute; reflexivity.

(* a history of a field *)
Example C58_case_history :
  ∃ f, rfold (fstep true) ∅ [Insert 1 10; Insert 2 20; Assign 1 11; Insert 3 30; Assign 1 12] = Ok f ∧
    read f 1 = Ok 12 ∧ read f 2 = Ok 20 ∧ read f 4 = Abort ∧ field_size f = 3.
Proof. eexists. split; [vm_compute; reflexivity|]. split_and!; vm_compute; reflexivity. Qed.

(* assigning before inserting, inserting twice in debug mode *)
Example C58_case_throws :
  rfold (fstep false) ∅ [Insert 1 10; Assign 2 20] = Abort ∧
  rfold (fstep true) ∅ [Insert 1 10; Insert 1 20] = Abort ∧
  (∃ f, rfold (fstep false) ∅ [Insert 1 10; Insert 1 20] = Ok f ∧ read f 1 = Ok 10).
Proof. split_and!; [vm_compute; reflexivity..|]. eexists. split; vm_compute; reflexivity. Qed.

Lemma lA_placed n : n ∈ mesh_nodes lA → is_Some (find_point n.2 square).
Proof. revert n. apply Forall_forall. vm_compute mesh_nodes. repeat constructor; vm_compute; by eexists. Qed.

(* one entry for each of the four nodes of the two triangles *)
Example C58_case_mesh_field : ∃ f, mesh_field true elements 7 A.1.2 = Ok f ∧
  ∀ n, n ∈ mesh_nodes lA → read f n = Ok 7.
Proof.
  destruct (C58_mesh_field true elements (λ s, Permutation_refl _) 7 A.1.2 lA A_cells) as (f & E & H & _).
  exists f. split; [exact E|]. intros n Hn. apply H. unfold mesh_nodes in Hn.
  apply P_Mesh.elem_of_concat in Hn as (ns & Hn & Hns). apply elem_of_list_fmap in Hns as (x & -> & Hx). exists x. split; assumption.
Qed.

(* the field of the first coordinates *)
Example C58_case_mesh_field_of : ∃ f,
  mesh_field_of true elements map_to_list 0%R A.1.2 square (λ x, x 0) = Ok f ∧
  ∀ n, n ∈ mesh_nodes lA → ∃ x, find_point n.2 square = Some x ∧ read f n = Ok (x 0).
Proof.
  assert (Hin : ∀ n, n ∈ mesh_nodes lA ↔ ∃ x : addr * gcell, x ∈ lA ∧ n ∈ x.2.2).
  { intros n. unfold mesh_nodes. rewrite P_Mesh.elem_of_concat. split.
    - intros (ns & Hn & Hns). apply elem_of_list_fmap in Hns as (x & -> & Hx). exists x. split; assumption.
    - intros (x & Hx & Hn). exists x.2.2. split; [assumption|].
      exact (elem_of_list_fmap_1 (λ x : addr * gcell, x.2.2) lA x Hx). }
  destruct (C58_mesh_field_of true elements (λ s, Permutation_refl _) map_to_list 0%R A.1.2 lA square (λ x, x 0)
    (λ m, Permutation_refl _) A_cells) as (f & E & H & _).
  { intros x n Hx Hn. apply lA_placed, Hin. exists x. split; assumption. }
  exists f. split; [exact E|]. intros n Hn. apply H. exact (proj1 (Hin n) Hn).
Qed.

Lemma Forall2_functional {X Y : Type} (P : X → Y → Prop) xs ys zs :
  (∀ x y z, P x y → P x z → y = z) → Forall2 P xs ys → Forall2 P xs zs → ys = zs.
Proof.
  intros HP H. revert zs. induction H as [|x y xs ys Hx _ IH]; intros zs H'.
  - by apply Forall2_nil_inv_l in H'.
  - apply Forall2_cons_inv_l in H' as (z & zs' & Hz & H' & ->). f_equal; [by apply (HP x)|by apply IH].
Qed.

(* the grid of the two triangles: four points, and each triangle with the numbers of its corners *)
Example C35_case_mesh : ∃ ids g, mesh_vtk_writer true (Cartesian 2) square A.1.2 = Ok (ids, g) ∧
  length (g_points g) = 4 ∧ g_cells g = [[0; 1; 2]; [2; 1; 3]].
Proof.
  destruct (C35_mesh true (Cartesian 2)) with (m := A.1.2) (l := lA) (cs := square)
    as (ids & g & E & Hids & Hp & Hg).
  { unfold in_space. cbn. lia. } { exact A_cells. } { exact lA_placed. }
  exists ids, g. split_and!; [exact E| |].
  - rewrite <- (Forall2_length _ _ _ Hp). vm_compute. reflexivity.
  - assert (Hnd : NoDup (first_seen (mesh_nodes lA))) by apply first_seen_NoDup.
    assert (Hrow : ∀ (x : addr * gcell) row row',
      Forall2 (λ n i, first_seen (mesh_nodes lA) !! i = Some n) x.2.2 row →
      Forall2 (λ n i, first_seen (mesh_nodes lA) !! i = Some n) x.2.2 row' → row = row').
    { intros x row row'. apply Forall2_functional. intros n i i' Hi Hi'. exact (NoDup_lookup _ _ _ _ Hnd Hi Hi'). }
    assert (Hg' : Forall2 (λ (x : addr * gcell) row,
      Forall2 (λ n i, first_seen (mesh_nodes lA) !! i = Some n) x.2.2 row) lA [[0; 1; 2]; [2; 1; 3]]) by decided.
    exact (Forall2_functional _ _ _ _ Hrow Hg Hg').
Qed.

(* its field of the points *)
Example C35_case_field : ∃ ids g ys, mesh_vtk_writer true (Cartesian 2) square A.1.2 = Ok (ids, g) ∧
  attach_nodal_field map_to_list ids g (list_to_map ((λ n : node, (n, n.2)) <$> mesh_nodes lA)) = Ok (Some <$> ys) ∧
  ys = [1; 2; 3; 4].
Proof.
  destruct (C35_mesh true (Cartesian 2)) with (m := A.1.2) (l := lA) (cs := square) as (ids & g & E & _ & Hp & _).
  { unfold in_space. cbn. lia. } { exact A_cells. } { exact lA_placed. }
  destruct (C35_mesh_field true (Cartesian 2)) with (visit := map_to_list (M := gmap node nat) (K := node) (A := nat)) (m := A.1.2) (l := lA) (cs := square)
    (ids := ids) (g := g) (field := list_to_map (M := gmap node nat) ((λ n : node, (n, n.2)) <$> mesh_nodes lA)) as [H _].
  { unfold in_space. cbn. lia. } { intros ?. reflexivity. } { exact A_cells. } { exact lA_placed. } { exact E. }
  destruct H as (ys & Ey & Hys).
  { apply Forall_forall. decided. }
  exists ids, g, ys. split_and!; [exact E|exact Ey|].
  assert (H : Forall2 (λ n y, list_to_map (M := gmap node nat) ((λ n : node, (n, n.2)) <$> mesh_nodes lA) !! n = Some y)
    (first_seen (mesh_nodes lA)) [1; 2; 3; 4]) by decided.
  refine (Forall2_functional _ _ _ _ _ Hys H). intros n y z Hy Hz. rewrite Hy in Hz. injection Hz as ->. reflexivity.
Qed.

(* a function space whose discretization nodes are numbered 50 + point *)
Example C35_case_function_space : ∃ ids g,
  node_vtk_writer true (Cartesian 2) square ((λ x : addr * gcell, x.2.2) <$> lA)
    (list_to_map ((λ n : node, (n, 50 + n.2)) <$> mesh_nodes lA)) = Ok (ids, g) ∧
  length (g_points g) = 4 ∧ ids !! 53 = Some 2.
Proof.
  destruct (C35_function_space true (Cartesian 2)) with (cells := (λ x : addr * gcell, x.2.2) <$> lA) (cs := square)
    (node_map := list_to_map (M := gmap node nat) ((λ n : node, (n, 50 + n.2)) <$> mesh_nodes lA)) (k := λ n : node, 50 + n.2)
    as (ids & g & E & Hids & Hp & _).
  { unfold in_space. cbn. lia. }
  { intros n Hn. split; [|exact (lA_placed n Hn)]. revert n Hn. apply Forall_forall. decided. }
  exists ids, g. split_and!; [exact E| |].
  - rewrite <- (Forall2_length _ _ _ Hp). vm_compute. reflexivity.
  - apply Hids. vm_compute. reflexivity.
Qed.

(* a cloud with a repeated point *)
Example C35_case_cloud : ∃ points g ys,
  cloud_vtk_writer (Cartesian 2) square elements [1; 4; 1] = Ok (points, g) ∧ length (g_points g) = 2 ∧
  attach_point_field elements points g {[1 := 10; 4 := 40]} = Ok (Some <$> ys) ∧ ys ≡ₚ [10; 40].
Proof.
  destruct (C35_cloud (Cartesian 2)) with (order := elements (A := nat) (C := gset nat)) (cloud := [1; 4; 1]) (cs := square)
    (field := {[1 := 10; 4 := 40]} : gmap nat nat) as (points & g & ps & ys & E & Hnd & Hin & Hp & Ea & Hys).
  { unfold in_space. cbn. lia. } { intros ?. reflexivity. }
  { apply Forall_forall. repeat constructor; vm_compute; by eexists. }
  assert (Hps : ps ≡ₚ [1; 4]).
  { apply NoDup_Permutation; [done|decided|]. intros p. rewrite Hin, !elem_of_cons. tauto. }
  exists points, g, ys. split_and!; [exact E| |exact Ea|].
  - rewrite <- (Forall2_length _ _ _ Hp), Hps. done.
  - symmetry in Hps. apply Permutation_length_2_inv in Hps as [-> | ->].
    all: apply Forall2_cons_inv_l in Hys as (y1 & ys1 & H1 & Hys & ->).
    all: apply Forall2_cons_inv_l in Hys as (y2 & ys2 & H2 & Hys & ->).
    all: apply Forall2_nil_inv_l in Hys as ->.
    all: vm_compute in H1, H2; injection H1 as <-; injection H2 as <-; apply Permutation_refl || apply Permutation_swap.
Qed.
