(* C34: the two triangles of Properties_MeshCases.v meet the hypotheses of the theorems of
   Properties_Summit.v. *)
From stdpp Require Import base gmap list strings.
From Coq Require Import Reals.
From Verif Require Import M_Tensor M_Geometry S_Geometry.
From Verif Require Import Base M_SegAlloc S_SegAlloc P_SegAlloc M_Topology S_Topology P_Topology
  Properties_Topology Properties_TopologyCases M_Mesh S_Mesh P_Mesh Properties_Mesh Properties_MeshCases
  M_Tetra S_Tetra P_TetraGeometry P_Tetra Properties_Tetra Properties_TetraCases
  M_Partition Properties_Partition M_Summit S_Summit P_Summit Properties_Summit.
Open Scope nat_scope.

Local Ltac decided :=
  match goal with |- ?P => refine (@by_decision P _ _) end; vm_compute; reflexivity.

Lemma lA_points x : x ∈ lA → NoDup x.2.2.*2.
Proof. revert x. apply Forall_forall. decided. Qed.

(* the file of the two triangles on the unit square *)
Example C34_case_file (dec : R → R) :
  ∃ coords, summit_write (Cartesian 2) dec map_to_list 2 square A.1.2 [] =
    Ok (summit_file 2 2 coords [[1; 2; 3]; [3; 2; 4]] []) ∧ length coords = 4 ∧
    coords !! 1 = Some [dec 1%R; dec 0%R].
Proof.
  eexists. split; [|split].
  - rewrite (summit_write_ok (Cartesian 2) dec map_to_list 2 square A.1.2 lA []
      (λ p, match find_point p square with Some x => x | None => λ _, 0%R end)).
    + reflexivity.
    + intros m. reflexivity.
    + lia.
    + exact A_cells.
    + vm_compute. reflexivity.
    + apply Forall_forall. vm_compute mesh_points. repeat constructor.
  - reflexivity.
  - reflexivity.
Qed.

(* it is written, read in the process that wrote it, and gives two triangles with a common side *)
Example C34_case_roundtrip (dec : R → R) :
  ∃ file w' m' l' φ,
    summit_write (Cartesian 2) dec map_to_list 2 square A.1.2 [] = Ok file ∧
    reader al0 blk0 true (Cartesian 2) 2 wA file = Ok (w', m') ∧ mesh_cells m' = Ok l' ∧
    (λ x : addr * gcell, x.2.2) <$> l' = [[φ 1; φ 2; φ 3]; [φ 3; φ 2; φ 4]] ∧ NoDup [φ 1; φ 2; φ 3; φ 4].
Proof.
  destruct (C34_roundtrip al0 al0_good blk0 blk0_inj true (Cartesian 2) dec map_to_list (λ m, Permutation_refl _) 2 wA A.1.2 lA wA)
    as (file & w' & m' & l' & φ & Ew & Er & Hp & _ & Hl & Hφ & _).
  { exact wA_refinable. } { exact lA_points. } { apply wA_refinable. }
  exists file, w', m', l', φ. split_and!; [exact Ew|exact Er|apply Hp|exact Hl|].
  assert (Hinj : ∀ p q, p ∈ [1; 2; 3; 4] → q ∈ [1; 2; 3; 4] → φ p = φ q → p = q).
  { assert (Hin : ∀ p, p ∈ [1; 2; 3; 4] → p ∈ mesh_points lA) by (apply Forall_forall; decided).
    intros p q H1%Hin H2%Hin E. apply Hφ; [done|done|]. left. by rewrite E. }
  change [φ 1; φ 2; φ 3; φ 4] with (φ <$> [1; 2; 3; 4]).
  assert (Hnd : NoDup [1; 2; 3; 4]) by decided. revert Hinj Hnd. generalize [1; 2; 3; 4]. clear.
  induction l as [|p l IH]; intros Hinj Hnd; [constructor|]. apply NoDup_cons in Hnd as [Hp Hnd]. cbn. constructor.
  - intros (q & E & Hq)%elem_of_list_fmap. apply Hp. rewrite (Hinj p q); [done|left|by right|done].
  - apply IH; [|done]. intros. apply Hinj; [by right..|done].
Qed.

(* with an element type it cannot be read *)
Example C34_case_element_type (dec : R → R) :
  ∃ file, summit_write (Cartesian 2) dec map_to_list 2 square A.1.2 [TWord "T3"] = Ok file ∧
    reader al0 blk0 true (Cartesian 2) 2 wA file = Abort.
Proof.
  apply (C34_element_type_refuted al0 al0_good blk0 blk0_inj true (Cartesian 2) dec map_to_list (λ m, Permutation_refl _) 2 wA A.1.2 lA wA "T3" []).
  - exact wA_refinable. - exact lA_points. - apply wA_refinable. - cbn. lia.
Qed.
