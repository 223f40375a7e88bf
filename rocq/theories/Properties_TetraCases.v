(* C30-C32: a mesh of two triangles with a common edge, in Cartesian and in polar coordinates, meets the
   hypotheses of the theorems of Properties_Tetra.v. *)
From stdpp Require Import base gmap list.
From Coq Require Import Reals Lra.
From Verif Require Import M_Tensor M_Geometry S_Geometry P_Volume Properties_Geometry.
From Verif Require Import Base M_SegAlloc S_SegAlloc P_SegAlloc M_Topology S_Topology P_Topology
  Properties_Topology Properties_TopologyCases M_Mesh S_Mesh P_Mesh Properties_Mesh Properties_MeshCases
  M_Tetra S_Tetra P_TetraGeometry P_TetraTiling P_Tetra Properties_Tetra.
Open Scope nat_scope.

Local Ltac decided :=
  match goal with |- ?P => refine (@by_decision P _ _) end; vm_compute; reflexivity.

(* the corners of the unit square *)
Definition square : csys :=
  [(1, vec2 0%R 0%R); (2, vec2 1%R 0%R); (3, vec2 0%R 1%R); (4, vec2 1%R 1%R)].
Definition wA : world := World A.1.1 square 5.
Definition lA : list (addr * gcell) := [((0, 0), (10, nds [1; 2; 3])); ((0, 1), (16, nds [3; 2; 4]))].

(* the same with points on two half lines from the origin, in polar coordinates *)
Definition wedge : csys :=
  [(1, vec2 1%R 0%R); (2, vec2 2%R 0%R); (3, vec2 1%R (PI / 2)%R); (4, vec2 2%R (PI / 2)%R)].
Definition wP : world := World A.1.1 wedge 5.

Lemma A_vertices v : v ∈ [1; 2; 3; 4] → hasF A.1.1 0 v.
Proof.
  intros Hv. repeat (apply elem_of_cons in Hv as [->|Hv]); [..|by apply elem_of_nil in Hv];
    unfold hasF; apply Nat.ltb_lt; vm_compute; reflexivity.
Qed.
Lemma A_cells : mesh_cells A.1.2 = Ok lA.
Proof. vm_compute. reflexivity. Qed.

Lemma fits st cs x : (∀ v, v ∈ [1; 2; 3; 4] → hasF st 0 v) → (∀ v, v ∈ [1; 2; 3; 4] → is_Some (find_point v cs)) →
  x ∈ lA → length x.2.2 = 3 ∧ fit (World st cs 5) x.2.2.
Proof.
  intros H Hcs Hx.
  assert (Hn : ∀ ns, ns ⊆ nds [1; 2; 3; 4] → ∀ nd, nd ∈ ns → hasF st 0 nd.1 ∧ nd.2 < 5 ∧ ∃ x, find_point nd.2 cs = Some x).
  { intros ns Hns nd (v & -> & Hv)%Hns%elem_of_list_fmap. cbn [fst snd]. split_and!; [by apply H| |by apply Hcs].
    repeat (apply elem_of_cons in Hv as [->|Hv]); [..|by apply elem_of_nil in Hv]; lia. }
  unfold lA in Hx. repeat (apply elem_of_cons in Hx as [->|Hx]); [..|by apply elem_of_nil in Hx];
    (split; [done|]); (split; [decided|]); cbn [wtop wsys wnext]; apply Hn; cbn; set_solver.
Qed.

Lemma A_refinable cs : (∀ v, v ∈ [1; 2; 3; 4] → is_Some (find_point v cs)) →
  (∀ p, 5 <= p → find_point p cs = None) →
  refinable al0 blk0 true 2 (World A.1.1 cs 5) A.1.2 lA.
Proof.
  intros Hcs Hf. pose proof A_vertices as HA. pose proof A_cells as HC. pose proof A_reach as HR.
  pose proof A_listed as HL. revert HA HC HR HL. generalize A. intros [[st m] es]. cbn [fst snd].
  intros HA HC HR HL. split_and!; [lia|lia|by split| |done|].
  - by exists es.
  - intros x Hx. by apply fits.
Qed.

Lemma wA_refinable : refinable al0 blk0 true 2 wA A.1.2 lA.
Proof.
  apply A_refinable.
  - intros v Hv. repeat (apply elem_of_cons in Hv as [->|Hv]); [..|by apply elem_of_nil in Hv]; by eexists.
  - intros p Hp. cbn. do 5 (destruct p as [|p]; [lia|]). done.
Qed.
Lemma wP_refinable : refinable al0 blk0 true 2 wP A.1.2 lA.
Proof.
  apply A_refinable.
  - intros v Hv. repeat (apply elem_of_cons in Hv as [->|Hv]); [..|by apply elem_of_nil in Hv]; by eexists.
  - intros p Hp. cbn. do 5 (destruct p as [|p]; [lia|]). done.
Qed.

#[local] Opaque A.

(* where the nodes are *)
Lemma wA_positions x : x ∈ lA →
  ∃ ps, poss (Cartesian 2) wA x.2.2 ps ∧ clear_of_axis (Cartesian 2) ps ∧ independent 2 ps.
Proof.
  intros Hx. unfold lA in Hx. repeat (apply elem_of_cons in Hx as [->|Hx]); [..|by apply elem_of_nil in Hx].
  - exists [vec2 0 0; vec2 1 0; vec2 0 1]%R. split_and!.
    + repeat constructor; eexists; (split_and!; [reflexivity|done|]); intros i Hi; reflexivity.
    + exists vzero. repeat constructor.
    + intros ws L Ht Hz. destruct ws as [|a [|b [|e [|]]]]; try done.
      pose proof (Hz 0 ltac:(lia)) as H0. pose proof (Hz 1 ltac:(lia)) as H1.
      unfold combo, total in *. cbn in *. repeat (apply Forall_cons; split; [lra|]). apply Forall_nil_2.
  - exists [vec2 0 1; vec2 1 0; vec2 1 1]%R. split_and!.
    + repeat constructor; eexists; (split_and!; [reflexivity|done|]); intros i Hi; reflexivity.
    + exists vzero. repeat constructor.
    + intros ws L Ht Hz. destruct ws as [|a [|b [|e [|]]]]; try done.
      pose proof (Hz 0 ltac:(lia)) as H0. pose proof (Hz 1 ltac:(lia)) as H1.
      unfold combo, total in *. cbn in *. repeat (apply Forall_cons; split; [lra|]). apply Forall_nil_2.
Qed.
Lemma wP_positions x : x ∈ lA → ∃ ps, poss Polar wP x.2.2 ps ∧ clear_of_axis Polar ps.
Proof.
  intros Hx.
  assert (P1 : pos Polar wP (1, 1) (vec2 1 0)%R).
  { exists (vec2 1 0)%R. split_and!; [reflexivity|cbn; lra|]. intros [|[|]] Hi; cbn in *; try lia; rewrite ?cos_0, ?sin_0; lra. }
  assert (P2 : pos Polar wP (2, 2) (vec2 2 0)%R).
  { exists (vec2 2 0)%R. split_and!; [reflexivity|cbn; lra|]. intros [|[|]] Hi; cbn in *; try lia; rewrite ?cos_0, ?sin_0; lra. }
  assert (P3 : pos Polar wP (3, 3) (vec2 0 1)%R).
  { exists (vec2 1 (PI / 2))%R. split_and!; [reflexivity|cbn; lra|]. intros [|[|]] Hi; cbn in *; try lia; rewrite ?cos_PI2, ?sin_PI2; lra. }
  assert (P4 : pos Polar wP (4, 4) (vec2 0 2)%R).
  { exists (vec2 2 (PI / 2))%R. split_and!; [reflexivity|cbn; lra|]. intros [|[|]] Hi; cbn in *; try lia; rewrite ?cos_PI2, ?sin_PI2; lra. }
  unfold lA in Hx. repeat (apply elem_of_cons in Hx as [->|Hx]); [..|by apply elem_of_nil in Hx].
  - exists [vec2 1 0; vec2 2 0; vec2 0 1]%R. split; [by repeat constructor|].
    exists (vec2 1 1)%R. repeat (apply Forall_cons; split; [cbn; lra|]). apply Forall_nil_2.
  - exists [vec2 0 1; vec2 2 0; vec2 0 2]%R. split; [by repeat constructor|].
    exists (vec2 1 1)%R. repeat (apply Forall_cons; split; [cbn; lra|]). apply Forall_nil_2.
Qed.

(* C30: three levels make 128 triangles *)
Example C30_case : ∃ w' m', tetra al0 blk0 true (Cartesian 2) 2 3 A.1.2 wA = Ok (w', m') ∧ nCells m' = 128%Z.
Proof.
  destruct (C30_cells al0 al0_good blk0 blk0_inj true (Cartesian 2) 2 3 wA A.1.2 lA wA_refinable)
    as (w' & m' & l' & E & _ & _ & Hn & _).
  exists w', m'. split; [exact E|]. rewrite Hn. unfold nCells. vm_compute. reflexivity.
Qed.

(* C31: the volume of the square, and of the part of the plane between the two half lines *)
Example C31_case n : ∃ w' m' l', tetra al0 blk0 true (Cartesian 2) 2 n A.1.2 wA = Ok (w', m') ∧
  mesh_cells m' = Ok l' ∧ mesh_volume (Cartesian 2) (volume_form (Cartesian 2)) (wsys w') (points_of l') = Ok 1%R.
Proof.
  destruct (C31_volume al0 al0_good blk0 blk0_inj true (Cartesian 2) n wA A.1.2 lA) as (w' & m' & l' & gcss & V & E & El & _ & _ & HV & HV').
  { cbn. lia. } { apply wA_refinable. }
  { intros x Hx. destruct (wA_positions x Hx) as (ps & ? & ? & _). eauto. }
  exists w', m', l'. split; [exact E|]. split; [exact El|]. rewrite HV'. rewrite <- HV.
  rewrite (C44_mesh_volume (Cartesian 2) (wsys wA) (points_of lA)
    [[vec2 0 0; vec2 1 0; vec2 0 1]; [vec2 0 1; vec2 1 0; vec2 1 1]]%R).
  - f_equal. unfold simplex_volume, total, vsub. cbn. lra.
  - cbn. lia.
  - repeat constructor.
Qed.
Example C31_polar_case n : ∃ w' m' l' V, tetra al0 blk0 true Polar 2 n A.1.2 wP = Ok (w', m') ∧
  mesh_cells m' = Ok l' ∧ mesh_volume Polar (volume_form Polar) (wsys wP) (points_of lA) = Ok V ∧
  mesh_volume Polar (volume_form Polar) (wsys w') (points_of l') = Ok V.
Proof.
  destruct (C31_volume al0 al0_good blk0 blk0_inj true Polar n wP A.1.2 lA) as (w' & m' & l' & gcss & V & E & El & _ & _ & HV & HV').
  { done. } { apply wP_refinable. } { apply wP_positions. }
  exists w', m', l', V. exact (conj E (conj El (conj HV HV'))).
Qed.

(* C32: the two triangles share the edge from 2 to 3 *)
Example C32_case : ∃ w' m' l' gcss gi gj na nb,
  tetra al0 blk0 true (Cartesian 2) 2 1 A.1.2 wA = Ok (w', m') ∧ mesh_cells m' = Ok l' ∧
  l'.*2 = concat gcss ∧ gcss !! 0 = Some gi ∧ gcss !! 1 = Some gj ∧
  na ∈ concat (gi.*2) ∧ nb ∈ concat (gj.*2) ∧ na ≠ nb ∧
  pos (Cartesian 2) w' na (vec2 (1/2) (1/2))%R ∧ pos (Cartesian 2) w' nb (vec2 (1/2) (1/2))%R.
Proof.
  destruct (wA_positions ((0, 0), (10, nds [1; 2; 3]))) as (ps & Hps & Hcl & Hind); [left|].
  destruct (wA_positions ((0, 1), (16, nds [3; 2; 4]))) as (ps' & Hps' & Hcl' & _); [right; left|].
  destruct (C32_conforming_refuted al0 al0_good blk0 blk0_inj true (Cartesian 2) 2 1 wA A.1.2 lA 0 1
    ((0, 0), (10, nds [1; 2; 3])) ((0, 1), (16, nds [3; 2; 4])) (2, 2) (3, 3) ps ps' (vec2 1 0)%R (vec2 0 1)%R)
    as (w' & m' & l' & gcss & gi & gj & na & nb & H1 & H2 & H3 & H4 & H5 & H6 & H7 & H8 & H9 & H10);
    [apply wA_refinable|lia|lia|reflexivity|reflexivity|congruence|cbn; set_solver..|exact Hps|exact Hps'|exact Hcl|exact Hcl'|exact Hind| | |].
  { eexists. split_and!; [reflexivity|done|]. intros i Hi. reflexivity. }
  { eexists. split_and!; [reflexivity|done|]. intros i Hi. reflexivity. }
  assert (Hs : ∀ nd, pos (Cartesian 2) w' nd (λ k, (vec2 1 0 k + vec2 0 1 k) / 2)%R →
                     pos (Cartesian 2) w' nd (vec2 (1/2) (1/2))%R).
  { intros nd (x & F & P & S). exists x. split_and!; [done|done|]. intros i Hi. rewrite (S i Hi).
    destruct i as [|[|]]; cbn in *; try lia; lra. }
  exists w', m', l', gcss, gi, gj, na, nb.
  exact (conj H1 (conj H2 (conj H3 (conj H4 (conj H5 (conj H6 (conj H7 (conj H8 (conj (Hs _ H9) (Hs _ H10)))))))))).
Qed.
