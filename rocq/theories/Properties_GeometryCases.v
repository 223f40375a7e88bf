(* Concrete cases for the geometry theorems, and their assumptions. *)
From Coq Require Import Reals Lra Lia List Permutation.
From Verif Require Import Base M_Tensor S_Tensor P_Tensor M_Geometry S_Geometry P_Atan2 P_Geometry
  P_Metric P_Volume Properties_Geometry.
Import ListNotations.
Open Scope R_scope.

(* A history with a repeated placement: the second is rejected. *)
Definition history1 : list (nat * vec) :=
  [(7%nat, vec2 0 0); (3%nat, vec2 1 0); (7%nat, vec2 5 5); (4%nat, vec2 0 1)].

Example history1_kept : coordinates (placements history1) 7 = Ok (vec2 0 0).
Proof. rewrite C36_history. reflexivity. Qed.
Example history1_missing : coordinates (placements history1) 9 = Abort.
Proof. rewrite C36_history. reflexivity. Qed.
Example history1_rejected : snd (place (placements history1) 4 (vec2 2 2)) = false.
Proof.
  destruct (C36_place history1 4 (vec2 2 2) 0) as (_ & H & _). apply H. discriminate.
Qed.

(* visited backwards, transformed to polar coordinates *)
Example history1_polar :
  exists cs, change_coordinates cart_to_polar (rev (placements history1)) = (cs, true) /\
    exists x, coordinates cs 3 = Ok x /\ same 2 x (vec2 1 0).
Proof.
  destruct (C36_change_of_coordinates history1 (rev (placements history1)) cart_to_polar)
    as (cs & E & H); [apply Permutation_rev|].
  exists cs. split; [exact E|]. specialize (H 3%nat). rewrite C36_history in H. cbn in H.
  exists (cart_to_polar (vec2 1 0)). split; [exact H|].
  assert (HE : same 2 (cart_to_polar (polar_to_cart (vec2 1 0))) (vec2 1 0)).
  { apply C38_polar_roundtrip. pose proof PI_RGT_0. cbn. lra. }
  intros i Hi. rewrite <- (HE i Hi). destruct i as [|[|i]]; [| |lia]; cbn;
    rewrite ?cos_0, ?sin_0, ?Rmult_1_r, ?Rmult_0_r; reflexivity.
Qed.

(* Polar points off the origin, spherical points off the axis. *)
Example regular_polar : regular Polar (vec2 2 1) /\ proper Polar (vec2 2 1) /\ principal Polar (vec2 2 1).
Proof. pose proof PI_4. pose proof PI2_1. cbn. unfold PI2 in *. lra. Qed.

Example regular_spherical :
  regular Spherical (vec3 2 1 1) /\ proper Spherical (vec3 2 1 1) /\ principal Spherical (vec3 2 1 1).
Proof.
  pose proof PI2_1 as H. assert (0 < sin 1) by (apply sin_gt_0; lra). cbn. lra.
Qed.

(* The midpoint of two polar points: (1, 0) and (1, PI/2) meet at distance 1/sqrt 2. *)
Example polar_midpoint :
  exists m, midpoint Polar [(0%nat, vec2 1 0); (1%nat, vec2 1 (PI / 2))] 0 1 = Ok m /\
    position Polar m 0%nat = 1 / 2 /\ position Polar m 1%nat = 1 / 2.
Proof.
  destruct (C36_midpoint Polar [(0%nat, vec2 1 0); (1%nat, vec2 1 (PI / 2))] 0 1
    (vec2 1 0) (vec2 1 (PI / 2))) as (m & E & H); [reflexivity|reflexivity|cbn; lra|].
  exists m. split; [exact E|].
  rewrite (H 0%nat), (H 1%nat) by (cbn; lia). cbn. rewrite cos_0, sin_0, cos_PI2, sin_PI2.
  split; field.
Qed.

(* The distance of these two points is sqrt 2. *)
Example polar_distance : distance Polar (vec2 1 0) (vec2 1 (PI / 2)) = sqrt 2.
Proof.
  rewrite C37_distance by (cbn; lra). unfold euclid. cbn. rewrite cos_0, sin_0, cos_PI2, sin_PI2.
  f_equal. ring.
Qed.

(* The unit triangle, seen in Cartesian and in polar coordinates, and its reordering. *)
Definition tri : csys := [(0%nat, vec2 1 1); (1%nat, vec2 2 1); (2%nat, vec2 1 3)].

Example tri_placed : placed tri [0; 1; 2]%nat [vec2 1 1; vec2 2 1; vec2 1 3].
Proof. repeat constructor. Qed.

Example tri_volume : cell_volume (Cartesian 2) (volume_form (Cartesian 2)) tri [0; 1; 2]%nat = Ok 1.
Proof.
  rewrite (C44_cell_volume (Cartesian 2) tri [0; 1; 2]%nat [vec2 2 1; vec2 1 3] (vec2 1 1)).
  - cbn. f_equal. unfold vsub. cbn. lra.
  - cbn. lia.
  - exact tri_placed.
  - reflexivity.
  - exact I.
Qed.

Example tri_reversed :
  cell_volume (Cartesian 2) (volume_form (Cartesian 2)) tri [0; 2; 1]%nat = Ok (-1).
Proof.
  destruct (C44_orientation (Cartesian 2) tri true [0; 1; 2]%nat [0; 2; 1]%nat
    [vec2 1 1; vec2 2 1; vec2 1 3] [vec2 1 1; vec2 1 3; vec2 2 1]) as (v & E & E').
  - cbn. lia.
  - exact tri_placed.
  - repeat constructor.
  - reflexivity.
  - repeat constructor.
  - apply (swaps_one false [vec2 1 1; vec2 2 1; vec2 1 3] [vec2 1 1] (vec2 2 1) (vec2 1 3) []).
    apply swaps_none.
  - rewrite tri_volume in E. injection E as <-. rewrite E'. f_equal. cbn. ring.
Qed.

(* A quarter-disc sector triangle in polar coordinates: corners (1,0), (2,0), (1, PI/2). *)
Definition ptri : csys := [(0%nat, vec2 1 0); (1%nat, vec2 2 0); (2%nat, vec2 1 (PI / 2))].

Example ptri_volume : cell_volume Polar (volume_form Polar) ptri [0; 1; 2]%nat = Ok (1 / 2).
Proof.
  rewrite (C44_cell_volume Polar ptri [0; 1; 2]%nat [vec2 2 0; vec2 1 (PI / 2)] (vec2 1 0)).
  - cbn. f_equal. unfold vsub. cbn. rewrite cos_0, sin_0, cos_PI2, sin_PI2. lra.
  - exact I.
  - repeat constructor.
  - reflexivity.
  - cbn. lra.
Qed.

(* A square of two triangles. *)
Definition square : csys :=
  [(0%nat, vec2 0 0); (1%nat, vec2 1 0); (2%nat, vec2 1 1); (3%nat, vec2 0 1)].

Example square_volume :
  mesh_volume (Cartesian 2) (volume_form (Cartesian 2)) square [[0; 1; 2]; [0; 2; 3]]%nat = Ok 1.
Proof.
  rewrite (C44_mesh_volume (Cartesian 2) square [[0; 1; 2]; [0; 2; 3]]%nat
    [[vec2 0 0; vec2 1 0; vec2 1 1]; [vec2 0 0; vec2 1 1; vec2 0 1]]).
  - f_equal. unfold total, simplex_volume, det_vecs, vsub. cbn. lra.
  - cbn. lia.
  - repeat constructor.
Qed.

(* A segment of the plane with its unit normal, and a triangle of space with its own. *)
Example segment_length :
  exists v, cell_volume (Cartesian 2) (sub_volume_form (Cartesian 2) [fun _ => unitv 1] 1)
      [(0%nat, vec2 0 2); (1%nat, vec2 3 2)] [0; 1]%nat = Ok v /\
    Rabs v = euclid 2 (vec2 3 2) (vec2 0 2).
Proof.
  apply (C44_line_length_2d (Cartesian 2) (fun _ => unitv 1) _ _ (vec2 0 2) (vec2 3 2)).
  - reflexivity.
  - cbn. lia.
  - repeat constructor.
  - exact I.
  - unfold dot, unitv. cbn. ring.
  - unfold dot, unitv. cbn. ring.
Qed.

Example space_segment_length :
  exists v, cell_volume (Cartesian 3)
      (sub_volume_form (Cartesian 3) [fun _ => unitv 1; fun _ => unitv 2] 1)
      [(0%nat, vec3 0 2 1); (1%nat, vec3 3 2 1)] [0; 1]%nat = Ok v /\
    Rabs v = euclid 3 (vec3 3 2 1) (vec3 0 2 1).
Proof.
  apply (C44_line_length_3d (Cartesian 3) (fun _ => unitv 1) (fun _ => unitv 2) _ _
    (vec3 0 2 1) (vec3 3 2 1)).
  - reflexivity.
  - cbn. lia.
  - repeat constructor.
  - exact I.
  - unfold dot, unitv. cbn. ring.
  - unfold dot, unitv. cbn. ring.
  - unfold dot, unitv. cbn. ring.
  - unfold dot, unitv. cbn. ring.
  - unfold dot, unitv. cbn. ring.
Qed.

Example triangle_area :
  exists a, cell_volume (Cartesian 3) (sub_volume_form (Cartesian 3) [fun _ => unitv 2] 2)
      [(0%nat, vec3 0 0 5); (1%nat, vec3 3 0 5); (2%nat, vec3 0 4 5)] [0; 1; 2]%nat = Ok a /\
    Rabs a = 6.
Proof.
  destruct (C44_surface_area (Cartesian 3) (fun _ => unitv 2)
    [(0%nat, vec3 0 0 5); (1%nat, vec3 3 0 5); (2%nat, vec3 0 4 5)] [0; 1; 2]%nat
    (vec3 0 0 5) (vec3 3 0 5) (vec3 0 4 5)) as (a & E & H).
  - reflexivity.
  - cbn. lia.
  - repeat constructor.
  - exact I.
  - unfold dot, unitv. cbn. ring.
  - unfold dot, unitv. cbn. ring.
  - unfold dot, unitv. cbn. ring.
  - exists a. split; [exact E|]. rewrite H. unfold dot. cbn.
    match goal with |- sqrt ?x / 2 = 6 => replace x with (12 * 12) by ring end.
    rewrite sqrt_square by lra. lra.
Qed.

(* The volume form of spherical coordinates at a regular point. *)
Example spherical_volume_form :
  exists f, volume_form Spherical (vec3 2 1 1) = Some f /\
    app f [Some (unitv 0); Some (unitv 1); Some (unitv 2)] = Some (Sc 1).
Proof.
  destruct (C40_volume_form Spherical (vec3 2 1 1)) as (f & w & E & _ & _ & H).
  - exact I.
  - apply regular_spherical.
  - exists f. split; [exact E|].
    change [Some (unitv 0); Some (unitv 1); Some (unitv 2)]
      with (map Some [unitv 0; unitv 1; unitv 2]).
    rewrite (is_form_app f 3 det_vecs [unitv 0; unitv 1; unitv 2] H ltac:(lia) eq_refl).
    unfold unitv. cbn. do 2 f_equal. ring.
Qed.

Print Assumptions C36_history.
Print Assumptions C36_place.
Print Assumptions C36_change_of_coordinates.
Print Assumptions C36_midpoint.
Print Assumptions C36_midpoint_symmetric.
Print Assumptions C37_cartesian_affine.
Print Assumptions C37_difference.
Print Assumptions C37_translation.
Print Assumptions C37_there_and_back.
Print Assumptions C37_distance.
Print Assumptions C37_midpoint_equidistant.
Print Assumptions C37_barycenter.
Print Assumptions C38_to_cartesian.
Print Assumptions C38_cartesian_roundtrip.
Print Assumptions C38_polar_roundtrip.
Print Assumptions C38_spherical_roundtrip.
Print Assumptions C38_principal.
Print Assumptions C38_polar_there_and_back.
Print Assumptions C38_spherical_there_and_back.
Print Assumptions C38_polar_angle_refuted.
Print Assumptions C39_coordinate_functions_partial.
Print Assumptions C39_x_2_refuted.
Print Assumptions C40_metric_inverse.
Print Assumptions C40_metric_gram.
Print Assumptions C40_dual_basis.
Print Assumptions C40_volume_form.
Print Assumptions C40_density.
Print Assumptions C44_cell_volume.
Print Assumptions C44_orientation.
Print Assumptions C44_translation.
Print Assumptions C44_mesh_volume.
Print Assumptions C44_mesh_order.
Print Assumptions C44_submanifold.
Print Assumptions C44_line_length_2d.
Print Assumptions C44_line_length_3d.
Print Assumptions C44_surface_area.
Print Assumptions C67_form_to_vector.
Print Assumptions C67_vector_to_form_partial.
Print Assumptions C67_vector_to_form_refuted.
