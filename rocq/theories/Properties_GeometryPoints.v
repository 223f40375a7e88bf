(* C36-C38: the distance of two points of a coordinate system, and the coordinate transformations by
   the pair of coordinates that a client names. *)
From Coq Require Import Reals Lra Lia List Permutation.
From Verif Require Import Base M_Tensor S_Tensor P_Tensor M_Geometry S_Geometry P_Atan2 P_Geometry
  P_Metric P_Volume Properties_Geometry.
Import ListNotations.
Open Scope R_scope.

(* C37: the distance of two points is the Euclidean distance of their positions, and asking for it
   throws when one of them was never placed. *)
Theorem C37_point_distance c cs a b :
  (forall xa xb, coordinates cs a = Ok xa -> coordinates cs b = Ok xb -> regular c xb ->
     point_distance c cs a b = Ok (euclid (dim c) (position c xa) (position c xb))) /\
  (coordinates cs a = Abort \/ coordinates cs b = Abort -> point_distance c cs a b = Abort).
Proof.
  unfold point_distance. split.
  - intros xa xb -> -> Hr. cbn [rbind]. rewrite C37_distance by exact Hr. reflexivity.
  - intros [-> | ->]; [reflexivity|]. unfold coordinates. destruct (find_point a cs); reflexivity.
Qed.

(* C38: the transformations go both ways between Cartesian coordinates of the plane and polar ones,
   and between Cartesian coordinates of the space and spherical ones. *)
Theorem C38_transform_pairs from to :
  (exists T, transform from to = Some T) <->
  In (from, to) [(Cartesian 2, Polar); (Polar, Cartesian 2);
                 (Cartesian 3, Spherical); (Spherical, Cartesian 3)].
Proof.
  split.
  - intros [T HT]. destruct from as [[|[|[|[|D]]]]| |], to as [[|[|[|[|D']]]]| |];
      cbn in HT; try discriminate; cbn; tauto.
  - cbn. intros [E|[E|[E|[E|[]]]]]; injection E as <- <-; cbn; eexists; reflexivity.
Qed.

(* C38: a transformation names the same point of space in the other coordinates, at every point. *)
Theorem C38_transform from to T :
  transform from to = Some T ->
  dim from = dim to /\ forall x, same (dim to) (position to (T x)) (position from x).
Proof.
  destruct C38_cartesian_roundtrip as [H2 H3]. destruct C38_to_cartesian as [P2 P3].
  intros HT. destruct from as [[|[|[|[|D]]]]| |], to as [[|[|[|[|D']]]]| |];
    cbn in HT; try discriminate; injection HT as <-; (split; [reflexivity|]); intros x i Hi;
    cbn [dim] in Hi.
  - exact (H2 x i Hi).
  - exact (H3 x i Hi).
  - exact (P2 x i Hi).
  - exact (P3 x i Hi).
Qed.

(* C38: and the transformation back returns the coordinates, where they name their point once. *)
Theorem C38_transform_back from to T :
  transform from to = Some T ->
  exists U, transform to from = Some U /\
    forall x, principal from x -> same (dim from) (U (T x)) x.
Proof.
  destruct C38_cartesian_roundtrip as [H2 H3].
  intros HT. destruct from as [[|[|[|[|D]]]]| |], to as [[|[|[|[|D']]]]| |];
    cbn in HT; try discriminate; injection HT as <-; (eexists; split; [reflexivity|]); intros x Hx.
  - apply H2.
  - apply H3.
  - apply C38_polar_roundtrip, Hx.
  - apply C38_spherical_roundtrip, Hx.
Qed.

(* C36: changing the coordinates of a coordinate system, whatever the order in which its points are
   visited, changes no distance between its points. *)
Theorem C36_change_keeps_distances history order from to T a b xa xb :
  Permutation order (placements history) -> transform from to = Some T ->
  coordinates (placements history) a = Ok xa -> coordinates (placements history) b = Ok xb ->
  regular from xb -> regular to (T xb) ->
  exists cs, change_coordinates T order = (cs, true) /\
    point_distance to cs a b = point_distance from (placements history) a b.
Proof.
  intros Hp HT Ha Hb Hr Hr'. destruct (C38_transform _ _ _ HT) as [Hd Hpos].
  destruct (C36_change_of_coordinates history order T) as (cs & E & H); [first [exact Hp|symmetry; exact Hp]|].
  exists cs. split; [exact E|].
  pose proof (H a) as Ea. pose proof (H b) as Eb. rewrite Ha in Ea. rewrite Hb in Eb. cbn in Ea, Eb.
  rewrite (proj1 (C37_point_distance to cs a b) _ _ Ea Eb Hr').
  rewrite (proj1 (C37_point_distance from _ a b) _ _ Ha Hb Hr).
  rewrite Hd. f_equal. apply euclid_same; apply Hpos.
Qed.

(* two points of the plane, visited in the other order, changed to polar coordinates *)
Definition corners2 : list (nat * vec) := [(5%nat, vec2 3 0); (8%nat, vec2 0 4)].

Example C36_case_distance :
  exists cs, change_coordinates cart_to_polar [(5%nat, vec2 3 0); (8%nat, vec2 0 4)] = (cs, true) /\
    point_distance Polar cs 5 8 = Ok 5.
Proof.
  destruct (C36_change_keeps_distances corners2 [(5%nat, vec2 3 0); (8%nat, vec2 0 4)] (Cartesian 2) Polar cart_to_polar 5 8
    (vec2 3 0) (vec2 0 4)) as (cs & E & H).
  - vm_compute. first [apply Permutation_refl|apply perm_swap].
  - reflexivity.
  - reflexivity.
  - reflexivity.
  - exact I.
  - cbn. apply Rgt_not_eq, sqrt_lt_R0. lra.
  - exists cs. split; [exact E|]. rewrite H.
    rewrite (proj1 (C37_point_distance (Cartesian 2) (placements corners2) 5 8) (vec2 3 0) (vec2 0 4) eq_refl eq_refl I).
    f_equal. unfold euclid. cbn. match goal with |- sqrt ?e = _ => replace e with (5 * 5) by ring end.
    apply sqrt_square. lra.
Qed.

Print Assumptions C37_point_distance.
Print Assumptions C38_transform_pairs.
Print Assumptions C38_transform.
Print Assumptions C38_transform_back.
Print Assumptions C36_change_keeps_distances.
