(* C36-C40, C44 and C67: coordinate systems, metrics and volumes, in exact real arithmetic.
   [position c x] (S_Geometry.v) is the point of Euclidean space named by the coordinates [x];
   [in_frame c A v] the Cartesian components of the vector whose components in the orthonormal frame
   at [A] are [v]. *)
From Coq Require Import Reals Lra Lia List Permutation.
From Verif Require Import Base M_Tensor S_Tensor P_Tensor M_Geometry S_Geometry P_Atan2 P_Geometry
  P_Metric P_Volume.
Import ListNotations.
Open Scope R_scope.

(* ---- C36: a coordinate system remembers the coordinates of each point ---- *)

(* After any history of placements, coordinates(p) returns the coordinates of the first placement
   of p, and throws for a point that was never placed. *)
Theorem C36_history history p :
  coordinates (placements history) p
  = match first_placed p history with
    | Some x => Ok x
    | None => Abort
    end.
Proof.
  unfold coordinates. rewrite find_placements. destruct (first_placed p history); reflexivity.
Qed.

(* place(p, x) of a new point is accepted, p is then at x and the others are where they were; a
   second placement of p is rejected and changes nothing. *)
Theorem C36_place history p x q :
  let cs := placements history in
  (first_placed p history = None ->
     snd (place cs p x) = true /\ coordinates (fst (place cs p x)) p = Ok x) /\
  (first_placed p history <> None ->
     snd (place cs p x) = false /\ fst (place cs p x) = cs) /\
  (q <> p -> coordinates (fst (place cs p x)) q = coordinates cs q).
Proof.
  intros cs. assert (E : find_point p cs = first_placed p history) by apply find_placements.
  split; [|split].
  - intros H. unfold coordinates. rewrite find_place. unfold place. rewrite E, H.
    rewrite Nat.eqb_refl. split; reflexivity.
  - intros H. unfold place. rewrite E. destruct (first_placed p history); [|congruence].
    split; reflexivity.
  - intros N. unfold coordinates. rewrite find_place.
    destruct (find_point q cs); [reflexivity|].
    destruct (Nat.eqb_spec p q); [congruence|reflexivity].
Qed.

(* A coordinate system built from another one by a change of coordinates holds exactly the same
   points, each at its transformed coordinates, whatever the order in which the map of the other is
   visited. *)
Theorem C36_change_of_coordinates history visit T :
  Permutation (placements history) visit ->
  exists cs, change_coordinates T visit = (cs, true) /\
    forall p, coordinates cs p
      = match coordinates (placements history) p with
        | Ok x => Ok (T x)
        | Abort => Abort
        | Ub => Ub
        end.
Proof.
  intros HP. unfold change_coordinates.
  destruct (place_all_spec T visit csys_empty) as (cs & E & H).
  - eapply Permutation_NoDup; [apply Permutation_map, HP|]. apply placements_nodup.
  - reflexivity.
  - exists cs. split; [exact E|]. intros p. unfold coordinates. rewrite H. cbn.
    rewrite (find_permutation _ _ p (placements_nodup history) HP).
    destruct (find_point p (placements history)); reflexivity.
Qed.

(* The midpoint of two placed points lies half-way between them, in every coordinate system, and
   its position does not depend on the order of the two points. *)
Theorem C36_midpoint c cs a b xa xb :
  coordinates cs a = Ok xa -> coordinates cs b = Ok xb -> regular c xa ->
  exists m, midpoint c cs a b = Ok m /\
    same (dim c) (position c m) (fun i => (position c xa i + position c xb i) / 2).
Proof.
  intros Ha Hb Hr. unfold midpoint. rewrite Ha, Hb. cbn [rbind].
  eexists. split; [reflexivity|]. apply half_position, Hr.
Qed.

Theorem C36_midpoint_symmetric c cs a b xa xb :
  coordinates cs a = Ok xa -> coordinates cs b = Ok xb -> regular c xa -> regular c xb ->
  exists m m', midpoint c cs a b = Ok m /\ midpoint c cs b a = Ok m' /\
    same (dim c) (position c m) (position c m').
Proof.
  intros Ha Hb Hra Hrb.
  destruct (C36_midpoint c cs a b xa xb Ha Hb Hra) as (m & E & H).
  destruct (C36_midpoint c cs b a xb xa Hb Ha Hrb) as (m' & E' & H').
  exists m, m'. repeat split; auto. intros i Hi. rewrite (H i Hi), (H' i Hi). field.
Qed.

(* ---- C37: coordinates form an affine space ---- *)

Theorem C37_cartesian_affine D (A B C u v : vec) :
  let c := Cartesian D in
  same D (cadd c A (csub c B A)) B /\
  same D (cadd c (cadd c A u) v) (cadd c A (vadd u v)) /\
  same D (csub c A A) vzero /\
  same D (vadd (csub c B A) (csub c C B)) (csub c C A) /\
  same D (cadd c A vzero) A /\
  same D (csub c (cadd c A v) A) v.
Proof.
  cbn. unfold vadd, vzero. repeat split; intros i _; ring.
Qed.

(* The same, in every coordinate system, for the positions that the coordinates name: B - A is the
   displacement from A to B and A + v is A displaced by v. *)
Theorem C37_difference c A B :
  regular c A ->
  same (dim c) (in_frame c A (csub c B A)) (vsub (position c B) (position c A)).
Proof. apply sub_position. Qed.

Theorem C37_translation c A v :
  regular c A -> same (dim c) (position c (cadd c A v)) (vadd (position c A) (in_frame c A v)).
Proof. apply add_position. Qed.

Theorem C37_there_and_back c A B :
  regular c A -> same (dim c) (position c (cadd c A (csub c B A))) (position c B).
Proof.
  intros H i Hi. rewrite (add_position c A _ H i Hi). unfold vadd.
  rewrite (sub_position c A B H i Hi). unfold vsub. ring.
Qed.

(* The distance of two sets of coordinates is the Euclidean distance of their positions. *)
Theorem C37_distance c xA xB :
  regular c xB -> distance c xA xB = euclid (dim c) (position c xA) (position c xB).
Proof. apply distance_euclid. Qed.

(* A midpoint is equidistant from its ends. *)
Theorem C37_midpoint_equidistant c cs a b xa xb m :
  coordinates cs a = Ok xa -> coordinates cs b = Ok xb -> regular c xa -> regular c xb ->
  midpoint c cs a b = Ok m -> distance c m xa = distance c m xb.
Proof.
  intros Ha Hb Hra Hrb Hm.
  destruct (C36_midpoint c cs a b xa xb Ha Hb Hra) as (m' & E & H).
  assert (m' = m) as -> by congruence.
  rewrite !distance_euclid by assumption.
  rewrite !(euclid_same _ _ _ _ _ H (fun i _ => eq_refl)). apply euclid_half.
Qed.

(* The barycenter of a cell is at the average of the positions of its nodes. *)
Theorem C37_barycenter c cs cell xs x0 :
  placed cs cell (x0 :: xs) -> regular c x0 ->
  exists b, barycenter c cs cell = Ok b /\
    same (dim c) (position c b) (average (map (position c) (x0 :: xs))).
Proof.
  intros HP Hr. pose proof (all_coordinates_ok _ _ _ HP) as EA.
  pose proof HP as HP'. inversion HP' as [|p0 ? ps ? Hp0 HPs]; subst.
  assert (L : length (p0 :: ps) = length (x0 :: xs))
    by (clear - HP; induction HP; cbn; congruence).
  unfold barycenter. unfold coordinates at 1. rewrite Hp0. cbn [at_or_throw rbind].
  rewrite EA. cbn [rbind]. eexists. split; [reflexivity|].
  rewrite L. apply (barycenter_position c x0 (x0 :: xs) Hr). discriminate.
Qed.

(* ---- C38: the transformations between coordinates invert ---- *)

Theorem C38_to_cartesian :
  (forall x, same 2 (polar_to_cart x) (position Polar x)) /\
  (forall x, same 3 (spherical_to_cart x) (position Spherical x)).
Proof. split; intros x i Hi; reflexivity. Qed.

(* cartesian -> curvilinear -> cartesian is the identity, everywhere. *)
Theorem C38_cartesian_roundtrip :
  (forall p, same 2 (polar_to_cart (cart_to_polar p)) p) /\
  (forall p, same 3 (spherical_to_cart (cart_to_spherical p)) p).
Proof.
  split; intros p.
  - pose proof (atan2_polar (p 0%nat) (p 1%nat)) as [C S].
    comps; unfold polar_to_cart, cart_to_polar; cbn; assumption.
  - pose proof (atan2_polar (p 0%nat) (p 1%nat)) as [C S].
    set (rho := hypot (p 1%nat) (p 0%nat)) in *.
    pose proof (atan2_polar (p 2%nat) rho) as [C1 S1].
    assert (Hrho : sqrt (p 0%nat * p 0%nat + p 1%nat * p 1%nat) = rho).
    { unfold rho, hypot. f_equal. ring. }
    assert (Hr2 : rho * rho = p 0%nat * p 0%nat + p 1%nat * p 1%nat).
    { rewrite <- Hrho. apply sqrt_sqrt. nra. }
    assert (Hr : sqrt (p 2%nat * p 2%nat + rho * rho)
      = sqrt (p 0%nat * p 0%nat + p 1%nat * p 1%nat + p 2%nat * p 2%nat)).
    { f_equal. rewrite Hr2. ring. }
    rewrite Hr in C1, S1. rewrite Hrho in C, S.
    unfold spherical_to_cart, cart_to_spherical. cbn. fold rho.
    comps; cbn.
    + rewrite S1. exact C.
    + rewrite S1. exact S.
    + exact C1.
Qed.

(* curvilinear -> cartesian -> curvilinear is the identity on the principal coordinates. *)
Theorem C38_polar_roundtrip x :
  principal Polar x -> same 2 (cart_to_polar (polar_to_cart x)) x.
Proof.
  intros [Hr Ht]. comps; unfold cart_to_polar, polar_to_cart; cbn.
  - replace (x 0%nat * cos (x 1%nat) * (x 0%nat * cos (x 1%nat)) +
      x 0%nat * sin (x 1%nat) * (x 0%nat * sin (x 1%nat))) with (x 0%nat * x 0%nat).
    + apply sqrt_square. lra.
    + apply radius2.
  - apply atan2_angle; assumption.
Qed.

Theorem C38_spherical_roundtrip x :
  principal Spherical x -> same 3 (cart_to_spherical (spherical_to_cart x)) x.
Proof.
  intros (Hr & Ht & Hp).
  assert (Hs : 0 < sin (x 1%nat)) by (apply sin_gt_0; lra).
  assert (Hrs : 0 < x 0%nat * sin (x 1%nat)) by (apply Rmult_lt_0_compat; assumption).
  assert (Hh : hypot (x 0%nat * sin (x 1%nat) * sin (x 2%nat))
                 (x 0%nat * sin (x 1%nat) * cos (x 2%nat)) = x 0%nat * sin (x 1%nat)).
  { unfold hypot. rewrite Rplus_comm, <- radius2. apply sqrt_square. lra. }
  unfold cart_to_spherical, spherical_to_cart. cbn. rewrite Hh.
  comps; cbn.
  - rewrite <- radius2, Rplus_comm, <- radius2. apply sqrt_square. lra.
  - apply atan2_angle; lra.
  - apply atan2_angle; assumption.
Qed.

(* The results are principal coordinates, away from the axis. *)
Theorem C38_principal :
  (forall p, (p 0%nat <> 0 \/ p 1%nat <> 0) -> principal Polar (cart_to_polar p)) /\
  (forall p, (p 0%nat <> 0 \/ p 1%nat <> 0) -> principal Spherical (cart_to_spherical p)).
Proof.
  assert (pos : forall x y, x <> 0 \/ y <> 0 -> 0 < x * x + y * y).
  { intros x y [H|H]; nra. }
  split; intros p H.
  - cbn. split; [apply sqrt_lt_R0, pos, H|]. apply atan2_range.
  - cbn. specialize (pos _ _ H).
    assert (Hh : 0 < hypot (p 1%nat) (p 0%nat)).
    { unfold hypot. apply sqrt_lt_R0. lra. }
    split; [apply sqrt_lt_R0; nra|]. split; [|apply atan2_range].
    set (h := hypot (p 1%nat) (p 0%nat)) in *.
    pose proof (atan2_range (p 2%nat) h) as HB.
    pose proof (atan2_polar (p 2%nat) h) as [_ S].
    assert (Hq : 0 < sqrt (p 2%nat * p 2%nat + h * h)) by (apply sqrt_lt_R0; nra).
    assert (Hsin : 0 < sin (atan2 h (p 2%nat))) by nra.
    set (t := atan2 h (p 2%nat)) in *.
    split.
    + destruct (Rlt_dec 0 t) as [Ht|Ht]; [exact Ht|exfalso].
      assert (0 <= sin (- t)) by (apply sin_ge_0; lra). rewrite sin_neg in *. lra.
    + destruct HB as [_ [HB|HB]]; [exact HB|]. rewrite HB, sin_PI in Hsin. lra.
Qed.

(* A + (B - A) gives back the coordinates of B themselves when the angle from A to B is less than
   half a turn. *)
Theorem C38_polar_there_and_back A B :
  0 < A 0%nat -> 0 < B 0%nat -> - PI < B 1%nat - A 1%nat <= PI ->
  same 2 (cadd Polar A (csub Polar B A)) B.
Proof.
  intros HA HB Ht. cbn [cadd csub].
  destruct (polar_add_comps A (polar_sub B A)) as [E0 E1]; [lra|].
  destruct (polar_sub_comps B A) as [F0 F1]; [lra|].
  rewrite F0, F1 in E0, E1.
  replace (A 0%nat + (B 0%nat * cos (B 1%nat - A 1%nat) - A 0%nat))
    with (B 0%nat * cos (B 1%nat - A 1%nat)) in E0, E1 by ring.
  intros i Hi. destruct i as [|[|i]]; [| |lia].
  - rewrite E0, <- radius2. apply sqrt_square. lra.
  - rewrite E1, atan2_angle by assumption. ring.
Qed.

Theorem C38_spherical_there_and_back A B :
  0 < A 0%nat -> 0 < sin (A 1%nat) -> 0 < B 0%nat -> 0 < B 1%nat < PI ->
  - PI < B 2%nat - A 2%nat <= PI ->
  same 3 (cadd Spherical A (csub Spherical B A)) B.
Proof.
  intros HA Hs HB Ht Hp. cbn [cadd csub].
  pose proof (spherical_add_comps A (spherical_sub B A)) as H. cbv zeta in H.
  destruct H as (E2 & E1 & E0); [lra|lra|].
  destruct (spherical_sub_comps B A) as (F0 & F1 & F2); [lra|lra|].
  set (V := spherical_sub B A) in *. clearbody V.
  assert (HsB : 0 < sin (B 1%nat)) by (apply sin_gt_0; lra).
  assert (HrB : 0 < B 0%nat * sin (B 1%nat)) by (apply Rmult_lt_0_compat; assumption).
  assert (P : (A 0%nat + V 0%nat) * sin (A 1%nat) + V 1%nat * cos (A 1%nat)
    = B 0%nat * sin (B 1%nat) * cos (B 2%nat - A 2%nat)).
  { rewrite F0, F1. pose proof (sc2 (A 1%nat)) as S.
    transitivity (B 0%nat * sin (B 1%nat) * cos (B 2%nat - A 2%nat)
      * (sin (A 1%nat) * sin (A 1%nat) + cos (A 1%nat) * cos (A 1%nat))); [ring|].
    rewrite S. ring. }
  assert (Z : (A 0%nat + V 0%nat) * cos (A 1%nat) - V 1%nat * sin (A 1%nat)
    = B 0%nat * cos (B 1%nat)).
  { rewrite F0, F1. pose proof (sc2 (A 1%nat)) as S.
    transitivity (B 0%nat * cos (B 1%nat)
      * (sin (A 1%nat) * sin (A 1%nat) + cos (A 1%nat) * cos (A 1%nat))); [ring|].
    rewrite S. ring. }
  rewrite P, F2 in E2. rewrite P, Z, F2 in E1. rewrite P, Z, F2 in E0.
  rewrite <- radius2 in E1, E0. rewrite sqrt_square in E1, E0 by lra.
  rewrite <- radius2 in E0. rewrite sqrt_square in E0 by lra.
  intros i Hi. destruct i as [|[|[|i]]]; [| | |lia].
  - exact E0.
  - rewrite E1. apply atan2_angle; lra.
  - rewrite E2, atan2_angle by assumption. ring.
Qed.

(* Beyond half a turn the same position comes back under another angle, so that the two sets of
   coordinates do not compare equal: A + (B - A) = B fails for the coordinates themselves. *)
Theorem C38_polar_angle_refuted :
  exists A B, principal Polar A /\ principal Polar B /\
    ~ same 2 (cadd Polar A (csub Polar B A)) B.
Proof.
  pose proof PI_RGT_0 as HPI.
  exists (vec2 1 (- (3 * PI / 4))), (vec2 1 (3 * PI / 4)).
  split; [cbn; lra|]. split; [cbn; lra|].
  intros H. specialize (H 1%nat ltac:(lia)). cbn [cadd csub] in H.
  set (A := vec2 1 (- (3 * PI / 4))) in *. set (B := vec2 1 (3 * PI / 4)) in *.
  destruct (polar_add_comps A (polar_sub B A)) as [_ E1]; [cbn; lra|].
  rewrite E1 in H. clear E1.
  destruct (polar_sub_comps B A) as [F0 F1]; [cbn; lra|].
  rewrite F0, F1 in H. cbn in H.
  match type of H with context [atan2 ?y ?x] => pose proof (atan2_range x y) as HB end.
  lra.
Qed.

(* ---- C39: the i-th coordinate function ---- *)

(* x_0 and x_1, and the polar and spherical coordinate functions, return their coordinate. *)
Theorem C39_coordinate_functions_partial x :
  x_0 x = x 0%nat /\ x_1 x = x 1%nat /\
  polar_r x = x 0%nat /\ polar_theta x = x 1%nat /\
  spherical_r x = x 0%nat /\ spherical_theta x = x 1%nat /\ spherical_phi x = x 2%nat.
Proof. repeat split. Qed.

(* x_2 returns the second coordinate instead of the third. *)
Theorem C39_x_2_refuted :
  (forall x, x_2 x = x 1%nat) /\ exists x, x_2 x <> x 2%nat.
Proof.
  split; [reflexivity|]. exists (vec3 0 0 1). cbn. lra.
Qed.

(* ---- C40: metric, inverse metric, dual basis, volume form ---- *)

Theorem C40_metric_inverse c x :
  supported c -> regular c x ->
  forall i j, (i < dim c)%nat -> (j < dim c)%nat ->
    mmul (dim c) (metric c x) (metric_inv c x) i j = (if Nat.eqb i j then 1 else 0) /\
    mmul (dim c) (metric_inv c x) (metric c x) i j = (if Nat.eqb i j then 1 else 0).
Proof. apply metric_inverse. Qed.

(* The metric is the Gram matrix of the basis vectors. *)
Theorem C40_metric_gram c x i j :
  supported c -> (i < dim c)%nat -> (j < dim c)%nat ->
  metric c x i j = dot (dim c) (e c i x) (e c j x).
Proof.
  intros Hc Hi Hj. unfold dot.
  rewrite (rsum_ext _ _ (fun k => (if Nat.eqb k i then scale_factor c i x else 0)
    * (if Nat.eqb k j then scale_factor c j x else 0)))
    by (intros k _; rewrite !e_value by assumption; reflexivity).
  destruct c as [D| |]; cbn in Hc, Hi, Hj.
  - destruct D as [|[|[|[|D]]]]; try lia; destruct i as [|[|[|i]]]; try lia;
      destruct j as [|[|[|j]]]; try lia; cbn; unfold mid; cbn; ring.
  - destruct i as [|[|i]]; try lia; destruct j as [|[|j]]; try lia; cbn;
      unfold madd, mscale, mdiag, pow2, component; cbn; ring.
  - destruct i as [|[|[|i]]]; try lia; destruct j as [|[|[|j]]]; try lia; cbn;
      unfold madd, mscale, mdiag, pow2, component; cbn; ring.
Qed.

Theorem C40_dual_basis c x i j :
  supported c -> regular c x -> (i < dim c)%nat -> (j < dim c)%nat ->
  app (dx c i x) [Some (e c j x)] = Some (Sc (if Nat.eqb i j then 1 else 0)).
Proof.
  intros Hc Hx Hi Hj. unfold dx, one_form_of. cbn.
  rewrite dx_value by assumption. rewrite e_value by assumption.
  pose proof (scale_factor_nonzero c i x Hx) as N.
  destruct (Nat.eqb_spec i j) as [->|Hij].
  - do 2 f_equal. field. exact N.
  - do 2 f_equal. unfold Rdiv. ring.
Qed.

(* The volume form is the square root of det g times the wedge of the dual basis, and its value on
   D vectors is the determinant of their components in the orthonormal frame. *)
Theorem C40_volume_form c x :
  supported c -> proper c x ->
  exists f w, volume_form c x = Some f /\
    wedge (map (fun I => dx c I x) (seq 0 (dim c))) = Some w /\
    f = scale (sqrt (mdet (dim c) (metric c x))) w /\
    is_form f (dim c) det_vecs.
Proof.
  intros Hc Hx. destruct (volume_form_det c x Hc Hx) as (f & E & Hf).
  unfold volume_form in E.
  destruct (wedge (map (fun I => dx c I x) (seq 0 (dim c)))) as [w|] eqn:Ew; [|discriminate].
  cbn [mul] in E. exists f, w. unfold volume_form. rewrite Ew.
  assert (E' : f = scale (sqrt (mdet (dim c) (metric c x))) w) by (cbn in E; congruence).
  split; [exact E|]. auto.
Qed.

(* On the basis of the coordinates its value is the square root of det g. *)
Theorem C40_density c x :
  supported c -> proper c x ->
  exists f, volume_form c x = Some f /\
    app f (map (fun I => Some (e c I x)) (seq 0 (dim c)))
    = Some (Sc (sqrt (mdet (dim c) (metric c x)))).
Proof.
  intros Hc Hx. destruct (volume_form_det c x Hc Hx) as (f & E & Hf).
  exists f. split; [exact E|].
  rewrite <- (map_map (fun I => e c I x) Some).
  rewrite (is_form_app _ _ _ _ Hf).
  - rewrite volume_density by assumption. do 2 f_equal.
    pose proof (e_value c) as Ev.
    destruct c as [D| |]; cbn in Hc.
    + destruct D as [|[|[|[|D]]]]; try lia; cbn [dim seq map det_vecs] in *;
        rewrite !Ev by lia; cbn; ring.
    + cbn [dim seq map det_vecs] in *; rewrite !Ev by lia; cbn; ring.
    + cbn [dim seq map det_vecs] in *; rewrite !Ev by lia; cbn; ring.
  - destruct c; cbn in *; lia.
  - rewrite map_length, seq_length. reflexivity.
Qed.

(* ---- C44: volumes ---- *)

(* The volume of a cell is 1/N! times the determinant of its edge vectors, in Cartesian
   coordinates; in polar and spherical coordinates it is the volume of the simplex with the same
   corners in space. *)
Theorem C44_cell_volume c cs cell xs x0 :
  supported c -> placed cs cell (x0 :: xs) -> length xs = dim c -> proper c x0 ->
  cell_volume c (volume_form c) cs cell = Ok (simplex_volume (map (position c) (x0 :: xs))).
Proof. apply cell_volume_simplex. Qed.

(* Reordering the nodes of a cell multiplies its volume by the sign of the permutation. *)
Theorem C44_orientation c cs odd cell cell' xs xs' :
  supported c -> placed cs cell xs -> placed cs cell' xs' -> length cell = S (dim c) ->
  Forall (proper c) xs -> swaps odd xs xs' ->
  exists v, cell_volume c (volume_form c) cs cell = Ok v /\
    cell_volume c (volume_form c) cs cell' = Ok (sign_of odd * v).
Proof.
  intros Hc HP HP' L Hpr Hs.
  assert (Lx : length xs = S (dim c))
    by (rewrite <- L; clear - HP; induction HP; cbn; congruence).
  assert (HD : (1 <= dim c <= 3)%nat) by (destruct c; cbn in *; lia).
  assert (Hpr' : Forall (proper c) xs').
  { apply Forall_forall. intros x Hx. rewrite Forall_forall in Hpr. apply Hpr.
    eapply Permutation_in; [apply Permutation_sym, (swaps_permutation _ _ _ Hs)|exact Hx]. }
  destruct (simplex_volume_swaps odd (dim c) (map (position c) xs) (map (position c) xs'))
    as [L' E]; [exact HD|rewrite map_length; exact Lx|apply swaps_map, Hs|].
  rewrite map_length in L'.
  destruct xs as [|x0 xs]; [discriminate|]. destruct xs' as [|x0' xs']; [discriminate|].
  exists (simplex_volume (map (position c) (x0 :: xs))). split.
  - apply cell_volume_simplex; try assumption.
    + cbn in Lx. lia.
    + inversion Hpr; assumption.
  - rewrite (cell_volume_simplex c cs cell' xs' x0'); try assumption.
    + rewrite E. reflexivity.
    + cbn in L'. lia.
    + inversion Hpr'; assumption.
Qed.

(* Moving all the nodes by the same vector does not change the volume. *)
Theorem C44_translation c t cs cs' cell xs xs' :
  supported c -> placed cs cell xs -> placed cs' cell xs' -> length cell = S (dim c) ->
  Forall (proper c) xs -> Forall (proper c) xs' ->
  Forall2 (fun x x' => same (dim c) (position c x') (vadd (position c x) t)) xs xs' ->
  cell_volume c (volume_form c) cs' cell = cell_volume c (volume_form c) cs cell.
Proof.
  intros Hc HP HP' L Hpr Hpr' HT.
  assert (Lx : length xs = S (dim c))
    by (rewrite <- L; clear - HP; induction HP; cbn; congruence).
  assert (Lx' : length xs' = S (dim c))
    by (rewrite <- L; clear - HP'; induction HP'; cbn; congruence).
  assert (HD : (1 <= dim c <= 3)%nat) by (destruct c; cbn in *; lia).
  destruct xs as [|x0 xs]; [discriminate|]. destruct xs' as [|x0' xs']; [discriminate|].
  rewrite (cell_volume_simplex c cs cell xs x0), (cell_volume_simplex c cs' cell xs' x0');
    try assumption; try (cbn in Lx, Lx'; lia);
    try (inversion Hpr; assumption); try (inversion Hpr'; assumption).
  f_equal. rewrite <- (simplex_volume_translate t (map (position c) (x0 :: xs))).
  apply (simplex_volume_same (dim c)); [exact HD|rewrite map_length; exact Lx'|].
  clear - HT. rewrite map_map. induction HT; cbn; constructor; assumption.
Qed.

(* The volume of a mesh is the sum of the volumes of its cells; it does not depend on the order in
   which they are visited. *)
Theorem C44_mesh_volume c cs cells corners :
  supported c ->
  Forall2 (fun cell xs => placed cs cell xs /\ length xs = S (dim c) /\ Forall (proper c) xs)
    cells corners ->
  mesh_volume c (volume_form c) cs cells
  = Ok (total (map (fun xs => simplex_volume (map (position c) xs)) corners)).
Proof.
  intros Hc HF. unfold mesh_volume.
  rewrite (add_volumes_total c cs cells
    (map (fun xs => simplex_volume (map (position c) xs)) corners)).
  - f_equal. ring.
  - induction HF as [|cell xs cells corners (HP & L & Hpr) HF IH]; cbn [map]; constructor;
      [|exact IH].
    destruct xs as [|x0 xs]; [discriminate|].
    apply cell_volume_simplex; auto; inversion Hpr; auto.
Qed.

Theorem C44_mesh_order c cs cells cells' corners :
  supported c -> Permutation cells cells' ->
  Forall2 (fun cell xs => placed cs cell xs /\ length xs = S (dim c) /\ Forall (proper c) xs)
    cells corners ->
  mesh_volume c (volume_form c) cs cells' = mesh_volume c (volume_form c) cs cells.
Proof.
  intros Hc HP HF.
  assert (HF' : exists vols, Forall2 (fun cell v => cell_volume c (volume_form c) cs cell = Ok v)
    cells vols).
  { exists (map (fun xs => simplex_volume (map (position c) xs)) corners).
    clear HP. induction HF as [|cell xs cells corners (HP & L & Hpr) HF IH]; cbn [map];
      constructor; [|exact IH].
    destruct xs as [|x0 xs]; [discriminate|].
    apply cell_volume_simplex; auto; inversion Hpr; auto. }
  destruct HF' as (vols & HV).
  assert (HV' : exists vols', Permutation vols vols' /\
    Forall2 (fun cell v => cell_volume c (volume_form c) cs cell = Ok v) cells' vols').
  { clear HF. revert vols HV. induction HP as [|x l l' HP IH|x y l|l l' l'' HP1 IH1 HP2 IH2];
      intros vols HV.
    - exists vols. split; [reflexivity|]. exact HV.
    - inversion HV as [|? v ? vs Hx HV']; subst. destruct (IH _ HV') as (vs' & P & F).
      exists (v :: vs'). split; [apply perm_skip, P|]. constructor; assumption.
    - inversion HV as [|? v ? vs Hx HV']; subst. inversion HV' as [|? w ? ws Hy HV'']; subst.
      exists (w :: v :: ws). split; [apply perm_swap|]. repeat constructor; assumption.
    - destruct (IH1 _ HV) as (vs' & P1 & F1). destruct (IH2 _ F1) as (vs'' & P2 & F2).
      exists vs''. split; [etransitivity; eassumption|exact F2]. }
  destruct HV' as (vols' & P & HV'). unfold mesh_volume.
  rewrite (add_volumes_total _ _ _ _ _ HV), (add_volumes_total _ _ _ _ _ HV').
  f_equal. f_equal. symmetry. apply total_permutation, P.
Qed.

(* Submanifolds: the volume form contracted with the normal fields. *)
Theorem C44_submanifold c normals k cs cell x0 xs :
  supported c -> placed cs cell (x0 :: xs) -> length xs = k -> proper c x0 ->
  (0 < k)%nat -> (0 < length normals)%nat -> (length normals + k = dim c)%nat ->
  cell_volume c (sub_volume_form c normals k) cs cell
  = Ok (det_vecs (map (fun n => n x0) normals ++ map (fun x => csub c x x0) xs)
        / INR (fact k)).
Proof. apply sub_cell_volume. Qed.

(* With a unit normal, the volume of a segment of the plane is, up to sign, its length; with two
   orthonormal normals so is that of a segment in space; and with a unit normal the volume of a
   triangle in space is, up to sign, its area (half the square root of the Gram determinant of two
   edges). *)
Theorem C44_line_length_2d c normal cs cell x0 x1 :
  dim c = 2%nat -> supported c -> placed cs cell [x0; x1] -> proper c x0 ->
  dot 2 (normal x0) (normal x0) = 1 -> dot 2 (normal x0) (csub c x1 x0) = 0 ->
  exists v, cell_volume c (sub_volume_form c [normal] 1) cs cell = Ok v /\
    Rabs v = euclid 2 (position c x1) (position c x0).
Proof.
  intros HD Hc HP Hx Hn Ho.
  rewrite (sub_cell_volume c [normal] 1 cs cell x0 [x1]) by (auto; rewrite ?HD; cbn; lia).
  eexists. split; [reflexivity|].
  rewrite <- HD, <- distance_euclid by (apply proper_regular, Hx).
  unfold distance, norm. rewrite HD. cbn [map List.app fact INR].
  set (u := csub c x1 x0) in *.
  pose proof (gram2 (normal x0) u) as G. rewrite Hn, Ho in G.
  replace (dot 2 u u) with (det_vecs [normal x0; u] * det_vecs [normal x0; u]) by (rewrite G; ring).
  rewrite <- (sqrt_Rsqr_abs (det_vecs [normal x0; u] / _)). f_equal. unfold Rsqr. cbn. field.
Qed.

Theorem C44_line_length_3d c n1 n2 cs cell x0 x1 :
  dim c = 3%nat -> supported c -> placed cs cell [x0; x1] -> proper c x0 ->
  dot 3 (n1 x0) (n1 x0) = 1 -> dot 3 (n2 x0) (n2 x0) = 1 -> dot 3 (n1 x0) (n2 x0) = 0 ->
  dot 3 (n1 x0) (csub c x1 x0) = 0 -> dot 3 (n2 x0) (csub c x1 x0) = 0 ->
  exists v, cell_volume c (sub_volume_form c [n1; n2] 1) cs cell = Ok v /\
    Rabs v = euclid 3 (position c x1) (position c x0).
Proof.
  intros HD Hc HP Hx H11 H22 H12 H1u H2u.
  rewrite (sub_cell_volume c [n1; n2] 1 cs cell x0 [x1]) by (auto; rewrite ?HD; cbn; lia).
  eexists. split; [reflexivity|].
  rewrite <- HD, <- distance_euclid by (apply proper_regular, Hx).
  unfold distance, norm. rewrite HD. cbn [map List.app fact INR].
  set (u := csub c x1 x0) in *.
  pose proof (gram3 (n1 x0) (n2 x0) u) as G. rewrite H11, H22, H12, H1u, H2u in G.
  replace (dot 3 u u) with (det_vecs [n1 x0; n2 x0; u] * det_vecs [n1 x0; n2 x0; u])
    by (rewrite G; ring).
  rewrite <- (sqrt_Rsqr_abs (det_vecs [n1 x0; n2 x0; u] / _)). f_equal. unfold Rsqr. cbn. field.
Qed.

Theorem C44_surface_area c normal cs cell x0 x1 x2 :
  dim c = 3%nat -> supported c -> placed cs cell [x0; x1; x2] -> proper c x0 ->
  let u := csub c x1 x0 in
  let v := csub c x2 x0 in
  dot 3 (normal x0) (normal x0) = 1 -> dot 3 (normal x0) u = 0 -> dot 3 (normal x0) v = 0 ->
  exists a, cell_volume c (sub_volume_form c [normal] 2) cs cell = Ok a /\
    Rabs a = sqrt (dot 3 u u * dot 3 v v - dot 3 u v * dot 3 u v) / 2.
Proof.
  intros HD Hc HP Hx u v Hn Hu Hv.
  rewrite (sub_cell_volume c [normal] 2 cs cell x0 [x1; x2]) by (auto; rewrite ?HD; cbn; lia).
  eexists. split; [reflexivity|]. cbn [map List.app]. fold u v.
  pose proof (gram3 (normal x0) u v) as G. rewrite Hn, Hu, Hv in G.
  replace (dot 3 u u * dot 3 v v - dot 3 u v * dot 3 u v)
    with (det_vecs [normal x0; u; v] * det_vecs [normal x0; u; v]) by (rewrite G; ring).
  set (d := det_vecs [normal x0; u; v]).
  replace (INR (fact 2)) with 2 by (cbn; lra).
  change (d * d) with (Rsqr d). rewrite sqrt_Rsqr_abs. unfold Rdiv.
  rewrite Rabs_mult, (Rabs_right (/ 2)) by lra. reflexivity.
Qed.

(* ---- C67: metric equivalents ---- *)

(* The metric equivalent of a one-form represents it: its inner product with any vector is the
   value of the form. *)
Theorem C67_form_to_vector c a x u :
  supported c -> regular c x ->
  dot (dim c) (sharp c (fun v => dot (dim c) a v) x) u = dot (dim c) a u.
Proof.
  intros Hc Hx. apply dot_same; [|intros i _; reflexivity].
  intros i Hi. unfold sharp.
  assert (E : forall K, (K < dim c)%nat ->
    mvec (dim c) (mscale (dot (dim c) a (e c K x)) (metric_inv c x)) (e c K x) i
    = if Nat.eqb i K then a K else 0).
  { intros K HK.
    assert (EK : dot (dim c) a (e c K x) = a K * scale_factor c K x).
    { unfold dot. rewrite (rsum_ext _ _ (fun j => if Nat.eqb j K then a K * scale_factor c K x else 0)).
      - clear - HK. revert HK. generalize (a K * scale_factor c K x). intros z.
        assert (Hz : forall n, rsum n (fun j => if Nat.eqb j K then z else 0)
          = if Nat.ltb K n then z else 0).
        { induction n as [|n IH]; cbn [rsum]; [reflexivity|]. rewrite IH.
          destruct (Nat.ltb_spec K n), (Nat.ltb_spec K (S n)), (Nat.eqb_spec n K); try lia; ring. }
        intros HK. rewrite Hz. destruct (Nat.ltb_spec K (dim c)); [reflexivity|lia].
      - intros j _. rewrite e_value by exact HK. destruct (Nat.eqb_spec j K) as [->|]; ring. }
    rewrite EK.
    assert (ME : mvec (dim c) (mscale (a K * scale_factor c K x) (metric_inv c x)) (e c K x) i
      = a K * scale_factor c K x * mvec (dim c) (metric_inv c x) (e c K x) i).
    { unfold mvec, mscale. clear. induction (dim c) as [|n IH]; cbn [rsum]; [ring|].
      rewrite IH. ring. }
    rewrite ME.
    pose proof (dx_value c K x (unitv i) Hc Hx HK) as Dv.
    assert (DU : forall w, dot (dim c) w (unitv i) = w i).
    { intros w. unfold dot, unitv.
      assert (Hz : forall n, rsum n (fun j => w j * (if Nat.eqb j i then 1 else 0))
          = if Nat.ltb i n then w i else 0).
      { induction n as [|n IH]; cbn [rsum]; [reflexivity|]. rewrite IH.
        destruct (Nat.ltb_spec i n), (Nat.ltb_spec i (S n)), (Nat.eqb_spec n i); try lia; subst; ring. }
      rewrite Hz. destruct (Nat.ltb_spec i (dim c)); [reflexivity|lia]. }
    rewrite DU in Dv. rewrite Dv. unfold unitv.
    pose proof (scale_factor_nonzero c K x Hx) as N.
    destruct (Nat.eqb_spec K i) as [->|HKi].
    - rewrite Nat.eqb_refl. field. exact N.
    - destruct (Nat.eqb_spec i K); [congruence|]. unfold Rdiv. ring. }
  rewrite (rsum_ext _ _ (fun K => if Nat.eqb i K then a K else 0)) by (intros K HK; apply E, HK).
  assert (Hz : forall n, rsum n (fun K => if Nat.eqb i K then a K else 0)
    = if Nat.ltb i n then a i else 0).
  { induction n as [|n IH]; cbn [rsum]; [reflexivity|]. rewrite IH.
    destruct (Nat.ltb_spec i n), (Nat.ltb_spec i (S n)), (Nat.eqb_spec i n); try lia; subst; ring. }
  rewrite Hz. destruct (Nat.ltb_spec i (dim c)); [reflexivity|lia].
Qed.

(* In Cartesian coordinates the metric equivalent of a vector represents it. *)
Theorem C67_vector_to_form_partial D v x u :
  supported (Cartesian D) ->
  app (flat (Cartesian D) v x) [Some u] = Some (Sc (dot D v u)).
Proof.
  intros Hc. unfold flat, one_form_of. cbn -[dot mvec metric_inv]. do 2 f_equal. cbn in Hc.
  apply dot_same; [|intros i _; reflexivity].
  intros i Hi. destruct D as [|[|[|[|D]]]]; try lia; destruct i as [|[|[|i]]]; try lia;
    reduce_metric; field.
Qed.

(* In polar coordinates it does not: it contracts with the inverse metric. *)
Theorem C67_vector_to_form_refuted :
  exists x v u, proper Polar x /\
    app (flat Polar v x) [Some u] <> Some (Sc (dot 2 v u)).
Proof.
  exists (vec2 2 0), (vec2 0 1), (vec2 0 1). split; [cbn; lra|].
  unfold flat, one_form_of. cbn -[dot mvec metric_inv].
  unfold dot. cbn. reduce_metric. intros H. injection H as H. lra.
Qed.
