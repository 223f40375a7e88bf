(* The positions of the cells of a refined mesh. *)
From Coq Require Import Reals Lra Lia List Psatz.
From Verif Require Import Base M_Tensor M_Geometry S_Geometry P_Atan2 P_Geometry P_Metric P_Volume.
Import ListNotations.
Open Scope R_scope.

(* half-way between two positions *)
Definition avg (p q : vec) : vec := fun i => (p i + q i) / 2.

Notation on := on_side.

(* the children of a cell with the given corners, in the order of tetra.h: the last level *)
Definition kids (N : nat) (last : bool) (ps : list vec) : list (list vec) :=
  match N, ps with
  | 1%nat, [p0; p1] =>
      let p01 := avg p0 p1 in [[p0; p01]; [p01; p1]]
  | 2%nat, [p0; p1; p2] =>
      let p01 := avg p0 p1 in
      let p12 := avg p1 p2 in
      let p20 := avg p2 p0 in
      [[p0; p01; p20]; [p01; p1; p12]; [p12; p2; p20]; [p20; p01; p12]]
  | 3%nat, [p0; p1; p2; p3] =>
      let p01 := avg p0 p1 in
      let p02 := avg p0 p2 in
      let p03 := avg p0 p3 in
      let p12 := avg p1 p2 in
      let p13 := avg p1 p3 in
      let p23 := avg p2 p3 in
      [[p0; p01; p02; p03]; [p1; p01; p13; p12]; [p2; p02; p12; p23];
       (if last then [p3; p13; p03; p23] else [p03; p3; p13; p23]);
       [p02; p01; p13; p03]; [p02; p03; p13; p23];
       (if last then [p02; p13; p01; p12] else [p01; p02; p13; p12]);
       [p02; p23; p13; p12]]
  | _, _ => []
  end.

Fixpoint refine (N n : nat) (ps : list vec) : list (list vec) :=
  match n with
  | O => [ps]
  | S n => concat (map (refine N n) (kids N (Nat.eqb n 0) ps))
  end.

Lemma on_avg c d p q : on c d p -> on c d q -> on c d (avg p q).
Proof. destruct c; cbn [on_side]; [auto| |]; unfold avg; cbn; lra. Qed.

Lemma on_same c d p q : same (dim c) p q -> on c d p -> on c d q.
Proof.
  destruct c; cbn [on_side dim]; [auto| |]; intros H;
    rewrite (H 0%nat), (H 1%nat) by lia; auto.
Qed.

(* where the coordinates of A + v are in the domain of the chart *)
Lemma cadd_proper c d A v : regular c A -> on c d (position c (cadd c A v)) -> proper c (cadd c A v).
Proof.
  destruct c as [D| |]; cbn [regular on_side proper cadd]; [auto| |].
  - intros HA Hon. destruct (polar_add_comps A v HA) as [E0 E1].
    set (B := polar_add A v) in *. clearbody B.
    assert (0 <= B 0%nat) by (rewrite E0; apply sqrt_pos).
    destruct (Req_dec (B 0%nat) 0) as [E|E]; [|lra].
    exfalso. unfold position in Hon. cbn in Hon. rewrite E in Hon. lra.
  - intros [HA Hs] Hon. pose proof (spherical_add_comps A v HA Hs) as H. cbv zeta in H.
    destruct H as (E2 & E1 & E0).
    set (B := spherical_add A v) in *. clearbody B.
    set (P := (A 0%nat + v 0%nat) * sin (A 1%nat) + v 1%nat * cos (A 1%nat)) in *.
    set (Z := (A 0%nat + v 0%nat) * cos (A 1%nat) - v 1%nat * sin (A 1%nat)) in *.
    set (rho := sqrt (P * P + v 2%nat * v 2%nat)) in *.
    pose proof (atan2_polar Z rho) as [C1 S1]. rewrite <- E0, <- E1 in C1, S1.
    assert (0 <= B 0%nat) by (rewrite E0; apply sqrt_pos).
    assert (0 <= rho) by apply sqrt_pos.
    assert (Hne : B 0%nat * sin (B 1%nat) <> 0).
    { intros E. unfold position in Hon. cbn in Hon. rewrite E in Hon. lra. }
    assert (B 0%nat <> 0) by (intros E; apply Hne; rewrite E; ring).
    split; [lra|].
    destruct (Rlt_le_dec 0 (sin (B 1%nat))) as [|Hle]; [assumption|exfalso].
    assert (B 0%nat * sin (B 1%nat) <= 0) by nra. lra.
Qed.

Lemma mid_position c d xa xb pa pb :
  proper c xa -> same (dim c) (position c xa) pa -> same (dim c) (position c xb) pb ->
  on c d pa -> on c d pb ->
  let x := cadd c xa (vscale (/ 2) (csub c xb xa)) in
  proper c x /\ same (dim c) (position c x) (avg pa pb) /\ on c d (avg pa pb).
Proof.
  intros Hr Ha Hb Hoa Hob x.
  assert (Hreg : regular c xa) by (apply proper_regular, Hr).
  assert (Hp : same (dim c) (position c x) (avg pa pb)).
  { intros i Hi. unfold x. rewrite (half_position c xa xb Hreg i Hi), (Ha i Hi), (Hb i Hi).
    reflexivity. }
  assert (Hon : on c d (avg pa pb)) by (apply on_avg; assumption).
  split; [|split; assumption].
  apply (cadd_proper c d); [exact Hreg|].
  apply (on_same c d (avg pa pb)); [|exact Hon]. intros i Hi. symmetry. apply Hp, Hi.
Qed.
