(* Cases of C84: a square cut into four right triangles, and a mesh with obtuse angles where the field is negative. *)
From stdpp Require Import base gmap list sorting.
From Coq Require Import Reals Lra FunctionalExtensionality.
From Verif Require Import Base M_Tensor M_Geometry S_Geometry P_Volume.
From Verif Require Import M_Functions S_Functions P_Functions M_Quadrature S_Quadrature P_Quadrature P_Integrator M_Topology M_Fem S_Fem P_Fem P_FemBlocks P_FemNorms Properties_Fem.
From Verif Require Import P_Mesh S_Discrete M_System S_System P_System Properties_System P_Galerkin M_Poisson S_Poisson P_Poisson Properties_Poisson.
From Verif Require Import M_Solver S_Solver P_Solver P_SolverMesh P_Elimination Properties_Solver S_Maximum P_Maximum Properties_Maximum.
Local Open Scope nat_scope.

(* ---- four right triangles around the centre of a square ---- *)

Definition centre_x (k : nat) : vec :=
  match k with 0 => vec2 0 0 | 1 => vec2 1 0 | 2 => vec2 1 1 | 3 => vec2 0 1 | _ => vec2 (1 / 2) (1 / 2) end.
Definition centre_cells : list (list nat) := [[0; 1; 4]; [1; 2; 4]; [2; 3; 4]; [3; 0; 4]].
Definition centre_sides : list (list nat) := [[0; 1]; [1; 2]; [2; 3]; [3; 0]].
Definition centre_points : csys := map (λ k, (k, centre_x k)) (seq 0 5).

Lemma centre_good : good_cells Tri1 centre_x centre_cells ∧ good_domain Tri1 centre_cells centre_sides ∧ anchored centre_cells centre_sides ∧
  (∀ c, c ∈ centre_cells → linear_not_obtuse Tri1 (centre_x <$> c)) ∧ (∀ k, k ∈ concat centre_cells → find_point k centre_points = Some (centre_x k)).
Proof.
  split_and!.
  - intros c Hc. unfold centre_cells in Hc. rewrite !elem_of_cons, elem_of_nil in Hc.
    destruct Hc as [-> |[-> |[-> |[-> |[]]]]]; (split; [done|]); unfold simplex_volume, det_vecs, vsub; cbn; lra.
  - intros b Hb. unfold centre_sides in Hb. rewrite !elem_of_cons, elem_of_nil in Hb.
    destruct Hb as [-> |[-> |[-> |[-> |[]]]]]; (split; [done|]); (split; [apply NoDup_ListNoDup; repeat constructor; cbn; intuition lia|]);
      [exists [0; 1; 4]|exists [1; 2; 4]|exists [2; 3; 4]|exists [3; 0; 4]]; (split; [unfold centre_cells; repeat (left || right)|]); clear; set_solver.
  - intros k (c & Hk & Hc)%elem_of_concat. unfold centre_cells in Hc. rewrite !elem_of_cons, elem_of_nil in Hc.
    destruct Hc as [-> |[-> |[-> |[-> |[]]]]]; [exists 0|exists 1|exists 2|exists 3]; (split; [cbn; repeat (left || right)|]); apply rtc_once;
      [exists [0; 1; 4]|exists [1; 2; 4]|exists [2; 3; 4]|exists [3; 0; 4]]; (split_and!; [unfold centre_cells; repeat (left || right)|exact Hk|left]).
  - intros c Hc. unfold centre_cells in Hc. rewrite !elem_of_cons, elem_of_nil in Hc.
    destruct Hc as [-> |[-> |[-> |[-> |[]]]]]; cbn; unfold not_obtuse, corner_product; cbn; lra.
  - intros k Hk. assert (Hk' : k < 5) by (clear -Hk; unfold centre_cells in Hk; cbn in Hk; set_unfold; lia).
    do 5 (destruct k as [|k]; [reflexivity|]). lia.
Qed.

(* With the source 1 the field is nowhere negative, and it is not zero. *)
Example C84_case debug order visit : visits_set order → visits visit → ∃ fs d U,
  poisson_program Tri1 debug (λ s, fresh s) {[7]} (λ k : nat, k) centre_points centre_cells centre_sides triangle_3 (λ _, 1%R) order visit elimination = Ok (fs, d) ∧
  weak_solution Tri1 centre_x centre_cells centre_sides triangle_3 (λ _, 1%R) U ∧
  (∀ c k, c ∈ centre_cells → k ∈ c → ∃ n v, fs_node_map fs !! k = Some n ∧ ds_solution d !! n = Some v ∧ v = poly (U c) (centre_x k) ∧ (0 <= v)%R).
Proof.
  intros Horder Hvisit. destruct centre_good as (Hc & Hd & Ha & Ho & Hp).
  destruct (C84_nonnegative_partial Tri1 debug (λ s, fresh s) (λ s, is_fresh s) {[7]} (λ k : nat, k) centre_points centre_x centre_cells centre_sides
    Hp Hc Hd Ha triangle_3 (C84_tables Tri1 3 triangle_3 eq_refl)
    (proj1 (C51_kernel_tables Tri1 3 triangle_3 eq_refl ltac:(cbn; lia))) ltac:(done) Ho order Horder visit Hvisit elimination elimination_good (λ _, 1%R))
    as (fs & d & U & Hrun & _ & Hw & _ & Hn); [intros; lra|]. by exists fs, d, U.
Qed.

(* ---- two flat triangles ---- *)

(* The nodes 0 and 1 are the ends of the common side of two flat triangles; the constraints are on two other sides. *)
Definition flat_x (k : nat) : vec :=
  match k with 0 => vec2 0 0 | 1 => vec2 4 0 | 2 => vec2 2 1 | 3 => vec2 2 (-1) | 4 => vec2 0 1 | _ => vec2 0 (-1) end.
Definition flat_cells : list (list nat) := [[0; 1; 2]; [1; 0; 3]; [0; 2; 4]; [0; 5; 3]].
Definition flat_sides : list (list nat) := [[2; 4]; [5; 3]].
Definition flat_points : csys := map (λ k, (k, flat_x k)) (seq 0 6).
(* zero at the centres of the flat triangles *)
Definition flat_source (y : vec) : R := ((y 0%nat - 2) * (y 0%nat - 2))%R.

Lemma flat_in c : c ∈ flat_cells → c = [0; 1; 2] ∨ c = [1; 0; 3] ∨ c = [0; 2; 4] ∨ c = [0; 5; 3].
Proof. unfold flat_cells. rewrite !elem_of_cons, elem_of_nil. tauto. Qed.
Lemma flat_good : good_cells Tri1 flat_x flat_cells ∧ good_domain Tri1 flat_cells flat_sides ∧ anchored flat_cells flat_sides ∧
  (∀ k, k ∈ concat flat_cells → find_point k flat_points = Some (flat_x k)).
Proof.
  split_and!.
  - intros c Hc%flat_in.
    destruct Hc as [-> |[-> |[-> | ->]]]; (split; [done|]); unfold simplex_volume, det_vecs, vsub; cbn; lra.
  - intros b Hb. unfold flat_sides in Hb. rewrite !elem_of_cons, elem_of_nil in Hb.
    destruct Hb as [-> |[-> |[]]]; (split; [done|]); (split; [apply NoDup_ListNoDup; repeat constructor; cbn; intuition lia|]);
      [exists [0; 2; 4]|exists [0; 5; 3]]; (split; [unfold flat_cells; repeat (left || right)|]); clear; set_solver.
  - intros k (c & Hk & Hc)%elem_of_concat. apply flat_in in Hc.
    destruct Hc as [-> |[-> |[-> | ->]]]; [exists 2|exists 3|exists 2|exists 3]; (split; [cbn; repeat (left || right)|]); apply rtc_once;
      [exists [0; 1; 2]|exists [1; 0; 3]|exists [0; 2; 4]|exists [0; 5; 3]]; (split_and!; [unfold flat_cells; repeat (left || right)|exact Hk|repeat (left || right)]).
  - intros k Hk. assert (Hk' : k < 6) by (clear -Hk; unfold flat_cells in Hk; cbn in Hk; set_unfold; lia).
    do 6 (destruct k as [|k]; [reflexivity|]). lia.
Qed.

(* polynomials of degree one of two variables *)
Definition plane (a b c : R) : polynomial := [(a, [0; 0]); (b, [1; 0]); (c, [0; 1])].
Lemma plane_value a b c y : poly (plane a b c) y = (a + b * y 0%nat + c * y 1%nat)%R.
Proof. unfold poly, S_Geometry.total, plane. cbn. lra. Qed.
Lemma plane_exists (r : polynomial) : of_degree 2 1 r → ∃ a b c, ∀ y, poly r y = (a + b * y 0%nat + c * y 1%nat)%R.
Proof.
  intros Hr. induction r as [|[z es] r IH].
  - exists 0%R, 0%R, 0%R. intros y. unfold poly, S_Geometry.total. cbn. lra.
  - apply Forall_cons in Hr as [[L S] Hr]. destruct (IH Hr) as (a & b & c & Habc). cbn [fst snd] in *.
    destruct es as [|n [|m [|]]]; try discriminate L. cbn in S. destruct n as [|[|n]]; [| |lia]; (destruct m as [|[|m]]; [| |lia]); try lia.
    + exists (a + z)%R, b, c. intros y. rewrite poly_cons, Habc. cbn. lra.
    + exists a, b, (c + z)%R. intros y. rewrite poly_cons, Habc. cbn. lra.
    + exists a, (b + z)%R, c. intros y. rewrite poly_cons, Habc. cbn. lra.
Qed.
Lemma plane_gradient (g : vec → R) (G : vec → vec) a b c : (∀ y, g y = (a + b * y 0%nat + c * y 1%nat)%R) → (∀ y, G y 0 = b ∧ G y 1 = c) → has_gradient 2 g G.
Proof.
  intros Hg HG y j Hj. destruct (HG y) as [H0 H1]. apply (quad_lim _ _ (a + b * y 0%nat + c * y 1%nat) _ 0). intros t. unfold num. rewrite Hg. unfold with_component.
  destruct j as [|[|j]]; [rewrite H0|rewrite H1|lia]; cbn; lra.
Qed.

(* the functions that are one at the node 0, or 1, and zero at the others *)
Definition which (c : list nat) : nat := match c with 1 :: _ => 1 | _ :: 1 :: _ => 0 | _ :: 2 :: _ => 2 | _ => 3 end.
Definition flat_hat (one : bool) (c : list nat) : polynomial :=
  match which c, one with
  | 0, true => plane 0 (1 / 4) (- 1 / 2) | 0, false => plane 1 (- 1 / 4) (- 1 / 2)
  | 1, true => plane 0 (1 / 4) (1 / 2) | 1, false => plane 1 (- 1 / 4) (1 / 2)
  | 2, false => plane 1 0 (- 1) | _, false => plane 1 0 1 | _, true => plane 0 0 0
  end.
Lemma flat_hat_node one c k : c ∈ flat_cells → k ∈ c → poly (flat_hat one c) (flat_x k) = if decide (k = if one then 1 else 0) then 1%R else 0%R.
Proof.
  intros Hc%flat_in Hk. unfold flat_hat. destruct Hc as [-> |[-> |[-> | ->]]]; rewrite !elem_of_cons, elem_of_nil in Hk; destruct Hk as [-> |[-> |[-> |[]]]];
    destruct one; cbn [which]; rewrite plane_value; repeat (case_decide; try done); cbn; lra.
Qed.
Lemma flat_hat_plane one c : ∃ a b d, flat_hat one c = plane a b d.
Proof. unfold flat_hat. destruct (which c) as [|[|[|m]]], one; eauto. Qed.
Lemma flat_hat_between one c k l t : c ∈ flat_cells → k ∈ c → l ∈ c → poly (flat_hat one c) (between t (flat_x k) (flat_x l)) =
  ((1 - t) * (if decide (k = if one then 1%nat else 0%nat) then 1 else 0) + t * (if decide (l = if one then 1%nat else 0%nat) then 1 else 0))%R.
Proof.
  intros Hc Hk Hl. rewrite <- (flat_hat_node one c k Hc Hk), <- (flat_hat_node one c l Hc Hl).
  destruct (flat_hat_plane one c) as (a & b & d & ->). rewrite !plane_value. unfold between. lra.
Qed.
Lemma flat_hat_piecewise one : piecewise Tri1 flat_x flat_cells flat_sides (flat_hat one).
Proof.
  split_and!.
  - intros c _. destruct (flat_hat_plane one c) as (a & b & d & ->). unfold plane. repeat constructor.
  - intros c c' k l t Hc Hc' Hk Hk' Hl Hl'. by rewrite !flat_hat_between by done.
  - intros c b k l t Hc Hb Hk Hkb Hl Hlb. rewrite flat_hat_between by done.
    assert (X : ∀ n, n ∈ b → n ≠ 0 ∧ n ≠ 1).
    { intros n Hnb. unfold flat_sides in Hb. rewrite !elem_of_cons, elem_of_nil in Hb. destruct Hb as [-> |[-> |[]]]; rewrite !elem_of_cons, elem_of_nil in Hnb; lia. }
    destruct (X k Hkb), (X l Hlb). destruct one; rewrite !decide_False by done; lra.
Qed.

(* The source is nowhere negative, and the program gives a negative value at the node 1. *)
Theorem C84_obtuse_refuted debug order visit : visits_set order → visits visit →
  (∀ y, 0 <= flat_source y)%R ∧ ∃ fs d n v,
  poisson_program Tri1 debug (λ s, fresh s) {[7]} (λ k : nat, k) flat_points flat_cells flat_sides triangle_1 flat_source order visit elimination = Ok (fs, d) ∧
  fs_node_map fs !! 1 = Some n ∧ ds_solution d !! n = Some v ∧ (v < 0)%R.
Proof.
  intros Horder Hvisit. split; [intros y; apply Rle_0_sqr|]. destruct flat_good as (Hc & Hd & Ha & Hp).
  destruct (C51_kernel_tables Tri1 1 triangle_1 eq_refl ltac:(cbn; lia)) as [Hs HP].
  destruct (C74_solution Tri1 debug (λ s, fresh s) (λ s, is_fresh s) {[7]} (λ k : nat, k) flat_points flat_x flat_cells flat_sides Hp Hc Hd Ha
    triangle_1 (λ p w Hw, Rlt_le _ _ (HP p w Hw)) Hs flat_source order Horder visit Hvisit elimination elimination_good)
    as (fs & d & U & Hrun & (HU1 & HU2 & HU3) & Hw & Hn & _).
  assert (C0 : [0; 1; 2] ∈ flat_cells) by (unfold flat_cells; left). assert (C1 : [1; 0; 3] ∈ flat_cells) by (unfold flat_cells; right; left).
  assert (C2 : [0; 2; 4] ∈ flat_cells) by (unfold flat_cells; right; right; left). assert (C3 : [0; 5; 3] ∈ flat_cells) by (unfold flat_cells; right; right; right; left).
  destruct (Hn [0; 1; 2] 1 C0 ltac:(right; left)) as (n & Nn & Nv).
  exists fs, d, n, (poly (U [0; 1; 2]) (flat_x 1)). split_and!; [done..|].
  destruct (plane_exists (U [0; 1; 2]) (HU1 _ C0)) as (a0 & b0 & d0 & P0). destruct (plane_exists (U [1; 0; 3]) (HU1 _ C1)) as (a1 & b1 & d1 & P1).
  destruct (plane_exists (U [0; 2; 4]) (HU1 _ C2)) as (a2 & b2 & d2 & P2). destruct (plane_exists (U [0; 5; 3]) (HU1 _ C3)) as (a3 & b3 & d3 & P3).
  assert (Hat : ∀ k, between 0 (flat_x k) (flat_x k) = flat_x k) by (intros k; apply functional_extensionality; intros i; unfold between; lra).
  assert (Hsame : ∀ c c' k, c ∈ flat_cells → c' ∈ flat_cells → k ∈ c → k ∈ c' → poly (U c) (flat_x k) = poly (U c') (flat_x k)).
  { intros c c' k ????. rewrite <- (Hat k). by apply HU2. }
  assert (Hzero : ∀ c b k, c ∈ flat_cells → b ∈ flat_sides → k ∈ c → k ∈ b → poly (U c) (flat_x k) = 0%R).
  { intros c b k ????. rewrite <- (Hat k). by apply (HU3 c b). }
  assert (B0 : [2; 4] ∈ flat_sides) by (unfold flat_sides; left). assert (B1 : [5; 3] ∈ flat_sides) by (unfold flat_sides; right; left).
  assert (E01 := Hsame _ _ 0 C0 C1 ltac:(repeat (left || right)) ltac:(repeat (left || right))).
  assert (E02 := Hsame _ _ 1 C0 C1 ltac:(repeat (left || right)) ltac:(repeat (left || right))).
  assert (E03 := Hsame _ _ 0 C0 C2 ltac:(repeat (left || right)) ltac:(repeat (left || right))).
  assert (E04 := Hsame _ _ 0 C0 C3 ltac:(repeat (left || right)) ltac:(repeat (left || right))).
  assert (E05 := Hsame _ _ 2 C0 C2 ltac:(repeat (left || right)) ltac:(repeat (left || right))).
  assert (E06 := Hsame _ _ 3 C1 C3 ltac:(repeat (left || right)) ltac:(repeat (left || right))).
  assert (Z2 := Hzero _ _ 2 C2 B0 ltac:(repeat (left || right)) ltac:(repeat (left || right))).
  assert (Z4 := Hzero _ _ 4 C2 B0 ltac:(repeat (left || right)) ltac:(repeat (left || right))).
  assert (Z5 := Hzero _ _ 5 C3 B1 ltac:(repeat (left || right)) ltac:(repeat (left || right))).
  assert (Z3 := Hzero _ _ 3 C3 B1 ltac:(repeat (left || right)) ltac:(repeat (left || right))).
  rewrite !P0, !P1 in *. rewrite !P2, !P3 in *. cbn in E01, E02, E03, E04, E05, E06, Z2, Z4, Z5, Z3.
  set (DU (c : list nat) (_ : vec) (j : nat) := match which c, j with 0, 0 => b0 | 0, _ => d0 | 1, 0 => b1 | 1, _ => d1 | 2, 0 => b2 | 2, _ => d2 | _, 0 => b3 | _, _ => d3 end).
  assert (HDU : ∀ c, c ∈ flat_cells → has_gradient 2 (poly (U c)) (DU c)).
  { intros c Hcc%flat_in. destruct Hcc as [-> |[-> |[-> | ->]]]; unfold DU; cbn [which]; (eapply plane_gradient; [eassumption|]); intros ?; split; reflexivity. }
  set (DH (one : bool) (c : list nat) (_ : vec) (j : nat) := match which c, j, one with
    | 0, 0, true => (1 / 4)%R | 0, 0, false => (- 1 / 4)%R | 0, _, _ => (- 1 / 2)%R
    | 1, 0, true => (1 / 4)%R | 1, 0, false => (- 1 / 4)%R | 1, _, _ => (1 / 2)%R
    | _, 0, _ => 0%R | _, _, true => 0%R | 2, _, false => (-1)%R | _, _, false => 1%R end).
  assert (HDH : ∀ one c, c ∈ flat_cells → has_gradient 2 (poly (flat_hat one c)) (DH one c)).
  { intros one c Hcc%flat_in. destruct Hcc as [-> |[-> |[-> | ->]]]; destruct one; unfold DH, flat_hat; cbn [which];
      (eapply plane_gradient; [apply plane_value|]); intros ?; split; reflexivity. }
  assert (T1 := Hw (flat_hat true) DU (DH true) (flat_hat_piecewise true) HDU (HDH true)).
  assert (T0 := Hw (flat_hat false) DU (DH false) (flat_hat_piecewise false) HDU (HDH false)).
  assert (V0 : simplex_volume (flat_x <$> [0; 1; 2]) = 2%R) by (unfold simplex_volume, det_vecs, vsub; cbn; lra).
  assert (V1 : simplex_volume (flat_x <$> [1; 0; 3]) = 2%R) by (unfold simplex_volume, det_vecs, vsub; cbn; lra).
  assert (V2 : simplex_volume (flat_x <$> [0; 2; 4]) = 1%R) by (unfold simplex_volume, det_vecs, vsub; cbn; lra).
  assert (V3 : simplex_volume (flat_x <$> [0; 5; 3]) = 1%R) by (unfold simplex_volume, det_vecs, vsub; cbn; lra).
  unfold mesh_integral, S_Geometry.total, flat_cells in T1, T0. cbn [map fold_right triangle_1 fst snd edim] in T1, T0.
  rewrite V0, V1, V2, V3 in T1, T0. unfold DU, DH, flat_hat, flat_source in T1, T0.
  cbn [which] in T1, T0.
  rewrite !plane_value in T1, T0. unfold dot, position in T1, T0. cbn in T1, T0. cbn.
  lra.
Qed.
Print Assumptions C84_obtuse_refuted.
