(* Cases of C74: the equation - U'' = 1 on the segments [0, 1] and [1, 2], and quadratic triangles on a square. *)
From stdpp Require Import base gmap list sorting.
From Coq Require Import Reals Lra.
From Verif Require Import Base M_Tensor M_Geometry S_Geometry P_Volume.
From Verif Require Import M_Functions S_Functions P_Functions M_Quadrature S_Quadrature P_Quadrature P_Integrator M_Topology M_Fem S_Fem P_Fem P_FemBlocks Properties_Fem.
From Verif Require Import P_Mesh S_Discrete M_System S_System Properties_System P_Poisson M_Solver S_Solver P_Solver P_Elimination Properties_Solver.
Open Scope nat_scope.

(* ---- a line ---- *)

Definition line_x (k : nat) : vec := vec1 (INR k).
Definition line_cells : list (list nat) := [[0; 1]; [1; 2]].
Definition line_ends : list (list nat) := [[0]; [2]].
Definition line_points : csys := [(0, vec1 0); (1, vec1 1); (2, vec1 2)].

Lemma line_cells_good : good_cells Seg1 line_x line_cells ∧ good_domain Seg1 line_cells line_ends ∧ anchored line_cells line_ends.
Proof.
  split_and!.
  - intros c Hc. unfold line_cells in Hc. rewrite !elem_of_cons, elem_of_nil in Hc.
    destruct Hc as [-> |[-> |[]]]; (split; [done|]); unfold simplex_volume, det_vecs, vsub; cbn; lra.
  - intros b Hb. unfold line_ends in Hb. rewrite !elem_of_cons, elem_of_nil in Hb.
    destruct Hb as [-> |[-> |[]]]; (split; [done|]); (split; [apply NoDup_singleton|]); [exists [0; 1]|exists [1; 2]]; unfold line_cells; split; set_solver.
  - intros k Hk. assert (Hk' : k = 0 ∨ k = 1 ∨ k = 2) by (unfold line_cells in Hk; cbn in Hk; set_solver).
    destruct Hk' as [-> |[-> | ->]].
    + exists 0. split; [set_solver|constructor].
    + exists 0. split; [set_solver|]. apply rtc_once. exists [0; 1]. unfold line_cells. split_and!; set_solver.
    + exists 2. split; [set_solver|constructor].
Qed.

(* The hat function. *)
Definition hat (c : list nat) : polynomial := if decide (c = [0; 1]) then [(1%R, [1])] else [(2%R, [0]); ((-1)%R, [1])].
Lemma hat_value c y : poly (hat c) y = if decide (c = [0; 1]) then y 0 else (2 - y 0%nat)%R.
Proof. unfold hat. case_decide; unfold poly, S_Geometry.total; cbn; lra. Qed.
Lemma hat_piecewise : piecewise Seg1 line_x line_cells line_ends hat.
Proof.
  split_and!.
  - intros c Hc. unfold hat. case_decide; repeat constructor.
  - intros c c' k l t Hc Hc' Hk Hk' Hl Hl'. rewrite !hat_value. unfold line_cells in *. rewrite !elem_of_cons, elem_of_nil in Hc, Hc'.
    destruct Hc as [-> |[-> |[]]], Hc' as [-> |[-> |[]]]; try done; repeat case_decide; try done;
      clear -Hk Hk' Hl Hl'; set_unfold; assert (k = 1) as -> by lia; assert (l = 1) as -> by lia;
      unfold between, line_x; cbn; lra.
  - intros c b k l t Hc Hb Hk Hkb Hl Hlb. rewrite hat_value. unfold line_cells, line_ends in *. rewrite !elem_of_cons, elem_of_nil in Hc, Hb.
    destruct Hc as [-> |[-> |[]]], Hb as [-> |[-> |[]]]; case_decide; try done; clear -Hk Hkb Hl Hlb; set_unfold; try lia;
      [assert (k = 0) as -> by lia; assert (l = 0) as -> by lia|assert (k = 2) as -> by lia; assert (l = 2) as -> by lia];
      unfold between, line_x; cbn; lra.
Qed.

Lemma affine_gradient (g : vec → R) B : (∀ y t, g (with_component y 0 t) = (g y + B * (t - y 0%nat))%R) → has_gradient 1 g (λ _ _, B).
Proof.
  intros Hg y j Hj. assert (j = 0) as -> by lia. apply (quad_lim _ _ (g y) B 0). intros t. unfold num. rewrite Hg. lra.
Qed.

(* The program runs, and gives 1 / 2 at the middle and 0 at the ends, whatever the order in which it visits
   its tables. *)
Example C74_line debug order visit : visits_set order → visits visit → ∃ fs d p0 p1 p2,
  poisson_program Seg1 debug (λ s, fresh s) {[7]} (λ k : nat, k) line_points line_cells line_ends segment_1 (λ _, 1%R) order visit elimination = Ok (fs, d) ∧
  fs_node_map fs !! 0 = Some p0 ∧ fs_node_map fs !! 1 = Some p1 ∧ fs_node_map fs !! 2 = Some p2 ∧
  ds_solution d !! p0 = Some 0%R ∧ ds_solution d !! p1 = Some (1 / 2)%R ∧ ds_solution d !! p2 = Some 0%R.
Proof.
  intros Horder Hvisit. destruct line_cells_good as (Hc & Hd & Ha).
  destruct (C51_kernel_tables Seg1 1 segment_1 eq_refl ltac:(cbn; lia)) as [Hs HP].
  destruct (C74_solution Seg1 debug (λ s, fresh s) (λ s, is_fresh s) {[7]} (λ k : nat, k) line_points line_x line_cells line_ends) with
    (q := segment_1) (f := λ _ : vec, 1%R) (order := order) (visit := visit) (ksp := elimination)
    as (fs & d & U & Hrun & (HU1 & HU2 & HU3) & Hw & Hn & _); try done.
  { intros k Hk. assert (Hk' : k = 0 ∨ k = 1 ∨ k = 2) by (unfold line_cells in Hk; cbn in Hk; set_solver).
    destruct Hk' as [-> |[-> | ->]]; unfold line_x; cbn; try reflexivity. }
  { intros p w Hw. apply Rlt_le. by apply (HP p). }
  { apply elimination_good. }
  assert (C0 : [0; 1] ∈ line_cells) by (unfold line_cells; left). assert (C1 : [1; 2] ∈ line_cells) by (unfold line_cells; right; left).
  destruct (Hn [0; 1] 0 C0 ltac:(left)) as (p0 & P0 & V0). destruct (Hn [0; 1] 1 C0 ltac:(right; left)) as (p1 & P1 & V1).
  destruct (Hn [1; 2] 2 C1 ltac:(right; left)) as (p2 & P2 & V2).
  destruct (normal_1 _ (HU1 _ C0)) as (A0 & B0 & N0). destruct (normal_1 _ (HU1 _ C1)) as (A1 & B1 & N1).
  assert (E0 : A0 = 0%R).
  { pose proof (HU3 [0; 1] [0] 0 0 0%R C0 ltac:(unfold line_ends; left) ltac:(left) ltac:(left) ltac:(left) ltac:(left)) as H.
    rewrite N0 in H. unfold affine, between, line_x in H. cbn in H. lra. }
  assert (E2 : (A1 + 2 * B1 = 0)%R).
  { pose proof (HU3 [1; 2] [2] 2 2 0%R C1 ltac:(unfold line_ends; right; left) ltac:(right; left) ltac:(left) ltac:(right; left) ltac:(left)) as H.
    rewrite N1 in H. unfold affine, between, line_x in H. cbn in H. lra. }
  assert (E1 : (A0 + B0 = A1 + B1)%R).
  { pose proof (HU2 [0; 1] [1; 2] 1 1 0%R C0 C1 ltac:(right; left) ltac:(left) ltac:(right; left) ltac:(left)) as H.
    rewrite N0, N1 in H. unfold affine, between, line_x in H. cbn in H. lra. }
  assert (E3 : (B0 - B1 = 1)%R).
  { pose proof (Hw hat (λ c _ _, if decide (c = [0; 1]) then B0 else B1) (λ c _ _, if decide (c = [0%nat; 1%nat]) then 1 else -1)%R hat_piecewise) as H.
    unfold mesh_integral, S_Geometry.total, line_cells in H. cbn [map fold_right segment_1 fst snd edim] in H.
    rewrite !hat_value in H. rewrite !(decide_True (P := [0; 1] = [0; 1])), !(decide_False (P := [1; 2] = [0; 1])) in H by done.
    assert (Vol0 : simplex_volume (line_x <$> [0; 1]) = 1%R) by (unfold simplex_volume, det_vecs, vsub, line_x; cbn; lra).
    assert (Vol1 : simplex_volume (line_x <$> [1; 2]) = 1%R) by (unfold simplex_volume, det_vecs, vsub, line_x; cbn; lra).
    rewrite Vol0, Vol1 in H. unfold dot, position, line_x in H. cbn [rsum nth fmap list_fmap vec1] in H. cbn in H.
    assert (Hd1 : ∀ c, c ∈ line_cells → has_gradient 1 (poly (U c)) (λ _ _, if decide (c = [0; 1]) then B0 else B1)).
    { intros c Hcc. apply affine_gradient. intros y t. unfold line_cells in Hcc. rewrite !elem_of_cons, elem_of_nil in Hcc.
      destruct Hcc as [-> |[-> |[]]]; rewrite ?N0, ?N1; case_decide; try done; unfold affine, with_component; cbn; lra. }
    assert (Hd2 : ∀ c, c ∈ line_cells → has_gradient 1 (poly (hat c)) (λ _ _, if decide (c = [0%nat; 1%nat]) then 1 else -1)%R).
    { intros c Hcc. apply affine_gradient. intros y t. rewrite !hat_value. case_decide; unfold with_component; cbn; lra. }
    specialize (H Hd1 Hd2). lra. }
  exists fs, d, p0, p1, p2. split_and!; [done..| | |].
  - rewrite V0, N0. f_equal. unfold affine, line_x. cbn. lra.
  - rewrite V1, N0. f_equal. unfold affine, line_x. cbn. lra.
  - rewrite V2, N1. f_equal. unfold affine, line_x. cbn. lra.
Qed.

(* ---- quadratic triangles on the unit square, held on one side ---- *)

Definition square_x (k : nat) : vec := match k with 0 => vec2 0 0 | 1 => vec2 1 0 | 2 => vec2 1 1 | _ => vec2 0 1 end.
Definition square_cells : list (list nat) := [[0; 1; 2]; [0; 2; 3]].
Definition square_side : list (list nat) := [[0; 1]].
Definition square_points : csys := [(0, vec2 0 0); (1, vec2 1 0); (2, vec2 1 1); (3, vec2 0 1)].

Example C74_square debug f : ∃ fs d U,
  poisson_program Tri2 debug (λ s, fresh s) {[7]} (λ k : nat, k) square_points square_cells square_side triangle_2 f elements map_to_list elimination = Ok (fs, d) ∧
  piecewise Tri2 square_x square_cells square_side U ∧ weak_solution Tri2 square_x square_cells square_side triangle_2 f U.
Proof.
  destruct (C51_kernel_tables Tri2 2 triangle_2 eq_refl ltac:(cbn; lia)) as [Hs HP].
  destruct (C74_solution Tri2 debug (λ s, fresh s) (λ s, is_fresh s) {[7]} (λ k : nat, k) square_points square_x square_cells square_side) with
    (q := triangle_2) (f := f) (order := @elements nat (gset nat) _) (visit := @map_to_list nat Z (gmap nat Z) _) (ksp := elimination)
    as (fs & d & U & Hrun & HU & Hw & _); [..|exists fs, d, U; split; [exact Hrun|split; [exact HU|exact Hw]]].
  - intros k Hk. assert (Hk' : k = 0 ∨ k = 1 ∨ k = 2 ∨ k = 3) by (clear -Hk; unfold square_cells in Hk; cbn in Hk; set_unfold; lia).
    destruct Hk' as [-> |[-> |[-> | ->]]]; reflexivity.
  - intros c Hc. unfold square_cells in Hc. rewrite !elem_of_cons, elem_of_nil in Hc.
    destruct Hc as [-> |[-> |[]]]; (split; [done|]); unfold simplex_volume, det_vecs, vsub; cbn; lra.
  - intros b Hb. apply elem_of_list_singleton in Hb as ->. split; [done|]. split; [apply NoDup_ListNoDup; repeat constructor; cbn; intuition lia|].
    exists [0; 1; 2]. split; [left|]. clear. set_solver.
  - intros k Hk. exists 0. split; [left|]. apply rtc_once.
    assert (Hk' : k ∈ [0; 1; 2] ∨ k ∈ [0; 2; 3]) by (clear -Hk; apply elem_of_concat in Hk as (c & Hk & Hc); unfold square_cells in Hc; rewrite !elem_of_cons, elem_of_nil in Hc; destruct Hc as [-> |[-> |[]]]; auto).
    destruct Hk' as [Hk'|Hk']; [exists [0; 1; 2]|exists [0; 2; 3]]; (split_and!; [unfold square_cells; repeat (left || right)|exact Hk'|left]).
  - intros p w Hw. apply Rlt_le. by apply (HP p).
  - exact Hs.
  - intros s. done.
  - intros m. done.
  - apply elimination_good.
Qed.
