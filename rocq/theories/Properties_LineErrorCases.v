(* A case of C83: the equation - U'' = 1 on [0, 1] with any number of equal segments. *)
From Coquelicot Require Import Hierarchy Derive AutoDerive.
From stdpp Require Import base gmap list sorting.
From Coq Require Import Reals Lra.
From Verif Require Import Base M_Tensor M_Geometry S_Geometry P_Volume.
From Verif Require Import M_Functions S_Functions P_Functions M_Quadrature S_Quadrature P_Quadrature P_Integrator M_Topology M_Fem S_Fem P_Fem P_FemBlocks Properties_Fem.
From Verif Require Import P_Mesh S_Discrete M_System S_System Properties_System P_Poisson Properties_Line M_Solver S_Solver P_Solver P_Elimination Properties_Solver.
From Verif Require Import Properties_PoissonCases Properties_LineError.
Local Open Scope nat_scope.

Section cuts.
  Context (n : nat) (Hn : 0 < n).
  Definition cut_x (k : nat) : vec := vec1 (INR k / INR n).
  Definition cut_cells : list (list nat) := (λ k, [k; S k]) <$> seq 0 n.
  Definition cut_ends : list (list nat) := [[0]; [n]].
  Definition cut_points : csys := map (λ k, (k, cut_x k)) (seq 0 (S n)).

  Lemma cut_positive : (0 < INR n)%R.
  Proof. by apply lt_0_INR. Qed.
  Lemma cut_in c : c ∈ cut_cells ↔ ∃ k, c = [k; S k] ∧ k < n.
  Proof. clear Hn. unfold cut_cells. rewrite elem_of_list_fmap. setoid_rewrite elem_of_seq. split; intros (k & -> & Hk); exists k; (split; [done|lia]). Qed.
  Lemma cut_node k : k ∈ concat cut_cells → k <= n.
  Proof. clear Hn. intros (c & Hk & (i & -> & Hi)%cut_in)%elem_of_concat. rewrite !elem_of_cons, elem_of_nil in Hk. lia. Qed.
  Lemma cut_length k : (cut_x (S k) 0%nat - cut_x k 0%nat = / INR n)%R.
  Proof. pose proof cut_positive. unfold cut_x. cbn [vec1]. unfold vec1. rewrite S_INR. cbn. field. lra. Qed.

  Lemma cut_good : good_cells Seg1 cut_x cut_cells.
  Proof.
    intros c (k & -> & Hk)%cut_in. split; [done|]. pose proof (cut_length k) as L. pose proof (Rinv_0_lt_compat _ cut_positive).
    unfold simplex_volume, det_vecs, vsub. cbn. cbn in L. unfold cut_x, vec1 in *. cbn in *. lra.
  Qed.
  Lemma cut_domain : good_domain Seg1 cut_cells cut_ends.
  Proof.
    intros b Hb. unfold cut_ends in Hb. rewrite !elem_of_cons, elem_of_nil in Hb. destruct Hb as [-> |[-> |[]]].
    - split_and!; [done|apply NoDup_singleton|]. exists [0; 1]. split; [apply cut_in; by exists 0|]. intros k. set_solver.
    - split_and!; [done|apply NoDup_singleton|]. exists [n - 1; S (n - 1)]. split; [apply cut_in; exists (n - 1); split; [done|lia]|].
      replace (S (n - 1)) with n by lia. set_solver.
  Qed.
  Lemma cut_anchored : anchored cut_cells cut_ends.
  Proof.
    intros k Hk%cut_node. exists 0. split; [unfold cut_ends; cbn; left|]. induction k as [|k IH]; [constructor|].
    eapply rtc_l; [|apply IH; lia]. exists [k; S k]. split_and!; [apply cut_in; exists k; split; [done|lia]|right; left|left].
  Qed.
  Lemma cut_chained : chained cut_cells cut_ends.
  Proof.
    unfold chained.
    assert (A : ∀ m i, concat (take 1 <$> ((λ k, [k; S k]) <$> seq i m)) = seq i m) by (induction m as [|m IH]; intros i; [done|]; cbn; by rewrite IH).
    assert (B : ∀ m i, concat (drop 1 <$> ((λ k, [k; S k]) <$> seq i m)) = seq (S i) m) by (induction m as [|m IH]; intros i; [done|]; cbn; by rewrite IH).
    unfold cut_cells.
    rewrite A, B. assert (S0 : seq 0 n = 0 :: seq 1 (n - 1)) by (replace n with (S (n - 1)) at 1 by lia; done).
    assert (S1 : seq 1 n = seq 1 (n - 1) ++ [n]) by (replace n with (S (n - 1)) at 1 by lia; rewrite seq_S; do 3 f_equal; lia).
    rewrite S0, S1.
    rewrite filter_cons_False, filter_app, filter_cons_False, filter_nil, app_nil_r; [done|unfold cut_ends; cbn; intros Hf; apply Hf; right; left|unfold cut_ends; cbn; intros Hf; apply Hf; left].
  Qed.
  Lemma cut_placed k : k ∈ concat cut_cells → find_point k cut_points = Some (cut_x k).
  Proof.
    intros Hk%cut_node. unfold cut_points. assert (G : ∀ m i, i <= k → k < i + m → find_point k (map (λ k, (k, cut_x k)) (seq i m)) = Some (cut_x k)).
    { induction m as [|m IH]; intros i Hi Hm; [lia|]. cbn. destruct (Nat.eqb_spec i k) as [->|Hne]; [by rewrite ?Nat.eqb_refl|].
      first [rewrite (proj2 (Nat.eqb_neq k i)) by lia|idtac]. apply IH; lia. }
    apply G; lia.
  Qed.
End cuts.

(* With n segments the error is at most 1 / (8 n^2) everywhere, and that of the slope at most 1 / n. *)
Example C83_case n debug order visit : 0 < n → visits_set order → visits visit → ∃ fs d W,
  poisson_program Seg1 debug (λ s, fresh s) {[7]} (λ k : nat, k) (cut_points n) (cut_cells n) (cut_ends n) segment_1 (poly one_source) order visit elimination
    = Ok (fs, d) ∧
  (∀ k, k <= n → ∃ p, fs_node_map fs !! k = Some p ∧ ds_solution d !! p = Some ((INR k / INR n) * (1 - INR k / INR n) / 2)%R) ∧
  (∀ k y, k < n → (INR k / INR n <= y 0%nat <= INR (S k) / INR n)%R →
     (Rabs (poly (W [k; S k]) y - y 0%nat * (1 - y 0%nat) / 2) <= 1 * (/ INR n) ^ 2 / 8)%R ∧
     ∀ D, has_gradient 1 (poly (W [k; S k])) D → (Rabs (D y 0%nat - (1 / 2 - y 0%nat)) <= 1 * / INR n)%R).
Proof.
  intros Hn Horder Hvisit. destruct C73_midpoint as (Q1 & Q2 & Q3). pose proof (cut_positive n Hn) as Hpos.
  destruct (C83_error debug (λ s, fresh s) (λ s, is_fresh s) {[7]} (λ k : nat, k) (cut_points n) (cut_x n) (cut_cells n) (cut_ends n)
    (cut_placed n Hn) (cut_good n Hn) (cut_domain n Hn) (cut_anchored n Hn) (cut_chained n Hn) one_source 0 ltac:(constructor; [cbn; lia|constructor])
    (λ t, (t * (1 - t) / 2)%R) (λ t, (1 / 2 - t)%R)) with (q := segment_1) (order := order) (visit := visit) (ksp := elimination) (h := (/ INR n)%R) (M := 1%R)
    as (fs & d & W & Hrun & HW & Hnode & Hin & _); try done.
  - intros t. auto_derive; [done|]. lra.
  - intros t. auto_derive; [done|]. unfold poly, S_Geometry.total, one_source. cbn. lra.
  - intros k Hk. unfold cut_ends in Hk. cbn in Hk. rewrite !elem_of_cons, elem_of_nil in Hk. unfold cut_x, vec1.
    destruct Hk as [-> |[-> |[]]]; cbn [INR Nat.eqb]; field; lra.
  - apply elimination_good.
  - intros k l (i & [= -> ->] & Hi)%cut_in. rewrite (cut_length n Hn). lra.
  - intros k l t _ _. unfold poly, S_Geometry.total, one_source. cbn. rewrite Rabs_right; lra.
  - exists fs, d, W. split_and!; [done| |].
    + intros k Hk. assert (Hc : ∃ c, c ∈ cut_cells n ∧ k ∈ c).
      { destruct k as [|k]; [exists [0; 1]; split; [apply cut_in; by exists 0|left]|].
        exists [k; S k]. split; [apply cut_in; exists k; split; [done|lia]|right; left]. }
      destruct Hc as (c & Hc & Hkc). destruct (Hnode c k Hc Hkc) as (p & Hp & Hv & Hu). exists p. split; [done|]. rewrite Hv, Hu. done.
    + intros k y Hk Hy. destruct (Hin k (S k) y) as [G1 G2]; [apply cut_in; by exists k|exact Hy|]. by split.
Qed.
