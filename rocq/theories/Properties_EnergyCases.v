(* A case of C86: the equation - div grad u = 1 on the unit square, held on the left and on the right, cut into
   squares and each of them into two triangles. *)
From stdpp Require Import base gmap list sorting.
From Coq Require Import Reals Lra FunctionalExtensionality.
From Coquelicot Require Import Hierarchy Derive AutoDerive.
From Verif Require Import Base M_Tensor M_Geometry S_Geometry P_Volume.
From Verif Require Import M_Functions S_Functions P_Functions M_Quadrature S_Quadrature P_Quadrature P_Poly P_Integrator M_Topology M_Fem S_Fem P_Fem P_FemBlocks Properties_Fem.
From Verif Require Import P_Mesh S_Discrete M_System S_System Properties_System P_Poisson M_Solver S_Solver P_Solver P_Elimination Properties_Solver.
From Verif Require Import S_Stokes S_Energy P_Energy P_EnergyError Properties_Energy.
Local Open Scope nat_scope.

Section grid.
  Context (n : nat) (Hn : 0 < n).
  Definition grid_x (k : nat * nat) : vec := vec2 (INR k.1 / INR n) (INR k.2 / INR n).
  Definition lower (s : nat * nat) : list (nat * nat) := [s; (S s.1, s.2); (S s.1, S s.2)].
  Definition upper (s : nat * nat) : list (nat * nat) := [s; (S s.1, S s.2); (s.1, S s.2)].
  Definition squares : list (nat * nat) := list_prod (seq 0 n) (seq 0 n).
  Definition grid_cells : list (list (nat * nat)) := concat ((λ s, [lower s; upper s]) <$> squares).
  Definition grid_ends : list (list (nat * nat)) := concat ((λ j, [[(0, j); (0, S j)]; [(n, j); (n, S j)]]) <$> seq 0 n).
  Definition grid_point (k : nat * nat) : nat := k.1 * S n + k.2.
  Definition grid_points : csys := map (λ p, (p, grid_x (p / S n, p mod S n))) (seq 0 (S n * S n)).

  Lemma in_squares s : s ∈ squares ↔ s.1 < n ∧ s.2 < n.
  Proof. destruct s as [i j]. unfold squares. rewrite elem_of_list_In, in_prod_iff, !in_seq. cbn. lia. Qed.
  Lemma in_cells c : c ∈ grid_cells ↔ ∃ s, s.1 < n ∧ s.2 < n ∧ (c = lower s ∨ c = upper s).
  Proof.
    unfold grid_cells. rewrite elem_of_concat. split.
    - intros (l & Hc & (s & -> & Hs)%elem_of_list_fmap). apply in_squares in Hs as [? ?]. exists s. rewrite !elem_of_cons, elem_of_nil in Hc. tauto.
    - intros (s & Hi & Hj & Hc). exists [lower s; upper s]. split; [rewrite !elem_of_cons; tauto|]. apply elem_of_list_fmap. exists s. split; [done|]. by apply in_squares.
  Qed.
  Lemma in_ends b : b ∈ grid_ends ↔ ∃ j, j < n ∧ (b = [(0, j); (0, S j)] ∨ b = [(n, j); (n, S j)]).
  Proof.
    unfold grid_ends. rewrite elem_of_concat. split.
    - intros (l & Hb & (j & -> & Hj)%elem_of_list_fmap). apply elem_of_seq in Hj. exists j. rewrite !elem_of_cons, elem_of_nil in Hb. split; [lia|tauto].
    - intros (j & Hj & Hb). exists [[(0, j); (0, S j)]; [(n, j); (n, S j)]]. split; [rewrite !elem_of_cons; tauto|].
      apply (elem_of_list_fmap_1_alt _ _ j); [apply elem_of_seq; lia|done].
  Qed.
  Lemma grid_positive : (0 < INR n)%R.
  Proof. by apply lt_0_INR. Qed.
  Lemma grid_volume c : c ∈ grid_cells → (simplex_volume (grid_x <$> c) = / 2 * (/ INR n) ^ 2)%R.
  Proof.
    pose proof grid_positive. intros ([i j] & _ & _ & [-> | ->])%in_cells; unfold lower, upper, simplex_volume, det_vecs, vsub, grid_x, vec2;
      cbn [fmap list_fmap map fst snd length fact Nat.mul Nat.add]; rewrite !S_INR; cbn [INR]; field; lra.
  Qed.
  Lemma grid_good E : edim E = 2 → good_cells E grid_x grid_cells.
  Proof.
    intros HE c Hc. split; [|rewrite grid_volume by done; pose proof (pow_lt _ 2 (Rinv_0_lt_compat _ grid_positive)); lra].
    rewrite HE. by apply in_cells in Hc as (s & _ & _ & [-> | ->]).
  Qed.
  Lemma grid_domain E : edim E = 2 → good_domain E grid_cells grid_ends.
  Proof.
    intros HE b (j & Hj & [-> | ->])%in_ends; rewrite HE; (split; [done|]).
    - split; [apply NoDup_ListNoDup; constructor; [intros [[=]|[]]; lia|constructor; [intros []|constructor]]|].
      exists (upper (0, j)). split; [apply in_cells; exists (0, j); split_and!; auto|]. unfold upper. cbn. set_solver.
    - split; [apply NoDup_ListNoDup; constructor; [intros [[=]|[]]; lia|constructor; [intros []|constructor]]|].
      exists (lower (n - 1, j)). split; [apply in_cells; exists (n - 1, j); cbn; split_and!; auto; lia|]. unfold lower. cbn. replace (S (n - 1)) with n by lia. set_solver.
  Qed.
  Lemma grid_node k : k ∈ concat grid_cells → k.1 <= n ∧ k.2 <= n.
  Proof.
    intros (c & Hk & (s & Hi & Hj & [-> | ->])%in_cells)%elem_of_concat; unfold lower, upper in Hk; rewrite !elem_of_cons, elem_of_nil in Hk;
      destruct Hk as [-> |[-> |[-> |[]]]]; cbn; lia.
  Qed.
  Lemma grid_anchored : anchored grid_cells grid_ends.
  Proof.
    intros [i j] Hk%grid_node. cbn in Hk. exists (0, j). split.
    - apply elem_of_concat. destruct (decide (j < n)).
      + exists [(0, j); (0, S j)]. split; [left|]. apply in_ends. exists j. auto.
      + exists [(0, j - 1); (0, S (j - 1))]. split; [right; replace (S (j - 1)) with j by lia; left|]. apply in_ends. exists (j - 1). split; [lia|auto].
    - induction i as [|i IH]; [constructor|]. eapply rtc_l; [|apply IH; lia]. destruct (decide (j < n)).
      + exists (lower (i, j)). split_and!; [apply in_cells; exists (i, j); cbn; split_and!; auto; lia|right; left|left].
      + exists (upper (i, j - 1)). unfold upper. cbn. replace (S (j - 1)) with j by lia.
        split_and!; [apply in_cells; exists (i, j - 1); unfold upper; cbn; replace (S (j - 1)) with j by lia; split_and!; auto; lia|right; left|right; right; left].
  Qed.
  Lemma grid_placed k : k ∈ concat grid_cells → find_point (grid_point k) grid_points = Some (grid_x k).
  Proof.
    intros [Hi Hj]%grid_node. destruct k as [i j]. cbn in Hi, Hj. unfold grid_points.
    assert (G : ∀ p m s, s <= p → p < s + m → find_point p (map (λ p, (p, grid_x (p / S n, p mod S n))) (seq s m)) = Some (grid_x (p / S n, p mod S n))).
    { intros p. induction m as [|m IH]; intros s Hs Hm; [lia|]. cbn [seq map]. unfold find_point in *. cbn [List.find fst snd option_map].
      destruct (Nat.eqb_spec s p) as [->|Hne]; [by rewrite ?Nat.eqb_refl|].
      first [rewrite (proj2 (Nat.eqb_neq p s)) by lia|idtac]. apply IH; lia. }
    rewrite G; [|lia|unfold grid_point; cbn [fst snd]; nia]. unfold grid_point. cbn [fst snd]. f_equal. f_equal. f_equal.
    - rewrite Nat.div_add_l by lia. rewrite Nat.div_small by lia. lia.
    - rewrite Nat.add_comm, Nat.mod_add by lia. apply Nat.mod_small. lia.
  Qed.

  Definition six (s : nat * nat) : list ((nat * nat) * (nat * nat)) := around (lower s) ++ around (upper s).
  Lemma grid_sides : concat (around <$> grid_cells) = concat (six <$> squares).
  Proof. unfold grid_cells. induction squares as [|s l IH]; [done|]. cbn [fmap list_fmap concat]. rewrite fmap_app, concat_app. unfold list_fmap in IH |- *. by f_equal. Qed.
  Lemma concat_owner {A B} (f : A → list B) (owner : B → A) l : NoDup l → (∀ s, s ∈ l → NoDup (f s)) → (∀ s e, s ∈ l → e ∈ f s → owner e = s) → NoDup (concat (f <$> l)).
  Proof.
    induction 1 as [|s l Hs _ IH]; intros Hf Ho; [constructor|]. cbn [fmap list_fmap concat]. apply NoDup_app. split_and!; [apply Hf; left| |].
    - intros e He (m & Hm & (s' & -> & Hs')%elem_of_list_fmap)%elem_of_concat. apply Hs.
      rewrite <- (Ho s e) by (done || left). rewrite (Ho s' e) by (done || by right). done.
    - apply IH; [intros s' Hs'; apply Hf; by right|intros s' e Hs'; apply Ho; by right].
  Qed.
  Lemma squares_distinct : NoDup squares.
  Proof.
    unfold squares. assert (G : ∀ l : list nat, NoDup l → NoDup (list_prod l (seq 0 n))); [|apply G, NoDup_seq].
    induction 1 as [|i l Hi _ IH]; [constructor|]. cbn [list_prod]. apply NoDup_app. split_and!; [apply (NoDup_fmap_2 (pair i)), NoDup_seq| |done].
    intros [a b] Ha Hb. rewrite elem_of_list_In in Ha, Hb. apply in_map_iff in Ha as (? & [= <- <-] & _). apply in_prod_iff in Hb as [Hb _]. by apply Hi, elem_of_list_In.
  Qed.
  Definition owner (e : (nat * nat) * (nat * nat)) : nat * nat :=
    let '((a, b), (c, d)) := e in
    if decide (c = S a) then (a, b) else if decide (a = S c) then (if decide (b = d) then (c, d - 1) else (c, d))
    else if decide (d = S b) then (a - 1, b) else (c, d).
  Lemma in_sides k l : (k, l) ∈ concat (around <$> grid_cells) ↔ ∃ s, s.1 < n ∧ s.2 < n ∧ (k, l) ∈ six s.
  Proof.
    rewrite grid_sides, elem_of_concat. split.
    - intros (m & Hm & (s & -> & Hs)%elem_of_list_fmap). exists s. by apply in_squares in Hs as [? ?].
    - intros (s & Hi & Hj & Hm). exists (six s). split; [done|]. apply elem_of_list_fmap. exists s. split; [done|]. by apply in_squares.
  Qed.

  Definition flow (y : vec) : vec := vec2 (1 / 2 - y 0) 0.
  Lemma grid_matching G : (∀ y, G y 1 = 0%R) → matching grid_x grid_cells grid_ends G.
  Proof.
    intros HG. split.
    - rewrite grid_sides. apply (concat_owner six owner); [apply squares_distinct| |].
      + intros [i j] _. unfold six, lower, upper, around. cbn.
        repeat (constructor; [rewrite ?elem_of_cons, ?elem_of_nil; intros Hin; decompose [or] Hin; try done; repeat match goal with X : (_, _) = (_, _) |- _ => injection X; clear X; intros end; first [by inversion Hin|lia]|]). constructor.
      + intros [i j] e _. unfold six, lower, upper, around. cbn. rewrite !elem_of_cons, elem_of_nil. intros He.
        decompose [or] He; try done; subst e; unfold owner; repeat case_decide; try lia; f_equal; lia.
    - intros k l ([i j] & Hi & Hj & He)%in_sides. cbn in Hi, Hj.
      assert (Hs : ∀ s, s.1 < n → s.2 < n → (l, k) ∈ six s → (l, k) ∈ concat (around <$> grid_cells)) by (intros s ???; apply in_sides; eauto).
      unfold six, lower, upper, around in He. cbn in He. rewrite !elem_of_cons, elem_of_nil in He.
      assert (Hflat : ∀ a b c, ∀ (m : vec) t, dot 2 m (vsub (grid_x (b, c)) (grid_x (a, c))) = 0%R → a ≠ b →
        dot 2 m (G (between t (grid_x (a, c)) (grid_x (b, c)))) = 0%R).
      { intros a b c m t Hm Hab. pose proof grid_positive. unfold dot, vsub in *. cbn [rsum] in Hm |- *. rewrite HG. unfold grid_x, vec2 in Hm. cbn in Hm.
        assert (Hm' : (m 0%nat * ((INR b - INR a) / INR n) = 0)%R) by (rewrite <- Hm; field; lra).
        assert (m 0%nat = 0%R) as ->; [|ring]. apply Rmult_integral in Hm' as [->|Hz]; [done|]. exfalso. apply Hab, INR_eq.
        apply (Rmult_eq_compat_r (INR n)) in Hz. replace ((INR b - INR a) / INR n * INR n)%R with (INR b - INR a)%R in Hz by (field; lra). lra. }
      decompose [or] He; try done; repeat match goal with X : (_, _) = (_, _) |- _ => injection X; clear X; intros; subst end.
      + destruct j as [|j]; [right; right; intros m t Hm; apply Hflat; [done|lia]|]. left. apply (Hs (i, j)); [cbn; lia..|].
        unfold six, lower, upper, around. cbn. rewrite !elem_of_cons. tauto.
      + destruct (decide (S i = n)) as [Hin|Hin].
        * right. left. exists [(n, j); (n, S j)]. rewrite Hin. split_and!; [apply in_ends; exists j; auto|left|right; left].
        * left. apply (Hs (S i, j)); [cbn; lia..|]. unfold six, lower, upper, around. cbn. rewrite !elem_of_cons. tauto.
      + left. apply (Hs (i, j)); [cbn; lia..|]. unfold six, lower, upper, around. cbn. rewrite !elem_of_cons. tauto.
      + left. apply (Hs (i, j)); [cbn; lia..|]. unfold six, lower, upper, around. cbn. rewrite !elem_of_cons. tauto.
      + destruct (decide (S j = n)) as [Hjn|Hjn]; [right; right; intros m t Hm; apply Hflat; [done|lia]|]. left. apply (Hs (i, S j)); [cbn; lia..|].
        unfold six, lower, upper, around. cbn. rewrite !elem_of_cons. tauto.
      + destruct i as [|i].
        * right. left. exists [(0, j); (0, S j)]. split_and!; [apply in_ends; exists j; auto|right; left|left].
        * left. apply (Hs (i, j)); [cbn; lia..|]. unfold six, lower, upper, around. cbn. rewrite !elem_of_cons. tauto.
  Qed.
  Lemma grid_side c k l : c ∈ grid_cells → k ∈ c → l ∈ c → (dist2 (grid_x k) (grid_x l) <= 2 * (/ INR n) ^ 2)%R.
  Proof.
    pose proof grid_positive as Hp. assert (Hq : (0 <= (/ INR n) ^ 2)%R) by apply pow2_ge_0.
    assert (D : ∀ a b c d, dist2 (grid_x (a, b)) (grid_x (c, d)) = (((INR a - INR c) ^ 2 + (INR b - INR d) ^ 2) * (/ INR n) ^ 2)%R).
    { intros a b c' d. unfold dist2, dot, vsub, grid_x, vec2. cbn. field. lra. }
    intros ([i j] & _ & _ & Hc)%in_cells Hk Hl. destruct Hc as [-> | ->]; unfold lower, upper in Hk, Hl; rewrite !elem_of_cons, elem_of_nil in Hk, Hl;
      destruct Hk as [-> |[-> |[-> |[]]]]; destruct Hl as [-> |[-> |[-> |[]]]]; cbn [fst snd]; rewrite D, ?S_INR; apply Rmult_le_compat_r; try done; nra.
  Qed.
  Lemma grid_area : S_Geometry.total (map (λ c, simplex_volume (grid_x <$> c)) grid_cells) = 1%R.
  Proof.
    pose proof grid_positive as Hp.
    assert (T : ∀ (l : list (list (nat * nat))) v, (∀ c, c ∈ l → simplex_volume (grid_x <$> c) = v) → S_Geometry.total (map (λ c, simplex_volume (grid_x <$> c)) l) = (INR (length l) * v)%R).
    { intros l v. induction l as [|c l IH]; intros Hv; [cbn; lra|]. cbn [map length]. rewrite S_INR. unfold S_Geometry.total in *. cbn [fold_right].
      rewrite IH by (intros; apply Hv; by right). rewrite Hv by left. lra. }
    rewrite (T _ _ (grid_volume)). assert (L : length grid_cells = 2 * (n * n)).
    { transitivity (2 * length squares); [|unfold squares; by rewrite prod_length, !seq_length]. unfold grid_cells.
      induction squares as [|s l IH]; [done|]. cbn [fmap list_fmap concat length]. rewrite app_length. unfold list_fmap in IH |- *. rewrite IH. cbn. lia. }
    rewrite L, !mult_INR. cbn [INR]. field. lra.
  Qed.
End grid.

(* - div grad of x (1 - x) / 2 is 1. With 2 n^2 triangles of either type, the energy of the difference of the program's
   field from x (1 - x) / 2 is at most 256 / n^2. *)
Definition parabola : polynomial := [((1 / 2)%R, [1; 0]); ((- (1 / 2))%R, [2; 0])].
Example C86_case E n debug order visit : edim E = 2 → 0 < n → visits_set order → visits visit → ∃ fs d U,
  poisson_program E debug (λ s, fresh s) {[7]} (grid_point n) (grid_points n) (grid_cells n) (grid_ends n) triangle_2 (λ _, 1%R) order visit elimination
    = Ok (fs, d) ∧
  piecewise E (grid_x n) (grid_cells n) (grid_ends n) U ∧
  (∀ c k, c ∈ grid_cells n → k ∈ c → ∃ p, fs_node_map fs !! k = Some p ∧ ds_solution d !! p = Some (poly (U c) (grid_x n k))) ∧
  ∀ GU, (∀ c, c ∈ grid_cells n → has_gradient 2 (poly (U c)) (GU c)) → ∃ a,
    energy (grid_x n) (grid_cells n) (λ _, flow) GU a ∧ (a <= 256 / INR n ^ 2)%R.
Proof.
  intros HE Hn Horder Hvisit. pose proof (grid_positive n Hn) as Hp.
  assert (Ht : quadrature_table (edim E) 2 = Some triangle_2) by (rewrite HE; done).
  assert (Hd : degree E <= 2) by (destruct E; cbn; lia).
  destruct (C51_kernel_tables E 2 triangle_2 Ht ltac:(lia)) as [Hs HP].
  assert (Hexact : exact_to 2 (0 + degree E) triangle_2).
  { rewrite <- HE. apply (C51_exact_tables E 2); [done|rewrite HE; cbn; auto|lia]. }
  assert (Hu : ∀ y, poly parabola y = (y 0%nat / 2 - y 0%nat ^ 2 / 2)%R) by (intros y; unfold poly, S_Geometry.total, parabola; cbn; lra).
  destruct (C86_rate E HE debug (λ s, fresh s) (λ s, is_fresh s) {[7]} (grid_point n) (grid_points n) (grid_x n) (grid_cells n) (grid_ends n)
    (grid_placed n Hn) (grid_good n Hn E HE) (grid_domain n Hn E HE) (grid_anchored n Hn) parabola 0) with (G := flow) (f := λ _ : vec, 1%R) (q := triangle_2)
    (order := order) (visit := visit) (ksp := elimination) (M := 1%R) (h := (2 / INR n)%R) (sigma := (1 / 4)%R)
    as (fs & d & U & Hrun & HU & Hnode & _ & Herr).
  - constructor; [cbn; lia|]. constructor; [cbn; lia|constructor].
  - intros y j Hj. assert (Heq : poly parabola = λ y, (y 0%nat / 2 - y 0%nat ^ 2 / 2)%R) by (apply functional_extensionality, Hu). rewrite Heq.
    unfold partial, is_partial, num, with_component. destruct j as [|[|j]]; [| |lia]; unfold flow, vec2; cbn; auto_derive; try done; cbn; lra.
  - intros y. exists (λ i, match i with 0 => (-1)%R | _ => 0%R end). split; [|cbn; lra].
    intros i Hi. unfold is_partial, with_component. destruct i as [|[|i]]; [| |lia]; unfold flow, vec2; cbn; auto_derive; try done; cbn; lra.
  - by apply (grid_matching n Hn).
  - intros p w Hw. left. by apply (HP p).
  - done.
  - done.
  - done.
  - done.
  - apply elimination_good.
  - intros k (b & Hk & Hb)%elem_of_concat. apply (in_ends n Hn) in Hb as (j & Hj & [-> | ->]); rewrite !elem_of_cons, elem_of_nil in Hk; rewrite Hu;
      destruct Hk as [-> |[-> |[]]]; unfold grid_x, vec2; cbn [fst snd INR Nat.eqb]; field; lra.
  - lra.
  - lra.
  - intros c y z _ _ _. rewrite Rmult_1_l, !euclid_dist2. apply sqrt_le_1_alt. unfold dist2, flow, vec2. cbn. 
    assert (0 <= (y 1%nat - z 1%nat) ^ 2)%R by apply pow2_ge_0. nra.
  - intros c k l Hc Hk Hl. pose proof (grid_side n Hn c k l Hc Hk Hl) as Hside. assert (Hq : (0 < / INR n)%R) by (by apply Rinv_0_lt_compat). split.
    + rewrite euclid_dist2. rewrite <- (sqrt_pow2 (2 / INR n)) by (unfold Rdiv; lra). apply sqrt_le_1_alt. unfold Rdiv. rewrite Rpow_mult_distr.
      assert (0 <= (/ INR n) ^ 2)%R by apply pow2_ge_0. lra.
    + rewrite euclid_square, (grid_volume n Hn) by done. lra.
  - exists fs, d, U. split_and!; [done..|]. intros GU HGU. destruct (Herr GU HGU) as (a & Ha & Hle). exists a. split; [done|].
    eapply Rle_trans; [exact Hle|]. rewrite grid_area by done. right. field. lra.
Qed.
