(* Norms of fields on a mesh of finite elements (C70), and examples of elements, blocks and norms. *)
From Coq Require Import Reals List Bool Arith Lia Lra FunctionalExtensionality.
From Verif Require Import Base M_Tensor M_Geometry S_Geometry P_Volume.
From Verif Require Import M_Functions S_Functions P_Functions M_Quadrature S_Quadrature P_Quadrature P_Integrator.
From Verif Require Import Properties_Quadrature.
From Verif Require Import M_Fem S_Fem P_Fem P_FemBlocks P_FemNorms Properties_Fem.
Import ListNotations.
Open Scope R_scope.

(* The norm of the difference of two fields is the square root of the sum over the elements of the
   volume times the weighted sum of the squares of the differences of their values. *)
Theorem C70_l2_value {E} q (elements : list (element E)) corners u1 u2 : Forall2 made elements corners ->
  compute_l2_norm q elements u1 u2
  = sqrt (S_Geometry.total (map (fun ec => simplex_volume (snd ec)
      * S_Geometry.total (map (fun pw => snd pw * (field_value u1 (fst ec) (fst pw) - field_value u2 (fst ec) (fst pw)) ^ 2) q))
      (combine elements corners))).
Proof.
  intros H. rewrite (l2_norm_value q elements corners u1 u2 H). unfold square_norm. f_equal.
  apply total_map_ext. intros ec _. f_equal. apply total_map_ext. intros pw _. ring.
Qed.

(* A distance: nonnegative, zero between a field and itself, symmetric, triangle inequality. *)
Theorem C70_l2_nonnegative {E} q (elements : list (element E)) u1 u2 : 0 <= compute_l2_norm q elements u1 u2.
Proof. apply sqrt_pos. Qed.
Theorem C70_l2_same {E} q (elements : list (element E)) corners u : Forall2 made elements corners ->
  compute_l2_norm q elements u u = 0.
Proof.
  intros H. rewrite (C70_l2_value q elements corners u u H), <- sqrt_0. f_equal.
  rewrite (total_map_ext _ (fun _ => 0 * 0)); [rewrite total_map_scal; ring|].
  intros ec _. rewrite (total_map_ext _ (fun _ => 0 * 0)); [rewrite total_map_scal; ring|].
  intros pw _. ring.
Qed.
Theorem C70_l2_symmetric {E} q (elements : list (element E)) corners u1 u2 : Forall2 made elements corners ->
  compute_l2_norm q elements u1 u2 = compute_l2_norm q elements u2 u1.
Proof.
  intros H. rewrite !(C70_l2_value q elements corners _ _ H). f_equal.
  apply total_map_ext. intros ec _. f_equal. apply total_map_ext. intros pw _. ring.
Qed.
Theorem C70_l2_triangle {E} q (elements : list (element E)) corners u1 u2 u3 : Forall2 made elements corners ->
  Forall (fun c => 0 <= simplex_volume c) corners -> (forall p w, In (p, w) q -> 0 <= w) ->
  compute_l2_norm q elements u1 u3 <= compute_l2_norm q elements u1 u2 + compute_l2_norm q elements u2 u3.
Proof.
  intros H V W. rewrite !(l2_norm_value q elements corners _ _ H), !square_norm_sites.
  pose proof (minkowski site_weight (at_site (fun e p => field_value u1 e p - field_value u2 e p))
    (at_site (fun e p => field_value u2 e p - field_value u3 e p)) (sites q elements corners)
    (sites_weight q elements corners V W)) as M.
  refine (Rle_trans _ _ _ (Req_le _ _ _) M). f_equal.
  unfold weighted_sum. apply total_map_ext. intros s _. unfold at_site. ring.
Qed.
(* Zero only if the fields have the same values at the points of the rule. *)
Theorem C70_l2_zero {E} q (elements : list (element E)) corners u1 u2 : Forall2 made elements corners ->
  Forall (fun c => 0 < simplex_volume c) corners -> (forall p w, In (p, w) q -> 0 < w) ->
  compute_l2_norm q elements u1 u2 = 0 ->
  forall e p w, In e elements -> In (p, w) q -> field_value u1 e p = field_value u2 e p.
Proof.
  intros H V W Z e p w He Hp. rewrite (l2_norm_value q elements corners _ _ H), square_norm_sites in Z.
  assert (V0 : Forall (fun c => 0 <= simplex_volume c) corners) by (revert V; apply Forall_impl; intros; lra).
  pose proof (sites_weight q elements corners V0 (fun p w HI => Rlt_le _ _ (W p w HI))) as SW.
  apply sqrt_eq_0 in Z; [|apply weighted_nonneg, SW].
  assert (HC : exists c, In (e, c) (combine elements corners) /\ 0 < simplex_volume c).
  { clear -H V He. induction H as [|e' c elements corners _ H IH]; [destruct He|].
    inversion_clear V. destruct He as [->|He]; [exists c; split; [left; reflexivity|assumption]|].
    destruct (IH ltac:(assumption) He) as (c' & I & P). exists c'. split; [right; exact I|exact P]. }
  destruct HC as (c & HC & PC).
  pose proof (total_zero _ (sites q elements corners)
    (fun s Hs => Rmult_le_pos _ _ (SW s Hs) (Rle_0_sqr _)) Z ((e, c), (p, w))) as X.
  unfold site_weight, at_site, Rsqr in X. cbn [fst snd] in X. assert (X' := X ltac:(
    unfold sites; apply in_flat_map; exists (e, c); split; [exact HC|]; apply in_map_iff; exists (p, w); split; [reflexivity|exact Hp])).
  apply Rmult_integral in X'. destruct X' as [X'|X'].
  - pose proof (Rmult_lt_0_compat _ _ PC (W p w Hp)). lra.
  - apply Rmult_integral in X'. destruct X'; lra.
Qed.
(* It does not depend on the order of the elements. *)
Theorem C70_l2_order {E} q (elements elements' : list (element E)) u1 u2 :
  Permutation.Permutation elements elements' ->
  compute_l2_norm q elements u1 u2 = compute_l2_norm q elements' u1 u2.
Proof.
  intros H. unfold compute_l2_norm. f_equal.
  rewrite !(fold_norm (fun e => l2_norm_block q 1 (eval (f_sub (localize u1 e) (localize u2 e))) e)). f_equal.
  apply P_Volume.total_permutation. apply Permutation.Permutation_map, H.
Qed.

(* With a rule exact to twice the degree: the square root of the integral of the square of the
   difference, when the fields are nodal fields or polynomials of the degree of the position. *)
Definition polynomial_field (E : element_type) (r : nat) (u : field E) : Prop :=
  match u with
  | Nodal _ => (degree E <= r)%nat
  | Analytic f => exists p, of_degree (edim E) r p /\ forall x, eval f x 0%nat = poly p x
  end.
Lemma field_expressible {E} r (u : field E) (e : element E) corners : made e corners -> polynomial_field E r u ->
  expressible (edim E) r (field_value u e).
Proof.
  intros H P. destruct u as [values|f]; cbn in P.
  - apply (expressible_le (edim E) (degree E) r _ P). unfold field_value, interpolant.
    apply (expressible_rsum (edim E) (degree E) (n_nodes E) (fun a p => values (connectivity e a) * phi E a p)).
    intros a _. apply expressible_scal, expressible_phi.
  - destruct P as (p & Hp & Ep). unfold field_value.
    apply (expressible_ext _ _ (fun x => poly p (image e x))); [intros x; symmetry; apply Ep|].
    apply (expressible_poly (edim E) (edim E) r p (image e) Hp). intros i. apply (expressible_image e corners i H).
Qed.
Theorem C70_l2_exact {E} r q (elements : list (element E)) corners u1 u2 : Forall2 made elements corners ->
  exact_to (edim E) (2 * r) q -> polynomial_field E r u1 -> polynomial_field E r u2 ->
  exists vs, Forall2 (fun ec v => element_integral E (snd ec)
      (fun p => (field_value u1 (fst ec) p - field_value u2 (fst ec) p) ^ 2) v) (combine elements corners) vs /\
    compute_l2_norm q elements u1 u2 = sqrt (S_Geometry.total vs).
Proof.
  intros H Hq P1 P2.
  exists (map (fun ec => simplex_volume (snd ec)
      * S_Geometry.total (map (fun pw => snd pw * (field_value u1 (fst ec) (fst pw) - field_value u2 (fst ec) (fst pw)) ^ 2) q))
      (combine elements corners)).
  split; [|apply C70_l2_value, H].
  induction H as [|e c elements corners He H IH]; cbn [combine map]; constructor; [|exact IH]. cbn [fst snd].
  assert (X : expressible (edim E) (2 * r) (fun p => (field_value u1 e p - field_value u2 e p) ^ 2)).
  { assert (D : expressible (edim E) r (fun p => field_value u1 e p - field_value u2 e p)).
    { apply (expressible_ext _ _ (fun p => field_value u1 e p + -1 * field_value u2 e p)); [intros; ring|].
      apply (expressible_plus _ _ (field_value u1 e) (fun p => -1 * field_value u2 e p)).
      - apply (field_expressible r u1 e c He P1).
      - apply expressible_scal, (field_expressible r u2 e c He P2). }
    replace (2 * r)%nat with (r + r)%nat by lia.
    apply (expressible_ext _ _ (fun p => (field_value u1 e p - field_value u2 e p) * (field_value u1 e p - field_value u2 e p)));
      [intros; ring|].
    apply (expressible_mult _ r r _ _ D D). }
  assert (G : exists v, element_integral E c (fun p => (field_value u1 e p - field_value u2 e p) ^ 2) v).
  { destruct X as (p & Hp & Ep). eexists. unfold element_integral.
    apply (is_integral_ext (edim E) 1 (fun x => simplex_volume c / area (edim E) * poly p x));
      [intros x; rewrite <- Ep; ring|]. apply is_integral_scal, (poly_integral _ _ _ Hp). }
  destruct G as (v & Hv).
  rewrite (exact_value (edim E) (2 * r) q _ (simplex_volume c) v Hq X Hv). exact Hv.
Qed.

(* ------------------------------------------------------------------------------------------- *)
(* compute_h1_norm. *)
Lemma localize_gradient {E} values (e : element E) : exists g,
  gradient_scalar (localize (Nodal values) e) = Some g /\
  forall p i, (i < edim E)%nat ->
    eval g p i = rsum (n_nodes E) (fun a => values (connectivity e a) * call (dshape E a) p i).
Proof.
  destruct E.
  - eexists. split; [cbn; reflexivity|]. intros p i Hi. cbn [edim] in Hi. assert (i = 0%nat) as -> by lia.
    cbn. unfold num, unit_, zero_; cbn; ring.
  - eexists. split; [cbn; reflexivity|]. intros p i Hi. cbn [edim] in Hi. destruct i as [|[|i]]; [| |lia];
    cbn; unfold num, unit_, zero_; cbn; ring.
  - eexists. split; [cbn; reflexivity|]. intros p i Hi. cbn [edim] in Hi. destruct i as [|[|i]]; [| |lia];
    cbn; unfold num, unit_, zero_; cbn; try ring.
Qed.

(* The H1 norm of the difference of two nodal fields: the values and the gradients of the
   interpolants (with respect to the position) at the points of the rule. *)
Definition h1_norm {E} (q : rule) (elements : list (element E)) (corners : list (list vec)) (v1 v2 : nat -> R) : R :=
  sqrt (S_Geometry.total (map (fun ec =>
    let u a := v1 (connectivity (fst ec) a) - v2 (connectivity (fst ec) a) in
    simplex_volume (snd ec) * S_Geometry.total (map (fun pw => snd pw
      * (interpolant E u (fst pw) ^ 2
         + rsum (edim E) (fun i => rsum (n_nodes E) (fun a => u a * element_gradient (fst ec) a (fst pw) i) ^ 2))) q))
    (combine elements corners))).

(* What is computed: the gradients are those with respect to the parametric coordinates. *)
Theorem C70_h1_computed {E} q (elements : list (element E)) corners v1 v2 : Forall2 made elements corners ->
  compute_h1_norm q elements (Nodal v1) (Nodal v2) =
  sqrt (S_Geometry.total (map (fun ec =>
    let u a := v1 (connectivity (fst ec) a) - v2 (connectivity (fst ec) a) in
    simplex_volume (snd ec) * S_Geometry.total (map (fun pw => snd pw
      * (interpolant E u (fst pw) ^ 2
         + rsum (edim E) (fun i => rsum (n_nodes E) (fun a => u a * call (dshape E a) (fst pw) i) ^ 2))) q))
    (combine elements corners))).
Proof.
  intros H. unfold compute_h1_norm.
  rewrite (fold_norm (fun e => l2_norm_block q 1 (eval (f_sub (localize (Nodal v1) e) (localize (Nodal v2) e))) e
       + l2_norm_block q (edim E)
           (call (obind (gradient_scalar (localize (Nodal v1) e)) (fun g1 =>
                  obind (gradient_scalar (localize (Nodal v2) e)) (fun g2 => Some (f_sub g1 g2))))) e)).
  f_equal. replace 0.0 with 0 by (unfold Q2R; cbn; field). rewrite Rplus_0_l.
  induction H as [|e c elements corners He H IH]; [reflexivity|].
  cbn [combine map]. unfold S_Geometry.total in *. cbn [fold_right]. rewrite IH. f_equal. cbn [fst snd]. clear IH H.
  rewrite !(l2_value e c q _ _ He). rewrite <- Rmult_plus_distr_l. f_equal.
  change (fold_right Rplus 0) with S_Geometry.total.
  rewrite <- total_map_plus. apply total_map_ext. intros pw _. rewrite <- Rmult_plus_distr_l. f_equal.
  destruct (localize_gradient v1 e) as (g1 & G1 & X1). destruct (localize_gradient v2 e) as (g2 & G2 & X2).
  rewrite G1, G2. cbn [obind call]. f_equal.
  - unfold dot. cbn [rsum]. rewrite !eval_sub, !localize_value. unfold field_value, interpolant.
    assert (Z : forall n (f g h : nat -> R), rsum n (fun a => (f a - g a) * h a) = rsum n (fun a => f a * h a) - rsum n (fun a => g a * h a)).
    { intros n f g h. induction n as [|n IH]; cbn [rsum]; [ring|]. rewrite IH. ring. }
    rewrite (Z _ (fun a => v1 (connectivity e a)) (fun a => v2 (connectivity e a)) (fun a => phi E a (fst pw))). ring.
  - unfold dot. apply rsum_ext. intros i Hi. rewrite !eval_sub, X1, X2 by exact Hi.
    assert (Z : forall n (f g h : nat -> R), rsum n (fun a => (f a - g a) * h a) = rsum n (fun a => f a * h a) - rsum n (fun a => g a * h a)).
    { intros n f g h. induction n as [|n IH]; cbn [rsum]; [ring|]. rewrite IH. ring. }
    rewrite (Z _ (fun a => v1 (connectivity e a)) (fun a => v2 (connectivity e a)) (fun a => call (dshape E a) (fst pw) i)). ring.
Qed.
(* This is the H1 norm only on elements on which the two gradients are the same: those congruent to
   the reference element by a translation. Missing: all the others, and fields given by a formula
   (their gradients are taken with respect to the parametric coordinates too). *)
Theorem C70_h1_partial {E} q (elements : list (element E)) corners v1 v2 : Forall2 made elements corners ->
  (forall e p i j, In e elements -> (i < edim E)%nat -> (j < edim E)%nat ->
     element_jacobian e p i j = if Nat.eqb i j then 1 else 0) ->
  compute_h1_norm q elements (Nodal v1) (Nodal v2) = h1_norm q elements corners v1 v2.
Proof.
  intros H J. rewrite (C70_h1_computed q elements corners v1 v2 H). unfold h1_norm. f_equal.
  apply total_map_ext. intros [e c] Hec. cbn [fst snd]. f_equal. apply total_map_ext. intros pw _. do 2 f_equal.
  apply rsum_ext. intros i Hi. f_equal. apply rsum_ext. intros a _. f_equal.
  apply in_combine_l in Hec. specialize (J e (fst pw)). unfold element_gradient.
  destruct E; cbn [edim] in *; unfold minv, rsum.
  - unfold det1. rewrite !J by (assumption || lia). cbn. assert (i = 0%nat) as -> by lia. field.
  - unfold det1, det2, minor. destruct i as [|[|i]]; [| |lia]; cbn [skip Nat.ltb Nat.leb];
      rewrite !J by (assumption || cbn; lia); cbn; field.
  - unfold det1, det2, minor. destruct i as [|[|i]]; [| |lia]; cbn [skip Nat.ltb Nat.leb];
      rewrite !J by (assumption || cbn; lia); cbn; field.
Qed.
(* It is not on a segment of length two. *)
Definition two_cs : csys := [(0%nat, vec1 0); (1%nat, vec1 2)].
Definition two_corners : list vec := [vec1 0; vec1 2].
Lemma two_placed : placed two_cs [0%nat; 1%nat] two_corners.
Proof. repeat constructor. Qed.
Theorem C70_h1_refuted :
  exists (e : element Seg1) corners q v1 v2, made e corners /\ quadrature_table 1 1 = Some q /\
    0 < simplex_volume corners /\
    compute_h1_norm q [e] (Nodal v1) (Nodal v2) <> h1_norm q [e] [corners] v1 v2.
Proof.
  destruct (C49_made Seg1 two_cs [0%nat; 1%nat] two_corners [0%nat; 1%nat] two_placed eq_refl) as (e & He & HM & HN).
  exists e, two_corners, segment_1, (fun k => 2 * INR k), (fun _ => 0).
  split; [exact HM|]. split; [reflexivity|].
  assert (V : simplex_volume two_corners = 2) by (unfold simplex_volume, det_vecs, vsub, two_corners; cbn; lra).
  split; [lra|].
  assert (C0 : connectivity e 0 = 0%nat) by (specialize (HN 0%nat ltac:(cbn; lia)); cbn in HN; congruence).
  assert (C1 : connectivity e 1 = 1%nat) by (specialize (HN 1%nat ltac:(cbn; lia)); cbn in HN; congruence).
  rewrite (C70_h1_computed segment_1 [e] [two_corners]) by (repeat constructor; exact HM).
  unfold h1_norm, S_Geometry.total, segment_1. cbn [combine map fold_right fst snd]. rewrite V.
  unfold interpolant. cbn [edim n_nodes rsum]. rewrite C0, C1.
  rewrite !(made_gradient e two_corners HM) by (cbn; lia). rewrite !(dshape_value Seg1) by (cbn; lia). rewrite !phi_value.
  cbn. intros X. apply sqrt_inj in X; lra.
Qed.

(* ------------------------------------------------------------------------------------------- *)
(* Examples: the triangle with corners (0, 0), (2, 0) and (0, 1), of area 1. *)
Definition ex_cs : csys := [(0%nat, vec2 0 0); (1%nat, vec2 2 0); (2%nat, vec2 0 1)].
Definition ex_corners : list vec := [vec2 0 0; vec2 2 0; vec2 0 1].
Lemma ex_placed : placed ex_cs [0%nat; 1%nat; 2%nat] ex_corners.
Proof. repeat constructor. Qed.
Lemma ex_volume : simplex_volume ex_corners = 1.
Proof. unfold simplex_volume, det_vecs, vsub, ex_corners. cbn. lra. Qed.
Example ex_linear : exists e : element Tri1, made e ex_corners /\ connectivity e 2 = 9%nat /\
  grad_grad_block triangle_1 e 0%nat 0%nat = 5 / 4 /\ grad_grad_block triangle_1 e 0%nat 1%nat = - 1 / 4 /\
  mass_block triangle_2 e 0%nat 0%nat = 1 / 6.
Proof.
  destruct (C49_made Tri1 ex_cs [0%nat; 1%nat; 2%nat] ex_corners [7%nat; 8%nat; 9%nat] ex_placed eq_refl) as (e & _ & HM & HN).
  exists e. split; [exact HM|]. split; [specialize (HN 2%nat ltac:(cbn; lia)); cbn in HN; congruence|].
  assert (M : mass_block triangle_2 e 0%nat 0%nat = 1 / 6).
  { rewrite (C51_mass_exact e ex_corners triangle_2 0%nat 0%nat (simplex_volume ex_corners * mass_matrix Tri1 0 0) HM).
    - rewrite ex_volume. unfold mass_matrix. cbn. lra.
    - apply (C51_exact_tables Tri1 2 triangle_2 2 eq_refl); [right; right; left; reflexivity|lia].
    - apply (C51_mass_integrals Tri1); cbn; lia. }
  rewrite M, !(grad_grad_value e ex_corners) by exact HM. rewrite ex_volume.
  unfold S_Geometry.total, triangle_1. cbn [map fold_right fst snd]. unfold dot. cbn [edim rsum].
  rewrite !(made_gradient e ex_corners HM) by (cbn; lia). unfold jac2. cbn. repeat split; lra.
Qed.
(* On the quadratic triangle, the values of the quadratic field x * y + y at the nodes, and its
   gradient at the point (1/2, 1/4), of parametric coordinates 1/2 and 1/4. *)
Definition ex_field : polynomial := [(1, [1; 1]%nat); (1, [0; 1]%nat)].
Example ex_quadratic : exists e : element Tri2, made e ex_corners /\
  image e (vec2 (1 / 2) (1 / 4)) 0%nat = 1 / 2 /\ image e (vec2 (1 / 2) (1 / 4)) 1%nat = 1 / 4 /\
  rsum 6 (fun a => poly ex_field (node Tri2 ex_corners a) * element_gradient e a (vec2 (1 / 2) (1 / 4)) 0%nat) = 1 / 4 /\
  rsum 6 (fun a => poly ex_field (node Tri2 ex_corners a) * element_gradient e a (vec2 (1 / 2) (1 / 4)) 1%nat) = 3 / 2.
Proof.
  destruct (C49_made Tri2 ex_cs [0%nat; 1%nat; 2%nat] ex_corners [0; 1; 2; 3; 4; 5]%nat ex_placed eq_refl) as (e & _ & HM & HN).
  exists e. split; [exact HM|]. destruct (made_shape e ex_corners HM) as [_ I].
  split; [rewrite I; cbn; lra|]. split; [rewrite I; cbn; lra|].
  cbn [rsum]. rewrite !(made_gradient e ex_corners HM) by (cbn; lia).
  unfold poly, S_Geometry.total, ex_field, jac2. cbn. unfold middle. cbn. split; lra.
Qed.
(* Definiteness on the quadratic triangle with the rules of degrees two and four. *)
Example ex_definite (e : element Tri2) u : made e ex_corners ->
  form 6 (grad_grad_block triangle_2 e) u u = 0 -> u 0%nat = 0 -> u 5%nat = 0.
Proof.
  intros H Z U. rewrite <- U.
  destruct (C51_kernel_tables Tri2 2 triangle_2 eq_refl ltac:(cbn; lia)) as [S P].
  assert (V : 0 < simplex_volume ex_corners) by (rewrite ex_volume; lra).
  exact (C51_kernel e ex_corners triangle_2 u H V (fun p w HI => Rlt_le _ _ (P p w HI)) S Z 5%nat 0%nat
    ltac:(cbn; lia) ltac:(cbn; lia)).
Qed.
(* The L2 distance between the interpolant of the values 0, 2, 0 and the function 0 is the square root
   of 4 / 6 on the triangle (the integral of x squared). *)
Example ex_norm : exists e : element Tri1, made e ex_corners /\
  compute_l2_norm triangle_2 [e] (Nodal (fun k => if Nat.eqb k 1 then 2 else 0)) (Analytic (Constant (num 0))) = sqrt (2 / 3).
Proof.
  destruct (C49_made Tri1 ex_cs [0%nat; 1%nat; 2%nat] ex_corners [0%nat; 1%nat; 2%nat] ex_placed eq_refl) as (e & _ & HM & HN).
  exists e. split; [exact HM|].
  assert (C0 : connectivity e 0 = 0%nat) by (specialize (HN 0%nat ltac:(cbn; lia)); cbn in HN; congruence).
  assert (C1 : connectivity e 1 = 1%nat) by (specialize (HN 1%nat ltac:(cbn; lia)); cbn in HN; congruence).
  assert (C2 : connectivity e 2 = 2%nat) by (specialize (HN 2%nat ltac:(cbn; lia)); cbn in HN; congruence).
  rewrite (C70_l2_value triangle_2 [e] [ex_corners]) by (repeat constructor; exact HM). f_equal.
  unfold S_Geometry.total, triangle_2. cbn [combine map fold_right fst snd field_value]. rewrite ex_volume.
  unfold interpolant. cbn [n_nodes rsum]. rewrite C0, C1, C2, !phi_value. unfold num. cbn. unfold num. lra.
Qed.
Example ex_exact : exact_to 2 2 triangle_2 /\ exact_to 2 0 triangle_1 /\ exact_to 1 0 segment_1.
Proof.
  split; [|split].
  - apply (C51_exact_tables Tri1 2 triangle_2 2 eq_refl); [right; right; left; reflexivity|lia].
  - apply (C51_exact_tables Tri1 1 triangle_1 0 eq_refl); [right; left; reflexivity|lia].
  - apply (C51_exact_tables Seg1 1 segment_1 0 eq_refl); [left; reflexivity|lia].
Qed.

Print Assumptions C70_l2_value.
Print Assumptions C70_l2_triangle.
Print Assumptions C70_l2_zero.
Print Assumptions C70_l2_order.
Print Assumptions C70_l2_exact.
Print Assumptions C70_h1_computed.
Print Assumptions C70_h1_partial.
Print Assumptions C70_h1_refuted.
