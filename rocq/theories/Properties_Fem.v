(* Finite elements: shape functions (C48), isoparametric elements (C49), elementary blocks (C51).
   [E] ranges over the element types of the library: linear segments, linear and quadratic
   triangles. *)
From Coq Require Import Reals List Bool Arith Lia Lra FunctionalExtensionality.
From Verif Require Import Base M_Tensor M_Geometry S_Geometry P_Volume.
From Verif Require Import M_Functions S_Functions P_Functions M_Quadrature S_Quadrature P_Quadrature P_Integrator.
From Verif Require Import Properties_Quadrature.
From Verif Require Import M_Fem S_Fem P_Fem P_FemBlocks P_FemNorms.
Import ListNotations.
Open Scope R_scope.

(* ------------------------------------------------------------------------------------------- *)
(* C48: shape functions. *)
Theorem C48_partition_of_unity E p : rsum (n_nodes E) (fun a => phi E a p) = 1.
Proof. apply phis_sum. Qed.

Theorem C48_nodal E a b : (a < n_nodes E)%nat -> (b < n_nodes E)%nat ->
  phi E a (reference_node E b) = if Nat.eqb a b then 1 else 0.
Proof.
  intros Ha Hb. rewrite phi_value.
  destruct E; cbn [n_nodes] in *; do 6 (try destruct a as [|a]; try lia); do 6 (try destruct b as [|b]; try lia);
    cbn; lra.
Qed.

Theorem C48_polynomials E a : exists r, of_degree (edim E) (degree E) r /\ forall x, phi E a x = poly r x.
Proof. exists (phi_poly E a). apply phi_poly_ok. Qed.

Theorem C48_reproduces E r x : of_degree (edim E) (degree E) r ->
  rsum (n_nodes E) (fun a => poly r (reference_node E a) * phi E a x) = poly r x.
Proof. apply interpolation_reference. Qed.

(* They are the only such functions. *)
Theorem C48_unique E a r : (a < n_nodes E)%nat -> of_degree (edim E) (degree E) r ->
  (forall b, (b < n_nodes E)%nat -> poly r (reference_node E b) = if Nat.eqb a b then 1 else 0) ->
  forall x, poly r x = phi E a x.
Proof.
  intros Ha Hr Hn x. rewrite <- (C48_reproduces E r x Hr).
  transitivity (rsum (n_nodes E) (fun b => (if Nat.eqb b a then 1 else 0) * phi E b x)).
  - apply rsum_ext. intros b Hb. rewrite Hn by exact Hb. rewrite Nat.eqb_sym. reflexivity.
  - destruct E; cbn [n_nodes] in *; do 6 (try destruct a as [|a]; try lia); cbn -[phi]; lra.
Qed.

(* dshape<a>() exists and its components are the partial derivatives of the shape function. *)
Theorem C48_derivatives E a : exists g, dshape E a = Some g /\
  forall x j, (j < edim E)%nat -> partial (phi E a) j x (eval g x j).
Proof.
  destruct (dshape_some E a) as (g & Hg). exists g. split; [exact Hg|]. intros x j Hj.
  pose proof (dshape_value E a x j Hj) as V. rewrite Hg in V. cbn [call] in V. rewrite V. clear V Hg g.
  unfold partial, is_partial.
  destruct E; cbn [edim] in Hj; (destruct j as [|[|j]]; [| |lia]); try lia;
    do 7 (try destruct a as [|a]); cbn [nth dphis fst snd].
  all: match goal with |- derivable_pt_lim (fun t => num (phi ?E ?n _) _) (?x ?j) _ =>
    apply (quad_lim _ _ (nth n (phis E x) 0) _
      match E, n, j with
      | Tri2, 0%nat, 0%nat => 2 | Tri2, 1%nat, 1%nat => 2 | Tri2, 2%nat, _ => 2
      | Tri2, 4%nat, 1%nat => -4 | Tri2, 5%nat, 0%nat => -4
      | _, _, _ => 0
      end); intros t; unfold num; rewrite phi_value; unfold with_component; cbn end.
  all: first [ring | destruct a as [|a]; ring].
Qed.

(* The element maps the nodes of the reference element to its nodes (the corners, and for quadratic
   triangles the midpoints of the sides 01, 12, 20), and is the interpolant of their positions. *)
Theorem C48_nodes {E} (e : element E) corners b i : made e corners -> (b < n_nodes E)%nat ->
  image e (reference_node E b) i = node E corners b i.
Proof.
  intros H Hb. destruct (made_shape e corners H) as [_ I]. rewrite I.
  destruct E; cbn [n_nodes] in *; do 6 (try destruct b as [|b]; try lia); cbn; unfold middle; lra.
Qed.
Theorem C48_isoparametric {E} (e : element E) corners p i : made e corners ->
  image e p i = rsum (n_nodes E) (fun a => phi E a p * node E corners a i).
Proof.
  intros H. destruct (made_shape e corners H) as [_ I]. rewrite I.
  destruct E; cbn [n_nodes rsum]; rewrite !phi_value; cbn; unfold middle; field.
Qed.

(* ------------------------------------------------------------------------------------------- *)
(* C49: elements. A cell with the right number of vertices that have coordinates gives an element. *)
Theorem C49_made E cs cell corners nodes : placed cs cell corners -> length corners = S (edim E) ->
  exists e, make_element E cs cell nodes = Ok e /\ made e corners /\
    forall a, (a < length nodes)%nat -> nth_error nodes a = Some (connectivity e a).
Proof.
  intros P L.
  assert (X : exists e, make_element E cs cell nodes = Ok e /\
    forall a, (a < length nodes)%nat -> nth_error nodes a = Some (connectivity e a)).
  { unfold make_element. rewrite (all_coordinates_ok cs cell corners P). cbn [rbind].
    assert (N : forall a, (a < length nodes)%nat -> nth_error nodes a = Some (nth a nodes 0%nat))
      by (intros; apply nth_error_nth'; assumption).
    pose proof (placed_length cs cell corners P) as LC.
    destruct E; cbn [edim] in L.
    - eexists. split; [reflexivity|exact N].
    - destruct cell as [|p0 [|p1 [|p2 [|p3 cell]]]]; cbn in LC; try lia.
      destruct (parametrization_ok 2 cs [p0; p1; p2] corners P ltac:(discriminate)) as (F & EF).
      cbn [length Nat.sub dim] in EF. rewrite EF. eexists. split; [reflexivity|exact N].
    - destruct cell as [|p0 [|p1 [|p2 [|p3 cell]]]]; cbn in LC; try lia.
      destruct (parametrization_ok 2 cs [p0; p1; p2] corners P ltac:(discriminate)) as (F & EF).
      cbn [length Nat.sub dim] in EF. rewrite EF. eexists. split; [reflexivity|exact N]. }
  destruct X as (e & He & N). exists e. split; [exact He|]. split; [|exact N].
  exists cs, cell, nodes. split; [exact He|]. split; [exact P|exact L].
Qed.

(* The jacobian is the matrix of the partial derivatives of the mapping; its determinant is the
   (oriented) volume of the element divided by that of the reference element. *)
Theorem C49_jacobian {E} (e : element E) corners p i j : made e corners ->
  (i < edim E)%nat -> (j < edim E)%nat ->
  partial (fun y => image e y i) j p (element_jacobian e p i j).
Proof.
  intros H Hi Hj. rewrite (made_jacobian e corners H p i j Hi Hj). destruct (made_shape e corners H) as [_ I].
  unfold partial, is_partial.
  apply (quad_lim _ _ (image e p i) _ 0). intros t. unfold num. rewrite !I. unfold with_component.
  destruct E; cbn [edim] in *.
  - assert (i = 0%nat) as -> by lia. assert (j = 0%nat) as -> by lia. cbn. ring.
  - destruct j as [|[|j]]; [| |lia]; cbn; ring.
  - destruct j as [|[|j]]; [| |lia]; cbn; ring.
Qed.
Theorem C49_determinant {E} (e : element E) corners p : made e corners ->
  mdet (edim E) (element_jacobian e p) = simplex_volume corners / area (edim E).
Proof. intros H. apply made_determinant, H. Qed.

(* The gradients sum to zero ... *)
Theorem C49_gradients_sum {E} (e : element E) corners p j : made e corners -> (j < edim E)%nat ->
  rsum (n_nodes E) (fun a => element_gradient e a p j) = 0.
Proof. apply gradients_sum. Qed.

(* ... and are those of the shape functions as functions of the position: the mapping of a
   non-degenerate element has an inverse. *)
Theorem C49_inverse {E} (e : element E) corners : made e corners -> simplex_volume corners <> 0 ->
  exists back : vec -> vec,
    (forall p, agree (edim E) (back (image e p)) p) /\
    (forall x, agree (edim E) (image e (back x)) x) /\
    (forall x y, agree (edim E) x y -> back x = back y).
Proof.
  intros H V. pose proof (jac_nonzero e corners H V) as J. destruct (made_shape e corners H) as [_ I].
  destruct E; cbn [edim] in *.
  - exists (fun x => vec1 ((x 0%nat - nth 0 corners vzero 0%nat) / (nth 1 corners vzero 0%nat - nth 0 corners vzero 0%nat))).
    split; [|split].
    + intros p i Hi. assert (i = 0%nat) as -> by lia. rewrite I. cbn. field. exact J.
    + intros x i Hi. assert (i = 0%nat) as -> by lia. rewrite I. cbn. field. exact J.
    + intros x y A. rewrite (A 0%nat) by lia. reflexivity.
  - exists (fun x => vec2
      (((x 0%nat - nth 2 corners vzero 0%nat) * (nth 1 corners vzero 1%nat - nth 2 corners vzero 1%nat)
        - (nth 1 corners vzero 0%nat - nth 2 corners vzero 0%nat) * (x 1%nat - nth 2 corners vzero 1%nat)) / jac2 corners)
      (((nth 0 corners vzero 0%nat - nth 2 corners vzero 0%nat) * (x 1%nat - nth 2 corners vzero 1%nat)
        - (x 0%nat - nth 2 corners vzero 0%nat) * (nth 0 corners vzero 1%nat - nth 2 corners vzero 1%nat)) / jac2 corners)).
    split; [|split].
    + intros p i Hi. rewrite !I. destruct i as [|[|i]]; [| |lia]; cbn; unfold jac2 in *; cbn in *; field; exact J.
    + intros x i Hi. rewrite I. destruct i as [|[|i]]; [| |lia]; cbn; unfold jac2 in *; cbn in *; field; exact J.
    + intros x y A. rewrite (A 0%nat), (A 1%nat) by lia. reflexivity.
  - exists (fun x => vec2
      (((x 0%nat - nth 2 corners vzero 0%nat) * (nth 1 corners vzero 1%nat - nth 2 corners vzero 1%nat)
        - (nth 1 corners vzero 0%nat - nth 2 corners vzero 0%nat) * (x 1%nat - nth 2 corners vzero 1%nat)) / jac2 corners)
      (((nth 0 corners vzero 0%nat - nth 2 corners vzero 0%nat) * (x 1%nat - nth 2 corners vzero 1%nat)
        - (x 0%nat - nth 2 corners vzero 0%nat) * (nth 0 corners vzero 1%nat - nth 2 corners vzero 1%nat)) / jac2 corners)).
    split; [|split].
    + intros p i Hi. rewrite !I. destruct i as [|[|i]]; [| |lia]; cbn; unfold jac2 in *; cbn in *; field; exact J.
    + intros x i Hi. rewrite I. destruct i as [|[|i]]; [| |lia]; cbn; unfold jac2 in *; cbn in *; field; exact J.
    + intros x y A. rewrite (A 0%nat), (A 1%nat) by lia. reflexivity.
Qed.
Theorem C49_gradient {E} (e : element E) corners a x back j : made e corners ->
  simplex_volume corners <> 0 -> (j < edim E)%nat ->
  (forall p, agree (edim E) (back (image e p)) p) ->
  (forall x y, agree (edim E) x y -> back x = back y) ->
  partial (fun y => phi E a (back y)) j (image e x) (element_gradient e a x j).
Proof.
  intros H V Hj HB HE.
  apply (physical_gradient e corners a x (fun y => phi E a (back y)) j H V Hj).
  - intros u v A. cbn. rewrite (HE u v A). reflexivity.
  - intros p. cbn. rewrite !phi_value. specialize (HB p). destruct E; cbn [edim] in HB.
    + cbn [phis]. rewrite (HB 0%nat) by lia. reflexivity.
    + cbn [phis]. rewrite (HB 0%nat), (HB 1%nat) by lia. reflexivity.
    + cbn [phis]. rewrite (HB 0%nat), (HB 1%nat) by lia. reflexivity.
Qed.

(* The interpolant of the values at the nodes of a polynomial of the degree of the element (an affine
   field, a quadratic field for quadratic triangles) is the polynomial, and the combination of the
   gradients is its gradient. *)
Theorem C49_interpolant {E} (e : element E) corners r x : made e corners ->
  of_degree (edim E) (degree E) r ->
  rsum (n_nodes E) (fun a => poly r (node E corners a) * phi E a x) = poly r (image e x).
Proof. apply interpolation. Qed.
Theorem C49_interpolant_gradient {E} (e : element E) corners r x j l : made e corners ->
  simplex_volume corners <> 0 -> of_degree (edim E) (degree E) r -> (j < edim E)%nat ->
  partial (poly r) j (image e x) l ->
  rsum (n_nodes E) (fun a => poly r (node E corners a) * element_gradient e a x j) = l.
Proof. apply gradient_interpolation. Qed.

(* ------------------------------------------------------------------------------------------- *)
(* C51: elementary blocks. *)
Theorem C51_symmetric {E} (e : element E) corners q a b : made e corners ->
  grad_grad_block q e a b = grad_grad_block q e b a /\ mass_block q e a b = mass_block q e b a.
Proof.
  intros H. rewrite !(grad_grad_value e corners) by exact H. rewrite !(mass_value e corners) by exact H.
  split; f_equal; apply total_map_ext; intros pw _; f_equal; [|ring].
  unfold dot. apply rsum_ext. intros; ring.
Qed.

(* The energies: the sum over the points of the rule of the square of the gradient (of the value) of
   the interpolant. *)
Theorem C51_energies {E} (e : element E) corners q u v : made e corners ->
  form (n_nodes E) (grad_grad_block q e) u v = simplex_volume corners * S_Geometry.total (map (fun pw => snd pw
    * rsum (edim E) (fun i => rsum (n_nodes E) (fun a => u a * element_gradient e a (fst pw) i)
                            * rsum (n_nodes E) (fun a => v a * element_gradient e a (fst pw) i))) q) /\
  form (n_nodes E) (mass_block q e) u v = simplex_volume corners * S_Geometry.total (map (fun pw => snd pw
    * (interpolant E u (fst pw) * interpolant E v (fst pw))) q).
Proof. intros H. split; [apply grad_grad_form, H|apply mass_form, H]. Qed.

Theorem C51_semidefinite {E} (e : element E) corners q u : made e corners ->
  0 <= simplex_volume corners -> (forall p w, In (p, w) q -> 0 <= w) ->
  0 <= form (n_nodes E) (grad_grad_block q e) u u /\ 0 <= form (n_nodes E) (mass_block q e) u u.
Proof.
  intros H V W. rewrite (grad_grad_form e corners q u u H), (mass_form e corners q u u H).
  split; apply Rmult_le_pos; try exact V; apply total_nonneg; intros [p w] HI;
    (apply Rmult_le_pos; [exact (W p w HI)|]); [apply dot_nonneg|apply Rle_0_sqr].
Qed.

Theorem C51_constants {E} (e : element E) corners q a : made e corners ->
  rsum (n_nodes E) (fun b => grad_grad_block q e a b) = 0.
Proof.
  intros H.
  rewrite (rsum_ext _ _ (fun b => simplex_volume corners * S_Geometry.total (map (fun pw => snd pw *
    dot (edim E) (element_gradient e a (fst pw)) (element_gradient e b (fst pw))) q)))
    by (intros b _; apply grad_grad_value, H).
  rewrite rsum_scale. rewrite <- (total_rsum (n_nodes E) (fun pw b => snd pw *
    dot (edim E) (element_gradient e a (fst pw)) (element_gradient e b (fst pw))) q).
  rewrite (total_map_ext _ (fun pw => 0 * snd pw)).
  - rewrite total_map_scal. ring.
  - intros pw _. rewrite rsum_scale. unfold dot. rewrite rsum_swap.
    rewrite (rsum_ext _ _ (fun i => 0)); [rewrite rsum_0; ring|].
    intros i Hi. rewrite rsum_scale, (gradients_sum e corners (fst pw) i H Hi). ring.
Qed.

(* Only constants have no energy, if the rule has enough points; so have the rules of the library for
   linear elements, and from degree two for quadratic triangles. *)
Theorem C51_kernel {E} (e : element E) corners q u : made e corners -> 0 < simplex_volume corners ->
  (forall p w, In (p, w) q -> 0 <= w) -> sees_gradients E q ->
  form (n_nodes E) (grad_grad_block q e) u u = 0 ->
  forall a b, (a < n_nodes E)%nat -> (b < n_nodes E)%nat -> u a = u b.
Proof.
  intros H V W S Z. apply (gradient_zero_constant E u q S). intros p w HI Hw.
  apply (parametric_gradient e corners u p H); [lra|]. intros i Hi.
  exact (grad_grad_zero e corners q u H V W Z p w HI Hw i Hi).
Qed.
Theorem C51_kernel_tables E r q : quadrature_table (edim E) r = Some q -> (2 * degree E - 2 <= r)%nat ->
  sees_gradients E q /\ forall p w, In (p, w) q -> 0 < w.
Proof.
  intros H Hr.
  assert (P : forall p w, In (p, w) q -> 0 < w).
  { intros p w HI. destruct E; cbn [edim] in *; destruct r as [|[|[|[|[|r]]]]]; try discriminate H; injection H as <-;
      cbn in HI; repeat match type of HI with
      | _ \/ _ => destruct HI as [HI|HI]
      | False => destruct HI
      end; injection HI as <- <-; lra. }
  split; [|exact P].
  destruct E; cbn [edim sees_gradients] in *.
  - destruct r as [|[|[|[|[|r]]]]]; try discriminate H; injection H as <-; do 2 eexists; (split; [left; reflexivity|lra]).
  - destruct r as [|[|[|[|[|r]]]]]; try discriminate H; injection H as <-; do 2 eexists; (split; [left; reflexivity|lra]).
  - destruct r as [|[|[|[|[|r]]]]]; try discriminate H; cbn in Hr; try lia; injection H as <-.
    all: do 6 eexists; (split; [left; reflexivity|]); (split; [right; left; reflexivity|]);
      (split; [right; right; left; reflexivity|]); (split; [lra|]); (split; [lra|]); (split; [lra|]);
      unfold not_aligned; cbn; lra.
Qed.
(* The mass matrix is definite with the rules of twice the degree. *)
Theorem C51_mass_definite {E} (e : element E) corners r q u : made e corners -> 0 < simplex_volume corners ->
  quadrature_table (edim E) r = Some q -> (2 * degree E <= r)%nat ->
  form (n_nodes E) (mass_block q e) u u = 0 -> forall a, (a < n_nodes E)%nat -> u a = 0.
Proof.
  intros H V T Hr Z. destruct (C51_kernel_tables E r q T ltac:(lia)) as [_ P].
  assert (I := mass_zero e corners q u H V (fun p w HI => Rlt_le _ _ (P p w HI)) Z). clear Z H V.
  assert (F : Forall (fun pw => rsum (n_nodes E) (fun a => u a * nth a (phis E (fst pw)) 0) = 0) q).
  { apply Forall_forall. intros [p w] HI. transitivity (interpolant E u p); [|exact (I p w HI (P p w HI))].
    apply rsum_ext. intros a _. rewrite phi_value. reflexivity. }
  clear I P. intros a Ha.
  destruct E; cbn [edim n_nodes degree] in *; destruct r as [|[|[|[|[|r]]]]]; try discriminate T; try lia;
    injection T as <-.
  1, 2, 3, 4: repeat (apply Forall_cons_iff in F; destruct F as [? F]); cbn in *;
    do 3 (try (destruct a as [|a]; [lra|])); lia.
  destruct (quadratic_zero (u 2%nat) (- u 0%nat - 3 * u 2%nat + 4 * u 5%nat) (- u 1%nat - 3 * u 2%nat + 4 * u 4%nat)
    (2 * u 0%nat + 2 * u 2%nat - 4 * u 5%nat) (4 * u 2%nat + 4 * u 3%nat - 4 * u 4%nat - 4 * u 5%nat)
    (2 * u 1%nat + 2 * u 2%nat - 4 * u 4%nat) 0.816847572980458513080857 0.091576213509770743459571
    0.108103018168070227363167 0.445948490915964886318329) as (U0 & U1 & U2 & U3 & U4 & U5); try lra.
  1-6: unfold triangle_4 in F; repeat (apply Forall_cons_iff in F; destruct F as [? F]);
    match goal with |- _ + _ + _ + _ * (?x * ?x) + _ * (?x * ?y) + _ = 0 =>
      match goal with Z : rsum _ (fun a => _ * nth a (phis _ (fst (vec2 x y, _))) _) = 0 |- _ =>
        rewrite <- Z; clear; cbn [rsum fst phis nth vec2]; generalize x y; intros; ring end end.
  do 6 (try (destruct a as [|a]; [lra|])); lia.
Qed.

(* The entries of the mass matrix sum to the volume times the sum of the weights: the volume, up to
   the decimals of the tables. *)
Theorem C51_mass_total {E} (e : element E) corners q : made e corners ->
  rsum (n_nodes E) (fun a => rsum (n_nodes E) (fun b => mass_block q e a b))
  = simplex_volume corners * S_Geometry.total (map snd q).
Proof.
  intros H. transitivity (form (n_nodes E) (mass_block q e) (fun _ => 1) (fun _ => 1)).
  { unfold form. apply rsum_ext. intros a _. apply rsum_ext. intros b _. ring. }
  rewrite (mass_form e corners q _ _ H). f_equal. apply total_map_ext. intros pw _.
  assert (X : interpolant E (fun _ => 1) (fst pw) = 1).
  { unfold interpolant. transitivity (rsum (n_nodes E) (fun a => phi E a (fst pw))); [|apply phis_sum].
    apply rsum_ext. intros; ring. }
  rewrite X. ring.
Qed.

(* With a rule exact to twice the degree of the element the mass matrix is the matrix of the
   integrals of the products of the shape functions; these are the textbook values. *)
Theorem C51_mass_exact {E} (e : element E) corners q a b v : made e corners ->
  exact_to (edim E) (2 * degree E) q ->
  element_integral E corners (fun p => phi E a p * phi E b p) v ->
  mass_block q e a b = v.
Proof.
  intros H Hq Hv. rewrite (mass_value e corners q a b H).
  apply (exact_value (edim E) (2 * degree E) q (fun p => phi E a p * phi E b p)); [exact Hq| |exact Hv].
  replace (2 * degree E)%nat with (degree E + degree E)%nat by lia.
  apply (expressible_mult (edim E) (degree E) (degree E) (phi E a) (phi E b)); apply expressible_phi.
Qed.
Theorem C51_mass_integrals E corners a b : (a < n_nodes E)%nat -> (b < n_nodes E)%nat ->
  element_integral E corners (fun p => phi E a p * phi E b p) (simplex_volume corners * mass_matrix E a b).
Proof. apply mass_integral. Qed.
(* With the rules of the library, which are written in decimals. *)
Theorem C51_mass_tables {E} (e : element E) corners r q a b : made e corners ->
  quadrature_table (edim E) r = Some q -> (2 * degree E <= r)%nat ->
  (a < n_nodes E)%nat -> (b < n_nodes E)%nat ->
  Rabs (mass_block q e a b - simplex_volume corners * mass_matrix E a b)
    <= 450 * tolerance (edim E) r * Rabs (simplex_volume corners).
Proof.
  intros H T Hr Ha Hb. rewrite (mass_value e corners q a b H).
  destruct (phi_poly_ok E a) as [Pa Ea]. destruct (phi_poly_ok E b) as [Pb Eb].
  destruct (product_ok _ _ _ _ _ Pa Pb) as [PP EE].
  assert (P' : of_degree (edim E) r (product (phi_poly E a) (phi_poly E b)))
    by (eapply of_degree_le; [|exact PP]; lia).
  pose proof (poly_integral _ _ _ P') as I. rewrite (dirichlet_product E a b Ha Hb) in I.
  pose proof (poly_error (edim E) r q _ _ _ (table_accurate _ r q T) P' I) as B.
  rewrite size_product in B. pose proof (size_phi E a) as Sa. pose proof (size_phi E b) as Sb.
  set (Q := S_Geometry.total (map (fun pw => snd pw * (phi E a (fst pw) * phi E b (fst pw))) q)).
  assert (HQ : quadrature (edim E) q (poly (product (phi_poly E a) (phi_poly E b))) = area (edim E) * Q).
  { unfold quadrature. f_equal. apply total_map_ext. intros pw _. rewrite <- EE, Ea, Eb. reflexivity. }
  rewrite HQ, <- Rmult_minus_distr_l, Rabs_mult in B.
  rewrite <- Rmult_minus_distr_l, Rabs_mult, (Rmult_comm (450 * _)).
  apply Rmult_le_compat_l; [apply Rabs_pos|].
  assert (A : 1 / 2 <= Rabs (area (edim E))).
  { unfold area. destruct E; cbn; rewrite Rabs_pos_eq; lra. }
  assert (TP : 0 <= tolerance (edim E) r).
  { unfold tolerance. destruct E; cbn [edim]; destruct r as [|[|[|[|[|r]]]]]; lra. }
  assert (SS : S_Quadrature.size (phi_poly E a) * S_Quadrature.size (phi_poly E b) <= 15 * 15)
    by (apply Rmult_le_compat; lra).
  assert (B2 : tolerance (edim E) r * (S_Quadrature.size (phi_poly E a) * S_Quadrature.size (phi_poly E b))
               <= tolerance (edim E) r * (15 * 15)) by (apply Rmult_le_compat_l; assumption).
  assert (B3 : 1 / 2 * Rabs (Q - mass_matrix E a b) <= Rabs (area (edim E)) * Rabs (Q - mass_matrix E a b))
    by (apply Rmult_le_compat_r; [apply Rabs_pos|exact A]).
  lra.
Qed.
(* The grad-grad matrix needs a rule exact to the degree of the products of the derivatives: any rule
   with weights of sum one for linear elements, degree two for quadratic triangles. *)
Theorem C51_grad_grad_exact {E} (e : element E) corners q a b v : made e corners ->
  exact_to (edim E) (2 * (degree E - 1)) q ->
  element_integral E corners (fun p => rsum (edim E) (fun i => element_gradient e a p i * element_gradient e b p i)) v ->
  grad_grad_block q e a b = v.
Proof.
  intros H Hq Hv. rewrite (grad_grad_value e corners q a b H).
  apply (exact_value (edim E) (2 * (degree E - 1)) q (fun p => dot (edim E) (element_gradient e a p) (element_gradient e b p)));
    [exact Hq| |exact Hv].
  unfold dot.
  apply (expressible_rsum (edim E) _ (edim E) (fun i p => element_gradient e a p i * element_gradient e b p i)).
  intros i Hi. replace (2 * (degree E - 1))%nat with ((degree E - 1) + (degree E - 1))%nat by lia.
  apply (expressible_mult (edim E) (degree E - 1) (degree E - 1) (fun p => element_gradient e a p i) (fun p => element_gradient e b p i));
    apply (expressible_gradient e corners); assumption.
Qed.
(* The rules of the library that are exact. *)
Theorem C51_exact_tables E r q s : quadrature_table (edim E) r = Some q ->
  In (edim E, r) [(1, 1); (2, 1); (2, 2)]%nat -> (s <= r)%nat -> exact_to (edim E) s q.
Proof.
  intros T I Hs p v Hp Hv. assert (Hp' := of_degree_le (edim E) s r p Hs Hp).
  assert (Z : tolerance (edim E) r = 0).
  { destruct I as [X|[X|[X|[]]]]; injection X as <- <-; reflexivity. }
  pose proof (poly_error (edim E) r q _ p v (table_accurate _ r q T) Hp' Hv) as B. rewrite Z, Rmult_0_l in B.
  destruct (Req_dec (quadrature (edim E) q (poly p) - v) 0) as [e|e]; [lra|].
  pose proof (Rabs_pos_lt _ e). lra.
Qed.

(* The source term: the integrals of the products of the source with the shape functions, exact for
   polynomial sources and rules of the degree; they sum to the integral of the source. *)
Theorem C51_source_exact {E} (e : element E) corners q r s a v : made e corners ->
  of_degree (edim E) s r -> exact_to (edim E) (s + degree E) q ->
  element_integral E corners (fun p => poly r (image e p) * phi E a p) v ->
  source_term_block q (poly r) e a = v.
Proof.
  intros H Hr Hq Hv. rewrite (source_value e corners q (poly r) a H).
  apply (exact_value (edim E) (s + degree E) q (fun p => poly r (image e p) * phi E a p)); [exact Hq| |exact Hv].
  apply (expressible_mult (edim E) s (degree E) (fun p => poly r (image e p)) (phi E a)); [|apply expressible_phi].
  apply (expressible_poly (edim E) (edim E) s r (image e) Hr). intros i. apply (expressible_image e corners i H).
Qed.
Theorem C51_source_total {E} (e : element E) corners q f : made e corners ->
  rsum (n_nodes E) (fun a => source_term_block q f e a)
  = simplex_volume corners * S_Geometry.total (map (fun pw => snd pw * f (image e (fst pw))) q).
Proof.
  intros H.
  rewrite (rsum_ext _ _ (fun a => simplex_volume corners
    * S_Geometry.total (map (fun pw => snd pw * (f (image e (fst pw)) * phi E a (fst pw))) q)))
    by (intros a _; apply source_value, H).
  rewrite rsum_scale. f_equal.
  rewrite <- (total_rsum (n_nodes E) (fun pw a => snd pw * (f (image e (fst pw)) * phi E a (fst pw))) q).
  apply total_map_ext. intros pw _. rewrite rsum_scale. f_equal.
  rewrite rsum_scale, (phis_sum E (fst pw)). ring.
Qed.
(* The source term is consistent with the mass matrix: for the interpolant of nodal values (a
   function of the position given by [back]) it is the product of the mass matrix by the values. *)
Theorem C51_source_mass {E} (e : element E) corners q u f a : made e corners ->
  (forall p, f (image e p) = interpolant E u p) ->
  source_term_block q f e a = rsum (n_nodes E) (fun b => mass_block q e a b * u b).
Proof.
  intros H Hf. rewrite (source_value e corners q f a H).
  rewrite (rsum_ext _ _ (fun b => simplex_volume corners
    * S_Geometry.total (map (fun pw => u b * (snd pw * (phi E a (fst pw) * phi E b (fst pw)))) q)))
    by (intros b _; rewrite (mass_value e corners q a b H), total_map_scal; ring).
  rewrite rsum_scale. f_equal.
  rewrite <- (total_rsum (n_nodes E) (fun pw b => u b * (snd pw * (phi E a (fst pw) * phi E b (fst pw)))) q).
  apply total_map_ext. intros pw _. rewrite Hf. unfold interpolant.
  rewrite (Rmult_comm (rsum _ _)), <- !rsum_scale. apply rsum_ext. intros; ring.
Qed.

(* The L2 norm block of a FEM field is the energy of the mass matrix. *)
Theorem C51_l2_block {E} (e : element E) corners q values : made e corners ->
  let u a := values (connectivity e a) in
  l2_norm_block q 1 (eval (localize (Nodal values) e)) e = form (n_nodes E) (mass_block q e) u u.
Proof.
  intros H u. rewrite (mass_form e corners q u u H), (l2_value e corners q 1 _ H). f_equal.
  apply total_map_ext. intros pw _. unfold dot. cbn [rsum]. rewrite (localize_value (Nodal values) e).
  unfold field_value, u. ring.
Qed.

Print Assumptions C48_partition_of_unity.
Print Assumptions C48_nodal.
Print Assumptions C48_polynomials.
Print Assumptions C48_reproduces.
Print Assumptions C48_unique.
Print Assumptions C48_derivatives.
Print Assumptions C48_nodes.
Print Assumptions C48_isoparametric.
Print Assumptions C49_made.
Print Assumptions C49_jacobian.
Print Assumptions C49_determinant.
Print Assumptions C49_gradients_sum.
Print Assumptions C49_inverse.
Print Assumptions C49_gradient.
Print Assumptions C49_interpolant.
Print Assumptions C49_interpolant_gradient.
Print Assumptions C51_symmetric.
Print Assumptions C51_energies.
Print Assumptions C51_semidefinite.
Print Assumptions C51_constants.
Print Assumptions C51_kernel.
Print Assumptions C51_kernel_tables.
Print Assumptions C51_mass_definite.
Print Assumptions C51_mass_total.
Print Assumptions C51_mass_exact.
Print Assumptions C51_mass_integrals.
Print Assumptions C51_mass_tables.
Print Assumptions C51_grad_grad_exact.
Print Assumptions C51_exact_tables.
Print Assumptions C51_source_exact.
Print Assumptions C51_source_total.
Print Assumptions C51_source_mass.
Print Assumptions C51_l2_block.
