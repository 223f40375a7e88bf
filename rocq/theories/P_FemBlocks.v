From Coq Require Import Reals List Bool Arith Lia Lra FunctionalExtensionality.
From Verif Require Import Base M_Tensor M_Geometry S_Geometry P_Volume.
From Verif Require Import M_Functions S_Functions P_Functions M_Quadrature S_Quadrature P_Quadrature P_Integrator.
From Verif Require Import M_Fem S_Fem P_Fem.
Import ListNotations.
Open Scope R_scope.

Notation total := S_Geometry.total.
Notation rsum_ext := P_Volume.rsum_ext.

(* ------------------------------------------------------------------------------------------- *)
(* The loops as sums. *)
Lemma fold_matrix {A} (T : A -> nat -> nat -> R) q : forall z a b,
  fold_left (fun m pw => fun a b => m a b + T pw a b) q z a b = z a b + total (map (fun pw => T pw a b) q).
Proof.
  induction q as [|pw q IH]; intros z a b; [unfold total; simpl; ring|].
  cbn [fold_left map]. rewrite IH. unfold total. cbn [fold_right]. ring.
Qed.
Lemma fold_vector {A} (T : A -> nat -> R) q : forall z a,
  fold_left (fun m pw => fun a => m a + T pw a) q z a = z a + total (map (fun pw => T pw a) q).
Proof.
  induction q as [|pw q IH]; intros z a; [unfold total; simpl; ring|].
  cbn [fold_left map]. rewrite IH. unfold total. cbn [fold_right]. ring.
Qed.
Lemma fold_scalar {A} (T : A -> R) q : forall z,
  fold_left (fun m pw => m + T pw) q z = z + total (map T q).
Proof.
  induction q as [|pw q IH]; intros z; [unfold total; simpl; ring|].
  cbn [fold_left map]. rewrite IH. unfold total. cbn [fold_right]. ring.
Qed.
Lemma dot_scale n a u v : dot n (vscale a u) v = a * dot n u v.
Proof.
  unfold dot, vscale. rewrite <- rsum_scale. apply rsum_ext. intros; ring.
Qed.

Lemma factor_value {E} (e : element E) corners pw : made e corners ->
  factor e pw = simplex_volume corners * snd pw.
Proof.
  intros H. unfold factor. rewrite (made_determinant e corners H). unfold area. field.
  apply INR_fact_neq_0.
Qed.

Lemma grad_grad_value {E} (e : element E) corners q a b : made e corners ->
  grad_grad_block q e a b = simplex_volume corners
    * total (map (fun pw => snd pw * dot (edim E) (element_gradient e a (fst pw)) (element_gradient e b (fst pw))) q).
Proof.
  intros H. unfold grad_grad_block.
  rewrite (fold_matrix (fun pw a b => dot (edim E) (vscale (factor e pw) (element_gradient e a (fst pw)))
              (element_gradient e b (fst pw)))).
  rewrite <- total_map_scal, Rplus_0_l. apply total_map_ext. intros pw _.
  rewrite dot_scale, (factor_value e corners pw H). ring.
Qed.
Lemma mass_value {E} (e : element E) corners q a b : made e corners ->
  mass_block q e a b = simplex_volume corners
    * total (map (fun pw => snd pw * (phi E a (fst pw) * phi E b (fst pw))) q).
Proof.
  intros H. unfold mass_block.
  rewrite (fold_matrix (fun pw a b => factor e pw * eval (shape_function E a) (fst pw) 0%nat
            * eval (shape_function E b) (fst pw) 0%nat)).
  rewrite <- total_map_scal, Rplus_0_l. apply total_map_ext. intros pw _.
  rewrite (factor_value e corners pw H). unfold phi. ring.
Qed.
Lemma source_value {E} (e : element E) corners q f a : made e corners ->
  source_term_block q f e a = simplex_volume corners
    * total (map (fun pw => snd pw * (f (image e (fst pw)) * phi E a (fst pw))) q).
Proof.
  intros H. unfold source_term_block.
  rewrite (fold_vector (fun pw a => factor e pw * f (eval (mapping e) (fst pw)) * eval (shape_function E a) (fst pw) 0%nat)).
  rewrite <- total_map_scal, Rplus_0_l. apply total_map_ext. intros pw _.
  rewrite (factor_value e corners pw H). unfold phi, image. ring.
Qed.
Lemma l2_value {E} (e : element E) corners q n f : made e corners ->
  l2_norm_block q n f e = simplex_volume corners
    * total (map (fun pw => snd pw * dot n (f (fst pw)) (f (fst pw))) q).
Proof.
  intros H. unfold l2_norm_block.
  rewrite (fold_scalar (fun pw => dot n (vscale (factor e pw) (f (fst pw))) (f (fst pw)))).
  rewrite <- total_map_scal, Rplus_0_l. apply total_map_ext. intros pw _.
  rewrite dot_scale, (factor_value e corners pw H). ring.
Qed.

(* ------------------------------------------------------------------------------------------- *)
(* Quadratic forms. *)
Lemma total_rsum {A} n (f : A -> nat -> R) l :
  total (map (fun x => rsum n (f x)) l) = rsum n (fun a => total (map (fun x => f x a) l)).
Proof.
  induction l as [|x l IH]; [unfold total; cbn; rewrite rsum_0; reflexivity|].
  unfold total in *. cbn [map fold_right]. rewrite IH, <- rsum_plus. reflexivity.
Qed.
Lemma form_total n (V : R) (T : (vec * R) -> nat -> nat -> R) q u v (m : mat) :
  (forall a b, m a b = V * total (map (fun pw => snd pw * T pw a b) q)) ->
  form n m u v = V * total (map (fun pw => snd pw * form n (T pw) u v) q).
Proof.
  intros H. unfold form.
  transitivity (V * rsum n (fun a => rsum n (fun b => total (map (fun pw => snd pw * (u a * T pw a b * v b)) q)))).
  - rewrite <- rsum_scale. apply rsum_ext. intros a _. rewrite <- rsum_scale. apply rsum_ext. intros b _.
    rewrite H. replace (u a * (V * total (map (fun pw => snd pw * T pw a b) q)) * v b)
      with (V * ((u a * v b) * total (map (fun pw => snd pw * T pw a b) q))) by ring.
    rewrite <- total_map_scal. do 2 f_equal. apply map_ext. intros pw. ring.
  - f_equal.
    transitivity (rsum n (fun a => total (map (fun pw => rsum n (fun b => snd pw * (u a * T pw a b * v b))) q))).
    { apply rsum_ext. intros a _. symmetry. apply (total_rsum n (fun pw b => snd pw * (u a * T pw a b * v b))). }
    rewrite <- (total_rsum n (fun pw a => rsum n (fun b => snd pw * (u a * T pw a b * v b)))).
    apply total_map_ext. intros pw _. rewrite <- rsum_scale. apply rsum_ext. intros a _. apply rsum_scale.
Qed.
Lemma form_product n (f g : nat -> R) u v :
  form n (fun a b => f a * g b) u v = rsum n (fun a => u a * f a) * rsum n (fun b => v b * g b).
Proof.
  unfold form. rewrite <- rsum_scale_r. apply rsum_ext. intros a _.
  rewrite <- rsum_scale. apply rsum_ext. intros b _. ring.
Qed.
Lemma form_dot n D (g : nat -> vec) u v :
  form n (fun a b => dot D (g a) (g b)) u v
  = dot D (fun i => rsum n (fun a => u a * g a i)) (fun i => rsum n (fun a => v a * g a i)).
Proof.
  unfold dot. transitivity (rsum D (fun i => form n (fun a b => g a i * g b i) u v)).
  - unfold form.
    transitivity (rsum n (fun a => rsum n (fun b => rsum D (fun i => u a * (g a i * g b i) * v b)))).
    { apply rsum_ext. intros a _. apply rsum_ext. intros b _.
      rewrite <- rsum_scale, <- rsum_scale_r. reflexivity. }
    transitivity (rsum n (fun a => rsum D (fun i => rsum n (fun b => u a * (g a i * g b i) * v b)))).
    { apply rsum_ext. intros a _. apply rsum_swap. }
    apply (rsum_swap n D (fun a i => rsum n (fun b => u a * (g a i * g b i) * v b))).
  - apply rsum_ext. intros i _. apply form_product.
Qed.

Lemma grad_grad_form {E} (e : element E) corners q u v : made e corners ->
  form (n_nodes E) (grad_grad_block q e) u v = simplex_volume corners
    * total (map (fun pw => snd pw
        * dot (edim E) (fun i => rsum (n_nodes E) (fun a => u a * element_gradient e a (fst pw) i))
                       (fun i => rsum (n_nodes E) (fun a => v a * element_gradient e a (fst pw) i))) q).
Proof.
  intros H.
  rewrite (form_total (n_nodes E) (simplex_volume corners)
    (fun pw a b => dot (edim E) (element_gradient e a (fst pw)) (element_gradient e b (fst pw))) q u v).
  - f_equal. apply total_map_ext. intros pw _. f_equal.
    apply (form_dot (n_nodes E) (edim E) (fun a => element_gradient e a (fst pw))).
  - intros a b. apply grad_grad_value, H.
Qed.
Lemma mass_form {E} (e : element E) corners q u v : made e corners ->
  form (n_nodes E) (mass_block q e) u v = simplex_volume corners
    * total (map (fun pw => snd pw * (interpolant E u (fst pw) * interpolant E v (fst pw))) q).
Proof.
  intros H.
  rewrite (form_total (n_nodes E) (simplex_volume corners)
    (fun pw a b => phi E a (fst pw) * phi E b (fst pw)) q u v).
  - f_equal. apply total_map_ext. intros pw _. f_equal.
    apply (form_product (n_nodes E) (fun a => phi E a (fst pw)) (fun a => phi E a (fst pw))).
  - intros a b. apply mass_value, H.
Qed.

Lemma dot_nonneg n u : 0 <= dot n u u.
Proof.
  unfold dot. induction n as [|n IH]; simpl; [lra|]. pose proof (Rle_0_sqr (u n)). unfold Rsqr in *. lra.
Qed.
Lemma dot_zero n u : dot n u u = 0 -> forall i, (i < n)%nat -> u i = 0.
Proof.
  induction n as [|n IH]; intros H i Hi; [lia|]. unfold dot in H. simpl in H.
  pose proof (dot_nonneg n u) as P. unfold dot in P. pose proof (Rle_0_sqr (u n)) as Q. unfold Rsqr in Q.
  destruct (Nat.eq_dec i n) as [->|Hne].
  - apply Rsqr_0_uniq. unfold Rsqr. lra.
  - apply IH; [unfold dot; lra | lia].
Qed.
Lemma total_nonneg {A} (f : A -> R) l : (forall x, In x l -> 0 <= f x) -> 0 <= total (map f l).
Proof.
  unfold total. induction l as [|x l IH]; intros H; simpl; [lra|].
  pose proof (H x (or_introl eq_refl)). pose proof (IH (fun y Hy => H y (or_intror Hy))). lra.
Qed.
Lemma total_zero {A} (f : A -> R) l : (forall x, In x l -> 0 <= f x) -> total (map f l) = 0 ->
  forall x, In x l -> f x = 0.
Proof.
  unfold total. induction l as [|x l IH]; intros H Z y Hy; [destruct Hy|]. simpl in Z.
  pose proof (H x (or_introl eq_refl)) as P.
  pose proof (total_nonneg f l (fun y Hy => H y (or_intror Hy))) as Q. unfold total in Q.
  destruct Hy as [->|Hy]; [lra|]. apply IH; [intros; apply H; right; assumption|lra|exact Hy].
Qed.

Lemma phis_sum E p : rsum (n_nodes E) (fun a => phi E a p) = 1.
Proof.
  destruct E; cbn [n_nodes rsum]; rewrite !phi_value; cbn; ring.
Qed.
Lemma gradients_sum {E} (e : element E) corners p j : made e corners -> (j < edim E)%nat ->
  rsum (n_nodes E) (fun a => element_gradient e a p j) = 0.
Proof.
  intros H Hj. pose proof (made_gradient e corners H) as G.
  destruct E; cbn [n_nodes rsum edim] in *; rewrite !G by exact Hj; cbn.
  - unfold Rdiv. ring.
  - destruct j as [|[|j]]; [| |lia]; unfold Rdiv; ring.
  - destruct j as [|[|j]]; [| |lia]; unfold Rdiv; ring.
Qed.

(* ------------------------------------------------------------------------------------------- *)
(* Exact integrals. *)
Lemma expressible_scal D r a f : expressible D r f -> expressible D r (fun x => a * f x).
Proof. intros H. apply (expressible_mult D 0 r (fun _ => a) f (expressible_const D 0 a) H). Qed.

Lemma expressible_lin1 D (i : nat) A B : (i < D)%nat -> expressible D 1 (fun x => A + B * x i).
Proof.
  intros Hi. apply (expressible_plus D 1 (fun _ => A) (fun x => B * x i)); [apply expressible_const|].
  apply (expressible_scal D 1 B (fun x => x i)), expressible_coordinate; lia.
Qed.
Lemma expressible_lin2 A B C : expressible 2 1 (fun x => A + B * x 0%nat + C * x 1%nat).
Proof.
  apply (expressible_plus 2 1 (fun x => A + B * x 0%nat) (fun x => C * x 1%nat)).
  - apply (expressible_lin1 2 0); lia.
  - apply (expressible_scal 2 1 C (fun x => x 1%nat)), expressible_coordinate; lia.
Qed.
Lemma expressible_phi E a : expressible (edim E) (degree E) (phi E a).
Proof.
  assert (P2 : forall A B C D F G, expressible 2 2 (fun x => (A + B * x 0%nat + C * x 1%nat) * (D + F * x 0%nat + G * x 1%nat))).
  { intros A B C D F G. apply (expressible_mult 2 1 1 (fun x => A + B * x 0%nat + C * x 1%nat) (fun x => D + F * x 0%nat + G * x 1%nat));
      apply expressible_lin2. }
  destruct E; cbn [edim degree].
  - destruct a as [|[|a]].
    + apply (expressible_ext 1 1 (fun x => 1 + -1 * x 0%nat)); [intros x; rewrite phi_value; cbn; ring|]. apply (expressible_lin1 1 0); lia.
    + apply (expressible_ext 1 1 (fun x => 0 + 1 * x 0%nat)); [intros x; rewrite phi_value; cbn; ring|]. apply (expressible_lin1 1 0); lia.
    + apply (expressible_ext 1 1 (fun x => 0)); [intros x; rewrite phi_value; destruct a; reflexivity|]. apply expressible_const.
  - destruct a as [|[|[|a]]].
    + apply (expressible_ext 2 1 (fun x => 0 + 1 * x 0%nat + 0 * x 1%nat)); [intros x; rewrite phi_value; cbn; ring|]. apply expressible_lin2.
    + apply (expressible_ext 2 1 (fun x => 0 + 0 * x 0%nat + 1 * x 1%nat)); [intros x; rewrite phi_value; cbn; ring|]. apply expressible_lin2.
    + apply (expressible_ext 2 1 (fun x => 1 + -1 * x 0%nat + -1 * x 1%nat)); [intros x; rewrite phi_value; cbn; ring|]. apply expressible_lin2.
    + apply (expressible_ext 2 1 (fun x => 0)); [intros x; rewrite phi_value; destruct a; reflexivity|]. apply expressible_const.
  - destruct a as [|[|[|[|[|[|a]]]]]].
    + eapply (expressible_ext 2 2); [|apply (P2 0 1 0 (-1) 2 0)]. intros x; rewrite phi_value; cbn; ring.
    + eapply (expressible_ext 2 2); [|apply (P2 0 0 1 (-1) 0 2)]. intros x; rewrite phi_value; cbn; ring.
    + eapply (expressible_ext 2 2); [|apply (P2 1 (-1) (-1) 1 (-2) (-2))]. intros x; rewrite phi_value; cbn; ring.
    + eapply (expressible_ext 2 2); [|apply (P2 0 4 0 0 0 1)]. intros x; rewrite phi_value; cbn; ring.
    + eapply (expressible_ext 2 2); [|apply (P2 0 0 4 1 (-1) (-1))]. intros x; rewrite phi_value; cbn; ring.
    + eapply (expressible_ext 2 2); [|apply (P2 0 4 0 1 (-1) (-1))]. intros x; rewrite phi_value; cbn; ring.
    + apply (expressible_ext 2 2 (fun x => 0)); [intros x; rewrite phi_value; destruct a; reflexivity|]. apply expressible_const.
Qed.
Lemma expressible_dphi E a i : (i < edim E)%nat ->
  expressible (edim E) (degree E - 1) (fun p => let d := nth a (dphis E p) (0, 0) in match i with O => fst d | _ => snd d end).
Proof.
  intros Hi. destruct E; cbn [edim degree Nat.sub] in *.
  - assert (i = 0%nat) as -> by lia. destruct a as [|[|[|a]]]; cbn; apply expressible_const.
  - destruct i as [|[|i]]; [| |lia]; destruct a as [|[|[|[|a]]]]; cbn; apply expressible_const.
  - assert (L : forall (f : vec -> R) A B C, (forall p, f p = A + B * p 0%nat + C * p 1%nat) -> expressible 2 1 f).
    { intros f A B C Hf. eapply expressible_ext; [intros x; symmetry; apply Hf|]. apply expressible_lin2. }
    destruct i as [|[|i]]; [| |lia]; destruct a as [|[|[|[|[|[|[|a]]]]]]]; cbn.
    + apply (L _ (-1) 4 0); intros p; ring.
    + apply (L _ 0 0 0); intros p; ring.
    + apply (L _ (-3) 4 4); intros p; ring.
    + apply (L _ 0 0 4); intros p; ring.
    + apply (L _ 0 0 (-4)); intros p; ring.
    + apply (L _ 4 (-8) (-4)); intros p; ring.
    + apply (L _ 0 0 0); intros p; ring.
    + apply (L _ 0 0 0); intros p; ring.
    + apply (L _ 0 0 0); intros p; ring.
    + apply (L _ (-1) 0 4); intros p; ring.
    + apply (L _ (-3) 4 4); intros p; ring.
    + apply (L _ 0 4 0); intros p; ring.
    + apply (L _ 4 (-4) (-8)); intros p; ring.
    + apply (L _ 0 (-4) 0); intros p; ring.
    + apply (L _ 0 0 0); intros p; ring.
    + apply (L _ 0 0 0); intros p; ring.
Qed.
Lemma expressible_gradient {E} (e : element E) corners a j : made e corners -> (j < edim E)%nat ->
  expressible (edim E) (degree E - 1) (fun p => element_gradient e a p j).
Proof.
  intros H Hj. unfold element_gradient.
  assert (X : forall i, (i < edim E)%nat -> exists c, forall p, minv (edim E) (element_jacobian e p) i j = c).
  { intros i Hi. pose proof (made_jacobian e corners H) as J. destruct E; cbn [edim] in *.
    - cbn [minv]. eexists. intros p. unfold det1. rewrite J by lia. reflexivity.
    - cbn [minv]. destruct i as [|[|i]]; [| |lia]; (destruct j as [|[|j]]; [| |lia]); eexists; intros p;
        unfold det1, det2, minor; cbn [skip Nat.ltb Nat.leb]; rewrite !J by (cbn; lia); reflexivity.
    - cbn [minv]. destruct i as [|[|i]]; [| |lia]; (destruct j as [|[|j]]; [| |lia]); eexists; intros p;
        unfold det1, det2, minor; cbn [skip Nat.ltb Nat.leb]; rewrite !J by (cbn; lia); reflexivity. }
  apply (expressible_rsum (edim E) (degree E - 1) (edim E) (fun i p => call (dshape E a) p i * minv (edim E) (element_jacobian e p) i j)).
  intros i Hi. destruct (X i Hi) as (c & Hc).
  apply (expressible_ext _ _ (fun p => c * call (dshape E a) p i)); [intros p; rewrite Hc; ring|].
  apply expressible_scal. eapply expressible_ext; [|apply (expressible_dphi E a i Hi)].
  intros p. rewrite dshape_value by exact Hi. reflexivity.
Qed.
Lemma expressible_image {E} (e : element E) corners i : made e corners ->
  expressible (edim E) 1 (fun p => image e p i).
Proof.
  intros H. destruct (made_shape e corners H) as [_ I]. destruct E; cbn [edim].
  - apply (expressible_ext 1 1 (fun p => nth 0 corners vzero i + (nth 1 corners vzero i - nth 0 corners vzero i) * p 0%nat)).
    + intros p. rewrite I. ring.
    + apply (expressible_lin1 1 0); lia.
  - apply (expressible_ext 2 1 (fun p => nth 2 corners vzero i + (nth 0 corners vzero i - nth 2 corners vzero i) * p 0%nat
      + (nth 1 corners vzero i - nth 2 corners vzero i) * p 1%nat)).
    + intros p. rewrite I. ring.
    + apply expressible_lin2.
  - apply (expressible_ext 2 1 (fun p => nth 2 corners vzero i + (nth 0 corners vzero i - nth 2 corners vzero i) * p 0%nat
      + (nth 1 corners vzero i - nth 2 corners vzero i) * p 1%nat)).
    + intros p. rewrite I. ring.
    + apply expressible_lin2.
Qed.

(* A rule exact to the degree integrates a function expressible as a polynomial of the degree. *)
Lemma exact_value D r q (f : vec -> R) (V v : R) : exact_to D r q -> expressible D r f ->
  reference_integral D (fun p => f p * (V / area D)) v ->
  V * total (map (fun pw => snd pw * f (fst pw)) q) = v.
Proof.
  intros Hq (p & Hp & E) Hv. pose proof (poly_integral D r p Hp) as Hu.
  set (u := total (map (fun t => fst t * dirichlet (snd t)) p)) in *.
  pose proof (Hq p u Hp Hu) as X. unfold quadrature in X.
  assert (Hv' : reference_integral D (fun x => f x * (V / area D)) (V / area D * u)).
  { apply (is_integral_ext D 1 (fun x => V / area D * poly p x)); [intros x; rewrite E; ring|].
    apply is_integral_scal, Hu. }
  rewrite (is_integral_unique D 1 _ _ _ Rle_0_1 Hv Hv'), <- X.
  rewrite (total_map_ext (fun pw => snd pw * f (fst pw)) (fun pw => snd pw * poly p (fst pw)))
    by (intros pw _; rewrite E; reflexivity).
  unfold area. field. apply INR_fact_neq_0.
Qed.
