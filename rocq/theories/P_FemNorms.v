From Coq Require Import Reals List Bool Arith Lia Lra FunctionalExtensionality.
From Verif Require Import Base M_Tensor M_Geometry S_Geometry P_Volume.
From Verif Require Import M_Functions S_Functions P_Functions M_Quadrature S_Quadrature P_Quadrature P_Integrator.
From Verif Require Import M_Fem S_Fem P_Fem P_FemBlocks.
Import ListNotations.
Open Scope R_scope.

(* ------------------------------------------------------------------------------------------- *)
(* The integrals of the products of shape functions. *)
Definition phi_poly (E : element_type) (a : nat) : polynomial :=
  match E with
  | Seg1 => nth a [[(1, [0%nat]); (-1, [1%nat])]; [(1, [1%nat])]] []
  | Tri1 => nth a [[(1, [1%nat; 0%nat])]; [(1, [0%nat; 1%nat])];
                   [(1, [0%nat; 0%nat]); (-1, [1%nat; 0%nat]); (-1, [0%nat; 1%nat])]] []
  | Tri2 => nth a
      [[(2, [2%nat; 0%nat]); (-1, [1%nat; 0%nat])]; [(2, [0%nat; 2%nat]); (-1, [0%nat; 1%nat])];
       [(1, [0%nat; 0%nat]); (-3, [1%nat; 0%nat]); (-3, [0%nat; 1%nat]); (2, [2%nat; 0%nat]);
        (4, [1%nat; 1%nat]); (2, [0%nat; 2%nat])];
       [(4, [1%nat; 1%nat])];
       [(4, [0%nat; 1%nat]); (-4, [1%nat; 1%nat]); (-4, [0%nat; 2%nat])];
       [(4, [1%nat; 0%nat]); (-4, [2%nat; 0%nat]); (-4, [1%nat; 1%nat])]] []
  end.
Lemma phi_poly_ok E a : of_degree (edim E) (degree E) (phi_poly E a) /\ forall x, phi E a x = poly (phi_poly E a) x.
Proof.
  split.
  - destruct E; do 7 (try destruct a as [|a]); repeat constructor; simpl; lia.
  - intros x. rewrite phi_value. destruct E; do 7 (try destruct a as [|a]); unfold poly, S_Geometry.total; cbn; ring.
Qed.
Definition product (p q : polynomial) : polynomial := flat_map (fun a => map (times a) q) p.
Lemma product_ok D r s p q : of_degree D r p -> of_degree D s q ->
  of_degree D (r + s) (product p q) /\ forall x, poly p x * poly q x = poly (product p q) x.
Proof.
  intros Hp Hq. split.
  - unfold product. induction Hp as [|a p [La Sa] Hp IH]; [constructor|].
    simpl. apply Forall_app. split; [|exact IH]. apply Forall_map.
    revert Hq. apply Forall_impl. intros b [Lb Sb]. unfold times. cbn [fst snd].
    destruct (add_exponents_ok (snd a) (snd b) ltac:(congruence)) as (L & S & _).
    rewrite L, S. split; lia.
  - intros x. unfold product. induction Hp as [|a p [La Sa] Hp IH]; [unfold poly, S_Geometry.total; simpl; ring|].
    unfold poly in *. simpl. rewrite map_app, total_app, map_map, <- IH.
    change (S_Geometry.total (fst a * monomial (snd a) x :: map (fun t => fst t * monomial (snd t) x) p))
      with (fst a * monomial (snd a) x + S_Geometry.total (map (fun t => fst t * monomial (snd t) x) p)).
    rewrite Rmult_plus_distr_r. f_equal.
    rewrite <- total_map_scal. apply total_map_ext.
    intros b Hb. unfold times. cbn [fst snd].
    destruct (add_exponents_ok (snd a) (snd b)) as (_ & _ & M).
    { destruct (proj1 (Forall_forall _ _) Hq b Hb) as [Lb _]. congruence. }
    rewrite M. ring.
Qed.
Lemma dirichlet_product E a b : (a < n_nodes E)%nat -> (b < n_nodes E)%nat ->
  total (map (fun t => fst t * dirichlet (snd t)) (product (phi_poly E a) (phi_poly E b)))
  = area (edim E) * mass_matrix E a b.
Proof.
  intros Ha Hb. unfold total, area.
  destruct E; cbn [n_nodes] in *; do 6 (try destruct a as [|a]; try lia); do 6 (try destruct b as [|b]; try lia);
    unfold dirichlet; cbn -[INR fact Z.of_nat IZR]; rewrite ?INR_IZR_INZ;
    repeat match goal with |- context[Z.of_nat ?n] =>
      let z := eval vm_compute in (Z.of_nat n) in change (Z.of_nat n) with z end; lra.
Qed.
Lemma mass_integral {E} corners a b : (a < n_nodes E)%nat -> (b < n_nodes E)%nat ->
  element_integral E corners (fun p => phi E a p * phi E b p) (simplex_volume corners * mass_matrix E a b).
Proof.
  intros Ha Hb. unfold element_integral.
  destruct (phi_poly_ok E a) as [Pa Ea]. destruct (phi_poly_ok E b) as [Pb Eb].
  destruct (product_ok _ _ _ _ _ Pa Pb) as [PP EE].
  replace (simplex_volume corners * mass_matrix E a b)
    with (simplex_volume corners / area (edim E)
          * total (map (fun t => fst t * dirichlet (snd t)) (product (phi_poly E a) (phi_poly E b)))).
  2: { rewrite (dirichlet_product E a b Ha Hb). unfold area. field. apply INR_fact_neq_0. }
  apply (is_integral_ext (edim E) 1 (fun x => simplex_volume corners / area (edim E)
          * poly (product (phi_poly E a) (phi_poly E b)) x)).
  { intros x. rewrite <- EE, Ea, Eb. ring. }
  apply is_integral_scal. exact (poly_integral _ _ _ PP).
Qed.

(* ------------------------------------------------------------------------------------------- *)
(* Definiteness. *)
Lemma rsum_pair n (u f g : nat -> R) k1 k2 J :
  rsum n (fun a => u a * ((f a * k1 - g a * k2) / J))
  = (rsum n (fun a => u a * f a) * k1 - rsum n (fun a => u a * g a) * k2) / J.
Proof.
  unfold Rdiv. induction n as [|n IH]; simpl; [ring|]. rewrite IH. ring.
Qed.
Lemma solve2 A B a b c d J : J = a * d - c * b -> J <> 0 ->
  (A * d - B * b) / J = 0 -> (B * a - A * c) / J = 0 -> A = 0 /\ B = 0.
Proof.
  intros HJ N H1 H2.
  assert (E1 : A * d - B * b = 0) by (apply (Rmult_eq_reg_r (/ J)); [unfold Rdiv in H1; lra|apply Rinv_neq_0_compat, N]).
  assert (E2 : B * a - A * c = 0) by (apply (Rmult_eq_reg_r (/ J)); [unfold Rdiv in H2; lra|apply Rinv_neq_0_compat, N]).
  split; apply (Rmult_eq_reg_r J); try exact N; rewrite HJ.
  - replace (A * (a * d - c * b)) with ((A * d - B * b) * a + (B * a - A * c) * b) by ring. rewrite E1, E2. ring.
  - replace (B * (a * d - c * b)) with ((A * d - B * b) * c + (B * a - A * c) * d) by ring. rewrite E1, E2. ring.
Qed.
Lemma parametric_gradient {E} (e : element E) corners (u : vec) p : made e corners ->
  simplex_volume corners <> 0 ->
  (forall i, (i < edim E)%nat -> rsum (n_nodes E) (fun a => u a * element_gradient e a p i) = 0) ->
  rsum (n_nodes E) (fun a => u a * fst (nth a (dphis E p) (0, 0))) = 0 /\
  (edim E = 2%nat -> rsum (n_nodes E) (fun a => u a * snd (nth a (dphis E p) (0, 0))) = 0).
Proof.
  intros H V Z. pose proof (jac_nonzero e corners H V) as J. pose proof (made_gradient e corners H) as G.
  assert (T : edim E = 2%nat -> E <> Seg1 -> jac2 corners <> 0 ->
    rsum (n_nodes E) (fun a => u a * fst (nth a (dphis E p) (0, 0))) = 0 /\
    (edim E = 2%nat -> rsum (n_nodes E) (fun a => u a * snd (nth a (dphis E p) (0, 0))) = 0)).
  { clear J. intros ED NS J. pose proof (Z 0%nat ltac:(lia)) as Z0. pose proof (Z 1%nat ltac:(lia)) as Z1.
    rewrite (rsum_ext _ _ (fun a => u a * ((fst (nth a (dphis E p) (0, 0)) * (nth 1 corners vzero 1%nat - nth 2 corners vzero 1%nat)
       - snd (nth a (dphis E p) (0, 0)) * (nth 0 corners vzero 1%nat - nth 2 corners vzero 1%nat)) / jac2 corners))) in Z0.
    2: { intros a _. rewrite G by lia. destruct E; [destruct (NS eq_refl)|reflexivity|reflexivity]. }
    rewrite (rsum_ext _ _ (fun a => u a * ((snd (nth a (dphis E p) (0, 0)) * (nth 0 corners vzero 0%nat - nth 2 corners vzero 0%nat)
       - fst (nth a (dphis E p) (0, 0)) * (nth 1 corners vzero 0%nat - nth 2 corners vzero 0%nat)) / jac2 corners))) in Z1.
    2: { intros a _. rewrite G by lia. destruct E; [destruct (NS eq_refl)|reflexivity|reflexivity]. }
    rewrite rsum_pair in Z0. rewrite rsum_pair in Z1.
    destruct (solve2 _ _ _ _ _ _ (jac2 corners) eq_refl J Z0 Z1) as [A B]. split; [exact A|intros _; exact B]. }
  destruct E; [clear T|apply T; [reflexivity|discriminate|exact J]|apply T; [reflexivity|discriminate|exact J]].
  cbn [edim n_nodes] in *.
  split; [|discriminate]. specialize (Z 0%nat ltac:(lia)). cbn [rsum] in *.
  rewrite !G in Z by lia. cbn in *. apply (Rmult_eq_reg_r (/ (nth 1 corners vzero 0%nat - nth 0 corners vzero 0%nat)));
    [|apply Rinv_neq_0_compat, J]. unfold Rdiv in Z. lra.
Qed.
Lemma affine_zero A B C (p q r : vec) : not_aligned p q r ->
  A + B * p 0%nat + C * p 1%nat = 0 -> A + B * q 0%nat + C * q 1%nat = 0 ->
  A + B * r 0%nat + C * r 1%nat = 0 -> A = 0 /\ B = 0 /\ C = 0.
Proof.
  unfold not_aligned. intros N Hp Hq Hr.
  set (a := q 0%nat - p 0%nat) in *. set (b := q 1%nat - p 1%nat) in *.
  set (c := r 0%nat - p 0%nat) in *. set (d := r 1%nat - p 1%nat) in *.
  assert (E1 : B * a + C * b = 0) by (unfold a, b; lra).
  assert (E2 : B * c + C * d = 0) by (unfold c, d; lra).
  assert (N' : a * d - b * c <> 0) by lra.
  assert (HB : B = 0).
  { apply (Rmult_eq_reg_r (a * d - b * c)); [|exact N'].
    replace (B * (a * d - b * c)) with (d * (B * a + C * b) - b * (B * c + C * d)) by ring. rewrite E1, E2. ring. }
  assert (HC : C = 0).
  { apply (Rmult_eq_reg_r (a * d - b * c)); [|exact N'].
    replace (C * (a * d - b * c)) with (a * (B * c + C * d) - c * (B * a + C * b)) by ring. rewrite E1, E2. ring. }
  rewrite HB, HC in Hp. repeat split; lra.
Qed.
Lemma gradient_zero_constant E (u : vec) q : sees_gradients E q ->
  (forall p w, In (p, w) q -> 0 < w ->
     rsum (n_nodes E) (fun a => u a * fst (nth a (dphis E p) (0, 0))) = 0 /\
     (edim E = 2%nat -> rsum (n_nodes E) (fun a => u a * snd (nth a (dphis E p) (0, 0))) = 0)) ->
  forall a b, (a < n_nodes E)%nat -> (b < n_nodes E)%nat -> u a = u b.
Proof.
  intros HS HZ.
  assert (X : forall b, (b < n_nodes E)%nat -> u b = u 0%nat);
    [|intros a b Ha Hb; rewrite (X a Ha), (X b Hb); reflexivity].
  intros b Hb. destruct E; cbn [n_nodes edim sees_gradients] in *.
  - destruct HS as (p & w & I & W). destruct (HZ p w I W) as [A _]. cbn in A.
    destruct b as [|[|b]]; [reflexivity|lra|lia].
  - destruct HS as (p & w & I & W). destruct (HZ p w I W) as [A B]. specialize (B eq_refl). cbn in A, B.
    destruct b as [|[|[|b]]]; [reflexivity|lra|lra|lia].
  - destruct HS as (p1 & w1 & p2 & w2 & p3 & w3 & I1 & I2 & I3 & W1 & W2 & W3 & N).
    destruct (HZ p1 w1 I1 W1) as [A1 B1]. specialize (B1 eq_refl).
    destruct (HZ p2 w2 I2 W2) as [A2 B2]. specialize (B2 eq_refl).
    destruct (HZ p3 w3 I3 W3) as [A3 B3]. specialize (B3 eq_refl).
    cbn in A1, A2, A3, B1, B2, B3.
    assert (F : - u 0%nat - 3 * u 2%nat + 4 * u 5%nat = 0 /\
                4 * u 0%nat + 4 * u 2%nat - 8 * u 5%nat = 0 /\
                4 * u 2%nat + 4 * u 3%nat - 4 * u 4%nat - 4 * u 5%nat = 0)
      by (apply (affine_zero _ _ _ p1 p2 p3 N); lra).
    assert (S : - u 1%nat - 3 * u 2%nat + 4 * u 4%nat = 0 /\
                4 * u 2%nat + 4 * u 3%nat - 4 * u 4%nat - 4 * u 5%nat = 0 /\
                4 * u 1%nat + 4 * u 2%nat - 8 * u 4%nat = 0)
      by (apply (affine_zero _ _ _ p1 p2 p3 N); lra).
    do 6 (destruct b as [|b]; [lra|]). lia.
Qed.

Lemma grad_grad_zero {E} (e : element E) corners q u : made e corners -> 0 < simplex_volume corners ->
  (forall p w, In (p, w) q -> 0 <= w) -> form (n_nodes E) (grad_grad_block q e) u u = 0 ->
  forall p w, In (p, w) q -> 0 < w ->
  forall i, (i < edim E)%nat -> rsum (n_nodes E) (fun a => u a * element_gradient e a p i) = 0.
Proof.
  intros H V W Z p w HI Hw i Hi. rewrite (grad_grad_form e corners q u u H) in Z.
  apply Rmult_integral in Z. destruct Z as [Z|Z]; [lra|].
  refine ((fun X => _) (total_zero _ q _ Z (p, w) HI));
    [|intros [p' w'] HI'; apply Rmult_le_pos; [exact (W p' w' HI')|apply dot_nonneg]].
  cbn [fst snd] in X. apply Rmult_integral in X. destruct X as [X|X]; [lra|].
  exact (dot_zero _ _ X i Hi).
Qed.
Lemma mass_zero {E} (e : element E) corners q u : made e corners -> 0 < simplex_volume corners ->
  (forall p w, In (p, w) q -> 0 <= w) -> form (n_nodes E) (mass_block q e) u u = 0 ->
  forall p w, In (p, w) q -> 0 < w -> interpolant E u p = 0.
Proof.
  intros H V W Z p w HI Hw. rewrite (mass_form e corners q u u H) in Z.
  apply Rmult_integral in Z. destruct Z as [Z|Z]; [lra|].
  refine ((fun X => _) (total_zero _ q _ Z (p, w) HI));
    [|intros [p' w'] HI'; apply Rmult_le_pos; [exact (W p' w' HI')|apply Rle_0_sqr]].
  cbn [fst snd] in X. apply Rmult_integral in X. destruct X as [X|X]; [lra|].
  apply Rmult_integral in X. destruct X; assumption.
Qed.

(* A quadratic function that vanishes on two orbits of the symmetries of the triangle. *)
Lemma quadratic_zero A B C D E F a b c d :
  let f x y := A + B * x + C * y + D * (x * x) + E * (x * y) + F * (y * y) in
  a <> b -> c <> d -> b <> d -> a + b <> c + d -> b + d <> a + c ->
  f a b = 0 -> f b a = 0 -> f b b = 0 -> f c d = 0 -> f d c = 0 -> f d d = 0 ->
  A = 0 /\ B = 0 /\ C = 0 /\ D = 0 /\ E = 0 /\ F = 0.
Proof.
  intros f Nab Ncd Nbd Ns Nt X1 X2 X3 X4 X5 X6. unfold f in *. clear f.
  assert (K : forall x y, x <> 0 -> x * y = 0 -> y = 0)
    by (intros x y N Z; apply Rmult_integral in Z; destruct Z; [contradiction|assumption]).
  assert (E1 : (B - C) + (D - F) * (a + b) = 0) by (apply (K (a - b)); [lra|]; lra).
  assert (E2 : (B - C) + (D - F) * (c + d) = 0) by (apply (K (c - d)); [lra|]; lra).
  assert (E3 : D - F = 0) by (apply (K (a + b - (c + d))); [lra|]; lra).
  rewrite E3 in E1. assert (F = D) as -> by lra. assert (C = B) as -> by lra. clear E1 E2 E3.
  assert (E4 : B + D * (a + b) + E * b = 0) by (apply (K (a - b)); [lra|]; lra).
  assert (E5 : B + D * (c + d) + E * d = 0) by (apply (K (c - d)); [lra|]; lra).
  assert (E6 : 2 * B + (2 * D + E) * (b + d) = 0) by (apply (K (b - d)); [lra|]; lra).
  assert (ED : D = 0) by (apply (K (b + d - (a + c))); [lra|]; lra).
  rewrite ED in *. assert (EE : E = 0) by (apply (K (b - d)); [lra|]; lra).
  rewrite EE in *. assert (B = 0) as -> by lra. repeat split; lra.
Qed.

(* ------------------------------------------------------------------------------------------- *)
(* Localized fields and norms. *)
Lemma localize_value {E} (u : field E) (e : element E) p : eval (localize u e) p 0%nat = field_value u e p.
Proof.
  destruct u as [values|f]; [|reflexivity]. unfold localize, field_value, interpolant.
  rewrite eval_fold_add. unfold total, phi. destruct E; cbn -[shape_function]; unfold num; ring.
Qed.

Lemma eval_sub {x y} (f g : fn x y) p i : eval (f_sub f g) p i = eval f p i - eval g p i.
Proof. cbn. unfold num. ring. Qed.
Lemma fold_norm {E} (T : element E -> R) elements : forall z,
  fold_left (fun norm e => norm + T e) elements z = z + total (map T elements).
Proof. apply fold_scalar. Qed.

Definition square_norm {E} (q : rule) (elements : list (element E)) (corners : list (list vec)) (g : element E -> vec -> R) : R :=
  total (map (fun ec => simplex_volume (snd ec) * total (map (fun pw => snd pw * (g (fst ec) (fst pw) * g (fst ec) (fst pw))) q))
    (combine elements corners)).

Lemma l2_norm_value {E} q (elements : list (element E)) corners u1 u2 : Forall2 made elements corners ->
  compute_l2_norm q elements u1 u2
  = sqrt (square_norm q elements corners (fun e p => field_value u1 e p - field_value u2 e p)).
Proof.
  intros H. unfold compute_l2_norm, square_norm.
  rewrite (fold_norm (fun e => l2_norm_block q 1 (eval (f_sub (localize u1 e) (localize u2 e))) e)).
  f_equal. replace 0.0 with 0 by (unfold Q2R; cbn; field). rewrite Rplus_0_l.
  induction H as [|e c elements corners He H IH]; [reflexivity|].
  cbn [combine map]. unfold total in *. cbn [fold_right]. rewrite IH. f_equal.
  rewrite (l2_value e c q 1 _ He). cbn [fst snd]. f_equal. unfold total. apply total_map_ext.
  intros pw _. unfold dot. cbn [rsum].
  rewrite !eval_sub, !localize_value. ring.
Qed.

(* Cauchy-Schwarz and the triangle inequality for weighted sums of squares. *)
Definition weighted_sum {A} (c f g : A -> R) (l : list A) : R := total (map (fun x => c x * (f x * g x)) l).

Lemma weighted_nonneg {A} (c f : A -> R) l : (forall x, In x l -> 0 <= c x) -> 0 <= weighted_sum c f f l.
Proof.
  intros H. unfold weighted_sum. apply total_nonneg. intros x Hx. apply Rmult_le_pos; [apply H, Hx|apply Rle_0_sqr].
Qed.
Lemma weighted_expand {A} (c f g : A -> R) l t s :
  weighted_sum c (fun x => t * f x + s * g x) (fun x => t * f x + s * g x) l
  = t * t * weighted_sum c f f l + 2 * (t * s) * weighted_sum c f g l + s * s * weighted_sum c g g l.
Proof.
  unfold weighted_sum, total. induction l as [|x l IH]; simpl; [ring|]. rewrite IH. ring.
Qed.
Lemma cauchy_schwarz {A} (c f g : A -> R) l : (forall x, In x l -> 0 <= c x) ->
  weighted_sum c f g l * weighted_sum c f g l <= weighted_sum c f f l * weighted_sum c g g l.
Proof.
  intros H. pose proof (weighted_nonneg c f l H) as PA. pose proof (weighted_nonneg c g l H) as PB.
  set (F := weighted_sum c f f l) in *. set (G := weighted_sum c g g l) in *. set (C := weighted_sum c f g l) in *.
  assert (Q : forall t s, 0 <= t * t * F + 2 * (t * s) * C + s * s * G).
  { intros t s. unfold F, G, C. rewrite <- weighted_expand. apply weighted_nonneg, H. }
  destruct (Req_dec F 0) as [Z|Z].
  - destruct (Req_dec C 0) as [ZC|ZC]; [rewrite ZC, Z; lra|].
    pose proof (Q (- (G + 1) / (2 * C)) 1) as X. rewrite Z in X.
    replace (- (G + 1) / (2 * C) * (- (G + 1) / (2 * C)) * 0 + 2 * (- (G + 1) / (2 * C) * 1) * C + 1 * 1 * G)
      with (-1) in X by (field; exact ZC). lra.
  - pose proof (Q (- C) F) as X.
    replace (- C * - C * F + 2 * (- C * F) * C + F * F * G) with (F * (F * G - C * C)) in X by ring.
    assert (0 < F) by lra. apply Rnot_lt_le. intros L.
    assert (F * (F * G - C * C) < F * 0) by (apply Rmult_lt_compat_l; lra). lra.
Qed.
Lemma minkowski {A} (c f g : A -> R) l : (forall x, In x l -> 0 <= c x) ->
  sqrt (weighted_sum c (fun x => f x + g x) (fun x => f x + g x) l)
  <= sqrt (weighted_sum c f f l) + sqrt (weighted_sum c g g l).
Proof.
  intros H. pose proof (weighted_nonneg c f l H) as PA. pose proof (weighted_nonneg c g l H) as PB.
  pose proof (cauchy_schwarz c f g l H) as CS.
  assert (X : weighted_sum c (fun x => f x + g x) (fun x => f x + g x) l
              = weighted_sum c f f l + 2 * weighted_sum c f g l + weighted_sum c g g l).
  { unfold weighted_sum, total. clear. induction l as [|x l IH]; simpl; [ring|]. rewrite IH. ring. }
  rewrite X. set (F := weighted_sum c f f l) in *. set (G := weighted_sum c g g l) in *. set (C := weighted_sum c f g l) in *.
  pose proof (sqrt_pos F) as SF. pose proof (sqrt_pos G) as SG.
  rewrite <- (sqrt_Rsqr (sqrt F + sqrt G)) by lra. apply sqrt_le_1_alt. unfold Rsqr.
  replace ((sqrt F + sqrt G) * (sqrt F + sqrt G)) with (sqrt F * sqrt F + 2 * (sqrt F * sqrt G) + sqrt G * sqrt G) by ring.
  rewrite !sqrt_sqrt by assumption.
  assert (C <= sqrt F * sqrt G); [|lra].
  rewrite <- sqrt_mult by assumption. apply Rle_trans with (Rabs C); [apply Rle_abs|].
  rewrite <- sqrt_Rsqr_abs. apply sqrt_le_1_alt. exact CS.
Qed.

(* The two loops as one sum. *)
Definition sites {E} (q : rule) (elements : list (element E)) (corners : list (list vec)) :=
  flat_map (fun ec => map (fun pw => (ec, pw)) q) (combine elements corners).
Definition site_weight {E} (s : (element E * list vec) * (vec * R)) : R := simplex_volume (snd (fst s)) * snd (snd s).
Definition at_site {E} (g : element E -> vec -> R) (s : (element E * list vec) * (vec * R)) : R :=
  g (fst (fst s)) (fst (snd s)).
Lemma square_norm_sites {E} q (elements : list (element E)) corners g :
  square_norm q elements corners g = weighted_sum site_weight (at_site g) (at_site g) (sites q elements corners).
Proof.
  unfold square_norm, weighted_sum, sites. induction (combine elements corners) as [|ec l IH]; [reflexivity|].
  cbn [map flat_map]. rewrite map_app, total_app, map_map, <- IH.
  change (total (?a :: ?l)) with (a + total l). cbn [fst snd].
  transitivity (total (map (fun pw => simplex_volume (snd ec) * (snd pw * (g (fst ec) (fst pw) * g (fst ec) (fst pw)))) q)
    + total (map (fun ec => simplex_volume (snd ec) * total (map (fun pw => snd pw * (g (fst ec) (fst pw) * g (fst ec) (fst pw))) q)) l)).
  - rewrite total_map_scal. reflexivity.
  - f_equal. apply total_map_ext. intros pw _. unfold site_weight, at_site. cbn [fst snd]. ring.
Qed.
Lemma sites_weight {E} q (elements : list (element E)) corners :
  Forall (fun c => 0 <= simplex_volume c) corners -> (forall p w, In (p, w) q -> 0 <= w) ->
  forall s, In s (sites q elements corners) -> 0 <= site_weight s.
Proof.
  intros HV HW s Hs. unfold sites in Hs. apply in_flat_map in Hs. destruct Hs as ([e c] & Hc & Hs).
  apply in_map_iff in Hs. destruct Hs as ([p w] & <- & Hp). unfold site_weight. cbn [fst snd].
  apply Rmult_le_pos; [|exact (HW p w Hp)]. apply in_combine_r in Hc. exact (proj1 (Forall_forall _ _) HV c Hc).
Qed.

(* The sizes of the products. *)
Lemma size_cons a es p : S_Quadrature.size ((a, es) :: p) = Rabs a + S_Quadrature.size p.
Proof. reflexivity. Qed.
Lemma size_app p q : S_Quadrature.size (p ++ q) = S_Quadrature.size p + S_Quadrature.size q.
Proof. unfold S_Quadrature.size. rewrite map_app. apply total_app. Qed.
Lemma size_product p q : S_Quadrature.size (product p q) = S_Quadrature.size p * S_Quadrature.size q.
Proof.
  unfold product. induction p as [|[a es] p IH]; [unfold S_Quadrature.size, total; simpl; ring|].
  cbn [flat_map]. rewrite size_app, IH, size_cons, Rmult_plus_distr_r. f_equal. clear.
  induction q as [|[b fs] q IH]; [unfold S_Quadrature.size, total; simpl; ring|].
  cbn [map]. unfold times at 1. rewrite !size_cons, IH. cbn [fst snd]. rewrite Rabs_mult. ring.
Qed.
Lemma size_phi E a : 0 <= S_Quadrature.size (phi_poly E a) <= 15.
Proof.
  assert (R1 : forall x, 0 <= x -> Rabs x = x) by (intros; apply Rabs_pos_eq; assumption).
  assert (R2 : forall x, x <= 0 -> Rabs x = - x) by (intros; apply Rabs_left1; assumption).
  destruct E; do 7 (try destruct a as [|a]); unfold S_Quadrature.size, total; cbn [phi_poly nth map fold_right fst];
    repeat match goal with |- context [Rabs ?x] => first [rewrite (R1 x) by lra | rewrite (R2 x) by lra] end; lra.
Qed.
