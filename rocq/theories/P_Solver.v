(* Proofs about polynomials on the cells of a mesh and the values at the nodes. *)
From stdpp Require Import base gmap list sorting.
From Coq Require Import Reals Lra FunctionalExtensionality.
From Verif Require Import Base M_Tensor M_Geometry S_Geometry P_Volume.
From Verif Require Import M_Functions S_Functions P_Functions M_Quadrature S_Quadrature P_Quadrature P_Integrator M_Fem S_Fem P_Fem P_FemBlocks P_FemNorms Properties_Fem.
From Verif Require Import S_Discrete M_System S_System P_System Properties_System P_Galerkin M_Poisson S_Poisson P_Poisson M_Solver S_Solver.
Open Scope nat_scope.

(* ---- polynomials ---- *)
Lemma poly_agree D r (p : polynomial) u v : of_degree D r p → agree D u v → poly p u = poly p v.
Proof.
  intros H Huv. unfold poly. apply total_map_ext. intros [c es] HI. unfold of_degree in H. rewrite List.Forall_forall in H.
  destruct (H _ HI) as [L _]. cbn [fst snd] in *. f_equal. apply monomial_ext. intros i Hi. apply Huv. lia.
Qed.
Lemma image_position {E} (e : element E) corners p : made e corners → image e p = position E corners p.
Proof.
  intros H. destruct (made_shape e corners H) as [_ I]. apply functional_extensionality. intros i. rewrite I. unfold position. by destruct E.
Qed.

Lemma on_line E (p : polynomial) u v t : of_degree (edim E) (degree E) p →
  poly p (between t u v) =
    match E with
    | Tri2 => ((1 - t) * (1 - 2 * t) * poly p u + t * (2 * t - 1) * poly p v + 4 * t * (1 - t) * poly p (middle u v))%R
    | _ => ((1 - t) * poly p u + t * poly p v)%R
    end.
Proof.
  intros Hp. destruct E; cbn [edim degree] in Hp.
  - destruct (normal_1 p Hp) as (A & B & N). rewrite !N. unfold affine, between. ring.
  - destruct (normal_2 p Hp) as (A & B & C & N). rewrite !N. unfold affine, between. ring.
  - destruct (normal_3 p Hp) as (A & B & C & D & F & G & N). rewrite !N. unfold quadratic, between, middle. field.
Qed.

(* two polynomials with the same values at the nodes of an element *)
Lemma determined {E} (e : element E) corners (r s : polynomial) : made e corners → simplex_volume corners ≠ 0%R →
  of_degree (edim E) (degree E) r → of_degree (edim E) (degree E) s →
  (∀ a, a < n_nodes E → poly r (node E corners a) = poly s (node E corners a)) → ∀ y, poly r y = poly s y.
Proof.
  intros H V Hr Hs Ha y. destruct (C49_inverse e corners H V) as (back & _ & Hb & _).
  rewrite <- (poly_agree _ _ r _ _ Hr (Hb y)), <- (poly_agree _ _ s _ _ Hs (Hb y)).
  rewrite <- (C49_interpolant e corners r _ H Hr), <- (C49_interpolant e corners s _ H Hs).
  apply rsum_ext. intros a Hlt. by rewrite Ha.
Qed.

(* a polynomial with the given values at the nodes *)
Lemma expressible_rsum D r n (f : nat → vec → R) : (∀ a, a < n → expressible D r (f a)) → expressible D r (λ y, rsum n (λ a, f a y)).
Proof.
  induction n as [|n IH]; intros Hf; cbn [rsum]; [apply expressible_const|].
  apply (expressible_plus D r (λ y, rsum n (λ a, f a y)) (f n)); [apply IH; intros; apply Hf; lia|apply Hf; lia].
Qed.
Lemma expressible_scal D r a f : expressible D r f → expressible D r (λ y, (a * f y)%R).
Proof. intros Hf. apply (expressible_mult D 0 r (λ _, a) f); [apply expressible_const|done]. Qed.
Lemma expressible_affine1 D a b i : i < D → expressible D 1 (λ y, (a + b * y i)%R).
Proof.
  intros Hi. apply (expressible_plus D 1 (λ _, a) (λ y, (b * y i)%R)); [apply expressible_const|].
  apply (expressible_scal D 1 b (λ y, y i)). apply expressible_coordinate; lia.
Qed.

Lemma phi_agree E a u v : agree (edim E) u v → phi E a u = phi E a v.
Proof. intros H. rewrite !phi_value. destruct E; cbn [edim] in H; cbn [phis]; rewrite ?(H 0), ?(H 1) by lia; reflexivity. Qed.
Lemma nodal_sum E u b : b < n_nodes E → rsum (n_nodes E) (λ a, u a * phi E a (reference_node E b))%R = u b.
Proof.
  intros Hb. destruct E; cbn [n_nodes] in Hb; do 6 (try destruct b as [|b]); try lia; cbn [n_nodes rsum]; rewrite !phi_value; cbn; lra || field.
Qed.
Lemma lagrange E corners (u : nat → R) : length corners = S (edim E) → simplex_volume corners ≠ 0%R →
  ∃ r, of_degree (edim E) (degree E) r ∧ ∀ a, a < n_nodes E → poly r (node E corners a) = u a.
Proof.
  intros L V.
  assert (exists back : vec → vec, (∀ i, expressible (edim E) 1 (λ y, back y i)) ∧
    ∀ b, b < n_nodes E → agree (edim E) (back (node E corners b)) (reference_node E b)) as (back & Hback & Hnode).
  { destruct E; cbn [edim n_nodes] in *.
    - destruct corners as [|c0 [|c1 [|]]]; try discriminate L. unfold simplex_volume, det_vecs, vsub in V. cbn in V.
      assert (D : (c1 0%nat - c0 0%nat)%R ≠ 0%R) by (intros Hd; apply V; rewrite Hd; lra).
      exists (λ y _, (- c0 0%nat / (c1 0%nat - c0 0%nat) + / (c1 0%nat - c0 0%nat) * y 0%nat)%R). split.
      + intros _. apply expressible_affine1. lia.
      + intros b Hb i Hi. assert (i = 0) as -> by lia. destruct b as [|[|b]]; [| |lia]; cbn; unfold vec1; cbn; field; done.
    - destruct corners as [|a [|b [|c [|]]]]; try discriminate L. unfold simplex_volume, det_vecs, vsub in V. cbn in V.
      set (d := ((a 0%nat - c 0%nat) * (b 1%nat - c 1%nat) - (a 1%nat - c 1%nat) * (b 0%nat - c 0%nat))%R).
      assert (D : d ≠ 0%R). { intros Hd. apply V. unfold d in Hd.
        replace ((b 0%nat - a 0%nat) * (c 1%nat - a 1%nat) - (b 1%nat - a 1%nat) * (c 0%nat - a 0%nat))%R with d by (unfold d; ring). unfold d. rewrite Hd. lra. }
      exists (λ y i, match i with
        | 0 => ((- c 0%nat * (b 1%nat - c 1%nat) + c 1%nat * (b 0%nat - c 0%nat)) / d + (b 1%nat - c 1%nat) / d * y 0%nat + (0 + - (b 0%nat - c 0%nat) / d * y 1%nat))%R
        | 1 => ((- c 1%nat * (a 0%nat - c 0%nat) + c 0%nat * (a 1%nat - c 1%nat)) / d + - (a 1%nat - c 1%nat) / d * y 0%nat + (0 + (a 0%nat - c 0%nat) / d * y 1%nat))%R
        | _ => 0%R end). split.
      + intros [|[|i]]; [| |apply expressible_const];
          (eapply (expressible_plus 2 1 (λ y, _ + _ * y 0%nat)%R (λ y, _ + _ * y 1%nat)%R); apply expressible_affine1; lia).
      + intros k Hk i Hi. destruct i as [|[|i]]; [| |lia]; destruct k as [|[|[|k]]]; try lia; cbn; unfold vec2; cbn; unfold d in *; field; done.
    - destruct corners as [|a [|b [|c [|]]]]; try discriminate L. unfold simplex_volume, det_vecs, vsub in V. cbn in V.
      set (d := ((a 0%nat - c 0%nat) * (b 1%nat - c 1%nat) - (a 1%nat - c 1%nat) * (b 0%nat - c 0%nat))%R).
      assert (D : d ≠ 0%R). { intros Hd. apply V. unfold d in Hd.
        replace ((b 0%nat - a 0%nat) * (c 1%nat - a 1%nat) - (b 1%nat - a 1%nat) * (c 0%nat - a 0%nat))%R with d by (unfold d; ring). unfold d. rewrite Hd. lra. }
      exists (λ y i, match i with
        | 0 => ((- c 0%nat * (b 1%nat - c 1%nat) + c 1%nat * (b 0%nat - c 0%nat)) / d + (b 1%nat - c 1%nat) / d * y 0%nat + (0 + - (b 0%nat - c 0%nat) / d * y 1%nat))%R
        | 1 => ((- c 1%nat * (a 0%nat - c 0%nat) + c 0%nat * (a 1%nat - c 1%nat)) / d + - (a 1%nat - c 1%nat) / d * y 0%nat + (0 + (a 0%nat - c 0%nat) / d * y 1%nat))%R
        | _ => 0%R end). split.
      + intros [|[|i]]; [| |apply expressible_const];
          (eapply (expressible_plus 2 1 (λ y, _ + _ * y 0%nat)%R (λ y, _ + _ * y 1%nat)%R); apply expressible_affine1; lia).
      + intros k Hk i Hi. destruct i as [|[|i]]; [| |lia]; do 6 (try destruct k as [|k]); try lia; cbn; unfold vec2, middle; cbn; unfold d in *; field; done. }
  assert (X : expressible (edim E) (degree E) (λ y, rsum (n_nodes E) (λ a, u a * phi E a (back y))%R)).
  { apply (expressible_rsum _ _ _ (λ a y, u a * phi E a (back y))%R). intros a Ha. apply (expressible_scal _ _ (u a) (λ y, phi E a (back y))).
    destruct (phi_poly_ok E a) as [Hd He]. apply (expressible_ext _ _ (λ y, poly (phi_poly E a) (back y))); [intros; by rewrite He|].
    by apply (expressible_poly _ (edim E)). }
  destruct X as (r & Hr & Er). exists r. split; [done|]. intros b Hb. rewrite <- Er.
  rewrite <- (nodal_sum E u b Hb). apply rsum_ext. intros a _. f_equal. apply phi_agree. by apply Hnode.
Qed.

(* gradients *)
Lemma gradient_at {E} (e : element E) corners (r : polynomial) G u p j : made e corners → simplex_volume corners ≠ 0%R →
  of_degree (edim E) (degree E) r → has_gradient (edim E) (poly r) G → j < edim E →
  (∀ a, a < n_nodes E → u (connectivity e a) = poly r (node E corners a)) →
  gradient_of u e p j = G (image e p) j.
Proof.
  intros H V Hr HG Hj Hu. rewrite <- (C49_interpolant_gradient e corners r p j (G (image e p) j)); try done; [|by apply HG].
  apply rsum_ext. intros a Ha. by rewrite Hu.
Qed.
Lemma gradient_exists E (r : polynomial) : of_degree (edim E) (degree E) r → ∃ G, has_gradient (edim E) (poly r) G.
Proof.
  intros Hr. destruct E; cbn [edim degree] in *.
  - destruct (normal_1 r Hr) as (A & B & N). exists (λ _ _, B). intros y j Hj. assert (j = 0) as -> by lia.
    apply (partial_ext (affine A B 0)); [intros; by rewrite N|]. apply (quad_lim _ _ (affine A B 0 y) B 0). intros t. unfold num, affine, with_component. cbn. ring.
  - destruct (normal_2 r Hr) as (A & B & C & N). exists (λ _ i, match i with 0 => B | _ => C end). intros y j Hj.
    apply (partial_ext (affine A B C)); [intros; by rewrite N|]. destruct j as [|[|j]]; [| |lia].
    + apply (quad_lim _ _ (affine A B C y) B 0). intros t. unfold num, affine, with_component. cbn. ring.
    + apply (quad_lim _ _ (affine A B C y) C 0). intros t. unfold num, affine, with_component. cbn. ring.
  - destruct (normal_3 r Hr) as (A & B & C & D & F & G & N).
    exists (λ y i, match i with 0 => B + 2 * D * y 0%nat + F * y 1%nat | _ => C + F * y 0%nat + 2 * G * y 1%nat end)%R. intros y j Hj.
    apply (partial_ext (quadratic A B C D F G)); [intros; by rewrite N|]. destruct j as [|[|j]]; [| |lia].
    + apply (quad_lim _ _ (quadratic A B C D F G y) _ D). intros t. unfold num, quadratic, with_component. cbn. ring.
    + apply (quad_lim _ _ (quadratic A B C D F G y) _ G). intros t. unfold num, quadratic, with_component. cbn. ring.
Qed.
