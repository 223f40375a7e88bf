From Coq Require Import Reals List Bool Arith Lia Lra FunctionalExtensionality.
From Verif Require Import Base M_Tensor M_Geometry S_Geometry P_Volume.
From Verif Require Import M_Functions S_Functions P_Functions M_Quadrature S_Quadrature P_Quadrature P_Integrator.
From Verif Require Import M_Fem S_Fem.
Import ListNotations.
Open Scope R_scope.

Definition phis (E : element_type) (p : vec) : list R :=
  let x := p 0%nat in let y := p 1%nat in
  match E with
  | Seg1 => [1 - x; x]
  | Tri1 => [x; y; 1 - x - y]
  | Tri2 => let z := 1 - x - y in
      [x * (2 * x - 1); y * (2 * y - 1); z * (2 * z - 1); 4 * x * y; 4 * y * z; 4 * x * z]
  end.
Definition dphis (E : element_type) (p : vec) : list (R * R) :=
  let x := p 0%nat in let y := p 1%nat in
  match E with
  | Seg1 => [(-1, 0); (1, 0)]
  | Tri1 => [(1, 0); (0, 1); (-1, -1)]
  | Tri2 => let z := 1 - x - y in
      [(4 * x - 1, 0); (0, 4 * y - 1); (1 - 4 * z, 1 - 4 * z); (4 * y, 4 * x); (- 4 * y, 4 * (z - y));
       (4 * (z - x), - 4 * x)]
  end.
Lemma phi_value E a p : phi E a p = nth a (phis E p) 0.
Proof.
  unfold phi. destruct E; do 7 (try destruct a as [|a]); cbn; unfold num, zero_; try reflexivity; lra.
Qed.
Lemma dshape_some E a : exists g, dshape E a = Some g.
Proof.
  destruct E; do 7 (try destruct a as [|a]); cbn; eexists; reflexivity.
Qed.
Lemma dshape_value E a p i : (i < edim E)%nat ->
  call (dshape E a) p i = let d := nth a (dphis E p) (0, 0) in match i with O => fst d | _ => snd d end.
Proof.
  intros H. destruct E; cbn [edim] in H; (destruct i as [|[|i]]; [| |lia]); try lia;
    do 7 (try destruct a as [|a]); cbn; unfold num, zero_, unit_; cbn; try reflexivity; lra.
Qed.

Lemma made_shape {E} (e : element E) corners : made e corners ->
  (forall k i, vertex e k i = nth k corners vzero i) /\
  (forall p i, image e p i = match E with
     | Seg1 => (1 - p 0%nat) * nth 0 corners vzero i + p 0%nat * nth 1 corners vzero i
     | _ => p 0%nat * nth 0 corners vzero i + p 1%nat * nth 1 corners vzero i
            + (1 - p 0%nat - p 1%nat) * nth 2 corners vzero i
     end).
Proof.
  intros (cs & cell & nodes & H & HP & L). unfold make_element in H.
  rewrite (all_coordinates_ok _ _ _ HP) in H. cbn [rbind] in H.
  assert (V : forall k i, csub (Cartesian (edim E)) (nth k corners vzero) origin i = nth k corners vzero i).
  { intros k i. cbn. unfold origin, vzero. ring. }
  pose proof (placed_length _ _ _ HP) as Lc. rewrite L in Lc. unfold image. destruct E.
  - injection H as <-. cbn [vertex mapping]. split; [exact V|]. intros p i. cbn. unfold num, origin, vzero, Q2R. cbn. field.
  - destruct cell as [|p0 [|p1 [|p2 [|p3 cell]]]]; try discriminate H.
    destruct (parametrization_ok 2 cs [p0; p1; p2] corners HP ltac:(discriminate)) as (F & EF).
    rewrite EF in H. cbn [rbind] in H. injection H as <-. cbn [vertex mapping]. split; [exact V|].
    intros p i. rewrite (eval_parametrization (Cartesian 2) cs [p0; p1; p2] corners F HP EF).
    destruct corners as [|c0 [|c1 [|c2 [|c3 corners]]]]; try discriminate L.
    unfold barycentric, combo. cbn. unfold origin, vzero. ring.
  - destruct cell as [|p0 [|p1 [|p2 [|p3 cell]]]]; try discriminate H.
    destruct (parametrization_ok 2 cs [p0; p1; p2] corners HP ltac:(discriminate)) as (F & EF).
    rewrite EF in H. cbn [rbind] in H. injection H as <-. cbn [vertex mapping]. split; [exact V|].
    intros p i. rewrite (eval_parametrization (Cartesian 2) cs [p0; p1; p2] corners F HP EF).
    destruct corners as [|c0 [|c1 [|c2 [|c3 corners]]]]; try discriminate L.
    unfold barycentric, combo. cbn. unfold origin, vzero. ring.
Qed.

Lemma made_jacobian {E} (e : element E) corners : made e corners ->
  forall p i j, (i < edim E)%nat -> (j < edim E)%nat ->
  element_jacobian e p i j = match E with
    | Seg1 => nth 1 corners vzero 0%nat - nth 0 corners vzero 0%nat
    | _ => nth j corners vzero i - nth 2 corners vzero i
    end.
Proof.
  intros H p i j Hi Hj. destruct (made_shape e corners H) as [V _].
  assert (D0 : forall a k, (k < edim E)%nat -> call (dshape E a) p k
    = let d := nth a (dphis E p) (0, 0) in match k with O => fst d | _ => snd d end)
    by (intros; apply dshape_value; assumption).
  destruct E; cbn [edim] in *.
  - unfold element_jacobian, dot, rsum. rewrite !D0, !V by lia. cbn. ring.
  - unfold element_jacobian, madd, dyadic. rewrite !D0, !V by lia.
    destruct j as [|[|j]]; [| |lia]; cbn; ring.
  - unfold element_jacobian, madd, dyadic, vscale, vadd. rewrite !D0, !V by lia.
    destruct j as [|[|j]]; [| |lia]; cbn; lra.
Qed.

Lemma made_determinant {E} (e : element E) corners : made e corners ->
  forall p, mdet (edim E) (element_jacobian e p) = simplex_volume corners / area (edim E).
Proof.
  intros H p. pose proof (made_jacobian e corners H p) as J.
  assert (L : length corners = S (edim E)) by (destruct H as (? & ? & ? & _ & _ & L); exact L).
  destruct E; cbn [edim] in *;
    [destruct corners as [|c0 [|c1 [|c2 corners]]]; try discriminate L
    |destruct corners as [|c0 [|c1 [|c2 [|c3 corners]]]]; try discriminate L
    |destruct corners as [|c0 [|c1 [|c2 [|c3 corners]]]]; try discriminate L];
    cbn [mdet]; unfold det1, det2; rewrite !J by lia;
    unfold simplex_volume, det_vecs, vsub, area; cbn; lra.
Qed.

Definition jac2 (corners : list vec) : R :=
  let c k := nth k corners vzero in
  (c 0%nat 0%nat - c 2%nat 0%nat) * (c 1%nat 1%nat - c 2%nat 1%nat)
  - (c 1%nat 0%nat - c 2%nat 0%nat) * (c 0%nat 1%nat - c 2%nat 1%nat).

Lemma made_gradient {E} (e : element E) corners : made e corners ->
  forall a p j, (j < edim E)%nat ->
  element_gradient e a p j =
    let d := nth a (dphis E p) (0, 0) in
    let c k := nth k corners vzero in
    match E with
    | Seg1 => fst d / (c 1%nat 0%nat - c 0%nat 0%nat)
    | _ => match j with
           | O => (fst d * (c 1%nat 1%nat - c 2%nat 1%nat) - snd d * (c 0%nat 1%nat - c 2%nat 1%nat)) / jac2 corners
           | _ => (snd d * (c 0%nat 0%nat - c 2%nat 0%nat) - fst d * (c 1%nat 0%nat - c 2%nat 0%nat)) / jac2 corners
           end
    end.
Proof.
  intros H a p j Hj. pose proof (made_jacobian e corners H p) as J.
  unfold element_gradient.
  assert (D0 : forall a k, (k < edim E)%nat -> call (dshape E a) p k
    = let d := nth a (dphis E p) (0, 0) in match k with O => fst d | _ => snd d end)
    by (intros; apply dshape_value; assumption).
  destruct E; cbn [edim] in *; unfold minv, rsum.
  - unfold det1. rewrite !D0, !J by lia. cbn. unfold Rdiv. ring.
  - unfold det1, det2, minor. rewrite !D0 by lia.
    destruct j as [|[|j]]; [| |lia]; cbn [skip Nat.ltb Nat.leb]; rewrite !J by (cbn; lia); unfold jac2; cbn; unfold Rdiv; ring.
  - unfold det1, det2, minor. rewrite !D0 by lia.
    destruct j as [|[|j]]; [| |lia]; cbn [skip Nat.ltb Nat.leb]; rewrite !J by (cbn; lia); unfold jac2; cbn; unfold Rdiv; ring.
Qed.

(* Polynomials of the degrees of the elements. *)
Lemma poly_cons' a es p x : poly ((a, es) :: p) x = a * monomial es x + poly p x.
Proof. reflexivity. Qed.
Definition affine (A B C : R) (x : vec) : R := A + B * x 0%nat + C * x 1%nat.
Definition quadratic (A B C D E F : R) (x : vec) : R :=
  A + B * x 0%nat + C * x 1%nat + D * (x 0%nat * x 0%nat) + E * (x 0%nat * x 1%nat) + F * (x 1%nat * x 1%nat).
Lemma normal_1 p : of_degree 1 1 p -> exists A B, forall x, poly p x = affine A B 0 x.
Proof.
  induction 1 as [|[a es] p [L S] Hp (A & B & E)]; [exists 0, 0; intros x; unfold poly, total, affine; simpl; ring|].
  cbn [snd] in L, S. destruct es as [|e [|e' es]]; try discriminate L. cbn in S.
  destruct e as [|[|e]]; [exists (A + a), B|exists A, (B + a)|lia]; intros x; rewrite poly_cons', E;
    unfold affine; cbn; ring.
Qed.
Lemma normal_2 p : of_degree 2 1 p -> exists A B C, forall x, poly p x = affine A B C x.
Proof.
  induction 1 as [|[a es] p [L S] Hp (A & B & C & E)]; [exists 0, 0, 0; intros x; unfold poly, total, affine; simpl; ring|].
  cbn [snd] in L, S. destruct es as [|e [|f [|e' es]]]; try discriminate L. cbn in S.
  destruct e as [|[|e]]; destruct f as [|[|f]]; try lia;
    [exists (A + a), B, C|exists A, B, (C + a)|exists A, (B + a), C]; intros x; rewrite poly_cons', E;
    unfold affine; cbn; ring.
Qed.
Lemma normal_3 p : of_degree 2 2 p -> exists A B C D E F, forall x, poly p x = quadratic A B C D E F x.
Proof.
  induction 1 as [|[a es] p [L S] Hp (A & B & C & D & E & F & H)];
    [exists 0, 0, 0, 0, 0, 0; intros x; unfold poly, total, quadratic; simpl; ring|].
  cbn [snd] in L, S. destruct es as [|e [|f [|e' es]]]; try discriminate L. cbn in S.
  destruct e as [|[|[|e]]]; destruct f as [|[|[|f]]]; try lia;
    [exists (A + a), B, C, D, E, F|exists A, B, (C + a), D, E, F|exists A, B, C, D, E, (F + a)
    |exists A, (B + a), C, D, E, F|exists A, B, C, D, (E + a), F|exists A, B, C, (D + a), E, F];
    intros x; rewrite poly_cons', H; unfold quadratic; cbn; ring.
Qed.

Lemma quad_lim (f : R -> R) t0 c0 c1 c2 :
  (forall t, f t = c0 + c1 * (t - t0) + c2 * ((t - t0) * (t - t0))) -> derivable_pt_lim f t0 c1.
Proof.
  intros H eps He.
  exists (mkposreal (eps / (Rabs c2 + 1))
    ltac:(apply Rdiv_lt_0_compat; [exact He | pose proof (Rabs_pos c2); lra])).
  intros h Hh Hb. cbn in Hb. rewrite !H.
  replace ((c0 + c1 * (t0 + h - t0) + c2 * ((t0 + h - t0) * (t0 + h - t0))
    - (c0 + c1 * (t0 - t0) + c2 * ((t0 - t0) * (t0 - t0)))) / h - c1) with (c2 * h) by (field; exact Hh).
  rewrite Rabs_mult. pose proof (Rabs_pos c2) as P.
  apply Rle_lt_trans with ((Rabs c2 + 1) * Rabs h); [apply Rmult_le_compat_r; [apply Rabs_pos|lra]|].
  apply (Rmult_lt_compat_l (Rabs c2 + 1)) in Hb; [|lra].
  replace ((Rabs c2 + 1) * (eps / (Rabs c2 + 1))) with eps in Hb by (field; lra). exact Hb.
Qed.

Lemma partial_affine A B C x j l : partial (affine A B C) j x l -> (j < 2)%nat ->
  l = match j with O => B | _ => C end.
Proof.
  intros H Hj. unfold partial, is_partial in H.
  eapply uniqueness_limite; [exact H|].
  destruct j as [|[|j]]; [| |lia]; cbn.
  - apply (quad_lim _ _ (affine A B C x) B 0). intros t. unfold num, affine, with_component. cbn. ring.
  - apply (quad_lim _ _ (affine A B C x) C 0). intros t. unfold num, affine, with_component. cbn. ring.
Qed.
Lemma partial_quadratic A B C D E F x j l : partial (quadratic A B C D E F) j x l -> (j < 2)%nat ->
  l = match j with
      | O => B + 2 * D * x 0%nat + E * x 1%nat
      | _ => C + E * x 0%nat + 2 * F * x 1%nat
      end.
Proof.
  intros H Hj. unfold partial, is_partial in H.
  eapply uniqueness_limite; [exact H|].
  destruct j as [|[|j]]; [| |lia]; cbn.
  - apply (quad_lim _ _ (quadratic A B C D E F x) _ D). intros t. unfold num, quadratic, with_component. cbn. ring.
  - apply (quad_lim _ _ (quadratic A B C D E F x) _ F). intros t. unfold num, quadratic, with_component. cbn. ring.
Qed.
Lemma partial_ext f g j x l : (forall y, f y = g y) -> partial f j x l -> partial g j x l.
Proof.
  intros E H eps He. destruct (H eps He) as (d & Hd). exists d. intros h Hh Hb.
  specialize (Hd h Hh Hb). unfold num in *. rewrite <- !E. exact Hd.
Qed.

(* Interpolation of polynomials of the degree of the element. *)
Lemma interpolation {E} (e : element E) corners p x : made e corners ->
  of_degree (edim E) (degree E) p ->
  interpolant E (fun a => poly p (node E corners a)) x = poly p (image e x).
Proof.
  intros H Hp. destruct (made_shape e corners H) as [_ I].
  destruct E; cbn [edim degree] in Hp; unfold interpolant; cbn [n_nodes rsum].
  - destruct (normal_1 p Hp) as (A & B & N). rewrite !N, !phi_value. unfold affine. rewrite !I. cbn. ring.
  - destruct (normal_2 p Hp) as (A & B & C & N). rewrite !N, !phi_value. unfold affine. rewrite !I. cbn. ring.
  - destruct (normal_3 p Hp) as (A & B & C & D & F & G & N). rewrite !N, !phi_value. unfold quadratic. rewrite !I.
    cbn. unfold middle. field.
Qed.

Lemma interpolation_reference E p x : of_degree (edim E) (degree E) p ->
  interpolant E (fun a => poly p (reference_node E a)) x = poly p x.
Proof.
  intros Hp.
  destruct E; cbn [edim degree] in Hp; unfold interpolant; cbn [n_nodes rsum].
  - destruct (normal_1 p Hp) as (A & B & N). rewrite !N, !phi_value. unfold affine. cbn. ring.
  - destruct (normal_2 p Hp) as (A & B & C & N). rewrite !N, !phi_value. unfold affine. cbn. ring.
  - destruct (normal_3 p Hp) as (A & B & C & D & F & G & N). rewrite !N, !phi_value. unfold quadratic.
    cbn. field.
Qed.

Lemma jac_nonzero {E} (e : element E) corners : made e corners -> simplex_volume corners <> 0 ->
  match E with
  | Seg1 => nth 1 corners vzero 0%nat - nth 0 corners vzero 0%nat <> 0
  | _ => jac2 corners <> 0
  end.
Proof.
  intros H V. assert (L : length corners = S (edim E)) by (destruct H as (? & ? & ? & _ & _ & L); exact L).
  destruct E; cbn [edim] in *;
    [destruct corners as [|c0 [|c1 [|c2 corners]]]; try discriminate L
    |destruct corners as [|c0 [|c1 [|c2 [|c3 corners]]]]; try discriminate L
    |destruct corners as [|c0 [|c1 [|c2 [|c3 corners]]]]; try discriminate L];
    intros Z; apply V; unfold simplex_volume, det_vecs, vsub, jac2 in *; cbn in *; lra.
Qed.

Lemma gradient_interpolation {E} (e : element E) corners p x j l : made e corners ->
  simplex_volume corners <> 0 -> of_degree (edim E) (degree E) p -> (j < edim E)%nat ->
  partial (poly p) j (image e x) l ->
  rsum (n_nodes E) (fun a => poly p (node E corners a) * element_gradient e a x j) = l.
Proof.
  intros H V Hp Hj Hl. pose proof (jac_nonzero e corners H V) as J.
  destruct (made_shape e corners H) as [_ I].
  pose proof (made_gradient e corners H) as G.
  destruct E; cbn [edim degree] in Hp, Hj; cbn [n_nodes rsum].
  - destruct (normal_1 p Hp) as (A & B & N). rewrite !N, !G by (cbn; lia).
    apply (partial_ext _ _ _ _ _ N) in Hl. apply partial_affine in Hl; [|lia]. subst l.
    assert (j = 0%nat) as -> by lia. unfold affine. cbn. field. exact J.
  - destruct (normal_2 p Hp) as (A & B & C & N). rewrite !N, !G by (cbn; lia).
    apply (partial_ext _ _ _ _ _ N) in Hl. apply partial_affine in Hl; [|lia]. subst l.
    unfold jac2 in *. destruct j as [|[|j]]; [| |lia]; unfold affine; cbn in *; field; exact J.
  - destruct (normal_3 p Hp) as (A & B & C & D & F & K & N). rewrite !N, !G by (cbn; lia).
    apply (partial_ext _ _ _ _ _ N) in Hl. apply partial_quadratic in Hl; [|lia]. subst l.
    rewrite !I. unfold jac2 in *. destruct j as [|[|j]]; [| |lia]; unfold quadratic; cbn in *; unfold middle; field; exact J.
Qed.

(* The gradients in physical space. *)
Lemma physical_gradient {E} (e : element E) corners a x (G : vec -> R) j : made e corners ->
  simplex_volume corners <> 0 -> (j < edim E)%nat ->
  (forall u v, agree (edim E) u v -> G u = G v) ->
  (forall p, G (image e p) = phi E a p) ->
  partial G j (image e x) (element_gradient e a x j).
Proof.
  intros H V Hj GE GP. pose proof (jac_nonzero e corners H V) as J.
  destruct (made_shape e corners H) as [_ I].
  pose proof (made_gradient e corners H a x j Hj) as EG.
  unfold partial, is_partial.
  set (c := fun k => nth k corners vzero) in *.
  set (shift := fun s => match E with
    | Seg1 => vec1 (x 0%nat + s / (c 1%nat 0%nat - c 0%nat 0%nat))
    | _ => match j with
           | O => vec2 (x 0%nat + s * (c 1%nat 1%nat - c 2%nat 1%nat) / jac2 corners)
                       (x 1%nat - s * (c 0%nat 1%nat - c 2%nat 1%nat) / jac2 corners)
           | _ => vec2 (x 0%nat - s * (c 1%nat 0%nat - c 2%nat 0%nat) / jac2 corners)
                       (x 1%nat + s * (c 0%nat 0%nat - c 2%nat 0%nat) / jac2 corners)
           end
    end).
  assert (SH : forall t, G (with_component (image e x) j t) = phi E a (shift (t - image e x j))).
  { intros t. rewrite <- GP. apply GE. intros i Hi. rewrite I. unfold with_component.
    clear GE GP EG. destruct E; cbn [edim] in *.
    - assert (i = 0%nat) as -> by lia. assert (j = 0%nat) as -> by lia.
      cbn. rewrite I. unfold shift, c in *. cbn in *. field. exact J.
    - unfold shift, c in *. unfold jac2 in *. cbn in J.
      destruct i as [|[|i]]; [| |lia]; (destruct j as [|[|j]]; [| |lia]); cbn; rewrite ?I; cbn; field; exact J.
    - unfold shift, c in *. unfold jac2 in *. cbn in J.
      destruct i as [|[|i]]; [| |lia]; (destruct j as [|[|j]]; [| |lia]); cbn; rewrite ?I; cbn; field; exact J. }
  apply (quad_lim _ _ (phi E a x) _ (phi E a (shift 1) - phi E a x - element_gradient e a x j)).
  intros t. unfold num. rewrite SH. set (s := t - image e x j). clearbody s. clear SH GE GP.
  rewrite EG. cbn [fst snd]. rewrite !phi_value. clear EG. unfold shift, c in *. destruct E; cbn [edim] in *.
  - assert (j = 0%nat) as -> by lia. do 3 (try destruct a as [|a]); cbn in *; field; exact J.
  - unfold jac2 in *. cbn in J.
    (destruct j as [|[|j]]; [| |lia]); do 4 (try destruct a as [|a]); cbn; field; exact J.
  - unfold jac2 in *. cbn in J.
    (destruct j as [|[|j]]; [| |lia]); do 7 (try destruct a as [|a]); cbn; field; exact J.
Qed.
