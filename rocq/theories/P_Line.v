(* The loads of linear segments: an integration by parts. *)
From Coq Require Import Reals List Arith Lia Lra.
From Coquelicot Require Import Rbar Hierarchy Derive AutoDerive RInt RInt_analysis Continuity.
From Verif Require Import Base M_Tensor M_Geometry S_Geometry P_Volume.
From Verif Require Import M_Functions P_Functions M_Quadrature S_Quadrature P_Quadrature P_Integrator.
From Verif Require Import M_Fem S_Fem P_Fem P_FemBlocks P_FemNorms Properties_Fem S_Poisson.
Import ListNotations.
Open Scope R_scope.

Lemma poly_at (po : polynomial) s x y : of_degree 1 s po -> x 0%nat = y 0%nat -> poly po x = poly po y.
Proof.
  intros H Hxy. unfold poly. apply total_map_ext. intros [c es] HI. unfold of_degree in H. rewrite Forall_forall in H.
  destruct (H _ HI) as [L _]. cbn [fst snd] in *. f_equal. apply monomial_ext. intros i Hi. rewrite L in Hi.
  destruct i; [exact Hxy|lia].
Qed.
Lemma poly_continuous (po : polynomial) s (t : R) : of_degree 1 s po -> continuous (fun t : R => poly po (vec1 t)) t.
Proof.
  intros H. induction po as [|[c es] po IH].
  - apply continuous_ext with (fun _ : R => 0); [reflexivity|]. apply continuous_const.
  - inversion H as [|? ? [L _] H']. subst. cbn [fst snd] in *.
    apply continuous_ext with (fun t : R => plus (scal c (t ^ nth 0 es 0%nat)) (poly po (vec1 t))).
    { intros x. rewrite poly_cons. cbn [fst snd]. destruct es as [|n [|m es]]; try discriminate L.
      cbn [monomial nth]. unfold vec1 at 2. cbn. unfold plus, scal. cbn. unfold mult. cbn. ring. }
    apply (continuous_plus (fun x : R => scal c (x ^ nth 0 es 0%nat)) (fun x : R => poly po (vec1 x))).
    + apply (continuous_scal_r c (fun x : R => x ^ nth 0 es 0%nat)). apply pow_continuous. apply continuous_id.
    + exact (IH H').
Qed.

(* The integral of the source with a shape function, when the source is minus the second derivative of [U]. *)
Section parts.
  Context (po : polynomial) (s : nat) (U U' : R -> R) (Hpo : of_degree 1 s po).
  Context (H1 : forall t, is_derive U t (U' t)) (H2 : forall t, is_derive U' t (- poly po (vec1 t))).
  Context (x0 x1 : R) (Hx : x0 < x1).

  Lemma parts_RInt (A B : R) :
    is_RInt (fun t => poly po (vec1 ((1 - t) * x0 + t * x1)) * (A + B * t) * (x1 - x0)) 0 1
      ((- U' x1 * (A + B) + U x1 * (B / (x1 - x0))) - (- U' x0 * A + U x0 * (B / (x1 - x0)))).
  Proof.
    set (h := x1 - x0). set (X := fun t : R => (1 - t) * x0 + t * x1).
    assert (HX : forall t, is_derive X t h). { intros t. unfold X. auto_derive; [exact I|]. unfold h. ring. }
    set (F := fun t : R => - U' (X t) * (A + B * t) + U (X t) * (B / h)).
    replace (_ - _) with (minus (F 1) (F 0)).
    2:{ unfold F, X, minus, plus, opp. cbn. replace ((1 - 1) * x0 + 1 * x1) with x1 by ring.
        replace ((1 - 0) * x0 + 0 * x1) with x0 by ring. replace (A + B * 1) with (A + B) by ring.
        replace (A + B * 0) with A by ring. ring. }
    apply (is_RInt_derive F).
    - intros t _. unfold F. cbv beta. change ((1 - t) * x0 + t * x1) with (X t).
      assert (Hh : h <> 0) by (unfold h; lra).
      assert (D1 : is_derive (fun t => U (X t)) t (h * U' (X t))) by (apply (is_derive_comp U X t); [apply H1|apply HX]).
      assert (D2 : is_derive (fun t => U' (X t)) t (h * - poly po (vec1 (X t)))) by (apply (is_derive_comp U' X t); [apply H2|apply HX]).
      replace (poly po (vec1 (X t)) * (A + B * t) * h)
        with (plus (plus (mult (- (h * - poly po (vec1 (X t)))) (A + B * t)) (mult (- U' (X t)) B)) (mult (h * U' (X t)) (B / h)))
        by (unfold plus, mult; cbn; field; exact Hh).
      apply (is_derive_plus (fun t : R => - U' (X t) * (A + B * t)) (fun t : R => U (X t) * (B / h))).
      + apply (is_derive_mult (fun t : R => - U' (X t)) (fun t : R => A + B * t)).
        * apply (is_derive_opp (fun t => U' (X t)) t _ D2).
        * auto_derive; [exact I|ring].
      + replace (mult (h * U' (X t)) (B / h)) with (scal (B / h) (h * U' (X t))) by (unfold scal, mult; cbn; unfold mult; cbn; ring).
        apply (is_derive_ext (fun t => scal (B / h) (U (X t)))); [intros; unfold scal; cbn; unfold mult; cbn; ring|].
        apply (is_derive_scal (fun t => U (X t)) t (B / h) _ D1).
    - intros t _.
      apply (continuous_mult (fun t : R => poly po (vec1 (X t)) * (A + B * t)) (fun _ : R => h)); [|apply continuous_const].
      apply (continuous_mult (fun t : R => poly po (vec1 (X t))) (fun t : R => A + B * t)).
      + apply (continuous_comp X (fun y : R => poly po (vec1 y))).
        * apply (ex_derive_continuous X). exists h. apply HX.
        * apply (poly_continuous po s). exact Hpo.
      + apply (ex_derive_continuous (fun t : R => A + B * t)). auto_derive. exact I.
  Qed.

  Lemma source_parts (e : element Seg1) corners q : made e corners ->
    nth 0 corners vzero 0%nat = x0 -> nth 1 corners vzero 0%nat = x1 -> exact_to 1 (s + 1) q ->
    source_term_block q (poly po) e 0%nat = U' x0 - (U x1 - U x0) / (x1 - x0) /\
    source_term_block q (poly po) e 1%nat = - U' x1 + (U x1 - U x0) / (x1 - x0).
  Proof.
    intros Hm E0 E1 Hq. destruct (made_shape e corners Hm) as [_ I].
    assert (L : length corners = 2%nat) by (destruct Hm as (? & ? & ? & _ & _ & L); exact L).
    destruct corners as [|c0 [|c1 [|? ?]]]; try discriminate L. cbn [nth] in E0, E1.
    assert (V : simplex_volume [c0; c1] = x1 - x0).
    { unfold simplex_volume, det_vecs, vsub. cbn. rewrite <- E0, <- E1. unfold Rdiv. rewrite Rinv_1. ring. }
    assert (G : forall a A B, (forall p, phi Seg1 a p = A + B * p 0%nat) ->
      source_term_block q (poly po) e a =
        (- U' x1 * (A + B) + U x1 * (B / (x1 - x0))) - (- U' x0 * A + U x0 * (B / (x1 - x0)))).
    { intros a A B P. apply (C51_source_exact e [c0; c1] q po s a _ Hm Hpo Hq).
      unfold element_integral, reference_integral. cbn [edim is_integral].
      exists (fun t => poly po (vec1 ((1 - t) * x0 + t * x1)) * (A + B * t) * (x1 - x0)). split; [|apply parts_RInt].
      intros t _. rewrite P, V. unfold area. cbn. f_equal; [f_equal|lra].
      apply (poly_at po s); [exact Hpo|]. rewrite I. cbn. rewrite E0, E1. reflexivity. }
    split.
    - rewrite (G 0%nat 1 (-1)); [field; lra|]. intros p. rewrite phi_value. cbn. ring.
    - rewrite (G 1%nat 0 1); [field; lra|]. intros p. rewrite phi_value. cbn. ring.
  Qed.
End parts.

Lemma segment_stiffness (e : element Seg1) corners q (u v : nat -> R) : made e corners -> 0 < simplex_volume corners ->
  exact_to 1 0 q ->
  let x k := nth k corners vzero 0%nat in
  x 0%nat < x 1%nat /\
  simplex_volume corners * total (map (fun pw => snd pw * dot (edim Seg1) (gradient_of u e (fst pw)) (gradient_of v e (fst pw))) q)
  = (u (connectivity e 1) - u (connectivity e 0)) * (v (connectivity e 1) - v (connectivity e 0)) / (x 1%nat - x 0%nat).
Proof.
  intros Hm Hv Hq x.
  assert (L : length corners = 2%nat) by (destruct Hm as (? & ? & ? & _ & _ & L); exact L).
  assert (V : simplex_volume corners = x 1%nat - x 0%nat).
  { unfold x. destruct corners as [|c0 [|c1 [|? ?]]]; try discriminate L. unfold simplex_volume, det_vecs, vsub. cbn.
    unfold Rdiv. rewrite Rinv_1. ring. }
  split; [lra|].
  assert (W : total (map snd q) = 1).
  { assert (Q := Hq [(1, [0%nat])] 1). unfold quadrature, area in Q. cbn [fact INR] in Q.
    rewrite (total_map_ext (fun pw => snd pw * poly [(1, [0%nat])] (fst pw)) snd) in Q
      by (intros; unfold poly, total; cbn; ring).
    rewrite <- Q.
    - cbn. field.
    - constructor; [|constructor]. cbn. lia.
    - exists (fun _ => 1). split.
      + intros t _. cbn. unfold poly, total. cbn. ring.
      + replace 1 with (scal (1 - 0) 1) at 2 by (unfold scal; cbn; unfold mult; cbn; ring). apply (is_RInt_const (V := R_NormedModule)). }
  rewrite (total_map_ext _ (fun pw => ((u (connectivity e 1) - u (connectivity e 0)) / (x 1%nat - x 0%nat)
    * ((v (connectivity e 1) - v (connectivity e 0)) / (x 1%nat - x 0%nat))) * snd pw)).
  - rewrite total_map_scal, V, W. field. lra.
  - intros pw _. unfold dot, gradient_of. cbn [edim rsum n_nodes].
    rewrite !(made_gradient e corners Hm) by (cbn; lia). cbn. unfold x. field. unfold x in *; lra.
Qed.
