(* C50: quadrature rules (lib/mito/quadrature). Scalars are real numbers (no
   rounding): the literals of the tables stand for the decimal numbers written in the source. *)
From Coq Require Import Reals List Bool Arith Lia Lra Permutation FunctionalExtensionality.
From Verif Require Import Base M_Tensor M_Geometry S_Geometry P_Volume.
From Verif Require Import M_Functions M_Quadrature S_Quadrature P_Quadrature P_Integrator.
Import ListNotations.
Open Scope R_scope.

(* ------------------------------------------------------------------------------------------- *)
(* C50 *)

Lemma table_accurate N r q : quadrature_table N r = Some q -> accurate N r q (tolerance N r).
Proof.
  intros H. destruct N as [|[|[|[|N]]]]; destruct r as [|[|[|[|[|r]]]]];
    try discriminate H; injection H as <-.
  - exact segment_1_exact.
  - intros es L S. apply segment_2_accurate; [exact L|lia].
  - exact triangle_1_exact.
  - exact triangle_2_exact.
  - exact triangle_3_accurate.
  - exact triangle_4_accurate.
  - exact tetrahedron_1_exact.
  - exact tetrahedron_2_accurate.
Qed.

(* Polynomials have an integral over the reference simplex, and only one. *)
Theorem C50_integrals D r p :
  of_degree D r p -> exists v, reference_integral D (poly p) v /\
    forall u, reference_integral D (poly p) u -> u = v.
Proof.
  intros H. exists (total (map (fun t => fst t * dirichlet (snd t)) p)).
  assert (E := poly_integral D r p H). split; [exact E|].
  intros u Hu. exact (is_integral_unique D 1 _ _ _ Rle_0_1 Hu E).
Qed.

(* Every table integrates the polynomials of its degree: exactly when its entries are fractions, and
   with an error below the tolerance times the sum of the coefficients when they are decimals. *)
Theorem C50_tables N r q p v :
  quadrature_table N r = Some q -> of_degree N r p -> reference_integral N (poly p) v ->
  Rabs (quadrature N q (poly p) - v) <= tolerance N r * S_Quadrature.size p.
Proof.
  intros Hq Hp Hv. exact (poly_error N r q _ p v (table_accurate N r q Hq) Hp Hv).
Qed.
Theorem C50_exact N r q p v :
  quadrature_table N r = Some q -> In (N, r) [(1, 1); (2, 1); (2, 2); (3, 1)]%nat ->
  of_degree N r p -> reference_integral N (poly p) v ->
  quadrature N q (poly p) = v.
Proof.
  intros Hq HN Hp Hv. pose proof (C50_tables N r q p v Hq Hp Hv) as H.
  assert (Z : tolerance N r = 0).
  { destruct HN as [E|[E|[E|[E|[]]]]]; injection E as <- <-; reflexivity. }
  rewrite Z, Rmult_0_l in H.
  destruct (Req_dec (quadrature N q (poly p) - v) 0) as [e|e]; [lra|].
  pose proof (Rabs_pos_lt _ e). lra.
Qed.
(* The two-point rule on segments is good for degree three too. *)
Theorem C50_segment_degree_3 p v :
  of_degree 1 3 p -> reference_integral 1 (poly p) v ->
  Rabs (quadrature 1 segment_2 (poly p) - v) <= 1 / 10 ^ 15 * S_Quadrature.size p.
Proof. intros Hp Hv. exact (poly_error 1 3 segment_2 _ p v segment_2_accurate Hp Hv). Qed.

Lemma single_term N q es :
  Rabs (quadrature N q (poly [(1, es)]) - total (map (fun t => fst t * dirichlet (snd t)) [(1, es)]))
  = Rabs (quadrature N q (monomial es) - dirichlet es).
Proof.
  f_equal. change (poly [(1, es)]) with (fun x => 1 * monomial es x + 0).
  rewrite quadrature_plus, quadrature_scal, quadrature_zero. unfold total. cbn [map fold_right fst snd]. ring.
Qed.
(* The tables for r do not reach degree r + 1 (two on segments: r + 2): the degree is the right
   one. *)
Theorem C50_not_more N r q :
  quadrature_table N r = Some q -> (N, r) <> (1, 2)%nat ->
  exists p v, of_degree N (r + 1) p /\ S_Quadrature.size p = 1 /\ reference_integral N (poly p) v /\
    1 / 10 ^ 4 <= Rabs (quadrature N q (poly p) - v).
Proof.
  intros H Hne.
  destruct N as [|[|[|[|N]]]]; destruct r as [|[|[|[|[|r]]]]]; try discriminate H; injection H as <-;
    try (exfalso; apply Hne; reflexivity).
  all: match goal with |- exists p v, of_degree ?N ?r p /\ _ =>
         exists [(1, r :: repeat 0%nat (N - 1))] end.
  all: eexists; split; [repeat constructor; simpl; lia|]; split;
    [unfold S_Quadrature.size, total; simpl; rewrite Rabs_R1; ring|]; split.
  all: try (eapply poly_integral; repeat constructor; simpl; lia).
  all: match goal with |- _ <= Rabs (quadrature ?N ?q (poly [(1, ?es)]) - total _) =>
         rewrite (single_term N q es) end.
  all: match goal with
       | |- _ <= Rabs (quadrature 2 triangle_3 (monomial ?es) - _) =>
           rewrite (same_rule_ok 2 _ _ es triangle_3_same eq_refl);
           apply Rle_trans with (IZR 1 / IZR 10000); [lra|];
           apply above_ok; [reflexivity|reflexivity|vm_compute; reflexivity]
       | |- _ <= Rabs (quadrature 2 triangle_4 (monomial ?es) - _) =>
           rewrite (same_rule_ok 2 _ _ es triangle_4_same eq_refl);
           apply Rle_trans with (IZR 1 / IZR 10000); [lra|];
           apply above_ok; [reflexivity|reflexivity|vm_compute; reflexivity]
       | |- _ <= Rabs (quadrature 3 tetrahedron_2 (monomial ?es) - _) =>
           rewrite (same_rule_ok 3 _ _ es tetrahedron_2_same eq_refl);
           apply Rle_trans with (IZR 1 / IZR 10000); [lra|];
           apply above_ok; [reflexivity|reflexivity|vm_compute; reflexivity]
       | _ => idtac
       end.
  all: unfold quadrature, area, dirichlet, facts, poly, total; cbn.
  all: match goal with |- _ <= Rabs ?x =>
         first [ (assert (x < 0) by lra; rewrite Rabs_left by assumption; lra)
               | (assert (0 <= x) by lra; rewrite Rabs_pos_eq by assumption; lra) ] end.
Qed.

(* The points are in the reference simplex and the weights are positive and sum to one (within
   1e-23 in the table for triangles with r = 4, 1e-34 with r = 3). *)
Theorem C50_points N r q :
  quadrature_table N r = Some q ->
  (forall x w, In (x, w) q -> in_reference N x /\ 0 < w) /\
  Rabs (total (map snd q) - 1) <= tolerance N r * 10.
Proof.
  intros H. split.
  - intros x w HI. unfold in_reference.
    destruct N as [|[|[|[|N]]]]; destruct r as [|[|[|[|[|r]]]]]; try discriminate H; injection H as <-;
      cbn in HI;
      repeat match type of HI with
      | _ \/ _ => destruct HI as [HI|HI]
      | False => destruct HI
      end; injection HI as <- <-; cbn;
      (split; [split; [|lra]; intros i Hi; destruct i as [|[|[|i]]]; try lia; simpl; lra | lra]).
  - destruct N as [|[|[|[|N]]]]; destruct r as [|[|[|[|[|r]]]]]; try discriminate H; injection H as <-;
      unfold total; cbn; apply Rabs_le; lra.
Qed.

(* 3 x^2 + x y on the unit triangle, x on the unit tetrahedron. *)
Example triangle_sample : of_degree 2 2 [(3, [2; 0]%nat); (1, [1; 1]%nat)] /\
  quadrature 2 triangle_2 (poly [(3, [2; 0]%nat); (1, [1; 1]%nat)]) = 7 / 24.
Proof.
  split; [repeat constructor|].
  unfold quadrature, area, poly, triangle_2, total, vec2. cbn. lra.
Qed.
Example triangle_sample_integral : reference_integral 2 (poly [(3, [2; 0]%nat); (1, [1; 1]%nat)]) (7 / 24).
Proof.
  destruct triangle_sample as [Hp Hq]. destruct (C50_integrals 2 2 _ Hp) as (v & Hv & _).
  rewrite <- Hq.
  rewrite (C50_exact 2 2 triangle_2 _ v eq_refl (or_intror (or_intror (or_introl eq_refl))) Hp Hv).
  exact Hv.
Qed.
Example tetrahedron_sample : of_degree 3 1 [(1, [1; 0; 0]%nat)] /\
  quadrature 3 tetrahedron_1 (poly [(1, [1; 0; 0]%nat)]) = 1 / 24.
Proof.
  split; [repeat constructor|].
  unfold quadrature, area, poly, tetrahedron_1, total, vec3. cbn. lra.
Qed.

Print Assumptions C50_integrals.
Print Assumptions C50_tables.
Print Assumptions C50_exact.
Print Assumptions C50_segment_degree_3.
Print Assumptions C50_not_more.
Print Assumptions C50_points.
