(* The sign of the solutions of the Poisson problem with linear elements. *)
From stdpp Require Import base gmap list sorting.
From Coq Require Import Reals Lra.
From Verif Require Import Base M_Tensor M_Geometry S_Geometry P_Volume.
From Verif Require Import M_Functions P_Functions M_Quadrature S_Quadrature P_Quadrature P_Integrator M_Fem S_Fem P_Fem P_FemBlocks P_FemNorms Properties_Fem.
From Verif Require Import S_Discrete M_System S_System P_System Properties_System P_Galerkin M_Poisson S_Poisson P_Poisson Properties_Poisson S_Maximum.
Local Open Scope nat_scope.

Lemma phi_nonnegative E a p : E ≠ Tri2 → in_reference E p → (0 <= phi E a p)%R.
Proof.
  intros HE Hp. rewrite phi_value. destruct E; [| |done]; cbn in Hp |- *;
    do 4 (try destruct a as [|a]); cbn; lra.
Qed.

Lemma gradients_product {E} (e : element E) corners a b p : made e corners → simplex_volume corners ≠ 0%R → linear_not_obtuse E corners →
  a < n_nodes E → b < n_nodes E → a ≠ b → (dot (edim E) (element_gradient e a p) (element_gradient e b p) <= 0)%R.
Proof.
  intros Hm Hv Ho Ha Hb Hab. unfold dot.
  rewrite (rsum_ext _ _ (λ j, let g a := (let d := nth a (dphis E p) (0, 0)%R in let c k := nth k corners vzero in
    match E with
    | Seg1 => fst d / (c 1%nat 0%nat - c 0%nat 0%nat)
    | _ => match j with
           | O => (fst d * (c 1%nat 1%nat - c 2%nat 1%nat) - snd d * (c 0%nat 1%nat - c 2%nat 1%nat)) / jac2 corners
           | _ => (snd d * (c 0%nat 0%nat - c 2%nat 0%nat) - fst d * (c 1%nat 0%nat - c 2%nat 0%nat)) / jac2 corners
           end
    end)%R in (g a * g b)%R)) by (intros j Hj; by rewrite !(made_gradient e corners Hm) by done).
  assert (Hsq : ∀ z : R, (0 <= / z * / z)%R) by (intros z; apply Rle_0_sqr).
  destruct E; cbn [edim n_nodes linear_not_obtuse rsum] in *; [| |done].
  - assert (L : length corners = 2) by (destruct Hm as (? & ? & ? & _ & _ & L); exact L).
    destruct corners as [|c0 [|c1 [|? ?]]]; try discriminate L.
    assert (X : (0 <= / (c1 0%nat - c0 0%nat) * / (c1 0%nat - c0 0%nat))%R) by apply Hsq.
    destruct a as [|[|a]], b as [|[|b]]; try lia; cbn; unfold Rdiv; lra.
  - assert (X := Hsq (jac2 corners)). set (J := (/ jac2 corners)%R) in *. unfold Rdiv. fold J.
    destruct Ho as (O0 & O1 & O2). unfold corner_product in *.
    assert (Y : ∀ P Q, (P = - (Q * (J * J)) → 0 <= Q → P <= 0)%R) by (intros P Q -> HQ; pose proof (Rmult_le_pos Q _ HQ X); lra).
    destruct a as [|[|[|a]]], b as [|[|[|b]]]; try lia; cbn.
    + refine (Y _ _ _ O2). ring.
    + refine (Y _ _ _ O1). ring.
    + refine (Y _ _ _ O2). ring.
    + refine (Y _ _ _ O0). ring.
    + refine (Y _ _ _ O1). ring.
    + refine (Y _ _ _ O0). ring.
Qed.

Lemma total_minus {A} (f g : A → R) l : S_Geometry.total (map (λ a, f a - g a)%R l) = (S_Geometry.total (map f l) - S_Geometry.total (map g l))%R.
Proof. unfold S_Geometry.total. induction l as [|a l IH]; cbn in *; [lra|]. rewrite IH. lra. Qed.
Lemma integral_minus {E} q (mesh : list (element E * list vec)) g h :
  integral q mesh (λ e p, g e p - h e p)%R = (integral q mesh g - integral q mesh h)%R.
Proof.
  unfold integral. rewrite <- total_minus. apply total_map_ext. intros [e corners] _. cbn [fst snd]. rewrite <- Rmult_minus_distr_l. f_equal.
  rewrite <- total_minus. apply total_map_ext. intros [p w] _. cbn [fst snd]. lra.
Qed.
Lemma stiffness_minus {E} q (mesh : list (element E * list vec)) u u' v w : (∀ p, w p = u p - u' p)%R →
  stiffness q mesh w v = (stiffness q mesh u v - stiffness q mesh u' v)%R.
Proof.
  intros Hw. unfold stiffness. rewrite <- integral_minus. unfold integral. apply total_map_ext. intros [e corners] _. cbn [fst snd]. f_equal.
  apply total_map_ext. intros [p r] _. cbn [fst snd]. f_equal. unfold dot, Rminus. rewrite <- (Rmult_1_l (- _)), <- Ropp_mult_distr_r, Ropp_mult_distr_l, <- rsum_scale, <- rsum_plus.
  apply rsum_ext. intros j _. replace (gradient_of w e p j) with (gradient_of u e p j + - (1) * gradient_of u' e p j)%R; [lra|].
  unfold gradient_of. rewrite <- rsum_scale, <- rsum_plus. apply rsum_ext. intros a _. rewrite Hw. lra.
Qed.
Lemma rsum_nonpositive n f : (∀ k, k < n → (f k <= 0)%R) → (rsum n f <= 0)%R.
Proof. induction n as [|n IH]; intros Hf; cbn; [lra|]. pose proof (Hf n ltac:(lia)). specialize (IH (λ k Hk, Hf k ltac:(lia))). lra. Qed.
Lemma rsum_nonnegative n f : (∀ k, k < n → (0 <= f k)%R) → (0 <= rsum n f)%R.
Proof. induction n as [|n IH]; intros Hf; cbn; [lra|]. pose proof (Hf n ltac:(lia)). specialize (IH (λ k Hk, Hf k ltac:(lia))). lra. Qed.

Section sign.
  Context {E : element_type} (mesh : list (element E * list vec)) (Hmesh : good_mesh mesh).
  Context (Hobtuse : ∀ e corners, (e, corners) ∈ mesh → linear_not_obtuse E corners).
  Context (q : rule) (Hq : ∀ p w, In (p, w) q → (0 <= w)%R) (Hsees : sees_gradients E q).
  Context (constrained : gset nat) (Hheld : held (system mesh.*1) constrained).

  Lemma integral_sign g : (∀ e corners p w, (e, corners) ∈ mesh → In (p, w) q → (0 <= g e p)%R) → (0 <= integral q mesh g)%R.
  Proof.
    intros Hg. apply total_nonneg. intros [e corners] He. cbn [fst snd]. apply Rmult_le_pos; [apply Rlt_le, (Hmesh e corners He)|].
    apply total_nonneg. intros [p w] Hw. apply Rmult_le_pos; [by apply (Hq p)|]. apply (Hg e corners p w); [by apply elem_of_list_In|done].
  Qed.

  (* The product of the positive part and the negative part of a field. *)
  Let pos (u : nat → R) (p : nat) : R := Rmax 0 (u p).
  Let neg (u : nat → R) (p : nat) : R := Rmax 0 (- u p).
  Local Lemma parts u p : u p = (pos u p - neg u p)%R ∧ (0 <= pos u p)%R ∧ (0 <= neg u p)%R ∧ (pos u p * neg u p = 0)%R.
  Proof.
    unfold pos, neg. destruct (Rle_or_lt 0 (u p)) as [Hp|Hp].
    - rewrite (Rmax_right 0 (u p)), (Rmax_left 0 (- u p)) by lra. split_and!; lra.
    - rewrite (Rmax_left 0 (u p)), (Rmax_right 0 (- u p)) by lra. split_and!; lra.
  Qed.

  Lemma stiffness_parts u : (stiffness q mesh (pos u) (neg u) <= 0)%R.
  Proof.
    assert (G : (0 <= integral q mesh (λ e p, - dot (edim E) (gradient_of (pos u) e p) (gradient_of (neg u) e p)))%R).
    { apply integral_sign. intros e corners p w He _. destruct (in_mesh mesh e corners Hmesh He) as [Hm Hv].
      assert (X : dot (edim E) (gradient_of (pos u) e p) (gradient_of (neg u) e p) =
        rsum (n_nodes E) (λ a, rsum (n_nodes E) (λ b, pos u (connectivity e a) * neg u (connectivity e b) *
          dot (edim E) (element_gradient e a p) (element_gradient e b p)))%R).
      { unfold dot, gradient_of.
        transitivity (rsum (edim E) (λ i, rsum (n_nodes E) (λ a, rsum (n_nodes E) (λ b,
          pos u (connectivity e a) * neg u (connectivity e b) * (element_gradient e a p i * element_gradient e b p i))))%R).
        - apply rsum_ext. intros i _. rewrite <- rsum_scale_r. apply rsum_ext. intros a _. rewrite <- rsum_scale. apply rsum_ext. intros b _. lra.
        - rewrite rsum_swap. apply rsum_ext. intros a _. rewrite rsum_swap. apply rsum_ext. intros b _. by rewrite rsum_scale. }
      rewrite X. rewrite <- Ropp_0. apply Ropp_le_contravar. apply rsum_nonpositive. intros a Ha. apply rsum_nonpositive. intros b Hb.
      destruct (decide (a = b)) as [->|Hab].
      - destruct (parts u (connectivity e b)) as (_ & _ & _ & ->). lra.
      - assert (Y := gradients_product e corners a b p Hm ltac:(lra) (Hobtuse e corners He) Ha Hb Hab).
        destruct (parts u (connectivity e a)) as (_ & P1 & _). destruct (parts u (connectivity e b)) as (_ & _ & P2 & _).
        pose proof (Rmult_le_pos _ _ P1 P2) as P3.
        pose proof (Rmult_le_pos _ (- dot (edim E) (element_gradient e a p) (element_gradient e b p)) P3 ltac:(lra)). lra. }
    assert (Z : integral q mesh (λ e p, - dot (edim E) (gradient_of (pos u) e p) (gradient_of (neg u) e p))%R =
      (0 - stiffness q mesh (pos u) (neg u))%R); [|lra].
    unfold stiffness. rewrite <- (Rmult_0_l (integral q mesh (λ _ _, 0%R))). 
    transitivity (integral q mesh (λ (e : element E) (p : vec), 0 * 0 - dot (edim E) (gradient_of (pos u) e p) (gradient_of (neg u) e p))%R).
    - unfold integral. apply total_map_ext. intros [e corners] _. f_equal. apply total_map_ext. intros pw _. f_equal. lra.
    - rewrite integral_minus. f_equal. unfold integral. rewrite <- total_map_scal. apply total_map_ext. intros [e corners] _. cbn [fst snd].
      rewrite (total_map_ext _ (λ pw, 0 * snd pw)%R) by (intros; lra). rewrite total_map_scal. lra.
  Qed.

  (* A field whose product with every nonnegative field is not negative. *)
  Lemma nonnegative_solution u : (∀ p, p ∈ constrained → u p = 0%R) →
    (∀ v, (∀ p, p ∈ constrained → v p = 0%R) → (∀ p, (0 <= v p)%R) → (0 <= stiffness q mesh u v)%R) →
    ∀ p, node_of (system mesh.*1) p → (0 <= u p)%R.
  Proof.
    intros Hc Hu p Hp. assert (Hn : ∀ p, p ∈ constrained → neg u p = 0%R).
    { intros k Hk. unfold neg. rewrite (Hc k Hk). rewrite Ropp_0. apply Rmax_left. lra. }
    specialize (Hu (neg u) Hn (λ k, proj1 (proj2 (proj2 (parts u k))))).
    assert (Hz : stiffness q mesh (neg u) (neg u) = 0%R).
    { pose proof (stiffness_parts u) as G1. rewrite (stiffness_minus q mesh (pos u) (neg u) (neg u) u (λ k, proj1 (parts u k))) in Hu.
      assert (G2 : (0 <= stiffness q mesh (neg u) (neg u))%R); [|lra].
      apply integral_sign. intros e corners k w _ _. unfold dot. apply rsum_nonnegative. intros j _. apply Rle_0_sqr. }
    destruct (parts u p) as (-> & P1 & _). assert (neg u p = 0%R); [|lra].
    apply (held_zero mesh.*1 constrained (neg u) Hheld Hn); [|done]. by apply (stiffness_zero q mesh).
  Qed.
End sign.
