(* Proofs about assembled systems: the quadratic form of the assembled matrix is the sum of those of the
   elements, and a system with a positive definite matrix has exactly one solution. *)
From stdpp Require Import base gmap list sorting.
From Coq Require Import Reals Lra.
From Verif Require Import Base M_System S_System P_System.
Open Scope nat_scope.

Lemma sumR_mult_r {A} (f : A → R) c l : sumR ((λ x, f x * c)%R <$> l) = (sumR (f <$> l) * c)%R.
Proof.
  rewrite (Rmult_comm (sumR _)), <- sumR_mult_l. apply sumR_ext. intros; lra.
Qed.
Lemma sumR_nonneg {A} (f : A → R) l : (∀ x, x ∈ l → (0 <= f x)%R) → (0 <= sumR (f <$> l))%R.
Proof.
  induction l as [|x l IH]; intros Hf; [cbn; lra|]. rewrite fmap_cons, sumR_cons.
  pose proof (Hf x ltac:(left)). assert (0 <= sumR (f <$> l))%R by (apply IH; intros; apply Hf; by right). lra.
Qed.
Lemma sumR_nonneg_zero {A} (f : A → R) l :
  (∀ x, x ∈ l → (0 <= f x)%R) → sumR (f <$> l) = 0%R → ∀ x, x ∈ l → f x = 0%R.
Proof.
  induction l as [|x l IH]; intros Hf Hz y; [by intros ?%elem_of_nil|]. rewrite fmap_cons, sumR_cons in Hz.
  pose proof (Hf x ltac:(left)).
  assert (Hl : ∀ z, z ∈ l → (0 <= f z)%R) by (intros; apply Hf; by right). pose proof (sumR_nonneg f l Hl).
  rewrite elem_of_cons. intros [->|Hy]; [lra|]. apply IH; [done|lra|done].
Qed.
Lemma sumR_minus {A} (f g : A → R) l : sumR ((λ x, f x - g x)%R <$> l) = (sumR (f <$> l) - sumR (g <$> l))%R.
Proof. induction l as [|x l IH]; [cbn; lra|]. rewrite !fmap_cons, !sumR_cons, IH. lra. Qed.
Lemma sumR_pick {A} (f : A → R) (l : list A) k :
  NoDup l → k ∈ l → (∀ j, j ∈ l → j ≠ k → f j = 0%R) → sumR (f <$> l) = f k.
Proof.
  induction 1 as [|x l Hx Hnd IH]; [by intros ?%elem_of_nil|]. rewrite elem_of_cons. intros [->|Hk] Hf; rewrite fmap_cons, sumR_cons.
  - rewrite (sumR_zero f l); [lra|]. intros j Hj. apply Hf; [by right|]. intros ->. done.
  - rewrite IH; [|done|intros j Hj; apply Hf; by right]. rewrite (Hf x); [lra|left|]. intros ->. done.
Qed.

(* ---- systems with a definite matrix ---- *)

Definition row (N : nat) (A : nat → nat → R) (x : nat → R) (i : nat) : R := sumR ((λ j, A i j * x j)%R <$> seq 0 N).

Lemma quad_row N A x y : quad N A x y = sumR ((λ i, x i * row N A y i)%R <$> seq 0 N).
Proof. apply sumR_ext. intros i _. unfold row. rewrite <- sumR_mult_l. apply sumR_ext. intros; lra. Qed.

Lemma seq_first N : seq 0 (S N) = 0 :: (S <$> seq 0 N).
Proof. cbn. f_equal. symmetry. apply fmap_S_seq. Qed.

Lemma sumR_S (f : nat → R) N : sumR (f <$> seq 0 (S N)) = (f 0%nat + sumR ((λ i, f (S i)) <$> seq 0 N))%R.
Proof. rewrite seq_first, fmap_cons, sumR_cons. by rewrite <- list_fmap_compose. Qed.

Lemma sumR_seq_ext (f g : nat → R) N : (∀ i, i < N → f i = g i) → sumR (f <$> seq 0 N) = sumR (g <$> seq 0 N).
Proof. intros Hf. apply sumR_ext. intros i Hi. apply elem_of_seq in Hi. apply Hf. lia. Qed.

(* elimination of the first unknown *)
Lemma definite_solvable N : ∀ (A : nat → nat → R) (b : nat → R),
  positive_definite N A →
  ∃ x, ∀ i, i < N → row N A x i = b i.
Proof.
  induction N as [|N IH]; intros A b HA; [exists (λ _, 0%R); lia|].
  assert (H0 : (0 < A 0%nat 0%nat)%R).
  { pose proof (HA (λ i, if decide (i = 0) then 1%R else 0%R)) as H. unfold quad in H. rewrite sumR_S in H.
    rewrite (sumR_zero _ (seq 0 N)) in H.
    - rewrite sumR_S in H. rewrite (sumR_zero _ (seq 0 N)) in H.
      + rewrite !(decide_True (P := 0 = 0)) in H by done. rewrite Rmult_1_l, Rmult_1_r, !Rplus_0_r in H. apply H.
        exists 0. split; [lia|]. rewrite decide_True by done. lra.
      + intros j _. rewrite (decide_False (P := S j = 0)) by lia. lra.
    - intros i _. apply sumR_zero. intros j _. rewrite (decide_False (P := S i = 0)) by lia. lra. }
  pose (S_ i j := (A (S i) (S j) - A (S i) 0%nat * A 0%nat (S j) / A 0%nat 0%nat)%R).
  pose (back (x : nat → R) (c : R) i := match i with 0 => ((c - sumR ((λ j, A 0%nat (S j) * x j)%R <$> seq 0%nat N)) / A 0%nat 0%nat)%R | S i => x i end).
  assert (Hrow0 : ∀ x c, row (S N) A (back x c) 0 = c).
  { intros x c. unfold row. rewrite sumR_S. cbn [back]. field. lra. }
  assert (HrowS : ∀ x c i, row (S N) A (back x c) (S i) = (row N S_ x i + A (S i) 0%nat / A 0%nat 0%nat * c)%R).
  { intros x c i. unfold row. rewrite sumR_S. cbn [back]. unfold S_.
    rewrite (sumR_ext (λ j, (A (S i) (S j) - A (S i) 0%nat * A 0%nat (S j) / A 0%nat 0%nat) * x j)%R
      (λ j, A (S i) (S j) * x j - A (S i) 0%nat / A 0%nat 0%nat * (A 0%nat (S j) * x j))%R) by (intros; field; lra).
    rewrite sumR_minus, sumR_mult_l. field. lra. }
  destruct (IH S_ (λ i, b (S i) - A (S i) 0%nat / A 0%nat 0%nat * b 0%nat)%R) as [x Hx].
  { intros x (k & Hk & Hxk). replace (quad N S_ x x) with (quad (S N) A (back x 0%R) (back x 0%R)).
    - apply HA. exists (S k). split; [lia|done].
    - rewrite !quad_row, sumR_S, Hrow0. rewrite (sumR_ext _ (λ i, x i * row N S_ x i)%R); [lra|].
      intros i _. rewrite HrowS. cbn [back]. lra. }
  exists (back x (b 0)). intros [|i] Hi; [apply Hrow0|]. rewrite HrowS, Hx by lia. lra.
Qed.

Lemma definite_unique N A (x y : nat → R) :
  positive_definite N A →
  (∀ i, i < N → row N A x i = row N A y i) → ∀ i, i < N → x i = y i.
Proof.
  intros HA Hxy i Hi. destruct (Req_dec (x i) (y i)) as [|Hne]; [done|exfalso].
  assert (H : (0 < quad N A (λ i, x i - y i) (λ i, x i - y i))%R) by (apply HA; exists i; split; [done|lra]).
  rewrite quad_row in H. rewrite sumR_zero in H; [lra|]. intros k Hk. apply elem_of_seq in Hk.
  replace (row N A (λ i, (x i - y i)%R) k) with (row N A x k - row N A y k)%R; [rewrite Hxy by lia; lra|].
  unfold row. rewrite <- sumR_minus. apply sumR_ext. intros; lra.
Qed.

(* ---- the form of an assembled matrix ---- *)

(* the field with the given values at the nodes with an equation and zero at the others *)
Definition spread (eqs : gmap nat Z) (x : nat → R) (p : nat) : R :=
  match eqs !! p with Some z => if decide (0 <= z)%Z then x (Z.to_nat z) else 0%R | None => 0%R end.

Section assembled.
  Context {C : Type}.
  Definition loc (v : nat → R) (e : C * list nat) (a : nat) : R := match e.2 !! a with Some p => v p | None => 0%R end.

  Context (debug : bool) (n : nat) (blocks : C * list nat → (nat → nat → R) * (nat → R)).
  Definition eform (u v : nat → R) (e : C * list nat) : R :=
    sumR ((λ a, sumR ((λ b, loc u e a * (blocks e).1 a b * loc v e b)%R <$> seq 0 n)) <$> seq 0 n).
  Definition eload (v : nat → R) (e : C * list nat) : R :=
    sumR ((λ a, loc v e a * (blocks e).2 a)%R <$> seq 0 n).

  Context (es : list (C * list nat)) (constrained : gset nat) (eqs : gmap nat Z) (N : Z) (s : linear_system).
  Context (Heqs : build_equation_map es constrained = (eqs, N)) (Hlen : ∀ e, e ∈ es → length e.2 = n).
  Context (Hs : assemble debug n eqs N blocks es (create N) = Ok s).

  Lemma N_nonneg : (0 <= N)%Z.
  Proof. clear Hs Hlen. destruct (build_equation_map_ok es constrained) as (eqs' & l & E & _). rewrite Heqs in E. injection E as -> ->. lia. Qed.

  Lemma eqs_node p : node_of es p → p ∉ constrained → ∃ i, eqs !! p = Some (Z.of_nat i) ∧ i < Z.to_nat N.
  Proof.
    clear Hs Hlen. intros Hp Hc. destruct (build_equation_map_ok es constrained) as (eqs' & l & E & Hnd & Hl & He & _). rewrite Heqs in E. injection E as <- ->.
    assert (Hpl : p ∈ l) by (by apply Hl). apply elem_of_list_lookup in Hpl as Hi. destruct Hi as [i Hi].
    exists i. split; [apply He; [done|]; by exists i|]. apply lookup_lt_Some in Hi. lia.
  Qed.
  Lemma eqs_constrained p : p ∈ constrained → eqs !! p = Some (-1)%Z.
  Proof.
    clear Hs Hlen. intros Hc. destruct (build_equation_map_ok es constrained) as (eqs' & l & E & _ & _ & _ & H & _). rewrite Heqs in E. injection E as <- ->.
    by apply H.
  Qed.
  Lemma eqs_none p : p ∉ constrained → ¬ node_of es p → eqs !! p = None.
  Proof.
    clear Hs Hlen. intros Hc Hn. destruct (build_equation_map_ok es constrained) as (eqs' & l & E & _ & _ & _ & _ & H). rewrite Heqs in E. injection E as <- ->.
    by apply H.
  Qed.
  Lemma eqs_node_inv i : i < Z.to_nat N → ∃ p, node_of es p ∧ p ∉ constrained ∧ eqs !! p = Some (Z.of_nat i).
  Proof.
    clear Hs Hlen. intros Hi. destruct (build_equation_map_ok es constrained) as (eqs' & l & E & Hnd & Hl & He & _). rewrite Heqs in E. injection E as <- ->.
    destruct (lookup_lt_is_Some_2 l i) as [p Hp]; [lia|]. assert (Hpl : p ∈ l) by (by eapply elem_of_list_lookup_2).
    exists p. pose proof (proj1 (Hl p) Hpl) as [? ?]. split_and!; [done..|]. apply He; [done|]. by exists i.
  Qed.
  Lemma eqs_range p : node_of es p → ∃ z, eqs !! p = Some z ∧ (-1 <= z < N)%Z.
  Proof.
    intros Hp. pose proof N_nonneg. destruct (decide (p ∈ constrained)) as [Hc|Hc].
    - exists (-1)%Z. split; [by apply eqs_constrained|lia].
    - destruct (eqs_node p Hp Hc) as (i & Hi & ?). exists (Z.of_nat i). split; [done|lia].
  Qed.

  Lemma pick_equation (x : nat → R) z : (-1 <= z < N)%Z →
    sumR ((λ i, if decide (z = Z.of_nat i) then x i else 0%R) <$> seq 0 (Z.to_nat N)) =
    if decide (0 <= z)%Z then x (Z.to_nat z) else 0%R.
  Proof.
    intros Hz. destruct (decide (0 <= z)%Z) as [H0|H0].
    - rewrite (sumR_pick _ _ (Z.to_nat z)).
      + by rewrite decide_True by lia.
      + apply NoDup_seq.
      + apply elem_of_seq. lia.
      + intros j _ Hj. rewrite decide_False by lia. done.
    - apply sumR_zero. intros i _. rewrite decide_False by lia. done.
  Qed.

  Lemma pick_local x e a : e ∈ es → a < n →
    sumR ((λ i, if decide (eq_of eqs e.2 a = Z.of_nat i) then x i else 0%R) <$> seq 0 (Z.to_nat N)) = loc (spread eqs x) e a.
  Proof.
    intros He Ha. unfold loc, spread, eq_of. destruct (lookup_lt_is_Some_2 e.2 a) as [p Hp]; [rewrite Hlen; done|]. rewrite Hp.
    destruct (eqs_range p) as (z & Hz & Hr); [exists e; split; [done|by eapply elem_of_list_lookup_2]|]. rewrite Hz.
    by apply pick_equation.
  Qed.

  Lemma assembled_entries :
    (∀ i j, s_matrix s i j = sumR ((λ e, sumR ((λ a, sumR ((λ b,
       if decide (eq_of eqs e.2 a = i ∧ eq_of eqs e.2 b = j ∧ i ≠ -1 ∧ j ≠ -1)%Z then (blocks e).1 a b else 0%R) <$> seq 0 n)) <$> seq 0 n)) <$> es)) ∧
    (∀ i, s_rhs s i = sumR ((λ e, sumR ((λ a, if decide (eq_of eqs e.2 a = i ∧ i ≠ -1)%Z then (blocks e).2 a else 0%R) <$> seq 0 n)) <$> es)).
  Proof.
    destruct (assemble_ok debug n eqs N blocks es (create N) eq_refl Hlen) as (s0 & E0 & _ & Hm & Hv).
    { apply eqs_range. }
    rewrite Hs in E0. injection E0 as <-. split.
    - intros i j. rewrite Hm. cbn. lra.
    - intros i. rewrite Hv. cbn. lra.
  Qed.

  Lemma assembled_form (x y : nat → R) :
    quad (Z.to_nat N) (λ i j, s_matrix s (Z.of_nat i) (Z.of_nat j)) x y =
    sumR (eform (spread eqs x) (spread eqs y) <$> es).
  Proof.
    destruct assembled_entries as [Hm _]. unfold quad. set (K := seq 0 (Z.to_nat N)).
    pose (δ (x : nat → R) e a i := if decide (eq_of eqs (e : C * list nat).2 a = Z.of_nat i) then x i else 0%R).
    transitivity (sumR ((λ i, sumR ((λ j, sumR ((λ e, sumR ((λ a, sumR ((λ b,
        δ x e a i * (blocks e).1 a b * δ y e b j)%R <$> seq 0 n)) <$> seq 0 n)) <$> es)) <$> K)) <$> K)).
    { apply sumR_ext. intros i _. apply sumR_ext. intros j _. rewrite Hm, <- sumR_mult_l, <- sumR_mult_r.
      apply sumR_ext. intros e _. rewrite <- sumR_mult_l, <- sumR_mult_r. apply sumR_ext. intros a _.
      rewrite <- sumR_mult_l, <- sumR_mult_r. apply sumR_ext. intros b _. unfold δ.
      destruct (decide (eq_of eqs e.2 a = Z.of_nat i)), (decide (eq_of eqs e.2 b = Z.of_nat j));
        [rewrite decide_True by lia|rewrite decide_False by lia..]; lra. }
    transitivity (sumR ((λ e, sumR ((λ i, sumR ((λ j, sumR ((λ a, sumR ((λ b,
        δ x e a i * (blocks e).1 a b * δ y e b j)%R <$> seq 0 n)) <$> seq 0 n)) <$> K)) <$> K)) <$> es)).
    { etransitivity; [apply sumR_ext; intros i _; apply sumR_swap|]. apply sumR_swap. }
    apply sumR_ext. intros e He. unfold eform.
    transitivity (sumR ((λ a, sumR ((λ i, sumR ((λ j, sumR ((λ b,
        δ x e a i * (blocks e).1 a b * δ y e b j)%R <$> seq 0 n)) <$> K)) <$> K)) <$> seq 0 n)).
    { etransitivity; [apply sumR_ext; intros i _; apply sumR_swap|]. apply sumR_swap. }
    apply sumR_ext. intros a Ha. apply elem_of_seq in Ha.
    transitivity (sumR ((λ b, sumR ((λ i, sumR ((λ j,
        δ x e a i * (blocks e).1 a b * δ y e b j)%R <$> K)) <$> K)) <$> seq 0 n)).
    { etransitivity; [apply sumR_ext; intros i _; apply sumR_swap|]. apply sumR_swap. }
    apply sumR_ext. intros b Hb. apply elem_of_seq in Hb.
    rewrite <- (pick_local x e a He ltac:(lia)), <- (pick_local y e b He ltac:(lia)).
    fold K. rewrite <- !sumR_mult_r. apply sumR_ext. intros i _. rewrite <- sumR_mult_l. apply sumR_ext. intros j _. done.
  Qed.

  Lemma assembled_load (x : nat → R) :
    sumR ((λ i, x i * s_rhs s (Z.of_nat i))%R <$> seq 0 (Z.to_nat N)) = sumR (eload (spread eqs x) <$> es).
  Proof.
    destruct assembled_entries as [_ Hv]. set (K := seq 0 (Z.to_nat N)).
    pose (δ (x : nat → R) e a i := if decide (eq_of eqs (e : C * list nat).2 a = Z.of_nat i) then x i else 0%R).
    transitivity (sumR ((λ i, sumR ((λ e, sumR ((λ a, δ x e a i * (blocks e).2 a)%R <$> seq 0 n)) <$> es)) <$> K)).
    { apply sumR_ext. intros i _. rewrite Hv, <- sumR_mult_l. apply sumR_ext. intros e _. rewrite <- sumR_mult_l.
      apply sumR_ext. intros a _. unfold δ.
      destruct (decide (eq_of eqs e.2 a = Z.of_nat i)); [rewrite decide_True by lia|rewrite decide_False by lia]; lra. }
    rewrite sumR_swap. apply sumR_ext. intros e He. rewrite sumR_swap. apply sumR_ext. intros a Ha. apply elem_of_seq in Ha.
    rewrite <- (pick_local x e a He ltac:(lia)). fold K. rewrite <- sumR_mult_r. done.
  Qed.

  (* every field that vanishes at the constrained nodes is the spread of its values at the others *)
  Lemma spread_surj (v : nat → R) : (∀ p, p ∈ constrained → v p = 0%R) →
    ∃ x, ∀ p, node_of es p → spread eqs x p = v p.
  Proof.
    clear Hs Hlen. intros Hv. destruct (build_equation_map_ok es constrained) as (eqs' & l & E & Hnd & Hl & He & Hc & Hn).
    rewrite Heqs in E. injection E as <- ->.
    exists (λ i, match l !! i with Some p => v p | None => 0%R end). intros p Hp. unfold spread.
    destruct (decide (p ∈ constrained)) as [Hpc|Hpc]; [by rewrite Hc, Hv|].
    assert (Hpl : p ∈ l) by (by apply Hl). apply elem_of_list_lookup in Hpl as Hi. destruct Hi as [i Hi].
    rewrite (proj2 (He p (Z.of_nat i) Hpl)) by (by exists i). rewrite decide_True by lia. by rewrite Nat2Z.id, Hi.
  Qed.
  Lemma spread_constrained x p : p ∈ constrained → spread eqs x p = 0%R.
  Proof. intros Hp. unfold spread. by rewrite eqs_constrained. Qed.
  Lemma spread_zero x : (∀ p, node_of es p → spread eqs x p = 0%R) → ∀ i, i < Z.to_nat N → x i = 0%R.
  Proof.
    intros Hx i Hi. destruct (eqs_node_inv i Hi) as (p & Hp & _ & Ep). specialize (Hx p Hp). unfold spread in Hx.
    rewrite Ep, decide_True, Nat2Z.id in Hx by lia. done.
  Qed.
  Lemma eform_ext u u' v v' e : e ∈ es → (∀ p, node_of es p → u p = u' p) → (∀ p, node_of es p → v p = v' p) →
    eform u v e = eform u' v' e.
  Proof.
    intros He Hu Hv. assert (Hl : ∀ w w' a, (∀ p, node_of es p → w p = w' p) → loc w e a = loc w' e a).
    { intros w w' a Hw. unfold loc. destruct (e.2 !! a) as [p|] eqn:Ep; [|done]. apply Hw. exists e. split; [done|by eapply elem_of_list_lookup_2]. }
    apply sumR_ext. intros a _. apply sumR_ext. intros b _. by rewrite (Hl u u' a Hu), (Hl v v' b Hv).
  Qed.
  Lemma eload_ext v v' e : e ∈ es → (∀ p, node_of es p → v p = v' p) → eload v e = eload v' e.
  Proof.
    intros He Hv. apply sumR_ext. intros a _. f_equal. unfold loc. destruct (e.2 !! a) as [p|] eqn:Ep; [|done].
    apply Hv. exists e. split; [done|by eapply elem_of_list_lookup_2].
  Qed.

  (* the weak form of the equations *)
  Lemma solution_weak u : length u = Z.to_nat N → solves (s_matrix s) (s_rhs s) u → ∀ v, (∀ p, p ∈ constrained → v p = 0%R) →
    sumR (eform v (spread eqs (λ i, nth i u 0%R)) <$> es) = sumR (eload v <$> es).
  Proof.
    intros Hu Hsol v Hv. destruct (spread_surj v Hv) as [x Hx].
    rewrite (sumR_ext (eform v _) (eform (spread eqs x) (spread eqs (λ i, nth i u 0%R))))
      by (intros e He; apply eform_ext; [done|intros p Hp; by rewrite Hx|done]).
    rewrite (sumR_ext (eload v) (eload (spread eqs x)))
      by (intros e He; apply eload_ext; [done|intros p Hp; by rewrite Hx]).
    rewrite <- assembled_form, <- assembled_load, quad_row. apply sumR_ext. intros i Hi. apply elem_of_seq in Hi. f_equal.
    unfold solves in Hsol. rewrite <- Hsol, Hu by lia. done.
  Qed.
  Lemma weak_solution u : length u = Z.to_nat N →
    (∀ v, (∀ p, p ∈ constrained → v p = 0%R) →
      sumR (eform v (spread eqs (λ i, nth i u 0%R)) <$> es) = sumR (eload v <$> es)) →
    solves (s_matrix s) (s_rhs s) u.
  Proof.
    intros Hu Hw i Hi. pose (x := λ k, if decide (k = i) then 1%R else 0%R).
    specialize (Hw (spread eqs x) (spread_constrained x)). rewrite <- assembled_form, <- assembled_load, quad_row in Hw.
    rewrite !(sumR_pick _ _ i) in Hw.
    - unfold x in Hw. rewrite decide_True in Hw by done. rewrite !Rmult_1_l in Hw. rewrite <- Hw. unfold row. by rewrite Hu.
    - apply NoDup_seq.
    - apply elem_of_seq. lia.
    - intros j _ Hj. unfold x. rewrite decide_False by done. lra.
    - apply NoDup_seq.
    - apply elem_of_seq. lia.
    - intros j _ Hj. unfold x. rewrite decide_False by done. lra.
  Qed.
End assembled.
