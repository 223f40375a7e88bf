(* Proofs about quadrature rules and integration. *)
From Coq Require Import Reals List Bool Arith Lia Lra FunctionalExtensionality.
From Coquelicot Require Import Rbar Hierarchy Derive RInt RInt_analysis Continuity.
From Verif Require Import Base M_Tensor M_Geometry S_Geometry.
From Verif Require Import M_Functions P_Functions M_Quadrature S_Quadrature.
Import ListNotations.
Open Scope R_scope.

(* ------------------------------------------------------------------------------------------- *)
(* Integrals of monomials over simplices. *)

Lemma fact_pos n : 0 < INR (fact n).
Proof. apply lt_0_INR, lt_O_fact. Qed.
Lemma fact_nz n : INR (fact n) <> 0.
Proof. apply INR_fact_neq_0. Qed.

Lemma fact_S n : INR (fact (S n)) = (INR n + 1) * INR (fact n).
Proof. rewrite fact_simpl, mult_INR, S_INR. reflexivity. Qed.

Lemma is_RInt_eq (f : R -> R) a b v w : v = w -> is_RInt f a b v -> is_RInt f a b w.
Proof. intros ->; auto. Qed.

Lemma pow_derive (f : R -> R) f' n x : is_derive f x f' ->
  is_derive (fun t => f t ^ n) x (INR n * f' * f x ^ (n - 1)).
Proof.
  intros H. eapply (is_derive_pow f n x f') in H.
  replace (n - 1)%nat with (Init.Nat.pred n) by lia. exact H.
Qed.

Lemma lower_derive s x : is_derive (fun t : R => s - t) x (-1).
Proof.
  apply is_derive_Reals. replace (-1) with (0 - 1) by ring.
  apply (derivable_pt_lim_minus (fct_cte s) id); [apply derivable_pt_lim_const | apply derivable_pt_lim_id].
Qed.

(* The function integrated by parts. *)
Lemma parts_derive i m s x :
  is_derive (fun t => t ^ S i * (s - t) ^ S m) x
    ((INR i + 1) * (x ^ i * (s - x) ^ S m) - (INR m + 1) * (x ^ S i * (s - x) ^ m)).
Proof.
  assert (H1 : is_derive (fun t : R => t ^ S i) x ((INR i + 1) * x ^ i)).
  { replace ((INR i + 1) * x ^ i) with (INR (S i) * 1 * x ^ (S i - 1)).
    - apply (pow_derive (fun t => t) 1). exact (is_derive_id (K := R_AbsRing) x).
    - replace (S i - 1)%nat with i by lia. rewrite S_INR. ring. }
  assert (H2 : is_derive (fun t : R => (s - t) ^ S m) x (- (INR m + 1) * (s - x) ^ m)).
  { replace (- (INR m + 1) * (s - x) ^ m) with (INR (S m) * (-1) * (s - x) ^ (S m - 1)).
    - apply (pow_derive (fun t => s - t) (-1)).
      apply lower_derive.
    - replace (S m - 1)%nat with m by lia. rewrite S_INR. ring. }
  pose proof (is_derive_mult (fun t : R => t ^ S i) (fun t => (s - t) ^ S m) x _ _ H1 H2) as H.
  cbv beta in H.
  match type of H with is_derive _ _ ?a =>
    replace a with ((INR i + 1) * (x ^ i * (s - x) ^ S m) - (INR m + 1) * (x ^ S i * (s - x) ^ m)) in H
      by (simpl; ring) end.
  exact H.
Qed.

Lemma pow_continuous (f : R -> R) n x : continuous f x -> continuous (fun t => f t ^ n) x.
Proof.
  intros H. induction n as [|n IH]; simpl; [apply continuous_const|].
  apply (continuous_mult (K := R_AbsRing) f (fun t => f t ^ n)); assumption.
Qed.
Lemma lower_continuous s x : continuous (fun t : R => s - t) x.
Proof.
  apply (continuous_minus (fun _ => s) (fun t => t)); [apply continuous_const | apply continuous_id].
Qed.

Lemma monomial_continuous i m s x : continuous (fun t : R => t ^ i * (s - t) ^ m) x.
Proof.
  apply (continuous_mult (K := R_AbsRing) (fun t => t ^ i) (fun t => (s - t) ^ m)).
  - apply (pow_continuous (fun t => t)), continuous_id.
  - apply (pow_continuous (fun t => s - t)), lower_continuous.
Qed.

Lemma beta i : forall m s,
  is_RInt (fun t => t ^ i * (s - t) ^ m) 0 s
    (INR (fact i) * INR (fact m) / INR (fact (i + m + 1)) * s ^ (i + m + 1)).
Proof.
  induction i as [|i IH]; intros m s.
  - assert (D : forall x, is_derive (fun t => - (s - t) ^ S m / (INR m + 1)) x ((s - x) ^ m)).
    { intros x. assert (Hm : INR m + 1 <> 0) by (pose proof (pos_INR m); lra).
      assert (H2 : is_derive (fun t : R => (s - t) ^ S m) x (- (INR m + 1) * (s - x) ^ m)).
      { replace (- (INR m + 1) * (s - x) ^ m) with (INR (S m) * (-1) * (s - x) ^ (S m - 1)).
        - apply (pow_derive (fun t => s - t) (-1)).
          apply lower_derive.
        - replace (S m - 1)%nat with m by lia. rewrite S_INR. ring. }
      apply (is_derive_ext (fun t => scal (- / (INR m + 1)) ((s - t) ^ S m))).
      - intros t. unfold scal; simpl. unfold mult; simpl. field. exact Hm.
      - replace ((s - x) ^ m) with (scal (- / (INR m + 1)) (- (INR m + 1) * (s - x) ^ m)).
        + apply (is_derive_scal (fun t => (s - t) ^ S m) x (- / (INR m + 1))). exact H2.
        + unfold scal; simpl; unfold mult; simpl. field. exact Hm. }
    eapply is_RInt_eq; [|apply (is_RInt_ext (fun t => (s - t) ^ m))].
    2: { intros x _. simpl. ring. }
    2: { apply (is_RInt_derive (fun t => - (s - t) ^ S m / (INR m + 1))).
         - intros x _. apply D.
         - intros x _. apply (pow_continuous (fun t => s - t)), lower_continuous. }
    unfold Hierarchy.minus, Hierarchy.plus, Hierarchy.opp; simpl fact; cbn [Nat.add].
    replace (m + 1)%nat with (S m) by lia. rewrite fact_S.
    assert (Hm : INR m + 1 <> 0) by (pose proof (pos_INR m); lra).
    unfold Hierarchy.plus, Hierarchy.opp; simpl. replace (s - s) with 0 by ring. replace (s - 0) with s by ring. field. split; [apply fact_nz | exact Hm].
  - assert (P : is_RInt (fun t => (INR i + 1) * (t ^ i * (s - t) ^ S m)
                              - (INR m + 1) * (t ^ S i * (s - t) ^ m)) 0 s 0).
    { eapply is_RInt_eq; [|apply (is_RInt_derive (fun t => t ^ S i * (s - t) ^ S m))].
      - unfold Hierarchy.minus, Hierarchy.plus, Hierarchy.opp; simpl. ring.
      - intros x _. apply parts_derive.
      - intros x _.
        apply (continuous_minus (fun t => (INR i + 1) * (t ^ i * (s - t) ^ S m))
                                (fun t => (INR m + 1) * (t ^ S i * (s - t) ^ m)));
          apply (continuous_mult (K := R_AbsRing) (fun _ => _));
          try apply continuous_const; apply monomial_continuous. }
    pose proof (is_RInt_scal _ _ _ (INR i + 1) _ (IH (S m) s)) as Q.
    pose proof (is_RInt_minus _ _ _ _ _ _ Q P) as T.
    pose proof (is_RInt_scal _ _ _ (/ (INR m + 1)) _ T) as U.
    assert (Hm : INR m + 1 <> 0) by (pose proof (pos_INR m); lra).
    eapply is_RInt_ext in U.
    { eapply is_RInt_eq; [|exact U].
      unfold scal, Hierarchy.minus, Hierarchy.plus, Hierarchy.opp; simpl; unfold mult; simpl.
      replace (i + S m + 1)%nat with (S (i + m + 1)) by lia.
      change (fact i + i * fact i)%nat with (fact (S i)).
      change (fact m + m * fact m)%nat with (fact (S m)).
      change (fact (i + m + 1) + (i + m + 1) * fact (i + m + 1))%nat with (fact (S (i + m + 1))).
      rewrite (fact_S i), (fact_S m). cbn [pow].
      field. split; [apply fact_nz | exact Hm]. }
    intros x _. unfold scal, Hierarchy.minus, Hierarchy.plus, Hierarchy.opp; simpl; unfold mult; simpl. field. exact Hm.
Qed.

Lemma is_integral_ext D : forall s f g v, (forall x, f x = g x) -> is_integral D s f v -> is_integral D s g v.
Proof.
  intros s f g v H. replace g with f; [auto|]. apply functional_extensionality, H.
Qed.
Lemma is_integral_scal D : forall s f v a, is_integral D s f v -> is_integral D s (fun x => a * f x) (a * v).
Proof.
  induction D as [|D IH]; intros s f v a; simpl.
  - intros ->. reflexivity.
  - intros (g & Hg & HI). exists (fun t => a * g t). split.
    + intros t Ht. apply (IH _ (fun x => f (fun i => match i with O => t | S j => x j end))). apply Hg, Ht.
    + exact (is_RInt_scal _ _ _ a _ HI).
Qed.
Lemma is_integral_plus D : forall s f g u v, is_integral D s f u -> is_integral D s g v ->
  is_integral D s (fun x => f x + g x) (u + v).
Proof.
  induction D as [|D IH]; intros s f g u v; simpl.
  - intros -> ->. reflexivity.
  - intros (F & HF & IF) (G & HG & IG). exists (fun t => F t + G t). split.
    + intros t Ht.
      apply (IH _ (fun x => f (fun i => match i with O => t | S j => x j end))
                  (fun x => g (fun i => match i with O => t | S j => x j end))); auto.
    + exact (is_RInt_plus _ _ _ _ _ _ IF IG).
Qed.
Lemma is_integral_zero D s : is_integral D s (fun _ => 0) 0.
Proof.
  revert s. induction D as [|D IH]; intros s; simpl; [reflexivity|].
  exists (fun _ => 0). split; [intros t _; apply IH|].
  eapply is_RInt_eq; [|apply (is_RInt_const 0 s 0)].
  unfold scal; simpl; unfold mult; simpl. ring.
Qed.
Lemma is_integral_unique D : forall s f u v, 0 <= s -> is_integral D s f u -> is_integral D s f v -> u = v.
Proof.
  induction D as [|D IH]; intros s f u v Hs; simpl.
  - intros -> ->. reflexivity.
  - intros (F & HF & IF) (G & HG & IG).
    assert (E : is_RInt F 0 s v).
    { apply (is_RInt_ext G); [|exact IG]. intros x Hx.
      rewrite Rmin_left, Rmax_right in Hx by exact Hs.
      eapply IH; [| apply HG | apply HF]; lra. }
    rewrite <- (is_RInt_unique _ _ _ _ IF). apply is_RInt_unique, E.
Qed.

(* The product of the factorials of the exponents. *)
Definition facts (es : list nat) : R := fold_right (fun e acc => INR (fact e) * acc) 1 es.
(* The integral of a monomial. *)
Definition dirichlet (es : list nat) : R := facts es / INR (fact (list_sum es + length es)).

Lemma monomial_integral es : forall s,
  is_integral (length es) s (monomial es) (dirichlet es * s ^ (list_sum es + length es)).
Proof.
  induction es as [|e es IH]; intros s.
  - simpl. unfold dirichlet. simpl. field.
  - cbn [length is_integral monomial].
    exists (fun t => t ^ e * (dirichlet es * (s - t) ^ (list_sum es + length es))). split.
    + intros t Ht.
      apply (is_integral_ext _ _ (fun x => t ^ e * monomial es x)).
      * intros x. f_equal.
      * apply is_integral_scal, IH.
    + set (m := (list_sum es + length es)%nat).
      apply (is_RInt_ext (fun t => scal (dirichlet es) (t ^ e * (s - t) ^ m))).
      { intros t _. unfold scal; simpl; unfold mult; simpl. ring. }
      eapply is_RInt_eq; [|exact (is_RInt_scal _ _ _ (dirichlet es) _ (beta e m s))].
      unfold scal; simpl; unfold mult; simpl. unfold dirichlet.
      replace (list_sum (e :: es) + length (e :: es))%nat with (e + m + 1)%nat
        by (unfold m; simpl; lia).
      cbn [facts fold_right].
      replace (e + list_sum es + S (length es))%nat with (e + m + 1)%nat by (unfold m; lia).
      fold (facts es). fold m. field. split; apply fact_nz.
Qed.

Lemma poly_nil x : poly [] x = 0.
Proof. reflexivity. Qed.
Lemma poly_cons t p x : poly (t :: p) x = fst t * monomial (snd t) x + poly p x.
Proof. reflexivity. Qed.
Lemma poly_app p q x : poly (p ++ q) x = poly p x + poly q x.
Proof.
  induction p as [|t p IH]; [rewrite poly_nil, Rplus_0_l; reflexivity|].
  change ((t :: p) ++ q) with (t :: (p ++ q)). rewrite !poly_cons, IH. ring.
Qed.

Lemma poly_integral D r p : of_degree D r p ->
  reference_integral D (poly p) (total (map (fun t => fst t * dirichlet (snd t)) p)).
Proof.
  unfold reference_integral. induction 1 as [|t p [L _] H IH].
  - apply is_integral_zero.
  - apply (is_integral_ext _ _ (fun x => fst t * monomial (snd t) x + poly p x)); [reflexivity|].
    cbn [map total fold_right]. apply is_integral_plus; [|exact IH].
    apply is_integral_scal. rewrite <- L.
    eapply eq_rect; [apply monomial_integral|]. rewrite pow1. ring.
Qed.

(* ------------------------------------------------------------------------------------------- *)
(* Quadrature. *)

(* The error of a rule on the monomials up to a degree. *)
Definition accurate (D r : nat) (q : rule) (eps : R) : Prop :=
  forall es, length es = D -> (list_sum es <= r)%nat ->
    Rabs (quadrature D q (monomial es) - dirichlet es) <= eps.

Lemma total_map_plus {A} (f g : A -> R) l : total (map (fun x => f x + g x) l) = total (map f l) + total (map g l).
Proof. unfold total. induction l as [|x l IH]; simpl; [ring|]. rewrite IH. ring. Qed.
Lemma total_map_scal {A} (f : A -> R) a l : total (map (fun x => a * f x) l) = a * total (map f l).
Proof. unfold total. induction l as [|x l IH]; simpl; [ring|]. rewrite IH. ring. Qed.
Lemma total_map_ext {A} (f g : A -> R) l : (forall x, In x l -> f x = g x) -> total (map f l) = total (map g l).
Proof. intros H. f_equal. apply map_ext_in, H. Qed.
Lemma total_app a b : total (a ++ b) = total a + total b.
Proof. unfold total. induction a as [|x a IH]; simpl; [ring|]. rewrite IH. ring. Qed.

Lemma quadrature_plus D q f g : quadrature D q (fun x => f x + g x) = quadrature D q f + quadrature D q g.
Proof.
  unfold quadrature. rewrite <- Rmult_plus_distr_l, <- total_map_plus. f_equal.
  apply total_map_ext. intros [p w] _. simpl. ring.
Qed.
Lemma quadrature_scal D q f a : quadrature D q (fun x => a * f x) = a * quadrature D q f.
Proof.
  unfold quadrature.
  rewrite (total_map_ext (fun pw => snd pw * (a * f (fst pw))) (fun pw => a * (snd pw * f (fst pw))))
    by (intros; ring).
  rewrite total_map_scal. ring.
Qed.
Lemma quadrature_zero D q : quadrature D q (fun _ => 0) = 0.
Proof.
  unfold quadrature. rewrite (total_map_ext _ (fun _ => 0 * 0)) by (intros; ring).
  rewrite total_map_scal. ring.
Qed.

Lemma poly_error D r q eps p v : accurate D r q eps -> of_degree D r p ->
  reference_integral D (poly p) v ->
  Rabs (quadrature D q (poly p) - v) <= eps * S_Quadrature.size p.
Proof.
  intros Hq Hp Hv.
  rewrite <- (is_integral_unique D 1 (poly p) _ _ Rle_0_1 (poly_integral D r p Hp) Hv). clear v Hv.
  induction Hp as [|t p [L Hr] Hp IH].
  - change (poly []) with (fun _ : vec => 0). rewrite quadrature_zero. cbn.
    rewrite Rmult_0_r, Rminus_0_r, Rabs_R0. lra.
  - change (poly (t :: p)) with (fun x : vec => fst t * monomial (snd t) x + poly p x).
    rewrite quadrature_plus, quadrature_scal. unfold S_Quadrature.size. cbn [map total fold_right].
    fold (S_Quadrature.size p). specialize (Hq (snd t) L Hr).
    set (a := fst t) in *. set (m := quadrature D q (monomial (snd t))) in *.
    set (d := dirichlet (snd t)) in *. set (Q := quadrature D q (poly p)) in *.
    change (fold_right Rplus 0 (map (fun t0 => fst t0 * dirichlet (snd t0)) p))
      with (total (map (fun t0 => fst t0 * dirichlet (snd t0)) p)).
    set (T := total _) in *.
    replace (a * m + Q - (a * d + T)) with (a * (m - d) + (Q - T)) by ring.
    eapply Rle_trans; [apply Rabs_triang|]. rewrite Rabs_mult, Rmult_plus_distr_l.
    apply Rplus_le_compat; [|exact IH].
    rewrite (Rmult_comm eps). apply Rmult_le_compat_l; [apply Rabs_pos | exact Hq].
Qed.

(* ------------------------------------------------------------------------------------------- *)
(* The tables in integers: coordinates and weights are multiples of 1 / s. *)
Definition zrule := list (list Z * Z).
Definition point_of (s : Z) (xs : list Z) : vec := fun i => IZR (nth i xs 0%Z) / IZR s.
Definition rule_of (s : Z) (q : zrule) : rule := map (fun pw => (point_of s (fst pw), IZR (snd pw) / IZR s)) q.

Fixpoint zmonomial (es : list nat) (xs : list Z) : Z :=
  match es with
  | [] => 1
  | e :: es' => (nth 0 xs 0 ^ Z.of_nat e * zmonomial es' (tl xs))%Z
  end.
Definition zsum (es : list nat) (q : zrule) : Z :=
  fold_right Z.add 0%Z (map (fun pw => (snd pw * zmonomial es (fst pw))%Z) q).
Fixpoint zfact (n : nat) : Z := match n with O => 1 | S m => (Z.of_nat n * zfact m)%Z end.
Fixpoint zfacts (es : list nat) : Z := match es with [] => 1 | e :: es' => (zfact e * zfacts es')%Z end.

Lemma zfact_value n : INR (fact n) = IZR (zfact n).
Proof.
  induction n as [|n IH]; [reflexivity|].
  change (fact (S n)) with (S n * fact n)%nat. change (zfact (S n)) with (Z.of_nat (S n) * zfact n)%Z.
  rewrite mult_INR, mult_IZR, IH, INR_IZR_INZ. reflexivity.
Qed.
Lemma zfact_pos n : (0 < zfact n)%Z.
Proof. induction n as [|n IH]; [reflexivity|]. change (zfact (S n)) with (Z.of_nat (S n) * zfact n)%Z. lia. Qed.
Lemma zfacts_value es : facts es = IZR (zfacts es).
Proof. induction es as [|e es IH]; [reflexivity|]. change (facts (e :: es)) with (INR (fact e) * facts es).
  cbn [zfacts]. rewrite mult_IZR, <- IH, zfact_value. reflexivity. Qed.

Lemma zmonomial_value s es : forall xs (p : vec), (forall i, p i = point_of s xs i) -> IZR s <> 0 ->
  monomial es p = IZR (zmonomial es xs) / IZR s ^ list_sum es.
Proof.
  induction es as [|e es IH]; intros xs p Hp Hs; [cbn; field|].
  cbn [monomial zmonomial]. rewrite (IH (tl xs) (fun i => p (S i))); [|intros i; rewrite Hp|exact Hs].
  - rewrite mult_IZR, <- pow_IZR, Hp. unfold point_of. change (list_sum (e :: es)) with (e + list_sum es)%nat.
    rewrite pow_add. unfold Rdiv. rewrite Rpow_mult_distr, pow_inv.
    field. split; apply pow_nonzero, Hs.
  - unfold point_of. destruct xs; [destruct i; reflexivity|reflexivity].
Qed.
Lemma zsum_value D s q es : IZR s <> 0 ->
  quadrature D (rule_of s q) (monomial es) = IZR (zsum es q) / (IZR (zfact D) * IZR s ^ S (list_sum es)).
Proof.
  intros Hs. unfold quadrature, area. rewrite zfact_value.
  assert (HF : IZR (zfact D) <> 0) by (apply not_0_IZR; pose proof (zfact_pos D); lia).
  assert (HP : IZR s ^ list_sum es <> 0) by (apply pow_nonzero, Hs).
  replace (total (map (fun pw => snd pw * monomial es (fst pw)) (rule_of s q)))
    with (IZR (zsum es q) / IZR s ^ S (list_sum es)).
  { cbn [pow]. field. split; [|split]; assumption. }
  unfold zsum, rule_of, total. rewrite map_map. induction q as [|[xs w] q IH]; [cbn; field; split; assumption|].
  cbn [map fold_right]. rewrite <- IH, plus_IZR, mult_IZR. cbn [fst snd].
  rewrite (zmonomial_value s es xs (point_of s xs)) by (intros; reflexivity || exact Hs).
  cbn [pow]. field. split; assumption.
Qed.

(* Comparison of fractions. *)
Lemma fraction_le A B C E n m : (0 < B)%Z -> (0 < E)%Z -> (0 < m)%Z ->
  (Z.abs (A * E - C * B) * m <= n * (B * E))%Z -> Rabs (IZR A / IZR B - IZR C / IZR E) <= IZR n / IZR m.
Proof.
  intros HB HE Hm H. apply IZR_lt in HB, HE, Hm. apply IZR_le in H.
  rewrite !mult_IZR, abs_IZR, minus_IZR, !mult_IZR in H.
  replace (IZR A / IZR B - IZR C / IZR E) with ((IZR A * IZR E - IZR C * IZR B) * / (IZR B * IZR E)) by (field; lra).
  assert (P : 0 < IZR B * IZR E) by (apply Rmult_lt_0_compat; assumption).
  rewrite Rabs_mult, (Rabs_pos_eq (/ _)) by (apply Rlt_le, Rinv_0_lt_compat, P).
  apply (Rmult_le_reg_r (IZR m)); [exact Hm|]. apply (Rmult_le_reg_r (IZR B * IZR E)); [exact P|].
  replace (Rabs (IZR A * IZR E - IZR C * IZR B) * / (IZR B * IZR E) * IZR m * (IZR B * IZR E))
    with (Rabs (IZR A * IZR E - IZR C * IZR B) * IZR m) by (field; lra).
  replace (IZR n / IZR m * IZR m * (IZR B * IZR E)) with (IZR n * (IZR B * IZR E)) by (field; lra).
  exact H.
Qed.
Lemma fraction_ge A B C E n m : (0 < B)%Z -> (0 < E)%Z -> (0 < m)%Z ->
  (n * (B * E) <= Z.abs (A * E - C * B) * m)%Z -> IZR n / IZR m <= Rabs (IZR A / IZR B - IZR C / IZR E).
Proof.
  intros HB HE Hm H. apply IZR_lt in HB, HE, Hm. apply IZR_le in H.
  rewrite !mult_IZR, abs_IZR, minus_IZR, !mult_IZR in H.
  replace (IZR A / IZR B - IZR C / IZR E) with ((IZR A * IZR E - IZR C * IZR B) * / (IZR B * IZR E)) by (field; lra).
  assert (P : 0 < IZR B * IZR E) by (apply Rmult_lt_0_compat; assumption).
  rewrite Rabs_mult, (Rabs_pos_eq (/ _)) by (apply Rlt_le, Rinv_0_lt_compat, P).
  apply (Rmult_le_reg_r (IZR m)); [exact Hm|]. apply (Rmult_le_reg_r (IZR B * IZR E)); [exact P|].
  replace (Rabs (IZR A * IZR E - IZR C * IZR B) * / (IZR B * IZR E) * IZR m * (IZR B * IZR E))
    with (Rabs (IZR A * IZR E - IZR C * IZR B) * IZR m) by (field; lra).
  replace (IZR n / IZR m * IZR m * (IZR B * IZR E)) with (IZR n * (IZR B * IZR E)) by (field; lra).
  exact H.
Qed.

(* The difference for one monomial, as a comparison of integers. *)
Definition zerror (D : nat) (s : Z) (q : zrule) (es : list nat) : Z * Z :=
  let B := (zfact D * s ^ Z.of_nat (S (list_sum es)))%Z in
  let E := zfact (list_sum es + length es) in
  (Z.abs (zsum es q * E - zfacts es * B), (B * E)%Z).
Definition below D s q n m es : bool := let (d, b) := zerror D s q es in (d * m <=? n * b)%Z.
Definition above D s q n m es : bool := let (d, b) := zerror D s q es in (n * b <=? d * m)%Z.

Lemma dirichlet_value es : dirichlet es = IZR (zfacts es) / IZR (zfact (list_sum es + length es)).
Proof. unfold dirichlet. rewrite zfacts_value, zfact_value. reflexivity. Qed.
Lemma below_ok D s q n m es : (0 < s)%Z -> (0 < m)%Z -> below D s q n m es = true ->
  Rabs (quadrature D (rule_of s q) (monomial es) - dirichlet es) <= IZR n / IZR m.
Proof.
  intros Hs Hm H. rewrite dirichlet_value, zsum_value by (apply not_0_IZR; lia).
  rewrite pow_IZR, <- mult_IZR. unfold below, zerror in H. apply Z.leb_le in H.
  apply fraction_le; [|apply zfact_pos|exact Hm|exact H].
  apply Z.mul_pos_pos; [apply zfact_pos|apply Z.pow_pos_nonneg; lia].
Qed.
Lemma above_ok D s q n m es : (0 < s)%Z -> (0 < m)%Z -> above D s q n m es = true ->
  IZR n / IZR m <= Rabs (quadrature D (rule_of s q) (monomial es) - dirichlet es).
Proof.
  intros Hs Hm H. rewrite dirichlet_value, zsum_value by (apply not_0_IZR; lia).
  rewrite pow_IZR, <- mult_IZR. unfold above, zerror in H. apply Z.leb_le in H.
  apply fraction_ge; [|apply zfact_pos|exact Hm|exact H].
  apply Z.mul_pos_pos; [apply zfact_pos|apply Z.pow_pos_nonneg; lia].
Qed.

(* Two rules with the same points (in D variables) and weights. *)
Definition same_rule (D : nat) (q q' : rule) : Prop :=
  Forall2 (fun a b => (forall i, (i < D)%nat -> fst a i = fst b i) /\ snd a = snd b) q q'.
Lemma monomial_ext es : forall x y : vec, (forall i, (i < length es)%nat -> x i = y i) -> monomial es x = monomial es y.
Proof.
  induction es as [|e es IH]; intros x y H; [reflexivity|]. cbn [monomial].
  rewrite (H 0%nat) by (cbn; lia). rewrite (IH (fun i => x (S i)) (fun i => y (S i))); [reflexivity|].
  intros i Hi. apply H. cbn. lia.
Qed.
Lemma same_rule_ok D q q' es : same_rule D q q' -> length es = D ->
  quadrature D q (monomial es) = quadrature D q' (monomial es).
Proof.
  intros H L. unfold quadrature. f_equal. induction H as [|[x w] [y v] q q' [HX HW] H IH]; [reflexivity|].
  unfold total in *. cbn [map fold_right fst snd] in *. rewrite IH, HW, (monomial_ext es x y); [reflexivity|].
  intros i Hi. apply HX. lia.
Qed.

(* Every exponent list of the length and degree is one of finitely many. *)
Ltac exponents es :=
  intros es L S;
  repeat match goal with
  | H : length ?l = _ |- _ => destruct l as [|? ?]; simpl in H; try discriminate H; try (injection H as H)
  end;
  simpl in S;
  repeat match goal with
  | n : nat |- _ =>
      match goal with
      | _ : context [n] |- _ => destruct n as [|n]; try (exfalso; lia)
      end
  end.
Ltac exact_rule :=
  let es := fresh "es" in let L := fresh "L" in let S := fresh "S" in
  unfold accurate; exponents es; clear;
  unfold quadrature, area, dirichlet, facts, total; cbn; apply Rabs_le; lra.

Lemma segment_1_exact : accurate 1 1 segment_1 0.
Proof. exact_rule. Qed.
Lemma triangle_1_exact : accurate 2 1 triangle_1 0.
Proof. exact_rule. Qed.
Lemma triangle_2_exact : accurate 2 2 triangle_2 0.
Proof. exact_rule. Qed.
Lemma tetrahedron_1_exact : accurate 3 1 tetrahedron_1 0.
Proof. exact_rule. Qed.
(* The tables written in decimals. *)
Ltac same_integers :=
  unfold same_rule, rule_of; cbn [map];
  repeat (apply Forall2_cons; [split; cbn [fst snd];
    [let i := fresh "i" in let Hi := fresh "Hi" in intros i Hi; unfold point_of;
     destruct i as [|[|[|i]]]; try (exfalso; lia); cbn [nth vec1 vec2 vec3]; lra
    |lra]|]); apply Forall2_nil.
Ltac integer_rule same s q n m :=
  let es := fresh "es" in let L := fresh "L" in let S := fresh "S" in
  intros es L S; rewrite (same_rule_ok _ _ _ es same L);
  apply Rle_trans with (IZR n / IZR m); [|lra];
  revert es L S; exponents es;
  (clear; apply (below_ok _ s q n m); [reflexivity|reflexivity|vm_compute; reflexivity]).
Definition segment_2_z : zrule :=
  [([788675134594813], 500000000000000);
   ([211324865405187], 500000000000000)]%Z.
Lemma segment_2_same : same_rule 1 segment_2 (rule_of 1000000000000000 segment_2_z).
Proof. same_integers. Qed.
Lemma segment_2_accurate : accurate 1 3 segment_2 (1 / 10 ^ 15).
Proof. integer_rule segment_2_same 1000000000000000%Z segment_2_z 1%Z 1000000000000000%Z. Qed.
Definition triangle_3_z : zrule :=
  [([67423429920821617819967639163018730; 16288285039589191090016180418490635], 28114980244097964825351432270207695);
   ([16288285039589191090016180418490635; 67423429920821617819967639163018730], 28114980244097964825351432270207695);
   ([16288285039589191090016180418490635; 16288285039589191090016180418490635], 28114980244097964825351432270207695);
   ([4416023286487260000000000000000000; 47791988356756370000000000000000000], 5218353089235368507981901063125638);
   ([47791988356756370000000000000000000; 4416023286487260000000000000000000], 5218353089235368507981901063125638);
   ([47791988356756370000000000000000000; 47791988356756370000000000000000000], 5218353089235368507981901063125638)]%Z.
Lemma triangle_3_same : same_rule 2 triangle_3 (rule_of 100000000000000000000000000000000000 triangle_3_z).
Proof. same_integers. Qed.
Lemma triangle_3_accurate : accurate 2 3 triangle_3 (1 / 10 ^ 35).
Proof. integer_rule triangle_3_same 100000000000000000000000000000000000%Z triangle_3_z 1%Z 100000000000000000000000000000000000%Z. Qed.
Definition triangle_4_z : zrule :=
  [([816847572980458513080857; 91576213509770743459571], 109951743655321867638326);
   ([91576213509770743459571; 816847572980458513080857], 109951743655321867638326);
   ([91576213509770743459571; 91576213509770743459571], 109951743655321867638326);
   ([108103018168070227363167; 445948490915964886318329], 223381589678011465695007);
   ([445948490915964886318329; 108103018168070227363167], 223381589678011465695007);
   ([445948490915964886318329; 445948490915964886318329], 223381589678011465695007)]%Z.
Lemma triangle_4_same : same_rule 2 triangle_4 (rule_of 1000000000000000000000000 triangle_4_z).
Proof. same_integers. Qed.
Lemma triangle_4_accurate : accurate 2 4 triangle_4 (1 / 10 ^ 22).
Proof. integer_rule triangle_4_same 1000000000000000000000000%Z triangle_4_z 1%Z 10000000000000000000000%Z. Qed.
Definition tetrahedron_2_z : zrule :=
  [([5854101966249685; 1381966011250105; 1381966011250105], 2500000000000000);
   ([1381966011250105; 5854101966249685; 1381966011250105], 2500000000000000);
   ([1381966011250105; 1381966011250105; 5854101966249685], 2500000000000000);
   ([1381966011250105; 1381966011250105; 1381966011250105], 2500000000000000)]%Z.
Lemma tetrahedron_2_same : same_rule 3 tetrahedron_2 (rule_of 10000000000000000 tetrahedron_2_z).
Proof. same_integers. Qed.
Lemma tetrahedron_2_accurate : accurate 3 2 tetrahedron_2 (1 / 10 ^ 17).
Proof. integer_rule tetrahedron_2_same 10000000000000000%Z tetrahedron_2_z 1%Z 100000000000000000%Z. Qed.
