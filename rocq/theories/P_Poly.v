(* Polynomials: products, substitutions, derivatives, and integrals in barycentric coordinates. *)
From Coq Require Import Reals List Bool Arith Lia Lra FunctionalExtensionality.
From Coquelicot Require Import Rbar Hierarchy Derive RInt AutoDerive.
From Verif Require Import M_Tensor M_Geometry S_Geometry P_Volume M_Functions P_Functions.
From Verif Require Import M_Quadrature S_Quadrature P_Quadrature.
Import ListNotations.
Open Scope R_scope.

(* ------------------------------------------------------------------------------------------- *)
(* Operations. *)

Fixpoint eadd (a b : list nat) : list nat :=
  match a, b with
  | x :: a', y :: b' => (x + y)%nat :: eadd a' b'
  | _, _ => []
  end.
Definition pmul (p q : polynomial) : polynomial :=
  flat_map (fun t => map (fun u => (fst t * fst u, eadd (snd t) (snd u))) q) p.
Definition pscale (a : R) (p : polynomial) : polynomial := map (fun t => (a * fst t, snd t)) p.
Definition pconst (n : nat) (a : R) : polynomial := [(a, repeat 0%nat n)].
Fixpoint ppow (n : nat) (p : polynomial) (k : nat) : polynomial :=
  match k with
  | O => pconst n 1
  | S k' => pmul p (ppow n p k')
  end.
Fixpoint evar (n i : nat) : list nat :=
  match n with
  | O => []
  | S n' => match i with O => 1%nat :: repeat 0%nat n' | S i' => 0%nat :: evar n' i' end
  end.
Definition pvar (n i : nat) : polynomial := [(1, evar n i)].
(* substitution of polynomials in [n] variables for the variables *)
Fixpoint msubst (n : nat) (es : list nat) (forms : nat -> polynomial) : polynomial :=
  match es with
  | [] => pconst n 1
  | e :: es' => pmul (ppow n (forms 0%nat) e) (msubst n es' (fun i => forms (S i)))
  end.
Definition psubst (n : nat) (p : polynomial) (forms : nat -> polynomial) : polynomial :=
  flat_map (fun t => pscale (fst t) (msubst n (snd t) forms)) p.

Lemma eadd_length a : forall b, length a = length b -> length (eadd a b) = length a.
Proof. induction a as [|x a IH]; intros [|y b] H; try discriminate H; [reflexivity|]. cbn. f_equal. apply IH. injection H; auto. Qed.
Lemma eadd_sum a : forall b, length a = length b -> list_sum (eadd a b) = (list_sum a + list_sum b)%nat.
Proof. induction a as [|x a IH]; intros [|y b] H; try discriminate H; [reflexivity|]. cbn. injection H as H. fold (list_sum (eadd a b)) (list_sum a) (list_sum b). rewrite IH by exact H. lia. Qed.
Lemma monomial_eadd a : forall b x, length a = length b -> monomial (eadd a b) x = monomial a x * monomial b x.
Proof.
  induction a as [|e a IH]; intros [|f b] x H; try discriminate H; cbn; [ring|]. injection H as H.
  rewrite IH, pow_add by exact H. ring.
Qed.
Lemma monomial_zeros n : forall x, monomial (repeat 0%nat n) x = 1.
Proof. induction n as [|n IH]; intros x; cbn; [reflexivity|]. rewrite IH. ring. Qed.
Lemma sum_zeros n : list_sum (repeat 0%nat n) = 0%nat.
Proof. induction n; cbn; auto. Qed.

Lemma poly_pscale a p x : poly (pscale a p) x = a * poly p x.
Proof. unfold pscale. induction p as [|t p IH]; cbn [map]; [rewrite poly_nil; ring|]. rewrite !poly_cons, IH. cbn. ring. Qed.
Lemma poly_pconst n a x : poly (pconst n a) x = a.
Proof. unfold pconst. rewrite poly_cons, poly_nil. cbn [fst snd]. rewrite monomial_zeros. ring. Qed.
Lemma poly_pmul n r s p q x : of_degree n r p -> of_degree n s q -> poly (pmul p q) x = poly p x * poly q x.
Proof.
  intros Hp Hq. unfold pmul. induction Hp as [|t p [Lt _] Hp IH]; cbn [flat_map]; [rewrite !poly_nil; ring|].
  rewrite poly_app, IH, poly_cons. rewrite Rmult_plus_distr_r. f_equal.
  clear IH Hp. induction Hq as [|u q [Lu _] Hq IH]; cbn [map]; [rewrite !poly_nil; ring|].
  rewrite !poly_cons, IH. cbn [fst snd]. rewrite monomial_eadd by congruence. ring.
Qed.
Lemma monomial_evar n : forall i x, (i < n)%nat -> monomial (evar n i) x = x i.
Proof.
  induction n as [|n IH]; intros i x Hi; [lia|]. destruct i as [|i]; cbn.
  - rewrite monomial_zeros. ring.
  - rewrite IH by lia. ring.
Qed.
Lemma poly_pvar n i x : (i < n)%nat -> poly (pvar n i) x = x i.
Proof. intros Hi. unfold pvar. rewrite poly_cons, poly_nil. cbn [fst snd]. rewrite monomial_evar by exact Hi. ring. Qed.

Lemma degree_app n r p q : of_degree n r p -> of_degree n r q -> of_degree n r (p ++ q).
Proof. intros Hp Hq. unfold of_degree. apply Forall_app. split; assumption. Qed.
Lemma degree_pscale n r a p : of_degree n r p -> of_degree n r (pscale a p).
Proof. unfold pscale. induction 1; cbn; constructor; auto. Qed.
Lemma degree_pconst n r a : of_degree n r (pconst n a).
Proof. constructor; [|constructor]. cbn [snd]. rewrite repeat_length, sum_zeros. split; [reflexivity|lia]. Qed.
Lemma degree_pmul n r s p q : of_degree n r p -> of_degree n s q -> of_degree n (r + s) (pmul p q).
Proof.
  intros Hp Hq. unfold pmul. induction Hp as [|t p [Lt Dt] Hp IH]; cbn [flat_map]; [constructor|].
  apply degree_app; [|exact IH]. clear IH Hp.
  induction Hq as [|u q [Lu Du] Hq IH]; cbn [map]; [constructor|]. constructor; [|exact IH]. cbn [snd].
  rewrite eadd_length, eadd_sum by congruence. split; [exact Lt|lia].
Qed.
Lemma degree_weaken n r s p : (r <= s)%nat -> of_degree n r p -> of_degree n s p.
Proof. intros H. induction 1 as [|t p [L D] Hp IH]; constructor; [split; [exact L|lia]|exact IH]. Qed.
Lemma evar_length n : forall i, length (evar n i) = n.
Proof. induction n as [|n IH]; intros [|i]; cbn; [reflexivity..| |]; [rewrite repeat_length|rewrite IH]; reflexivity. Qed.
Lemma evar_sum n : forall i, (list_sum (evar n i) <= 1)%nat.
Proof.
  induction n as [|n IH]; intros [|i]; cbn; try lia.
  - pose proof (sum_zeros n) as H. unfold list_sum in H. rewrite H. lia.
  - apply IH.
Qed.
Lemma degree_pvar n i : of_degree n 1 (pvar n i).
Proof. constructor; [|constructor]. split; [apply evar_length|apply evar_sum]. Qed.
Lemma degree_ppow n p k : of_degree n 1 p -> of_degree n k (ppow n p k).
Proof.
  intros Hp. induction k as [|k IH]; cbn [ppow]; [apply degree_pconst|].
  exact (degree_pmul n 1 k _ _ Hp IH).
Qed.
Lemma degree_msubst n es : forall forms, (forall i, (i < length es)%nat -> of_degree n 1 (forms i)) ->
  of_degree n (list_sum es) (msubst n es forms).
Proof.
  induction es as [|e es IH]; intros forms H; cbn [msubst]; [apply degree_pconst|].
  apply (degree_pmul n e (list_sum es)).
  - apply degree_ppow, H. cbn; lia.
  - apply IH. intros i Hi. apply H. cbn; lia.
Qed.
Lemma degree_psubst n D r p forms : of_degree D r p -> (forall i, (i < D)%nat -> of_degree n 1 (forms i)) ->
  of_degree n r (psubst n p forms).
Proof.
  intros Hp H. unfold psubst. induction Hp as [|t p [L Dt] Hp IH]; cbn [flat_map]; [constructor|].
  apply degree_app; [|exact IH]. apply degree_pscale, (degree_weaken n (list_sum (snd t))); [exact Dt|].
  apply degree_msubst. rewrite L. exact H.
Qed.
Lemma poly_ppow n p k x : of_degree n 1 p -> poly (ppow n p k) x = poly p x ^ k.
Proof.
  intros Hp. induction k as [|k IH]; cbn [ppow]; [apply poly_pconst|].
  rewrite (poly_pmul n 1 k) by (try apply degree_ppow; exact Hp). rewrite IH. reflexivity.
Qed.
Lemma poly_msubst n es : forall forms x, (forall i, (i < length es)%nat -> of_degree n 1 (forms i)) ->
  poly (msubst n es forms) x = monomial es (fun i => poly (forms i) x).
Proof.
  induction es as [|e es IH]; intros forms x H; cbn [msubst monomial]; [apply poly_pconst|].
  rewrite (poly_pmul n e (list_sum es)).
  - rewrite poly_ppow by (apply H; cbn; lia). rewrite IH; [reflexivity|]. intros i Hi. apply H. cbn; lia.
  - apply degree_ppow, H. cbn; lia.
  - apply degree_msubst. intros i Hi. apply H. cbn; lia.
Qed.
Lemma poly_psubst n D r p forms x : of_degree D r p -> (forall i, (i < D)%nat -> of_degree n 1 (forms i)) ->
  poly (psubst n p forms) x = poly p (fun i => poly (forms i) x).
Proof.
  intros Hp H. unfold psubst. induction Hp as [|t p [L Dt] Hp IH]; cbn [flat_map]; [reflexivity|].
  rewrite poly_app, IH, poly_cons, poly_pscale, poly_msubst; [reflexivity|]. rewrite L. exact H.
Qed.

(* ------------------------------------------------------------------------------------------- *)
(* Derivatives. *)

Fixpoint dexp (m : nat) (es : list nat) : R * list nat :=
  match es with
  | [] => (0, [])
  | e :: es' => match m with
                | O => (INR e, (e - 1)%nat :: es')
                | S m' => (fst (dexp m' es'), e :: snd (dexp m' es'))
                end
  end.
Definition dpoly (m : nat) (p : polynomial) : polynomial :=
  map (fun t => (fst t * fst (dexp m (snd t)), snd (dexp m (snd t)))) p.

Lemma dexp_length es : forall m, length (snd (dexp m es)) = length es.
Proof. induction es as [|e es IH]; intros [|m]; cbn; auto. Qed.
Lemma dexp_sum es : forall m, (list_sum (snd (dexp m es)) <= list_sum es)%nat.
Proof.
  induction es as [|e es IH]; intros [|m]; cbn; try lia. specialize (IH m). unfold list_sum in IH. lia.
Qed.
(* the derivative of a monomial: zero, or of lower degree *)
Lemma dexp_lower es : forall m, fst (dexp m es) = 0 \/ (list_sum (snd (dexp m es)) + 1 = list_sum es)%nat.
Proof.
  induction es as [|e es IH]; intros [|m]; cbn; auto.
  - destruct e as [|e]; [left; reflexivity|right; lia].
  - destruct (IH m) as [H|H]; [left; exact H|right]. unfold list_sum in H. lia.
Qed.

Lemma monomial_direction es : forall (a b : vec) t,
  is_derive (fun t => monomial es (fun i => a i + t * b i)) t
    (rsum (length es) (fun m => b m * (fst (dexp m es) * monomial (snd (dexp m es)) (fun i => a i + t * b i)))).
Proof.
  induction es as [|e es IH]; intros a b t.
  - cbn. apply (is_derive_const (K := R_AbsRing) (V := R_NormedModule) (1 : R)).
  - cbn [length monomial]. rewrite rsum_first. cbn [dexp fst snd monomial].
    set (a' := fun i => a (S i)). set (b' := fun i => b (S i)).
    assert (H1 : is_derive (fun t => (a 0%nat + t * b 0%nat) ^ e) t
                   (INR e * b 0%nat * (a 0%nat + t * b 0%nat) ^ (e - 1))).
    { apply (pow_derive (fun t => a 0%nat + t * b 0%nat) (b 0%nat) e t). auto_derive; [exact Logic.I|ring]. }
    pose proof (IH a' b' t) as H2.
    pose proof (is_derive_mult (fun t => (a 0%nat + t * b 0%nat) ^ e)
      (fun t => monomial es (fun i => a' i + t * b' i)) t _ _ H1 H2) as H. cbv beta in H.
    match type of H with is_derive _ _ ?v => match goal with |- is_derive _ _ ?w =>
      replace w with v; [exact H|] end end.
    unfold plus; cbn. unfold mult; cbn.
    replace (rsum (length es) (fun k => b (S k) *
       (fst (dexp k es) * ((a 0%nat + t * b 0%nat) ^ e * monomial (snd (dexp k es)) (fun i => a (S i) + t * b (S i))))))
      with ((a 0%nat + t * b 0%nat) ^ e *
        rsum (length es) (fun m => b' m * (fst (dexp m es) * monomial (snd (dexp m es)) (fun i => a' i + t * b' i)))).
    2: { rewrite <- rsum_scale. apply rsum_ext. intros i Hi. unfold a', b'. ring. }
    unfold a', b'. ring.
Qed.
Lemma poly_direction D r p (a b : vec) t : of_degree D r p ->
  is_derive (fun t => poly p (fun i => a i + t * b i)) t
    (rsum D (fun m => b m * poly (dpoly m p) (fun i => a i + t * b i))).
Proof.
  induction 1 as [|u p [L Du] Hp IH].
  - unfold poly, dpoly, total. cbn. rewrite (rsum_ext D _ (fun _ => 0)) by (intros; ring). rewrite rsum_0.
    apply (is_derive_const (K := R_AbsRing) (V := R_NormedModule) (0 : R)).
  - change (fun t => poly (u :: p) (fun i => a i + t * b i))
      with (fun t => fst u * monomial (snd u) (fun i => a i + t * b i) + poly p (fun i => a i + t * b i)).
    pose proof (monomial_direction (snd u) a b t) as H1. rewrite L in H1.
    pose proof (is_derive_scal _ t (fst u) _ H1) as H2.
    pose proof (is_derive_plus _ _ t _ _ H2 IH) as H. cbv beta in H.
    match type of H with is_derive _ _ ?v => match goal with |- is_derive _ _ ?w =>
      replace w with v; [exact H|] end end.
    match goal with |- plus ?u ?v = _ => change (plus u v) with (Rplus u v) end.
    rewrite <- rsum_scale, <- rsum_plus. apply rsum_ext. intros m Hm.
    unfold dpoly. cbn [map]. rewrite poly_cons. cbn [fst snd]. ring.
Qed.
(* the derivative of a polynomial along one variable *)
Lemma poly_partial D r p (x : vec) m : of_degree D r p -> (m < D)%nat ->
  is_derive (fun t => poly p (fun k => if Nat.eqb k m then t else x k)) (x m) (poly (dpoly m p) x).
Proof.
  intros Hp Hm.
  set (a := fun k => if Nat.eqb k m then 0 else x k). set (b := fun k : nat => if Nat.eqb k m then 1 else 0).
  pose proof (poly_direction D r p a b (x m) Hp) as H.
  assert (E : (fun k => a k + x m * b k) = x).
  { apply functional_extensionality. intros k. unfold a, b. destruct (Nat.eqb_spec k m) as [->|]; ring. }
  rewrite E in H.
  assert (E2 : rsum D (fun m0 => b m0 * poly (dpoly m0 p) x) = poly (dpoly m p) x).
  { unfold b. exact (rsum_unit D m (fun m0 => poly (dpoly m0 p) x) Hm). }
  rewrite E2 in H. eapply is_derive_ext; [|exact H]. intros t. cbv beta. f_equal.
  apply functional_extensionality. intros k. unfold a, b. destruct (Nat.eqb k m); ring.
Qed.
Lemma degree_dpoly D r m p : of_degree D r p -> of_degree D r (dpoly m p).
Proof.
  unfold dpoly. induction 1 as [|t p [L Dt] Hp IH]; cbn [map]; constructor; [|exact IH]. cbn [snd].
  rewrite dexp_length. split; [exact L|]. pose proof (dexp_sum (snd t) m). lia.
Qed.
(* up to terms with coefficient zero, the derivative has a lower degree *)
Lemma dpoly_lower D r m p : of_degree D (S r) p ->
  exists q, of_degree D r q /\ forall x, poly q x = poly (dpoly m p) x.
Proof.
  unfold dpoly. induction 1 as [|t p [L Dt] Hp (q & Hq & E)]; cbn [map]; [exists []; split; [constructor|reflexivity]|].
  destruct (dexp_lower (snd t) m) as [H|H].
  - exists q. split; [exact Hq|]. intros x. rewrite poly_cons, E. cbn [fst snd]. rewrite H. ring.
  - exists ((fst t * fst (dexp m (snd t)), snd (dexp m (snd t))) :: q). split.
    + constructor; [|exact Hq]. cbn [snd]. rewrite dexp_length. split; [exact L|lia].
    + intros x. rewrite !poly_cons, E. reflexivity.
Qed.

(* ------------------------------------------------------------------------------------------- *)
(* Integrals in barycentric coordinates. *)

(* the barycentric coordinates of a point of the simplex of size s *)
Definition bary (D : nat) (s : R) (x : vec) : vec := fun i => if (i <? D)%nat then x i else s - rsum D x.
(* the integral of a monomial in the D + 1 barycentric coordinates *)
Definition bdirichlet (es : list nat) : R := facts es / INR (fact (list_sum es + (length es - 1))).

Lemma bmonomial_integral D : forall es s, length es = S D ->
  is_integral D s (fun x => monomial es (bary D s x)) (bdirichlet es * s ^ (list_sum es + D)).
Proof.
  induction D as [|D IH]; intros [|e es] s L; try discriminate L.
  - destruct es; [|discriminate L]. cbn. unfold bary, bdirichlet, facts. cbn.
    rewrite !Nat.add_0_r. rewrite Rminus_0_r. field. apply fact_nz.
  - injection L as L. cbn [is_integral monomial].
    exists (fun t => t ^ e * (bdirichlet es * (s - t) ^ (list_sum es + D))). split.
    + intros t Ht. apply (is_integral_ext _ _ (fun x => t ^ e * monomial es (bary D (s - t) x))).
      * intros x. unfold bary at 2. replace (0 <? S D)%nat with true by reflexivity. f_equal. f_equal.
        apply functional_extensionality. intros i. unfold bary.
        change (S i <? S D)%nat with (i <? D)%nat. destruct (i <? D)%nat; [reflexivity|].
        rewrite rsum_first. cbv beta iota. change (rsum D (fun k => x k)) with (rsum D x). ring.
      * apply is_integral_scal, IH, L.
    + set (m := (list_sum es + D)%nat).
      apply (is_RInt_ext (fun t => scal (bdirichlet es) (t ^ e * (s - t) ^ m))).
      { intros t _. unfold scal; simpl; unfold mult; simpl. ring. }
      eapply is_RInt_eq; [|exact (is_RInt_scal _ _ _ (bdirichlet es) _ (beta e m s))].
      unfold scal; simpl; unfold mult; simpl. unfold bdirichlet. cbn [facts fold_right list_sum length].
      fold (facts es). rewrite L.
      replace (e + fold_right Init.Nat.add 0 es + (S (S D) - 1))%nat with (e + m + 1)%nat
        by (unfold m, list_sum; lia).
      replace (e + fold_right Init.Nat.add 0 es + S D)%nat with (e + m + 1)%nat
        by (unfold m, list_sum; lia).
      replace (list_sum es + (S D - 1))%nat with m by (unfold m; lia).
      replace (e + list_sum es + S D)%nat with (e + m + 1)%nat by (unfold m; lia).
      field. split; apply fact_nz.
Qed.
(* the integral of a polynomial in the barycentric coordinates *)
Definition bint (p : polynomial) : R := total (map (fun t => fst t * bdirichlet (snd t)) p).
Lemma bpoly_integral D r p : of_degree (S D) r p ->
  reference_integral D (fun x => poly p (bary D 1 x)) (bint p).
Proof.
  unfold reference_integral, bint. induction 1 as [|t p [L _] H IH].
  - apply is_integral_zero.
  - apply (is_integral_ext _ _ (fun x => fst t * monomial (snd t) (bary D 1 x) + poly p (bary D 1 x))); [reflexivity|].
    cbn [map total fold_right]. apply is_integral_plus; [|exact IH].
    apply is_integral_scal. eapply eq_rect; [apply bmonomial_integral, L|]. rewrite pow1. ring.
Qed.
