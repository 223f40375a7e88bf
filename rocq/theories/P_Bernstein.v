(* Integrals over simplices of continuous functions: bounds, approximation by Bernstein polynomials,
   existence. *)
From Coq Require Import Reals List Bool Arith Lia Lra Psatz FunctionalExtensionality.
From Coquelicot Require Import Rbar Hierarchy Derive RInt Lim_seq Rcomplements.
From Verif Require Import M_Tensor M_Geometry S_Geometry P_Volume M_Functions P_Functions.
From Verif Require Import M_Quadrature S_Quadrature P_Quadrature P_Poly P_Gauss P_TetraGeometry P_TetraTiling P_Refine S_Refine.
Import ListNotations.
Open Scope R_scope.

(* ------------------------------------------------------------------------------------------- *)
(* Bounds on integrals. *)

Definition vcons (t : R) (x : vec) : vec := fun i => match i with O => t | S j => x j end.

Definition in_simplex (D : nat) (s : R) (x : vec) : Prop := (forall i, (i < D)%nat -> 0 <= x i) /\ rsum D x <= s.

Lemma in_simplex_cons D s t x : 0 <= t -> in_simplex D (s - t) x -> in_simplex (S D) s (vcons t x).
Proof.
  intros Ht [H0 H1]. split.
  - intros [|i] Hi; cbn; [exact Ht|apply H0; lia].
  - rewrite rsum_first. cbn [vcons]. change (fun k => x k) with x. lra.
Qed.

Lemma is_integral_nonneg D : forall s f v, 0 <= s -> is_integral D s f v ->
  (forall x, in_simplex D s x -> 0 <= f x) -> 0 <= v.
Proof.
  induction D as [|D IH]; intros s f v Hs H Hf.
  - cbn in H. subst v. apply Hf. split; [intros i Hi; lia|cbn; exact Hs].
  - destruct H as (g & Hg & HI).
    apply (is_RInt_le (fun _ => 0) g 0 s 0 v Hs).
    + eapply is_RInt_eq; [|apply (is_RInt_const 0 s 0)]. unfold scal; simpl; unfold mult; simpl. ring.
    + exact HI.
    + intros t Ht. apply (IH (s - t) _ (g t) ltac:(lra) (Hg t ltac:(lra))).
      intros x Hx. apply (Hf (vcons t x)). apply in_simplex_cons; [lra|exact Hx].
Qed.

Lemma facts_zeros n : facts (repeat 0%nat n) = 1.
Proof. unfold facts. induction n as [|n IH]; cbn; [reflexivity|]. rewrite IH. ring. Qed.
Lemma is_integral_const D s c : is_integral D s (fun _ => c) (c * (s ^ D / INR (fact D))).
Proof.
  pose proof (monomial_integral (repeat 0%nat D) s) as H. rewrite repeat_length in H.
  apply (is_integral_ext D s (fun x => c * monomial (repeat 0%nat D) x)).
  { intros x. rewrite monomial_zeros. ring. }
  replace (c * (s ^ D / INR (fact D))) with (c * (dirichlet (repeat 0%nat D) * s ^ (list_sum (repeat 0%nat D) + D))).
  - apply is_integral_scal. exact H.
  - rewrite sum_zeros. unfold dirichlet. rewrite sum_zeros, repeat_length. cbn [Nat.add].
    rewrite facts_zeros. field. apply fact_nz.
Qed.

Lemma is_integral_bound D s f g u v e : 0 <= s -> is_integral D s f u -> is_integral D s g v ->
  (forall x, in_simplex D s x -> Rabs (f x - g x) <= e) -> Rabs (u - v) <= e * (s ^ D / INR (fact D)).
Proof.
  intros Hs Hu Hv He. pose proof (is_integral_const D s e) as Hc. set (E := e * (s ^ D / INR (fact D))) in *.
  assert (H1 : 0 <= E + -1 * (u + -1 * v)).
  { refine (is_integral_nonneg D s (fun x => e + -1 * (f x + -1 * g x)) _ Hs _ _).
    - apply (is_integral_plus D s (fun _ => e) (fun x => -1 * (f x + -1 * g x))); [exact Hc|].
      apply (is_integral_scal D s (fun x => f x + -1 * g x)).
      apply (is_integral_plus D s f (fun x => -1 * g x)); [exact Hu|]. apply is_integral_scal, Hv.
    - intros x Hx. specialize (He x Hx). apply Rabs_le_between in He. lra. }
  assert (H2 : 0 <= E + (u + -1 * v)).
  { refine (is_integral_nonneg D s (fun x => e + (f x + -1 * g x)) _ Hs _ _).
    - apply (is_integral_plus D s (fun _ => e) (fun x => f x + -1 * g x)); [exact Hc|].
      apply (is_integral_plus D s f (fun x => -1 * g x)); [exact Hu|]. apply is_integral_scal, Hv.
    - intros x Hx. specialize (He x Hx). apply Rabs_le_between in He. lra. }
  apply Rabs_le_between. lra.
Qed.

(* ------------------------------------------------------------------------------------------- *)
(* The integral of a uniform limit of polynomials. *)

Definition pint (s : R) (p : polynomial) : R :=
  total (map (fun t => fst t * (dirichlet (snd t) * s ^ (list_sum (snd t) + length (snd t)))) p).
Definition arity (D : nat) (p : polynomial) : Prop := Forall (fun t => length (snd t) = D) p.
Definition pslice (t : R) (p : polynomial) : polynomial :=
  map (fun ce => (fst ce * t ^ hd 0%nat (snd ce), tl (snd ce))) p.

Lemma pint_integral D s p : arity D p -> is_integral D s (poly p) (pint s p).
Proof.
  unfold pint. induction 1 as [|t p L H IH].
  - apply is_integral_zero.
  - apply (is_integral_ext D s (fun x => fst t * monomial (snd t) x + poly p x)); [reflexivity|].
    cbn [map total fold_right]. apply is_integral_plus; [|exact IH]. apply is_integral_scal.
    rewrite <- L. apply monomial_integral.
Qed.
Lemma pslice_arity D t p : arity (S D) p -> arity D (pslice t p).
Proof.
  unfold arity, pslice. induction 1 as [|ce p L H IH]; cbn [map]; constructor; [|exact IH].
  cbn [snd]. destruct (snd ce); [discriminate L|]. cbn in *. lia.
Qed.
Lemma pslice_poly D t p x : arity (S D) p -> poly (pslice t p) x = poly p (vcons t x).
Proof.
  unfold arity, pslice. induction 1 as [|ce p L H IH]; cbn [map]; [reflexivity|].
  rewrite !poly_cons, IH. cbn [fst snd]. destruct (snd ce) as [|e es]; [discriminate L|]. cbn [hd tl monomial vcons].
  change (fun i => x i) with x. ring.
Qed.

Definition uniform_limit (D : nat) (s : R) (p : nat -> polynomial) (f : vec -> R) : Prop :=
  forall eps, 0 < eps -> exists k0, forall k, (k0 <= k)%nat -> forall x, in_simplex D s x -> Rabs (poly (p k) x - f x) <= eps.

Lemma limit_integral D : forall (p : nat -> polynomial) f s, 0 <= s -> (forall k, arity D (p k)) ->
  uniform_limit D s p f -> is_integral D s f (real (Lim_seq (fun k => pint s (p k)))).
Proof.
  induction D as [|D IH]; intros p f s Hs Ha Hu.
  - cbn [is_integral]. assert (L : is_lim_seq (fun k => pint s (p k)) (f vzero)).
    { apply is_lim_seq_spec. intros eps. destruct (Hu (eps / 2)) as (k0 & Hk); [destruct eps; cbn; lra|].
      exists k0. intros k Hkk. pose proof (is_integral_unique 0 s (poly (p k)) _ _ Hs (pint_integral 0 s (p k) (Ha k)) eq_refl) as E.
      rewrite E. eapply Rle_lt_trans; [apply (Hk k Hkk); split; [intros i Hi; lia|cbn; exact Hs]|]. destruct eps; cbn; lra. }
    rewrite (is_lim_seq_unique _ _ L). reflexivity.
  - set (G := fun k t => pint (s - t) (pslice t (p k))).
    set (g := fun t => real (Lim_seq (fun k => G k t))).
    assert (Hsl : forall t, 0 <= t <= s -> uniform_limit D (s - t) (fun k => pslice t (p k)) (fun x => f (vcons t x))).
    { intros t Ht eps Heps. destruct (Hu eps Heps) as (k0 & Hk). exists k0. intros k Hkk x Hx.
      rewrite (pslice_poly D) by apply Ha. apply (Hk k Hkk). apply in_simplex_cons; [lra|exact Hx]. }
    assert (Hg : forall t, 0 <= t <= s -> is_integral D (s - t) (fun x => f (vcons t x)) (g t)).
    { intros t Ht. apply (IH (fun k => pslice t (p k))); [lra|intros k; apply pslice_arity, Ha|apply Hsl, Ht]. }
    exists g. split; [exact Hg|].
    set (clip := fun (h : R -> R) t => if Rle_dec 0 t then if Rle_dec t s then h t else 0 else 0).
    assert (clip_ok : forall h t, 0 <= t <= s -> clip h t = h t).
    { intros h t Ht. unfold clip. destruct (Rle_dec 0 t); [|lra]. destruct (Rle_dec t s); [reflexivity|lra]. }
    destruct (filterlim_RInt (fun k => clip (G k)) 0 s eventually _ (clip g) (fun k => pint s (p k))) as (If & Hlim & HI).
    + intros k. pose proof (pint_integral (S D) s (p k) (Ha k)) as (gk & Hgk & HIk).
      apply (is_RInt_ext gk); [|exact HIk]. intros t Ht. rewrite Rmin_left, Rmax_right in Ht by exact Hs.
      rewrite clip_ok by lra. unfold G.
      apply (is_integral_unique D (s - t) (fun x => poly (p k) (vcons t x))); [lra|apply Hgk; lra|].
      apply (is_integral_ext D (s - t) (poly (pslice t (p k)))); [intros x; apply (pslice_poly D), Ha|].
      apply pint_integral, pslice_arity, Ha.
    + apply filterlim_locally. intros eps.
      assert (Hc : 0 <= s ^ D / INR (fact D)) by (apply Rdiv_le_0_compat; [apply pow_le, Hs|apply fact_pos]).
      set (C := s ^ D / INR (fact D)) in *.
      assert (Hq : 0 < eps / (2 * (C + 1))) by (apply Rdiv_lt_0_compat; [apply cond_pos|lra]).
      destruct (Hu _ Hq) as (k0 & Hk). exists k0. intros k Hkk t. cbv beta.
      unfold clip. destruct (Rle_dec 0 t) as [H0|]; [destruct (Rle_dec t s) as [H1|]|]; try apply ball_center.
      change (Rabs (G k t - g t) < eps).
      eapply Rle_lt_trans.
      * apply (is_integral_bound D (s - t) (poly (pslice t (p k))) (fun x => f (vcons t x)) _ _ (eps / (2 * (C + 1)))).
        -- lra.
        -- apply pint_integral, pslice_arity, Ha.
        -- apply Hg. lra.
        -- intros x Hx. rewrite (pslice_poly D) by apply Ha. apply (Hk k Hkk). apply in_simplex_cons; [exact H0|exact Hx].
      * assert (Hle : (s - t) ^ D / INR (fact D) <= C).
        { unfold C. apply Rmult_le_compat_r; [left; apply Rinv_0_lt_compat, fact_pos|]. apply pow_incr. lra. }
        eapply Rle_lt_trans; [apply Rmult_le_compat_l; [lra|exact Hle]|].
        assert (Hp : eps / (2 * (C + 1)) * (C + 1) = eps / 2) by (field; lra).
        destruct eps as [eps Heps]; cbn [pos] in *. nra.
    + apply (is_RInt_ext (clip g)).
      { intros t Ht. rewrite Rmin_left, Rmax_right in Ht by exact Hs. apply clip_ok. lra. }
      replace (real (Lim_seq (fun k => pint s (p k)))) with If; [exact HI|].
      rewrite (is_lim_seq_unique _ If Hlim). reflexivity.
Qed.

(* ------------------------------------------------------------------------------------------- *)
(* Weighted sums over the corners, and points of simplices. *)

Fixpoint wsum (l : vec) (xs : list vec) (F : vec -> R) : R :=
  match xs with
  | [] => 0
  | x :: xs' => l 0%nat * F x + wsum (fun i => l (S i)) xs' F
  end.
Definition weights (M : nat) (l : vec) : Prop := (forall i, (i < M)%nat -> 0 <= l i) /\ rsum M l = 1.

Lemma lin_wsum xs : forall l k, lin xs l k = wsum l xs (fun x => x k).
Proof. induction xs as [|x xs IH]; intros l k; cbn [lin wsum]; [reflexivity|]. rewrite IH. reflexivity. Qed.
Lemma wsum_plus xs : forall l F G, wsum l xs (fun x => F x + G x) = wsum l xs F + wsum l xs G.
Proof. induction xs as [|x xs IH]; intros l F G; cbn [wsum]; [ring|]. rewrite IH. ring. Qed.
Lemma wsum_scal xs : forall l a F, wsum l xs (fun x => a * F x) = a * wsum l xs F.
Proof. induction xs as [|x xs IH]; intros l a F; cbn [wsum]; [ring|]. rewrite IH. ring. Qed.
Lemma wsum_const xs : forall l a, wsum l xs (fun _ => a) = rsum (length xs) l * a.
Proof.
  induction xs as [|x xs IH]; intros l a; cbn [wsum length]; [cbn; ring|]. rewrite rsum_first, IH. ring.
Qed.
Lemma wsum_ext xs : forall l F G, (forall x, In x xs -> F x = G x) -> wsum l xs F = wsum l xs G.
Proof.
  induction xs as [|x xs IH]; intros l F G H; cbn [wsum]; [reflexivity|].
  rewrite (H x) by (left; reflexivity). rewrite (IH _ F G) by (intros; apply H; right; assumption). reflexivity.
Qed.
Lemma wsum_le xs : forall l F G, (forall i, (i < length xs)%nat -> 0 <= l i) -> (forall x, In x xs -> F x <= G x) ->
  wsum l xs F <= wsum l xs G.
Proof.
  induction xs as [|x xs IH]; intros l F G Hl H; cbn [wsum]; [lra|].
  apply Rplus_le_compat.
  - apply Rmult_le_compat_l; [apply Hl; cbn; lia|apply H; left; reflexivity].
  - apply IH; [intros i Hi; apply Hl; cbn; lia|intros y Hy; apply H; right; exact Hy].
Qed.
Lemma wsum_rsum xs D : forall l (F : vec -> nat -> R), wsum l xs (fun x => rsum D (F x)) = rsum D (fun m => wsum l xs (fun x => F x m)).
Proof.
  induction xs as [|x xs IH]; intros l F; cbn [wsum]; [symmetry; apply rsum_0|].
  rewrite IH, rsum_plus, rsum_scale. reflexivity.
Qed.
Lemma wsum_abs xs l F c e : weights (length xs) l -> (forall x, In x xs -> Rabs (F x - c) <= e x) ->
  Rabs (wsum l xs F - c) <= wsum l xs e.
Proof.
  intros [H0 H1] H. 
  assert (E : wsum l xs F - c = wsum l xs (fun x => F x + - c)).
  { rewrite wsum_plus, wsum_const, H1. ring. }
  rewrite E. apply Rabs_le_between. split.
  - replace (- wsum l xs e) with (wsum l xs (fun x => -1 * e x)) by (rewrite wsum_scal; ring).
    apply wsum_le; [exact H0|]. intros x Hx. specialize (H x Hx). apply Rabs_le_between in H. lra.
  - apply wsum_le; [exact H0|]. intros x Hx. specialize (H x Hx). apply Rabs_le_between in H. lra.
Qed.

Lemma rsum_total M l : rsum M l = total (map l (seq 0 M)).
Proof.
  induction M as [|M IH]; [reflexivity|]. cbn [rsum]. rewrite seq_S, map_app, P_Quadrature.total_app, IH. cbn. ring.
Qed.
Lemma inside_weights D xs y : inside D xs y <-> exists l, weights (length xs) l /\ forall m, (m < D)%nat -> y m = lin xs l m.
Proof.
  split.
  - intros (ws & L & Hw & Ht & Hy). exists (fun i => nth i ws 0).
    assert (E : map (fun i => nth i ws 0) (seq 0 (length xs)) = ws).
    { rewrite <- L. clear. induction ws as [|w ws IH]; [reflexivity|]. cbn [length seq map nth]. f_equal.
      rewrite <- seq_shift, map_map. exact IH. }
    split; [split|].
    + intros i Hi. rewrite Forall_forall in Hw. apply Hw, nth_In. lia.
    + rewrite rsum_total, E. exact Ht.
    + intros m Hm. rewrite lin_combo, E. apply Hy, Hm.
  - intros (l & [H0 H1] & Hy). exists (map l (seq 0 (length xs))). split; [|split; [|split]].
    + rewrite map_length, seq_length. reflexivity.
    + apply Forall_forall. intros a Ha. apply in_map_iff in Ha as (i & <- & Hi). apply in_seq in Hi. apply H0. lia.
    + rewrite <- rsum_total. exact H1.
    + intros m Hm. rewrite <- lin_combo. apply Hy, Hm.
Qed.
Lemma inside_lin D xs l : weights (length xs) l -> inside D xs (lin xs l).
Proof. intros H. apply inside_weights. exists l. split; [exact H|reflexivity]. Qed.
Lemma lin_plus xs : forall (l l' : vec) k, lin xs (fun i => l i + l' i) k = lin xs l k + lin xs l' k.
Proof. induction xs as [|x xs IH]; intros l l' k; cbn [lin]; [ring|]. rewrite (IH (fun i => l (S i)) (fun i => l' (S i))). ring. Qed.
Lemma lin_scal xs : forall a (l : vec) k, lin xs (fun i => a * l i) k = a * lin xs l k.
Proof. induction xs as [|x xs IH]; intros a l k; cbn [lin]; [ring|]. rewrite (IH a (fun i => l (S i))). ring. Qed.
Lemma inside_convex D xs y z t : inside D xs y -> inside D xs z -> 0 <= t <= 1 ->
  inside D xs (fun m => (1 - t) * y m + t * z m).
Proof.
  intros (l & [H0 H1] & Hy)%inside_weights (l' & [H0' H1'] & Hz)%inside_weights Ht.
  apply inside_weights. exists (fun i => (1 - t) * l i + t * l' i). split; [split|].
  - intros i Hi. specialize (H0 i Hi). specialize (H0' i Hi). nra.
  - rewrite rsum_plus, !rsum_scale, H1, H1'. ring.
  - intros m Hm. rewrite (lin_plus xs (fun i => (1 - t) * l i) (fun i => t * l' i)), !lin_scal, (Hy m Hm), (Hz m Hm). reflexivity.
Qed.

(* two points of a simplex are not farther than two of its corners *)
Lemma inside_spread D xs y z m : (m < D)%nat -> inside D xs y -> inside D xs z -> sq (y m - z m) <= spread m xs.
Proof.
  intros Hm (l & Hl & Hy)%inside_weights (l' & Hl' & Hz)%inside_weights. rewrite (Hy m Hm), (Hz m Hm), !lin_wsum.
  set (e := sqrt (spread m xs)). pose proof (spread_pos m xs) as Hs.
  assert (He : e * e = spread m xs) by (apply sqrt_sqrt, Hs). assert (0 <= e) by apply sqrt_pos.
  assert (Hc : forall p q, In p xs -> In q xs -> Rabs (p m - q m) <= e).
  { intros p q Hp Hq. pose proof (spread_edge m xs p q Hp Hq) as E. unfold sq in E. apply Rabs_le_between. split; nra. }
  assert (Hw : wsum l xs (fun _ => e) = e) by (rewrite wsum_const, (proj2 Hl); ring).
  assert (Hw' : wsum l' xs (fun _ => e) = e) by (rewrite wsum_const, (proj2 Hl'); ring).
  assert (A : forall q, In q xs -> Rabs (q m - wsum l xs (fun x => x m)) <= e).
  { intros q Hq. rewrite Rabs_minus_sym. eapply Rle_trans; [|right; exact Hw].
    apply (wsum_abs xs l (fun x => x m) (q m) (fun _ => e) Hl). intros x Hx. apply Hc; assumption. }
  assert (B : Rabs (wsum l' xs (fun x => x m) - wsum l xs (fun x => x m)) <= e).
  { eapply Rle_trans; [|right; exact Hw']. apply (wsum_abs xs l' (fun x => x m) _ (fun _ => e) Hl'). exact A. }
  apply Rabs_le_between in B. unfold sq. nra.
Qed.

(* ------------------------------------------------------------------------------------------- *)
(* Bernstein polynomials in the barycentric coordinates. *)

Lemma lin_zero xs k : lin xs vzero k = 0.
Proof. unfold vzero. induction xs as [|x xs IH]; cbn [lin]; [reflexivity|]. rewrite IH. ring. Qed.

Section bernstein.
  Context (D : nat) (xs : list vec) (f : vec -> R) (K : nat).

  Fixpoint bern (k : nat) (y l : vec) : R :=
    match k with
    | O => f (fun m => y m / INR K)
    | S k' => wsum l xs (fun x => bern k' (fun m => y m + x m) l)
    end.

  Fixpoint pw (n j : nat) (ys : list vec) (P : vec -> polynomial) : polynomial :=
    match ys with
    | [] => []
    | y :: ys' => pmul (pvar n j) (P y) ++ pw n (S j) ys' P
    end.
  Fixpoint pbern (k : nat) (y : vec) : polynomial :=
    match k with
    | O => pconst (length xs) (f (fun m => y m / INR K))
    | S k' => pw (length xs) 0 xs (fun x => pbern k' (fun m => y m + x m))
    end.

  Lemma pw_degree n r ys : forall j P, (forall y, of_degree n r (P y)) -> of_degree n (1 + r) (pw n j ys P).
  Proof.
    induction ys as [|y ys IH]; intros j P HP; cbn [pw]; [constructor|].
    apply degree_app; [|apply IH, HP]. apply degree_pmul; [apply degree_pvar|apply HP].
  Qed.
  Lemma pw_poly n r ys : forall j P l, (j + length ys <= n)%nat -> (forall y, of_degree n r (P y)) ->
    poly (pw n j ys P) l = wsum (fun i => l (j + i)%nat) ys (fun y => poly (P y) l).
  Proof.
    induction ys as [|y ys IH]; intros j P l Hj HP; cbn [pw wsum]; [reflexivity|]. cbn [length] in Hj.
    rewrite poly_app, (poly_pmul n 1 r) by (try apply degree_pvar; apply HP).
    rewrite poly_pvar by lia. rewrite Nat.add_0_r. f_equal. rewrite IH by (try lia; exact HP).
    f_equal. apply functional_extensionality. intros i. f_equal. lia.
  Qed.
  Lemma pbern_degree k : forall y, of_degree (length xs) k (pbern k y).
  Proof.
    induction k as [|k IH]; intros y; cbn [pbern]; [apply degree_pconst|].
    apply (pw_degree _ k). intros x. apply IH.
  Qed.
  Lemma pbern_poly k : forall y l, poly (pbern k y) l = bern k y l.
  Proof.
    induction k as [|k IH]; intros y l; cbn [pbern bern]; [apply poly_pconst|].
    rewrite (pw_poly _ k) by (try lia; intros; apply pbern_degree). apply wsum_ext. intros x _. apply IH.
  Qed.

  Lemma wsum_variance l (u : vec) : weights (length xs) l ->
    wsum l xs (fun x => rsum D (fun m => sq (u m + (x m - lin xs l m))))
    = rsum D (fun m => sq (u m)) + wsum l xs (fun x => rsum D (fun m => sq (x m - lin xs l m))).
  Proof.
    intros [_ H1].
    rewrite (wsum_ext xs l _ (fun x => (rsum D (fun m => sq (u m)) + rsum D (fun m => 2 * u m * (x m - lin xs l m)))
      + rsum D (fun m => sq (x m - lin xs l m)))).
    2: { intros x _. rewrite <- !rsum_plus. apply rsum_ext. intros m _. unfold sq. ring. }
    rewrite !wsum_plus, wsum_const, H1.
    assert (Z : wsum l xs (fun x => rsum D (fun m => 2 * u m * (x m - lin xs l m))) = 0).
    { rewrite wsum_rsum. rewrite (rsum_ext D _ (fun _ => 0)); [apply rsum_0|]. intros m _.
      rewrite wsum_scal. unfold Rminus.
      rewrite (wsum_plus xs l (fun x => x m) (fun _ => - lin xs l m)), wsum_const, H1, <- lin_wsum. ring. }
    rewrite Z. ring.
  Qed.

  (* sums of corners *)
  Definition reached (k : nat) (y : vec) : Prop :=
    exists c : vec, (forall i, (i < length xs)%nat -> 0 <= c i) /\ rsum (length xs) c = INR k /\
      forall m, y m = lin xs c m.
  Lemma reached_step k y x : reached k y -> In x xs -> reached (S k) (fun m => y m + x m).
  Proof.
    intros (c & H0 & H1 & Hy) Hx. apply (In_nth xs x vzero) in Hx as (j & Hj & Ex).
    exists (fun i => c i + unit j i). split; [|split].
    - intros i Hi. specialize (H0 i Hi). unfold unit. destruct (Nat.eqb i j); lra.
    - rewrite rsum_plus, H1, S_INR. f_equal.
      rewrite (rsum_ext _ _ (fun i => (if Nat.eqb i j then 1 else 0) * 1)); [|intros i _; unfold unit; ring].
      apply (rsum_unit (length xs) j (fun _ => 1) Hj).
    - intros m. rewrite (lin_plus xs c (unit j)), <- Hy. f_equal. rewrite <- Ex. symmetry.
      apply (lin_unit xs j m Hj).
  Qed.

  Context (a b : R) (Hb : 0 <= b) (HK : (0 < K)%nat)
    (Hf : forall y z, inside D xs y -> inside D xs z -> Rabs (f z - f y) <= a + b * rsum D (fun m => sq (z m - y m))).

  Lemma bern_close l k : weights (length xs) l -> (k <= K)%nat -> forall y, reached (K - k) y ->
    Rabs (bern k y l - f (lin xs l)) <=
      a + b * ((rsum D (fun m => sq (y m - INR (K - k) * lin xs l m))
                + INR k * wsum l xs (fun x => rsum D (fun m => sq (x m - lin xs l m)))) / sq (INR K)).
  Proof.
    intros Hl. assert (HKp : 0 < INR K) by (apply lt_0_INR, HK).
    set (V := wsum l xs (fun x => rsum D (fun m => sq (x m - lin xs l m)))).
    induction k as [|k IH]; intros Hk y Hy; cbn [bern].
    - rewrite Nat.sub_0_r in *. destruct Hy as (c & H0 & H1 & Hy).
      eapply Rle_trans; [apply (Hf (lin xs l)); [apply inside_lin, Hl|]|].
      + apply inside_weights. exists (fun i => / INR K * c i). split; [split|].
        * intros i Hi. apply Rmult_le_pos; [left; apply Rinv_0_lt_compat, HKp|apply H0, Hi].
        * rewrite rsum_scale, H1. field. lra.
        * intros m _. rewrite lin_scal, <- Hy. unfold Rdiv. ring.
      + apply Rplus_le_compat_l, Rmult_le_compat_l; [exact Hb|]. right. cbn [INR]. rewrite Rmult_0_l, Rplus_0_r.
        unfold Rdiv. rewrite <- rsum_scale_r. apply rsum_ext. intros m _. unfold sq. field. lra.
    - eapply Rle_trans.
      + apply (wsum_abs xs l _ _ (fun x => a + b * ((rsum D (fun m => sq (y m + x m - INR (K - k) * lin xs l m)) + INR k * V) / sq (INR K))) Hl).
        intros x Hx. apply IH; [lia|]. replace (K - k)%nat with (S (K - S k)) by lia. apply reached_step; assumption.
      + right. rewrite wsum_plus, wsum_const, wsum_scal, (proj2 Hl), Rmult_1_l. do 2 f_equal.
        unfold Rdiv. rewrite (wsum_ext xs l _ (fun x => / sq (INR K) * (rsum D (fun m => sq ((y m - INR (K - S k) * lin xs l m) + (x m - lin xs l m))) + INR k * V))).
        * rewrite wsum_scal, wsum_plus, wsum_const, (proj2 Hl), wsum_variance by exact Hl. fold V. rewrite S_INR. ring.
        * intros x _. rewrite Rmult_comm. do 2 f_equal. apply rsum_ext. intros m _. f_equal.
          replace (K - k)%nat with (S (K - S k)) by lia. rewrite S_INR. ring.
  Qed.

  Lemma variance_bound l : weights (length xs) l ->
    wsum l xs (fun x => rsum D (fun m => sq (x m - lin xs l m))) <= rsum D (fun m => spread m xs).
  Proof.
    intros Hl. rewrite <- (Rmult_1_l (rsum D (fun m => spread m xs))), <- (proj2 Hl), <- wsum_const.
    apply wsum_le; [apply Hl|]. intros x Hx. 
    assert (Hin : inside D xs x).
    { apply (In_nth xs x vzero) in Hx as (j & Hj & Ex). apply inside_weights. exists (unit j). split; [split|].
      - intros i _. unfold unit. destruct (Nat.eqb i j); lra.
      - rewrite (rsum_ext _ _ (fun i => (if Nat.eqb i j then 1 else 0) * 1)); [|intros i _; unfold unit; ring].
        apply (rsum_unit (length xs) j (fun _ => 1) Hj).
      - intros m _. rewrite <- Ex. symmetry. apply (lin_unit xs j m Hj). }
    assert (G : forall n, (n <= D)%nat -> rsum n (fun m => sq (x m - lin xs l m)) <= rsum n (fun m => spread m xs)).
    { induction n as [|n IHn]; intros Hn; cbn [rsum]; [lra|]. apply Rplus_le_compat; [apply IHn; lia|].
      apply (inside_spread D); [lia|exact Hin|apply inside_lin, Hl]. }
    apply G. lia.
  Qed.

  Lemma bernstein l : weights (length xs) l ->
    Rabs (poly (pbern K vzero) l - f (lin xs l)) <= a + b * (rsum D (fun m => spread m xs) / INR K).
  Proof.
    intros Hl. rewrite pbern_poly. assert (HKp : 0 < INR K) by (apply lt_0_INR, HK).
    eapply Rle_trans; [apply (bern_close l K Hl ltac:(lia) vzero)|].
    - exists vzero. rewrite Nat.sub_diag. split; [|split].
      + intros i _. unfold vzero. lra.
      + exact (rsum_0 _).
      + intros m. symmetry. apply lin_zero.
    - apply Rplus_le_compat_l, Rmult_le_compat_l; [exact Hb|].
      rewrite (rsum_ext D _ (fun _ => 0)) by (intros m _; unfold vzero, sq; rewrite Nat.sub_diag; cbn [INR]; ring).
      rewrite rsum_0, Rplus_0_l. pose proof (variance_bound l Hl) as V.
      set (W := wsum l xs (fun x => rsum D (fun m => sq (x m - lin xs l m)))) in *.
      replace (INR K * W / sq (INR K)) with (W / INR K) by (unfold sq; field; lra).
      apply Rmult_le_compat_r; [left; apply Rinv_0_lt_compat, HKp|exact V].
  Qed.
End bernstein.

(* ------------------------------------------------------------------------------------------- *)
(* Continuous functions. *)

Lemma chain D xs f delta eps : 0 < delta ->
  (forall y z, inside D xs y -> inside D xs z -> (forall m, (m < D)%nat -> Rabs (y m - z m) <= delta) -> Rabs (f y - f z) <= eps) ->
  forall n y z, inside D xs y -> inside D xs z -> (forall m, (m < D)%nat -> Rabs (y m - z m) <= INR (S n) * delta) ->
  Rabs (f y - f z) <= INR (S n) * eps.
Proof.
  intros Hd H n. induction n as [|n IH]; intros y z Hy Hz Hm.
  - rewrite Rmult_1_l. apply H; [assumption..|]. intros m Hmm. specialize (Hm m Hmm). cbn in Hm. lra.
  - set (t := / INR (S (S n))). set (w := fun m => (1 - t) * y m + t * z m).
    assert (HS : 0 < INR (S (S n))) by (apply lt_0_INR; lia). assert (HS' : 0 < INR (S n)) by (apply lt_0_INR; lia).
    assert (Ht : 0 < t) by (apply Rinv_0_lt_compat, HS).
    assert (Et : t * INR (S (S n)) = 1) by (unfold t; field; lra).
    rewrite (S_INR (S n)) in *.
    assert (Ht1 : t <= 1) by nra.
    assert (Hw : inside D xs w) by (apply inside_convex; [assumption..|lra]).
    replace (f y - f z) with ((f y - f w) + (f w - f z)) by ring.
    eapply Rle_trans; [apply Rabs_triang|]. rewrite Rmult_plus_distr_r, Rmult_1_l, Rplus_comm.
    apply Rplus_le_compat.
    + apply IH; [assumption..|]. intros m Hmm. specialize (Hm m Hmm). unfold w.
      replace ((1 - t) * y m + t * z m - z m) with ((1 - t) * (y m - z m)) by ring.
      rewrite Rabs_mult, (Rabs_pos_eq (1 - t)) by lra.
      apply Rle_trans with ((1 - t) * ((INR (S n) + 1) * delta)); [apply Rmult_le_compat_l; [lra|exact Hm]|].
      right. replace ((1 - t) * ((INR (S n) + 1) * delta)) with ((INR (S n) + 1 - t * (INR (S n) + 1)) * delta) by ring.
      rewrite Et. ring.
    + apply H; [assumption..|]. intros m Hmm. specialize (Hm m Hmm). unfold w.
      replace (y m - ((1 - t) * y m + t * z m)) with (t * (y m - z m)) by ring.
      rewrite Rabs_mult, (Rabs_pos_eq t) by lra.
      apply Rle_trans with (t * ((INR (S n) + 1) * delta)); [apply Rmult_le_compat_l; [lra|exact Hm]|].
      right. replace (t * ((INR (S n) + 1) * delta)) with (t * (INR (S n) + 1) * delta) by ring. rewrite Et. ring.
Qed.

Lemma rsum_member n (F : nat -> R) i : (forall j, (j < n)%nat -> 0 <= F j) -> (i < n)%nat -> F i <= rsum n F.
Proof.
  induction n as [|n IH]; intros H Hi; [lia|]. cbn [rsum].
  assert (P : 0 <= rsum n F).
  { clear IH Hi. assert (H' : forall j, (j < n)%nat -> 0 <= F j) by (intros; apply H; lia). clear H.
    induction n as [|n IHn]; cbn [rsum]; [lra|]. assert (0 <= F n) by (apply H'; lia).
    assert (0 <= rsum n F) by (apply IHn; intros; apply H'; lia). lra. }
  destruct (Nat.eq_dec i n) as [->|Hn]; [lra|]. assert (F i <= rsum n F) by (apply IH; [intros; apply H; lia|lia]).
  assert (0 <= F n) by (apply H; lia). lra.
Qed.

(* near a continuous function: a constant error and a quadratic one *)
Lemma quadratic_modulus D xs f eps : continuous_on D xs f -> 0 < eps ->
  exists b, 0 <= b /\ forall y z, inside D xs y -> inside D xs z ->
    Rabs (f z - f y) <= eps + b * rsum D (fun m => sq (z m - y m)).
Proof.
  intros Hc He. destruct (Hc eps He) as (delta & Hd & H).
  set (S0 := rsum D (fun m => spread m xs)).
  assert (HS0 : forall m, (m < D)%nat -> spread m xs <= S0).
  { intros m Hm. apply (rsum_member D (fun m => spread m xs)); [intros; apply spread_pos|exact Hm]. }
  assert (HSp : 0 <= S0).
  { unfold S0. clear. induction D as [|D IH]; cbn [rsum]; [lra|]. pose proof (spread_pos D xs). lra. }
  set (r := (S0 + 1) / delta). destruct (archimed r) as [Hup _].
  assert (Hr : 0 < r) by (apply Rdiv_lt_0_compat; lra).
  set (n := Z.to_nat (up r)).
  assert (Hn : r <= INR (S n)).
  { rewrite S_INR. unfold n. rewrite INR_IZR_INZ, Z2Nat.id; [lra|]. apply le_IZR. lra. }
  assert (Hfar : forall y z, inside D xs y -> inside D xs z -> Rabs (f y - f z) <= INR (S n) * eps).
  { intros y z Hy Hz. apply (chain D xs f delta eps Hd H n y z Hy Hz). intros m Hm.
    pose proof (inside_spread D xs y z m Hm Hy Hz) as Hs. specialize (HS0 m Hm).
    apply Rle_trans with (S0 + 1).
    - unfold sq in Hs. apply Rabs_le_between. split; nra.
    - apply Rmult_le_compat_r with (r := delta) in Hn; [|lra]. unfold r in Hn.
      replace ((S0 + 1) / delta * delta) with (S0 + 1) in Hn by (field; lra). exact Hn. }
  set (b := INR (S n) * eps / sq delta). assert (Hsd : 0 < sq delta) by (unfold sq; nra).
  assert (HnS : 0 <= INR (S n)) by apply pos_INR.
  assert (Hb : 0 <= b). { unfold b. apply Rdiv_le_0_compat; [apply Rmult_le_pos; lra|exact Hsd]. }
  exists b. split; [exact Hb|]. intros y z Hy Hz.
  set (Q := rsum D (fun m => sq (z m - y m))).
  assert (HQ : forall m, (m < D)%nat -> sq (z m - y m) <= Q).
  { intros m Hm. apply (rsum_member D (fun m => sq (z m - y m))); [intros; apply sq_pos|exact Hm]. }
  destruct (Rle_lt_dec Q (sq delta)) as [Hle|Hgt].
  - assert (Hnear : Rabs (f z - f y) <= eps).
    { apply H; [assumption..|]. intros m Hm. specialize (HQ m Hm). unfold sq in *. apply Rabs_le_between. split; nra. }
    assert (0 <= Q). { unfold Q. clear. induction D as [|D IH]; cbn [rsum]; [lra|]. pose proof (sq_pos (z D - y D)). lra. }
    assert (0 <= b * Q) by (apply Rmult_le_pos; assumption). lra.
  - specialize (Hfar z y Hz Hy).
    assert (Hbd : b * sq delta = INR (S n) * eps) by (unfold b; field; lra).
    assert (b * sq delta <= b * Q) by (apply Rmult_le_compat_l; lra). lra.
Qed.

(* the polynomials of the barycentric coordinates that tend to the function *)
Definition approx (xs : list vec) (f : vec -> R) (k : nat) : polynomial := pbern xs f (S k) (S k) vzero.

Lemma approx_close D xs f eps : continuous_on D xs f -> 0 < eps ->
  exists k0, forall k, (k0 <= k)%nat -> forall l, weights (length xs) l -> Rabs (poly (approx xs f k) l - f (lin xs l)) <= eps.
Proof.
  intros Hc He. destruct (quadratic_modulus D xs f (eps / 2) Hc ltac:(lra)) as (b & Hb & H).
  set (S0 := rsum D (fun m => spread m xs)).
  assert (HSp : 0 <= S0).
  { unfold S0. clear. induction D as [|D IH]; cbn [rsum]; [lra|]. pose proof (spread_pos D xs). lra. }
  set (r := b * S0 * 2 / eps). destruct (archimed r) as [Hup _].
  assert (Hr : 0 <= r). { apply Rdiv_le_0_compat; [|exact He]. apply Rmult_le_pos; [apply Rmult_le_pos; assumption|lra]. }
  exists (Z.to_nat (up r)). intros k Hk l Hl.
  eapply Rle_trans; [apply (bernstein D xs f (S k) (eps / 2) b Hb ltac:(lia) H l Hl)|]. fold S0.
  assert (HK : r <= INR (S k)).
  { apply Rle_trans with (INR (Z.to_nat (up r))); [|apply le_INR; lia].
    rewrite INR_IZR_INZ, Z2Nat.id; [lra|]. apply le_IZR. lra. }
  assert (HKp : 0 < INR (S k)) by (apply lt_0_INR; lia).
  assert (E : b * S0 = r * eps / 2) by (unfold r; field; lra).
  assert (b * (S0 / INR (S k)) <= eps / 2); [|lra].
  replace (b * (S0 / INR (S k))) with (b * S0 / INR (S k)) by (field; lra). rewrite E.
  apply (Rmult_le_reg_r (INR (S k)) _ _ HKp). replace (r * eps / 2 / INR (S k) * INR (S k)) with (r * eps / 2) by (field; lra). nra.
Qed.

(* barycentric coordinates are weights *)
Lemma rsum_bary N s x : rsum (S N) (bary N s x) = s.
Proof.
  cbn [rsum]. rewrite (rsum_ext N (bary N s x) x).
  - unfold bary. rewrite Nat.ltb_irrefl. ring.
  - intros i Hi. unfold bary. destruct (Nat.ltb_spec i N); [reflexivity|lia].
Qed.
Lemma bary_weights N x : in_simplex N 1 x -> weights (S N) (bary N 1 x).
Proof.
  intros [H0 H1]. split; [|apply rsum_bary]. intros i Hi. unfold bary. destruct (Nat.ltb_spec i N) as [Hl|_]; [apply H0, Hl|lra].
Qed.

(* the last barycentric coordinate as a polynomial of the others *)
Definition bform (N i : nat) : polynomial :=
  if (i <? N)%nat then pvar N i else pconst N 1 ++ map (fun j => (-1, evar N j)) (seq 0 N).
Lemma bform_degree N i : of_degree N 1 (bform N i).
Proof.
  unfold bform. destruct (i <? N)%nat; [apply degree_pvar|]. apply degree_app; [apply degree_pconst|].
  apply Forall_forall. intros t Ht. apply in_map_iff in Ht as (j & <- & _). cbn [snd]. split; [apply evar_length|apply evar_sum].
Qed.
Lemma bform_poly N i x : poly (bform N i) x = bary N 1 x i.
Proof.
  unfold bform, bary. destruct (Nat.ltb_spec i N) as [Hi|Hi]; [apply poly_pvar, Hi|].
  rewrite poly_app, poly_pconst. unfold Rminus. f_equal. unfold poly. rewrite map_map. cbn [fst snd].
  rewrite (map_ext_in _ (fun j => -1 * x j)).
  - rewrite total_map_scal, <- rsum_total. ring.
  - intros j Hj. apply in_seq in Hj. rewrite monomial_evar by lia. reflexivity.
Qed.

(* continuous functions have integrals *)
Lemma continuous_integral D N xs f : length xs = S N -> continuous_on D xs f ->
  exists v, reference_integral N (fun x => f (barycentric N xs x)) v.
Proof.
  intros L Hc. set (p := fun k => psubst N (approx xs f k) (bform N)).
  assert (Hd : forall k, of_degree N (S k) (p k)).
  { intros k. apply (degree_psubst N (S N)); [|intros i _; apply bform_degree].
    unfold approx. rewrite <- L. apply pbern_degree. }
  eexists. apply (limit_integral N p _ 1 Rle_0_1).
  - intros k. specialize (Hd k). unfold of_degree in Hd. unfold arity. eapply Forall_impl; [|exact Hd]. cbn. intros t [H _]. exact H.
  - intros eps He. destruct (approx_close D xs f eps Hc He) as (k0 & H). exists k0. intros k Hk x Hx.
    unfold p. rewrite (poly_psubst N (S N) (S k)).
    + rewrite barycentric_lin by exact L. 
      replace (fun i => poly (bform N i) x) with (bary N 1 x) by (apply functional_extensionality; intros i; symmetry; apply bform_poly).
      apply (H k Hk). rewrite L. apply bary_weights, Hx.
    + unfold approx. rewrite <- L. apply pbern_degree.
    + intros i _. apply bform_degree.
Qed.
