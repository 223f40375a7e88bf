(* Proofs about the functions of lib/mito/functions. *)
From Coq Require Import Reals List Bool Arith Lia Lra FunctionalExtensionality.
From Verif Require Import M_Tensor M_Functions S_Functions P_Volume.
Import ListNotations.
Open Scope R_scope.

Scheme fn_ind' := Induction for fn Sort Prop
  with fns_ind' := Induction for fns Sort Prop
  with cfns_ind' := Induction for cfns Sort Prop.
Combined Scheme fn_mut from fn_ind', fns_ind', cfns_ind'.

Notation dlim := derivable_pt_lim.

(* ------------------------------------------------------------------------------------------- *)
(* Finite sums. *)

Lemma rsum_plus n f g : rsum n (fun k => f k + g k) = rsum n f + rsum n g.
Proof. induction n; simpl; lra. Qed.
Lemma rsum_scale n a f : rsum n (fun k => a * f k) = a * rsum n f.
Proof. induction n as [|n IH]; simpl; [ring|]. rewrite IH. ring. Qed.
Lemma rsum_scale_r n a f : rsum n (fun k => f k * a) = rsum n f * a.
Proof. induction n as [|n IH]; simpl; [ring|]. rewrite IH. ring. Qed.
Lemma rsum_0 n : rsum n (fun _ => 0) = 0.
Proof. induction n as [|n IH]; simpl; [reflexivity|]. rewrite IH. ring. Qed.
Lemma rsum_swap n m f :
  rsum n (fun i => rsum m (fun j => f i j)) = rsum m (fun j => rsum n (fun i => f i j)).
Proof.
  induction n as [|n IH]; simpl; [symmetry; apply rsum_0|].
  rewrite IH, <- rsum_plus. reflexivity.
Qed.
Lemma rsum_first n f : rsum (S n) f = f 0%nat + rsum n (fun k => f (S k)).
Proof.
  induction n as [|n IH]; [simpl; ring|].
  change (rsum (S (S n)) f) with (rsum (S n) f + f (S n)). rewrite IH. simpl. ring.
Qed.
Lemma rsum_unit n N f : (N < n)%nat -> rsum n (fun I => (if Nat.eqb I N then 1 else 0) * f I) = f N.
Proof.
  intros H. induction n as [|n IH]; [lia|]. simpl.
  destruct (Nat.eqb_spec n N) as [->|Hn].
  - rewrite (rsum_ext N _ (fun _ => 0)), rsum_0; [ring|].
    intros i Hi. destruct (Nat.eqb_spec i N); [lia|ring].
  - rewrite IH by lia. ring.
Qed.

(* ------------------------------------------------------------------------------------------- *)
(* Derivatives of real functions. *)

Lemma dlim_ext f g x l : (forall t, f t = g t) -> dlim f x l -> dlim g x l.
Proof.
  intros H. replace g with f; [auto|]. apply functional_extensionality, H.
Qed.
Lemma dlim_eq f x l l' : l = l' -> dlim f x l -> dlim f x l'.
Proof. intros ->; auto. Qed.
Lemma dlim_rsum n (F : R -> nat -> R) t0 F' :
  (forall k, (k < n)%nat -> dlim (fun t => F t k) t0 (F' k)) ->
  dlim (fun t => rsum n (F t)) t0 (rsum n F').
Proof.
  induction n as [|n IH]; intros H; simpl.
  - apply (derivable_pt_lim_const 0).
  - apply (derivable_pt_lim_plus (fun t => rsum n (F t)) (fun t => F t n)).
    + apply IH. intros; apply H; lia.
    + apply H; lia.
Qed.
Lemma dlim_local f g x l d : 0 < d -> (forall t, Rabs (t - x) < d -> f t = g t) ->
  dlim f x l -> dlim g x l.
Proof.
  intros Hd E H eps He. destruct (H eps He) as [del Hdel].
  assert (Hm : 0 < Rmin del d) by (apply Rmin_pos; [apply cond_pos | assumption]).
  exists (mkposreal _ Hm). simpl. intros h Hh Hlt.
  rewrite <- !E.
  - apply Hdel; [assumption|]. eapply Rlt_le_trans; [exact Hlt | apply Rmin_l].
  - rewrite Rminus_eq_0, Rabs_R0. assumption.
  - replace (x + h - x) with h by ring. eapply Rlt_le_trans; [exact Hlt | apply Rmin_r].
Qed.

Lemma dlim_tan x : cos x <> 0 -> dlim tan x (1 / (cos x * cos x)).
Proof.
  intros H. eapply dlim_eq; [| apply (derivable_pt_lim_div sin cos x (cos x) (- sin x))].
  - unfold Rsqr. field_simplify_eq; [|assumption]. pose proof (sin2_cos2 x) as E.
    unfold Rsqr in E. nra.
  - apply derivable_pt_lim_sin.
  - apply derivable_pt_lim_cos.
  - assumption.
Qed.
Lemma dlim_asin x : -1 < x < 1 -> dlim asin x (1 / sqrt (1 - x * x)).
Proof.
  intros H. rewrite <- (derive_pt_asin x H : _ = 1 / sqrt (1 - x * x)).
  unfold derive_pt. destruct (derivable_pt_asin x H) as [l Hl]. exact Hl.
Qed.
Lemma dlim_acos x : -1 < x < 1 -> dlim acos x (-1 / sqrt (1 - x * x)).
Proof.
  intros H. rewrite <- (derive_pt_acos x H : _ = -1 / sqrt (1 - x * x)).
  unfold derive_pt. destruct (derivable_pt_acos x H) as [l Hl]. exact Hl.
Qed.
Lemma dlim_atan x : dlim atan x (1 / (1 + x * x)).
Proof.
  eapply dlim_eq; [| apply derivable_pt_lim_atan]. unfold Rsqr. unfold Rdiv.
  rewrite ?Rmult_1_l. try reflexivity. f_equal. ring.
Qed.
Lemma dlim_ln x : 0 < x -> dlim ln x (1 / x).
Proof.
  intros H. eapply dlim_eq; [| apply derivable_pt_lim_ln; assumption]. field. lra.
Qed.
Lemma dlim_sqrt x : 0 < x -> dlim sqrt x (5 / 10 / sqrt x).
Proof.
  intros H. eapply dlim_eq; [| apply derivable_pt_lim_sqrt; assumption].
  field. apply Rgt_not_eq, sqrt_lt_R0, H.
Qed.

Lemma power_pow N x : power N x = x ^ N.
Proof. induction N as [|N IH]; simpl; [reflexivity|]. rewrite IH. ring. Qed.
Lemma dlim_power N x : dlim (power N) x (INR N * x ^ (N - 1)).
Proof.
  apply (dlim_ext (fun t => t ^ N)); [intros; symmetry; apply power_pow|].
  eapply dlim_eq; [| apply derivable_pt_lim_pow]. f_equal. f_equal. lia.
Qed.

(* The cube root. *)
Lemma cbrt_cube x : cbrt x * cbrt x * cbrt x = x.
Proof.
  unfold cbrt.
  assert (P : forall y, 0 < y -> Rpower y (/ 3) * Rpower y (/ 3) * Rpower y (/ 3) = y).
  { intros y Hy. rewrite <- !Rpower_plus. replace (/ 3 + / 3 + / 3) with 1 by field.
    apply Rpower_1, Hy. }
  destruct (Rlt_dec 0 x); [apply P; assumption|].
  destruct (Rlt_dec x 0) as [n'|n']; [|lra].
  transitivity (- (Rpower (- x) (/ 3) * Rpower (- x) (/ 3) * Rpower (- x) (/ 3))); [ring|].
  rewrite P by lra. ring.
Qed.
Lemma cbrt_nz x : x <> 0 -> cbrt x <> 0.
Proof. intros H E. apply H. rewrite <- (cbrt_cube x), E. ring. Qed.
Lemma dlim_cbrt x : x <> 0 -> dlim cbrt x (1 / 3 / (cbrt x * cbrt x)).
Proof.
  assert (P : forall y, 0 < y ->
    dlim (fun t => Rpower t (/ 3)) y (1 / 3 / (Rpower y (/ 3) * Rpower y (/ 3)))).
  { intros y Hy. eapply dlim_eq; [| apply derivable_pt_lim_power; assumption].
    rewrite <- Rpower_plus. unfold Rdiv. rewrite <- Rpower_Ropp.
    replace (/ 3 - 1) with (- (/ 3 + / 3)) by field. field. }
  intros H. destruct (Rlt_dec 0 x) as [Hp|Hn].
  - apply (dlim_local (fun t => Rpower t (/ 3)) _ _ _ x); [assumption| |].
    + intros t Ht. unfold cbrt. destruct (Rlt_dec 0 t) as [|n]; [reflexivity|].
      apply Rabs_def2 in Ht. lra.
    + unfold cbrt. destruct (Rlt_dec 0 x); [|lra]. apply P, Hp.
  - assert (Hx : x < 0) by lra.
    apply (dlim_local (fun t => - Rpower (- t) (/ 3)) _ _ _ (- x)); [lra| |].
    + intros t Ht. apply Rabs_def2 in Ht. unfold cbrt.
      destruct (Rlt_dec 0 t); [lra|]. destruct (Rlt_dec t 0); [reflexivity|lra].
    + unfold cbrt. destruct (Rlt_dec 0 x); [lra|]. destruct (Rlt_dec x 0); [|lra].
      eapply dlim_eq; [| apply (derivable_pt_lim_opp (fun t => Rpower (- t) (/ 3)) x);
        apply (derivable_pt_lim_comp (fun t => - t) (fun t => Rpower t (/ 3)) x (-1));
        [| apply P; lra]].
      * assert (Q : Rpower (- x) (/ 3) <> 0) by (apply Rgt_not_eq; apply exp_pos).
        field. assumption.
      * eapply dlim_eq; [| apply (derivable_pt_lim_opp id); apply derivable_pt_lim_id]. reflexivity.
Qed.

(* ------------------------------------------------------------------------------------------- *)
(* operator* is bilinear. *)

Lemma mul_dlim {a b c} (op : mulop a b c) (F G : R -> value) F' G' t0 j :
  (j < size c)%nat ->
  (forall k, (k < size a)%nat -> dlim (fun t => F t k) t0 (F' k)) ->
  (forall k, (k < size b)%nat -> dlim (fun t => G t k) t0 (G' k)) ->
  dlim (fun t => mul op (F t) (G t) j) t0 (mul op (F t0) G' j + mul op F' (G t0) j).
Proof.
  intros Hj HF HG.
  assert (M : forall a' b', (a' < size a)%nat -> (b' < size b)%nat ->
    dlim (fun t => F t a' * G t b') t0 (F t0 a' * G' b' + F' a' * G t0 b')).
  { intros a' b' Ha Hb. eapply dlim_eq;
      [| apply (derivable_pt_lim_mult (fun t => F t a') (fun t => G t b')); [apply HF | apply HG]];
      auto. ring. }
  destruct op; simpl in *; try (rewrite <- rsum_plus).
  - apply M; simpl; lia.
  - apply M; simpl; lia.
  - apply (dlim_rsum n (fun t k => F t k * G t k)). intros; apply M; simpl; lia.
  - apply (dlim_rsum n (fun t k => F t (j * n + k)%nat * G t k)). intros; apply M; simpl; nia.
  - apply (dlim_rsum m (fun t k => F t k * G t (k * n + j)%nat)). intros; apply M; simpl; nia.
  - apply (dlim_rsum n (fun t k => F t (j / p * n + k)%nat * G t (k * p + j mod p)%nat)).
    intros k Hk.
    assert (Hp : p <> 0%nat) by nia.
    assert (j / p < m)%nat by (apply Nat.div_lt_upper_bound; nia).
    assert (j mod p < p)%nat by (apply Nat.mod_upper_bound; assumption).
    apply M; simpl; nia.
Qed.

Lemma mul_sum_l {a b c} (op : mulop a b c) n (U : nat -> value) (v : nat -> R) w j :
  mul op (fun k => rsum n (fun I => U I k * v I)) w j = rsum n (fun I => mul op (U I) w j * v I).
Proof.
  destruct op; simpl;
    rewrite <- ?rsum_scale_r; try (apply rsum_ext; intros; ring);
    etransitivity; try (apply rsum_ext; intros; rewrite <- rsum_scale_r; reflexivity);
    rewrite rsum_swap; apply rsum_ext; intros; rewrite <- rsum_scale_r; apply rsum_ext; intros; ring.
Qed.
Lemma mul_sum_r {a b c} (op : mulop a b c) n (U : nat -> value) (v : nat -> R) w j :
  mul op w (fun k => rsum n (fun I => U I k * v I)) j = rsum n (fun I => mul op w (U I) j * v I).
Proof.
  destruct op; simpl;
    rewrite <- ?rsum_scale; try (apply rsum_ext; intros; ring);
    etransitivity; try (apply rsum_ext; intros; rewrite <- rsum_scale; reflexivity);
    rewrite rsum_swap; apply rsum_ext; intros; rewrite <- rsum_scale_r; apply rsum_ext; intros; ring.
Qed.

(* ------------------------------------------------------------------------------------------- *)
(* Folds. *)

Lemma fold_seq_from {x y} (F : nat -> option (fn x y)) n s g :
  f_fold (map F (seq s n)) = Some g ->
  (0 < n)%nat /\ exists G, (forall J, (J < n)%nat -> F (s + J)%nat = Some (G J)) /\
    (forall p k, eval g p k = rsum n (fun J => eval (G J) p k)) /\
    (forall p, (forall J, (J < n)%nat -> regular (G J) p) -> regular g p).
Proof.
  revert s g. induction n as [|n IH]; intros s g H; [discriminate|].
  split; [lia|]. simpl in H. destruct n as [|n].
  - simpl in H. exists (fun _ => g). split; [|split].
    + intros J HJ. replace (s + J)%nat with s by lia. exact H.
    + intros p k. simpl. ring.
    + intros p HJ. apply (HJ 0%nat). lia.
  - remember (map F (seq (S s) (S n))) as l eqn:El.
    assert (Hl : match F s, f_fold l with Some f, Some g => Some (f_add f g) | _, _ => None end = Some g).
    { rewrite El in *. exact H. }
    clear H. destruct (F s) as [f|] eqn:Ef; [|discriminate].
    destruct (f_fold l) as [h|] eqn:Eh; [|discriminate]. injection Hl as <-. subst l.
    destruct (IH _ _ Eh) as [_ (G & HG & HE & HR)].
    exists (fun J => match J with O => f | S J => G J end). split; [|split].
    + intros [|J] HJ; [replace (s + 0)%nat with s by lia; exact Ef|].
      replace (s + S J)%nat with (S s + J)%nat by lia. apply HG. lia.
    + intros p k. rewrite rsum_first. simpl eval at 1. f_equal.
      change (eval h p k = rsum (S n) (fun J => eval (G J) p k)). apply HE.
    + intros p HJ. simpl. split; [apply (HJ 0%nat); lia|]. apply HR. intros J HJ'.
      apply (HJ (S J)). lia.
Qed.
Lemma fold_seq {x y} (F : nat -> option (fn x y)) n g :
  f_fold (map F (seq 0 n)) = Some g ->
  (0 < n)%nat /\ exists G, (forall J, (J < n)%nat -> F J = Some (G J)) /\
    (forall p k, eval g p k = rsum n (fun J => eval (G J) p k)) /\
    (forall p, (forall J, (J < n)%nat -> regular (G J) p) -> regular g p).
Proof. exact (fold_seq_from F n 0 g). Qed.

Lemma fold_seq_some {x y} (F : nat -> option (fn x y)) n s :
  (0 < n)%nat -> (forall J, (s <= J < s + n)%nat -> F J <> None) ->
  exists g, f_fold (map F (seq s n)) = Some g.
Proof.
  revert s. induction n as [|n IH]; intros s Hn H; [lia|]. simpl.
  destruct (F s) as [f|] eqn:Ef; [|exfalso; apply (H s); [lia | exact Ef]].
  destruct n as [|n]; [exists f; reflexivity|].
  destruct (IH (S s)) as [g Eg]; [lia | intros; apply H; lia |].
  destruct (map F (seq (S s) (S n))) eqn:E; [discriminate|].
  rewrite <- E in *. cbn [f_fold]. rewrite E in *. rewrite Eg. eauto.
Qed.

(* ------------------------------------------------------------------------------------------- *)
(* Which derivatives there are. *)

Definition is_some {A} (o : option A) : bool := match o with Some _ => true | None => false end.

Lemma fold_is_some {x y} (F : nat -> option (fn x y)) n :
  (forall J, (J < n)%nat -> is_some (F J) = is_some (F 0%nat)) ->
  is_some (f_fold (map F (seq 0 n))) = ((0 <? n)%nat && is_some (F 0%nat)).
Proof.
  intros H. destruct n as [|n]; [reflexivity|]. simpl (0 <? S n)%nat.
  destruct (F 0%nat) as [f|] eqn:E0.
  - destruct (fold_seq_some F (S n) 0) as [g ->]; [lia| |reflexivity].
    intros J HJ. specialize (H J). destruct (F J); [discriminate|]. exfalso.
    simpl in H. enough (false = true) by discriminate. apply H. lia.
  - destruct (f_fold (map F (seq 0 (S n)))) as [g|] eqn:Eg; [|reflexivity].
    destruct (fold_seq F (S n) g Eg) as [_ (G & HG & _)].
    rewrite (HG 0%nat) in E0 by lia. discriminate.
Qed.

Lemma chain_is_some {x y z} I (d1 : nat -> option (fn y z)) (d2 : option (fn x y)) f2 b :
  (forall J, is_some (d1 J) = b) ->
  is_some (chain I d1 d2 f2) =
    (b && is_some d2 &&
     match x, y with
     | _, scalar => true
     | tensor _, tensor t => (0 <? size (tensor t))%nat
     | scalar, tensor _ => false
     end).
Proof.
  intros H. destruct y as [|t]; simpl chain.
  - unfold chain_scalar. rewrite <- (H I). destruct (d1 I), d2, x; reflexivity.
  - destruct x as [|u]; [rewrite andb_false_r; reflexivity|].
    unfold chain_tensor. rewrite fold_is_some.
    + rewrite <- (H 0%nat). destruct (d1 0%nat), d2; simpl; rewrite ?andb_true_r, ?andb_false_r; reflexivity.
    + intros J HJ. assert (E : is_some (d1 J) = is_some (d1 0%nat)) by (rewrite !H; reflexivity).
      destruct (d1 J), (d1 0%nat), d2; try discriminate; reflexivity.
Qed.

Lemma rule_mut :
  (forall x y (f : fn x y) I, is_some (derivative I f) = has_rule f) /\
  (forall x y (fs : fns x y) I, is_some (derivative_sum I fs) = has_rule_sum fs) /\
  (forall x y (fs : cfns x y) I, is_some (derivative_comb I fs) = has_rule_comb fs).
Proof.
  apply fn_mut; intros; try reflexivity;
    try (simpl derivative; simpl has_rule; rewrite (chain_is_some _ _ _ _ (has_rule f)); auto;
         rewrite H0; destruct x, y; reflexivity);
    simpl; auto;
    repeat match goal with
    | H : forall I, is_some (derivative I ?f) = has_rule ?f |- context [derivative ?J ?f] =>
        rewrite <- (H J); destruct (derivative J f); try reflexivity
    | H : forall I, is_some (derivative_sum I ?f) = _ |- context [derivative_sum ?J ?f] =>
        rewrite <- (H J); destruct (derivative_sum J f); try reflexivity
    | H : forall I, is_some (derivative_comb I ?f) = _ |- context [derivative_comb ?J ?f] =>
        rewrite <- (H J); destruct (derivative_comb J f); try reflexivity
    end.
Qed.

(* The derivative, as a function, when there is one. *)
Definition der (I : nat) {x y} (f : fn x y) : fn x y :=
  match derivative I f with Some d => d | None => Constant zero_ end.
Definition der_sum (I : nat) {x y} (fs : fns x y) : fn x y :=
  match derivative_sum I fs with Some d => d | None => Constant zero_ end.
Definition der_comb (I : nat) {x y} (fs : cfns x y) : cfns x y :=
  match derivative_comb I fs with Some d => d | None => C1 0 (Constant zero_) end.

Lemma der_some {x y} (f : fn x y) I : has_rule f = true -> derivative I f = Some (der I f).
Proof.
  intros H. pose proof (proj1 rule_mut x y f I) as E. rewrite H in E.
  unfold der. destruct (derivative I f); [reflexivity | discriminate].
Qed.
Lemma der_sum_some {x y} (f : fns x y) I : has_rule_sum f = true -> derivative_sum I f = Some (der_sum I f).
Proof.
  intros H. pose proof (proj1 (proj2 rule_mut) x y f I) as E. rewrite H in E.
  unfold der_sum. destruct (derivative_sum I f); [reflexivity | discriminate].
Qed.
Lemma der_comb_some {x y} (f : cfns x y) I : has_rule_comb f = true -> derivative_comb I f = Some (der_comb I f).
Proof.
  intros H. pose proof (proj2 (proj2 rule_mut) x y f I) as E. rewrite H in E.
  unfold der_comb. destruct (derivative_comb I f); [reflexivity | discriminate].
Qed.

(* The index is irrelevant for functions of scalars. *)
Lemma index_mut :
  (forall x y (f : fn x y) I J, x = scalar -> derivative I f = derivative J f) /\
  (forall x y (fs : fns x y) I J, x = scalar -> derivative_sum I fs = derivative_sum J fs) /\
  (forall x y (fs : cfns x y) I J, x = scalar -> derivative_comb I fs = derivative_comb J fs).
Proof.
  apply fn_mut; intros; simpl; try reflexivity; auto;
    repeat match goal with
    | H : forall I J, ?x = scalar -> derivative I ?f = _, E : ?x = scalar |- context [derivative ?K ?f] =>
        rewrite (H K J E); clear H
    | H : forall I J, ?x = scalar -> derivative_sum I ?f = _, E : ?x = scalar |- context [derivative_sum ?K ?f] =>
        rewrite (H K J E); clear H
    | H : forall I J, ?x = scalar -> derivative_comb I ?f = _, E : ?x = scalar |- context [derivative_comb ?K ?f] =>
        rewrite (H K J E); clear H
    end; try reflexivity; try discriminate.
  (* composition *)
  subst x. destruct y as [|t]; simpl; [|reflexivity]. rewrite (H I J eq_refl). reflexivity.
Qed.

(* ------------------------------------------------------------------------------------------- *)
(* Derivatives along curves. *)

Definition along_ok {x y} (g : value -> value) (D : nat -> fn x y) (ok : value -> Prop) : Prop :=
  forall (c : R -> value) (v : nat -> R) t0,
    ok (c t0) ->
    (forall k, (k < size x)%nat -> dlim (fun t => c t k) t0 (v k)) ->
    forall j, (j < size y)%nat ->
      dlim (fun t => g (c t) j) t0 (rsum (size x) (fun I => eval (D I) (c t0) j * v I)).

Ltac rules :=
  repeat match goal with
  | H : (_ && _)%bool = true |- _ => apply andb_true_iff in H; destruct H
  | H : has_rule ?f = true -> _, E : has_rule ?f = true |- _ => specialize (H E)
  | H : has_rule_sum ?f = true -> _, E : has_rule_sum ?f = true |- _ => specialize (H E)
  | H : has_rule_comb ?f = true -> _, E : has_rule_comb ?f = true |- _ => specialize (H E)
  end.

(* Rewrites the derivative of a node into its rule. *)
Ltac der_node tac :=
  match goal with |- _ = eval ?d _ _ * _ =>
    let E := fresh "E" in
    eassert (E : d = _) by (unfold der at 1; simpl derivative; tac; reflexivity);
    rewrite E; clear E
  end.

Lemma leaf_along (g : R -> R) (d : fn scalar scalar) (ok : value -> Prop) :
  (forall p, ok p -> dlim g (p 0%nat) (eval d p 0%nat)) ->
  along_ok (x := scalar) (y := scalar) (fun p => num (g (p 0%nat))) (fun _ => d) ok.
Proof.
  intros H c v t0 Hok Hc j Hj. simpl in *. replace j with 0%nat by lia.
  eapply dlim_eq; [| apply (derivable_pt_lim_comp (fun t => c t 0%nat) g t0); [apply Hc; lia | apply H, Hok]].
  ring.
Qed.

Lemma along_mut :
  (forall x y (f : fn x y), has_rule f = true -> along_ok (eval f) (fun I => der I f) (regular f)) /\
  (forall x y (fs : fns x y), has_rule_sum fs = true ->
     along_ok (eval_sum fs) (fun I => der_sum I fs) (regular_sum fs)) /\
  (forall x y (fs : cfns x y), has_rule_comb fs = true ->
     along_ok (eval_comb fs) (fun I => LinearCombination (der_comb I fs)) (regular_comb fs)).
Proof.
  apply fn_mut; intros; try discriminate.
  - (* constant *)
    intros k v t0 _ _ j _. simpl. unfold zero_.
    eapply dlim_eq; [| apply (derivable_pt_lim_const (c j))].
    rewrite (rsum_ext _ _ (fun _ => 0)), rsum_0; [reflexivity|]. intros; ring.
  - (* summation *) exact (H H0).
  - (* linear combination *)
    intros k v t0 Hr Hk j Hj. eapply dlim_eq; [| exact (H H0 k v t0 Hr Hk j Hj)].
    apply rsum_ext. intros I _. unfold der. simpl derivative.
    rewrite (der_comb_some fs I H0). reflexivity.
  - (* function plus constant *)
    intros k v t0 Hr Hk j Hj.
    eapply dlim_eq; [| apply (derivable_pt_lim_plus (fun t => eval f (k t) j) (fun _ => a j));
      [exact (H H0 k v t0 Hr Hk j Hj) | apply derivable_pt_lim_const]].
    unfold der. simpl. ring.
  - (* product *)
    rename H into IHf, H0 into IHg. simpl in H1. rules.
    intros k v t0 [Hrf Hrg] Hk j Hj.
    eapply dlim_eq; [| exact (mul_dlim op (fun t => eval f (k t)) (fun t => eval g (k t)) _ _ t0 j Hj
       (IHf k v t0 Hrf Hk) (IHg k v t0 Hrg Hk))].
    rewrite mul_sum_l, mul_sum_r, <- rsum_plus. apply rsum_ext. intros I _.
    der_node ltac:(rewrite (der_some f I), (der_some g I) by assumption). simpl.
    rewrite Rmult_plus_distr_r. reflexivity.
  - (* function times constant *)
    simpl in H0. rules. intros k v t0 Hr Hk j Hj.
    eapply dlim_eq; [| exact (mul_dlim op (fun t => eval f (k t)) (fun _ => c) _ (fun _ => 0) t0 j Hj
       (H k v t0 Hr Hk) (fun i _ => derivable_pt_lim_const (c i) t0))].
    rewrite mul_sum_l.
    replace (mul op (eval f (k t0)) (fun _ => 0) j) with 0.
    2:{ symmetry. etransitivity; [| exact (mul_sum_r op 0 (fun _ _ => 0) (fun _ => 0) (eval f (k t0)) j)].
        reflexivity. }
    rewrite Rplus_0_l. apply rsum_ext. intros I _.
    der_node ltac:(rewrite (der_some f I) by assumption). reflexivity.
  - (* constant times function *)
    simpl in H0. rules. intros k v t0 Hr Hk j Hj.
    eapply dlim_eq; [| exact (mul_dlim op (fun _ => c) (fun t => eval f (k t)) (fun _ => 0) _ t0 j Hj
       (fun i _ => derivable_pt_lim_const (c i) t0) (H k v t0 Hr Hk))].
    rewrite mul_sum_r.
    replace (mul op (fun _ => 0) (eval f (k t0)) j) with 0.
    2:{ symmetry. etransitivity; [| exact (mul_sum_l op 0 (fun _ _ => 0) (fun _ => 0) (eval f (k t0)) j)].
        reflexivity. }
    rewrite Rplus_0_r. apply rsum_ext. intros I _.
    der_node ltac:(rewrite (der_some f I) by assumption). reflexivity.
  - (* reciprocal *)
    simpl in H0. rules. intros k v t0 [Hr Hnz] Hk j Hj. simpl in Hj. replace j with 0%nat by lia.
    eapply dlim_eq; [| apply (derivable_pt_lim_div (fun _ => 1) (fun t => eval f (k t) 0%nat) t0 0);
      [apply derivable_pt_lim_const | exact (H k v t0 Hr Hk 0%nat Nat.lt_0_1) | exact Hnz]].
    set (q := eval f (k t0) 0%nat) in *. unfold Rsqr.
    transitivity (rsum (size x) (fun I => eval (der I f) (k t0) 0%nat * v I) * (- / (q * q)));
      [field; exact Hnz|].
    rewrite <- rsum_scale_r. apply rsum_ext. intros I _.
    der_node ltac:(rewrite (der_some f I) by assumption). simpl. unfold num.
    fold q. field. exact Hnz.
  - (* composition *)
    rename H into IHf, H0 into IHg. simpl in H1. rules.
    intros k v t0 [Hrg Hrf] Hk j Hj.
    eapply dlim_eq; [| exact (IHf (fun t => eval g (k t)) _ t0 Hrf (IHg k v t0 Hrg Hk) j Hj)].
    cbv beta.
    transitivity (rsum (size x) (fun I => rsum (size y) (fun J =>
      eval (der J f) (eval g (k t0)) j * eval (der I g) (k t0) J) * v I)).
    { etransitivity; [| apply rsum_ext; intros; apply rsum_scale_r]. rewrite rsum_swap.
      apply rsum_ext. intros I _. rewrite <- rsum_scale. apply rsum_ext. intros; ring. }
    apply rsum_ext. intros I _. f_equal.
    unfold der at 3. simpl derivative. destruct y as [|t].
    + simpl chain. unfold chain_scalar.
      rewrite (der_some f I), (der_some g I) by assumption. simpl.
      unfold der at 3. rewrite (proj1 index_mut _ _ f I 0%nat eq_refl). fold (der 0 f). ring.
    + destruct x as [|u]; [discriminate|]. simpl chain.
      destruct (chain_tensor (fun J => derivative J f) (derivative I g) g) as [d|] eqn:Ed.
      * destruct (fold_seq _ _ _ Ed) as [_ (G & HG & HE & _)]. rewrite HE.
        apply rsum_ext. intros J HJ. specialize (HG J HJ). cbv beta in HG.
        rewrite (der_some f J), (der_some g I) in HG by assumption.
        injection HG as <-. reflexivity.
      * exfalso. unfold chain_tensor in Ed. destruct (fold_seq_some (fun J =>
          match derivative J f, derivative I g with
          | Some d1, Some d2 => Some (f_mul (mul_as z) (f_call d1 g) (Subscript d2 J))
          | _, _ => None end) (size (tensor t)) 0) as [d Ed'].
        { apply Nat.ltb_lt. assumption. }
        { intros J _. rewrite (der_some f J), (der_some g I) by assumption. discriminate. }
        rewrite Ed' in Ed. discriminate.
  - (* subscript *)
    simpl in H0. rules. intros k v t0 [Hi Hr] Hk j Hj.
    eapply dlim_eq; [| exact (H k v t0 Hr Hk i Hi)].
    apply rsum_ext. intros I _. der_node ltac:(rewrite (der_some f I) by assumption). reflexivity.
  - (* transpose *)
    simpl in H0. rules. intros k v t0 Hr Hk j Hj. simpl in Hj.
    assert (Hm : m <> 0%nat) by nia.
    assert (j / m < n)%nat by (apply Nat.div_lt_upper_bound; nia).
    assert (j mod m < m)%nat by (apply Nat.mod_upper_bound; assumption).
    assert (Hi : (j mod m * n + j / m < size (matrix m n))%nat) by (simpl; nia).
    eapply dlim_eq; [| exact (H k v t0 Hr Hk _ Hi)].
    apply rsum_ext. intros I _. der_node ltac:(rewrite (der_some f I) by assumption). reflexivity.
  - (* component *)
    intros k v t0 Hr Hk j Hj. simpl in Hr.
    eapply dlim_eq; [| exact (Hk N Hr)].
    rewrite <- (rsum_unit (size (tensor t)) N v Hr). apply rsum_ext. intros I _.
    unfold der. simpl. destruct (Nat.eqb I N); reflexivity.
  - apply (leaf_along sin Cos). intros p _. apply derivable_pt_lim_sin.
  - apply (leaf_along cos (f_opp Sin)). intros p _.
    eapply dlim_eq; [| apply derivable_pt_lim_cos]. simpl. unfold num. ring.
  - apply (leaf_along tan (c_div_f (num 1) (f_call (Power 2) Cos))). intros p Hp. simpl in Hp.
    eapply dlim_eq; [| apply dlim_tan; exact Hp]. simpl. unfold num. field. exact Hp.
  - apply (leaf_along acos (c_div_f (num (-1)) (f_call Sqrt (c_sub_f (num 1) (Power 2))))).
    intros p Hp. simpl in Hp. eapply dlim_eq; [| apply dlim_acos; exact Hp]. simpl. unfold num.
    unfold Rdiv. rewrite Rmult_1_l. f_equal. f_equal. f_equal. ring.
  - apply (leaf_along asin (c_div_f (num 1) (f_call Sqrt (c_sub_f (num 1) (Power 2))))).
    intros p Hp. simpl in Hp. eapply dlim_eq; [| apply dlim_asin; exact Hp]. simpl. unfold num.
    unfold Rdiv. rewrite !Rmult_1_l. f_equal. f_equal. ring.
  - apply (leaf_along atan (c_div_f (num 1) (c_add_f (num 1) (Power 2)))).
    intros p Hp. eapply dlim_eq; [| apply dlim_atan]. simpl. unfold num.
    unfold Rdiv. rewrite !Rmult_1_l. f_equal. ring.
  - apply (leaf_along exp Exp). intros p _. apply derivable_pt_lim_exp.
  - apply (leaf_along ln (c_div_f (num 1) (Power 1))). intros p Hp. simpl in Hp.
    eapply dlim_eq; [| apply dlim_ln; exact Hp]. simpl. unfold num. field. lra.
  - apply (leaf_along sqrt (c_div_f (num (5 / 10)) Sqrt)). intros p Hp. simpl in Hp.
    eapply dlim_eq; [| apply dlim_sqrt; exact Hp]. simpl. unfold num. field.
    apply Rgt_not_eq, sqrt_lt_R0, Hp.
  - apply (leaf_along cbrt (c_div_f (num (1 / 3)) (f_call (Power 2) Cbrt))). intros p Hp. simpl in Hp.
    eapply dlim_eq; [| apply dlim_cbrt; exact Hp]. simpl. unfold num. field.
    apply cbrt_nz, Hp.
  - apply (leaf_along (power N) (power_derivative N)). intros p Hp. simpl in Hp.
    eapply dlim_eq; [| apply dlim_power]. unfold power_derivative.
    destruct N as [|[|N]]; [lia| |].
    + simpl. unfold num. ring.
    + change (INR (S (S N)) * p 0%nat ^ (S (S N) - 1) = INR (S (S N)) * power (S (S N) - 1) (p 0%nat)).
      rewrite power_pow. reflexivity.
  - (* one function *) exact (H H0).
  - (* a function more *)
    rename H into IHf, H0 into IHs. simpl in H1. rules. intros k v t0 [Hf Hs] Hk j Hj.
    eapply dlim_eq; [| apply (derivable_pt_lim_plus (fun t => eval f (k t) j) (fun t => eval_sum fs (k t) j));
      [exact (IHf k v t0 Hf Hk j Hj) | exact (IHs k v t0 Hs Hk j Hj)]].
    rewrite <- rsum_plus. apply rsum_ext. intros I _. unfold der_sum at 2. simpl derivative_sum.
    rewrite (der_some f I), (der_sum_some fs I) by assumption. simpl. ring.
  - (* one coefficient *)
    simpl in H0. rules. intros k v t0 Hr Hk j Hj.
    eapply dlim_eq; [| apply (derivable_pt_lim_scal (fun t => eval f (k t) j) c); exact (H k v t0 Hr Hk j Hj)].
    rewrite <- rsum_scale. apply rsum_ext. intros I _. unfold der_comb. simpl derivative_comb.
    rewrite (der_some f I) by assumption. simpl. ring.
  - (* a coefficient more *)
    rename H into IHf, H0 into IHs. simpl in H1. rules. intros k v t0 [Hf Hs] Hk j Hj.
    eapply dlim_eq; [| apply (derivable_pt_lim_plus (fun t => c * eval f (k t) j) (fun t => eval_comb fs (k t) j));
      [apply (derivable_pt_lim_scal (fun t => eval f (k t) j) c); exact (IHf k v t0 Hf Hk j Hj)
      | exact (IHs k v t0 Hs Hk j Hj)]].
    rewrite <- rsum_scale, <- rsum_plus. apply rsum_ext. intros I _. unfold der_comb at 2. simpl derivative_comb.
    rewrite (der_some f I), (der_comb_some fs I) by assumption. simpl. ring.
Qed.

Lemma along {x y} (f : fn x y) : has_rule f = true ->
  along_ok (eval f) (fun I => der I f) (regular f).
Proof. apply along_mut. Qed.

Lemma with_same p I : with_component p I (p I) = p.
Proof.
  apply functional_extensionality. intros k. unfold with_component.
  destruct (Nat.eqb_spec k I) as [->|]; reflexivity.
Qed.

Lemma dlim_id_at f x : (forall t, f t = t) -> dlim f x 1.
Proof. intros H. apply (dlim_ext id); [intros; symmetry; apply H | apply derivable_pt_lim_id]. Qed.

Lemma der_partial {x y} (f : fn x y) I k p :
  has_rule f = true -> regular f p -> (I < size x)%nat -> (k < size y)%nat ->
  is_partial (eval f) I k p (eval (der I f) p k).
Proof.
  intros Hr Hp HI Hk. unfold is_partial.
  eapply dlim_eq; [| apply (along f Hr (fun t => with_component p I t)
    (fun K => if Nat.eqb K I then 1 else 0) (p I)); [| | exact Hk]].
  - rewrite <- (rsum_unit (size x) I (fun J => eval (der J f) p k) HI). rewrite with_same.
    apply rsum_ext. intros J _. ring.
  - rewrite with_same. exact Hp.
  - intros K _. unfold with_component. destruct (Nat.eqb K I).
    + apply dlim_id_at. reflexivity.
    + apply derivable_pt_lim_const.
Qed.

Lemma partial_unique g I k p l l' : is_partial g I k p l -> is_partial g I k p l' -> l = l'.
Proof. apply uniqueness_limite. Qed.

(* ------------------------------------------------------------------------------------------- *)
(* Derivatives are regular where the functions are. *)

Lemma regular_mut :
  (forall x y (f : fn x y), has_rule f = true -> forall I p, regular f p -> regular (der I f) p) /\
  (forall x y (fs : fns x y), has_rule_sum fs = true ->
     forall I p, regular_sum fs p -> regular (der_sum I fs) p) /\
  (forall x y (fs : cfns x y), has_rule_comb fs = true ->
     forall I p, regular_comb fs p -> regular_comb (der_comb I fs) p).
Proof.
  assert (SQ : forall a, a <> 0 -> a * a <> 0) by (intros a Ha; apply Rmult_integral_contrapositive; auto).
  assert (S1 : forall a, -1 < a < 1 -> 0 < 1 + -1 * (1 * a * a)) by (intros; nra).
  apply fn_mut; intros; try discriminate; simpl in *; rules; try exact I;
    unfold der, der_sum, der_comb; simpl;
    repeat match goal with
    | |- context [derivative ?J ?f] => rewrite (der_some f J) by assumption
    | |- context [derivative_sum ?J ?f] => rewrite (der_sum_some f J) by assumption
    | |- context [derivative_comb ?J ?f] => rewrite (der_comb_some f J) by assumption
    end; simpl;
    repeat match goal with H : _ /\ _ |- _ => destruct H end;
    auto 10; unfold num.
  - (* composition *)
    destruct y as [|t]; simpl chain.
    + unfold chain_scalar. rewrite (der_some f I) by assumption. simpl. auto.
    + destruct x as [|u]; [discriminate|]. simpl chain.
      destruct (chain_tensor _ _ _) as [d|] eqn:Ed; [|simpl; exact Logic.I].
      destruct (fold_seq _ _ _ Ed) as [_ (G & HG & _ & HR)]. apply HR. intros J HJ.
      specialize (HG J HJ). cbv beta in HG. rewrite (der_some f J) in HG by assumption.
      injection HG as <-. simpl. auto 10.
  - destruct (Nat.eqb I N); exact Logic.I.
  - split; [auto|]. rewrite Rmult_1_l. auto.
  - assert (0 < -1 * (1 * p 0%nat * p 0%nat) + 1) by nra. split; [auto|].
    apply Rgt_not_eq, sqrt_lt_R0. assumption.
  - assert (0 < -1 * (1 * p 0%nat * p 0%nat) + 1) by nra. split; [auto|].
    apply Rgt_not_eq, sqrt_lt_R0. assumption.
  - split; [auto|]. nra.
  - split; [auto|]. lra.
  - split; [auto|]. apply Rgt_not_eq, sqrt_lt_R0. assumption.
  - split; [auto|]. rewrite Rmult_1_l. apply SQ, cbrt_nz. assumption.
  - unfold power_derivative. destruct N as [|[|N]]; [lia| exact Logic.I |]. simpl. lia.
Qed.

(* ------------------------------------------------------------------------------------------- *)
(* The matrix of the partial derivatives and the differential operators on fields. *)

Lemma unit_pick N D (s : nat -> nat -> R) i k : (i < N)%nat -> (k < D)%nat ->
  rsum D (fun K => rsum N (fun I => s K I * unit_ (I * D + K)%nat (i * D + k)%nat)) = s k i.
Proof.
  intros Hi Hk.
  transitivity (rsum D (fun K => (if Nat.eqb K k then 1 else 0) * s K i));
    [|apply (rsum_unit D k (fun K => s K i)); exact Hk].
  apply rsum_ext. intros K HK.
  transitivity (rsum N (fun I => (if Nat.eqb I i then 1 else 0) * (if Nat.eqb K k then s K I else 0))).
  - apply rsum_ext. intros I HI. unfold unit_.
    destruct (Nat.eqb_spec (i * D + k) (I * D + K)) as [E|E].
    + assert (I = i /\ K = k) as [-> ->].
      { assert (i = I) by nia. split; [auto|]. nia. }
      rewrite !Nat.eqb_refl. ring.
    + destruct (Nat.eqb_spec I i) as [->|]; [|ring].
      destruct (Nat.eqb_spec K k) as [->|]; [lia|]. ring.
  - rewrite (rsum_unit N i (fun I => if Nat.eqb K k then s K I else 0)) by exact Hi.
    destruct (Nat.eqb K k); ring.
Qed.

Lemma obind_some {A B} (o : option A) (k : A -> option B) b :
  obind o k = Some b -> exists a, o = Some a /\ k a = Some b.
Proof. destruct o; simpl; [eauto | discriminate]. Qed.

Lemma der_of {x y} (f : fn x y) I d : derivative I f = Some d -> has_rule f = true /\ d = der I f.
Proof.
  intros H. split; [|unfold der; rewrite H; reflexivity].
  rewrite <- (proj1 rule_mut x y f I), H. reflexivity.
Qed.

Lemma fold_fold {x y} (F : nat -> nat -> option (fn x y)) m n g :
  f_fold (map (fun K => f_fold (map (F K) (seq 0 n))) (seq 0 m)) = Some g ->
  (0 < n)%nat /\ (0 < m)%nat /\
  exists G, (forall K I, (K < m)%nat -> (I < n)%nat -> F K I = Some (G K I)) /\
    (forall p k, eval g p k = rsum m (fun K => rsum n (fun I => eval (G K I) p k))) /\
    (forall p, (forall K I, (K < m)%nat -> (I < n)%nat -> regular (G K I) p) -> regular g p).
Proof.
  intros H. destruct (fold_seq _ _ _ H) as [Hm (G & HG & HE & HR)].
  assert (Hn : (0 < n)%nat) by exact (proj1 (fold_seq _ _ _ (HG 0%nat Hm))).
  assert (C : forall l, (l <= m)%nat -> exists H : nat -> nat -> fn x y,
    forall K, (K < l)%nat -> (forall I, (I < n)%nat -> F K I = Some (H K I)) /\
      (forall p k, eval (G K) p k = rsum n (fun I => eval (H K I) p k)) /\
      (forall p, (forall I, (I < n)%nat -> regular (H K I) p) -> regular (G K) p)).
  { induction l as [|l IH]; intros Hl; [exists (fun _ _ => Constant zero_); intros; lia|].
    destruct IH as [Hs Hok]; [lia|].
    destruct (fold_seq _ _ _ (HG l Hl)) as [_ (L & HL)].
    exists (fun K => if Nat.eqb K l then L else Hs K). intros K HK.
    destruct (Nat.eqb_spec K l) as [->|]; [exact HL | apply Hok; lia]. }
  destruct (C m (le_n m)) as [Hs Hok]. split; [exact Hn|]. split; [exact Hm|].
  exists Hs. split; [|split].
  - intros K I HK HI. apply Hok; assumption.
  - intros p k. rewrite HE. apply rsum_ext. intros K HK. apply Hok. exact HK.
  - intros p HJ. apply HR. intros K HK. apply Hok; [exact HK|]. intros I HI. apply HJ; assumption.
Qed.

Lemma fold_fold_some {x y} (F : nat -> nat -> option (fn x y)) m n :
  (0 < n)%nat -> (0 < m)%nat -> (forall K I, F K I <> None) ->
  exists g, f_fold (map (fun K => f_fold (map (F K) (seq 0 n))) (seq 0 m)) = Some g.
Proof.
  intros Hn Hm HF. apply fold_seq_some; [exact Hm|]. intros K _ E.
  destruct (fold_seq_some (F K) n 0 Hn) as [g Eg]; [intros; apply HF|].
  rewrite Eg in E. discriminate.
Qed.

Lemma rule_at {x y} (f : fn x y) I : has_rule (at_component f I) = has_rule f.
Proof. destruct y; reflexivity. Qed.
Lemma der_at {x y} (f : fn x y) K I p : has_rule f = true -> (I < size y)%nat ->
  eval (der K (at_component f I)) p 0%nat = eval (der K f) p I.
Proof.
  intros H HI. destruct y as [|t]; [simpl in *; replace I with 0%nat by lia; reflexivity|].
  unfold der at 1. simpl. rewrite (der_some f K) by exact H. reflexivity.
Qed.

Lemma jacobian_entries {x y} (f : fn x y) g : jacobian f = Some g ->
  has_rule f = true /\ forall p i k, (i < size y)%nat -> (k < size x)%nat ->
    eval g p (i * size x + k)%nat = eval (der k f) p i.
Proof.
  intros H. destruct (fold_fold (fun K I => obind (derivative K (at_component f I)) (fun d =>
    Some (f_mul_c (mul_sa (matrix (size y) (size x))) d (unit_ (I * size x + K)%nat)))) _ _ _ H)
    as [Hn [Hm (G & HG & HE & _)]].
  assert (Hr : has_rule f = true).
  { destruct (obind_some _ _ _ (HG 0%nat 0%nat Hm Hn)) as (d & Ed & _).
    apply der_of in Ed. rewrite rule_at in Ed. apply Ed. }
  split; [exact Hr|]. intros p i k Hi Hk. rewrite HE.
  rewrite <- (unit_pick (size y) (size x) (fun K I => eval (der K f) p I) i k Hi Hk).
  apply rsum_ext. intros K HK. apply rsum_ext. intros I HI.
  destruct (obind_some _ _ _ (HG K I HK HI)) as (d & Ed & E). injection E as <-.
  apply der_of in Ed. destruct Ed as [_ ->]. simpl.
  rewrite der_at by assumption. reflexivity.
Qed.
Lemma jacobian_some {x y} (f : fn x y) :
  has_rule f = true -> (0 < size x)%nat -> (0 < size y)%nat -> exists g, jacobian f = Some g.
Proof.
  intros H Hx Hy. apply (fold_fold_some (fun K I => obind (derivative K (at_component f I)) (fun d =>
    Some (f_mul_c (mul_sa (matrix (size y) (size x))) d (unit_ (I * size x + K)%nat)))));
    [exact Hy | exact Hx |].
  intros K I. rewrite der_some by (rewrite rule_at; exact H). discriminate.
Qed.

Lemma gradient_scalar_entries {D} (f : fn (vector D) scalar) g : gradient_scalar f = Some g ->
  has_rule f = true /\ forall p i, (i < D)%nat -> eval g p i = eval (der i f) p 0%nat.
Proof.
  intros H. destruct (fold_seq _ _ _ H) as [HD (G & HG & HE & _)].
  split.
  { destruct (obind_some _ _ _ (HG 0%nat HD)) as (d & Ed & _). apply der_of in Ed. apply Ed. }
  intros p i Hi. rewrite HE.
  rewrite <- (rsum_unit D i (fun I => eval (der I f) p 0%nat) Hi).
  apply rsum_ext. intros I HI.
  destruct (obind_some _ _ _ (HG I HI)) as (d & Ed & E). injection E as <-.
  apply der_of in Ed. destruct Ed as [_ ->]. simpl. unfold unit_.
  rewrite (Nat.eqb_sym i I). ring.
Qed.
Lemma gradient_scalar_some {D} (f : fn (vector D) scalar) :
  has_rule f = true -> (0 < D)%nat -> exists g, gradient_scalar f = Some g.
Proof.
  intros H HD. apply fold_seq_some; [exact HD|]. intros J _.
  rewrite der_some by exact H. discriminate.
Qed.

(* The contraction with a unit vector picks a component. *)
Lemma rule_pick {x n} (f : fn x (vector n)) I :
  has_rule (f_mul (mul_vv n) f (Constant (unit_ I))) = has_rule f.
Proof. simpl. apply andb_true_r. Qed.
Lemma eval_pick {x n} (f : fn x (vector n)) I p k : (I < n)%nat ->
  eval (f_mul (mul_vv n) f (Constant (unit_ I))) p k = eval f p I.
Proof.
  intros HI. simpl. rewrite <- (rsum_unit n I (fun J => eval f p J) HI).
  apply rsum_ext. intros J _. unfold unit_. ring.
Qed.
Lemma der_pick {x n} (f : fn x (vector n)) K I p k : has_rule f = true -> (I < n)%nat ->
  eval (der K (f_mul (mul_vv n) f (Constant (unit_ I)))) p k = eval (der K f) p I.
Proof.
  intros H HI. unfold der at 1. simpl. rewrite (der_some f K) by exact H. simpl.
  rewrite (rsum_ext n _ (fun _ => 0)), rsum_0 by (intros; unfold zero_; ring).
  rewrite <- (rsum_unit n I (fun J => eval (der K f) p J) HI). rewrite Rplus_0_l.
  apply rsum_ext. intros J _. unfold unit_. ring.
Qed.
Lemma rule_row {x m n} (f : fn x (matrix m n)) I :
  has_rule (f_mul (mul_mv m n) f (Constant (unit_ I))) = has_rule f.
Proof. simpl. apply andb_true_r. Qed.
Lemma der_row {x m n} (f : fn x (matrix m n)) K I p k : has_rule f = true -> (I < n)%nat ->
  eval (der K (f_mul (mul_mv m n) f (Constant (unit_ I)))) p k = eval (der K f) p (k * n + I)%nat.
Proof.
  intros H HI. unfold der at 1. simpl. rewrite (der_some f K) by exact H. simpl.
  rewrite (rsum_ext n _ (fun _ => 0)), rsum_0 by (intros; unfold zero_; ring).
  rewrite <- (rsum_unit n I (fun J => eval (der K f) p (k * n + J)%nat) HI). rewrite Rplus_0_l.
  apply rsum_ext. intros J _. unfold unit_. ring.
Qed.

Lemma gradient_vector_entries {D N} (f : fn (vector D) (vector N)) g : gradient_vector f = Some g ->
  has_rule f = true /\ forall p i k, (i < N)%nat -> (k < D)%nat ->
    eval g p (i * D + k)%nat = eval (der k f) p i.
Proof.
  intros H. destruct (fold_fold (fun K I =>
      obind (derivative K (f_mul (mul_vv N) f (Constant (unit_ I)))) (fun d =>
        Some (f_mul (mul_sa (matrix N D)) d (Constant (unit_ (I * D + K)%nat))))) _ _ _ H)
    as [Hn [Hm (G & HG & HE & _)]].
  assert (Hr : has_rule f = true).
  { destruct (obind_some _ _ _ (HG 0%nat 0%nat Hm Hn)) as (d & Ed & _).
    apply der_of in Ed. rewrite rule_pick in Ed. apply Ed. }
  split; [exact Hr|]. intros p i k Hi Hk. rewrite HE.
  rewrite <- (unit_pick N D (fun K I => eval (der K f) p I) i k Hi Hk).
  apply rsum_ext. intros K HK. apply rsum_ext. intros I HI.
  destruct (obind_some _ _ _ (HG K I HK HI)) as (d & Ed & E). injection E as <-.
  apply der_of in Ed. destruct Ed as [_ ->].
  cbn [f_mul eval mul]. rewrite (der_pick f K I p 0%nat Hr HI). reflexivity.
Qed.
Lemma gradient_vector_some {D N} (f : fn (vector D) (vector N)) :
  has_rule f = true -> (0 < D)%nat -> (0 < N)%nat -> exists g, gradient_vector f = Some g.
Proof.
  intros H HD HN. apply (fold_fold_some (fun K I =>
      obind (derivative K (f_mul (mul_vv N) f (Constant (unit_ I)))) (fun d =>
        Some (f_mul (mul_sa (matrix N D)) d (Constant (unit_ (I * D + K)%nat)))))); [exact HN | exact HD |].
  intros K I. rewrite der_some by (rewrite rule_pick; exact H). discriminate.
Qed.

Lemma divergence_vector_value {D} (f : fn (vector D) (vector D)) g : divergence_vector f = Some g ->
  has_rule f = true /\ forall p k, eval g p k = rsum D (fun i => eval (der i f) p i).
Proof.
  intros H. destruct (fold_seq _ _ _ H) as [HD (G & HG & HE & _)].
  assert (Hr : has_rule f = true).
  { pose proof (HG 0%nat HD) as Ed. apply der_of in Ed. rewrite rule_pick in Ed. apply Ed. }
  split; [exact Hr|]. intros p k. rewrite HE. apply rsum_ext. intros I HI.
  pose proof (HG I HI) as Ed. apply der_of in Ed. destruct Ed as [_ ->]. apply der_pick; assumption.
Qed.
Lemma divergence_vector_some {D} (f : fn (vector D) (vector D)) :
  has_rule f = true -> (0 < D)%nat -> exists g, divergence_vector f = Some g.
Proof.
  intros H HD. apply fold_seq_some; [exact HD|]. intros J _.
  rewrite der_some by (rewrite rule_pick; exact H). discriminate.
Qed.

Lemma divergence_tensor_entries {D} (f : fn (vector D) (matrix D D)) g : divergence_tensor f = Some g ->
  has_rule f = true /\ forall p k, (k < D)%nat ->
    eval g p k = rsum D (fun i => eval (der i f) p (k * D + i)%nat).
Proof.
  intros H. destruct (fold_fold (fun K I =>
      obind (derivative I (f_mul (mul_vv D) (f_mul (mul_mv D D) f (Constant (unit_ I)))
                                            (Constant (unit_ K)))) (fun d =>
        Some (f_mul (mul_sa (vector D)) d (Constant (unit_ K))))) _ _ _ H)
    as [Hn [Hm (G & HG & HE & _)]].
  assert (Hr : has_rule f = true).
  { destruct (obind_some _ _ _ (HG 0%nat 0%nat Hm Hn)) as (d & Ed & _).
    apply der_of in Ed. rewrite rule_pick, rule_row in Ed. apply Ed. }
  split; [exact Hr|]. intros p k Hk. rewrite HE.
  rewrite <- (rsum_unit D k (fun K => rsum D (fun i => eval (der i f) p (K * D + i)%nat)) Hk).
  apply rsum_ext. intros K HK. rewrite <- rsum_scale. apply rsum_ext. intros I HI.
  destruct (obind_some _ _ _ (HG K I HK HI)) as (d & Ed & E). injection E as <-.
  apply der_of in Ed. destruct Ed as [_ ->].
  cbn [f_mul eval mul].
  rewrite (der_pick (f_mul (mul_mv D D) f (Constant (unit_ I))) I K p 0%nat);
    [|rewrite rule_row; exact Hr|exact HK].
  rewrite der_row by assumption. unfold unit_. rewrite (Nat.eqb_sym k K). ring.
Qed.
Lemma divergence_tensor_some {D} (f : fn (vector D) (matrix D D)) :
  has_rule f = true -> (0 < D)%nat -> exists g, divergence_tensor f = Some g.
Proof.
  intros H HD. apply (fold_fold_some (fun K I =>
      obind (derivative I (f_mul (mul_vv D) (f_mul (mul_mv D D) f (Constant (unit_ I)))
                                            (Constant (unit_ K)))) (fun d =>
        Some (f_mul (mul_sa (vector D)) d (Constant (unit_ K)))))); [exact HD | exact HD |].
  intros K I. rewrite der_some by (rewrite rule_pick, rule_row; exact H). discriminate.
Qed.

(* ------------------------------------------------------------------------------------------- *)
(* Derivatives can be differentiated again. *)

Lemma again_mut :
  (forall x y (f : fn x y), has_rule f = true -> forall I, has_rule (der I f) = true) /\
  (forall x y (fs : fns x y), has_rule_sum fs = true -> forall I, has_rule (der_sum I fs) = true) /\
  (forall x y (fs : cfns x y), has_rule_comb fs = true -> forall I, has_rule_comb (der_comb I fs) = true).
Proof.
  assert (FOLD : forall x y (F : nat -> option (fn x y)) n s g,
    f_fold (map F (seq s n)) = Some g ->
    (forall J d, F J = Some d -> has_rule d = true) -> has_rule g = true).
  { intros x y F n. induction n as [|n IH]; intros s g H HF; [discriminate|].
    simpl in H. destruct n as [|n]; [exact (HF _ _ H)|].
    remember (map F (seq (S s) (S n))) as l eqn:El.
    assert (Hl : match F s, f_fold l with Some f, Some g => Some (f_add f g) | _, _ => None end = Some g).
    { rewrite El in *. exact H. }
    destruct (F s) as [f|] eqn:Ef; [|discriminate].
    destruct (f_fold l) as [h|] eqn:Eh; [|discriminate]. injection Hl as <-. subst l.
    simpl. rewrite (HF _ _ Ef), (IH _ _ Eh HF). reflexivity. }
  apply fn_mut; intros; try discriminate; simpl in *; rules; try reflexivity;
    unfold der, der_sum, der_comb; simpl;
    repeat match goal with
    | |- context [derivative ?J ?f] => rewrite (der_some f J) by assumption
    | |- context [derivative_sum ?J ?f] => rewrite (der_sum_some f J) by assumption
    | |- context [derivative_comb ?J ?f] => rewrite (der_comb_some f J) by assumption
    end; simpl;
    repeat match goal with
    | H : has_rule ?f = true |- context [has_rule ?f] => rewrite H
    | H : forall I, has_rule (der I ?f) = true |- context [has_rule (der ?J ?f)] => rewrite (H J)
    | H : forall I, has_rule (der_sum I ?f) = true |- context [has_rule (der_sum ?J ?f)] => rewrite (H J)
    | H : forall I, has_rule_comb (der_comb I ?f) = true |- context [has_rule_comb (der_comb ?J ?f)] => rewrite (H J)
    end; try reflexivity; auto.
  - (* composition *)
    destruct y as [|t]; simpl chain.
    + unfold chain_scalar. rewrite (der_some f I) by assumption. simpl.
      rewrite H, H0, H3. destruct x; reflexivity.
    + destruct x as [|u]; [discriminate|]. simpl chain.
      destruct (chain_tensor _ _ _) as [d|] eqn:Ed; [|reflexivity].
      apply (FOLD _ _ _ _ _ _ Ed). intros J e HJ. rewrite (der_some f J) in HJ by assumption.
      injection HJ as <-. simpl. rewrite H, H0, H3. simpl in H2. rewrite H2. reflexivity.
  - destruct (Nat.eqb I N); reflexivity.
  - unfold power_derivative. destruct N as [|[|N]]; reflexivity.
Qed.

(* ------------------------------------------------------------------------------------------- *)
(* Functions only see the components of their argument. *)

Lemma mul_local {a b c} (op : mulop a b c) u u' v v' j : (j < size c)%nat ->
  (forall k, (k < size a)%nat -> u k = u' k) -> (forall k, (k < size b)%nat -> v k = v' k) ->
  mul op u v j = mul op u' v' j.
Proof.
  intros Hj Hu Hv. destruct op; simpl in *; try (apply rsum_ext; intros k Hk).
  - rewrite (Hu 0%nat), (Hv j) by lia. reflexivity.
  - rewrite (Hu j), (Hv 0%nat) by lia. reflexivity.
  - rewrite Hu, Hv by lia. reflexivity.
  - rewrite Hu, Hv by nia. reflexivity.
  - rewrite Hu, Hv by nia. reflexivity.
  - assert (Hp : p <> 0%nat) by nia.
    assert (j / p < m)%nat by (apply Nat.div_lt_upper_bound; nia).
    assert (j mod p < p)%nat by (apply Nat.mod_upper_bound; assumption).
    rewrite Hu, Hv by nia. reflexivity.
Qed.

Lemma local_mut :
  (forall x y (f : fn x y) p q, regular f p -> (forall k, (k < size x)%nat -> p k = q k) ->
     forall j, (j < size y)%nat -> eval f p j = eval f q j) /\
  (forall x y (f : fns x y) p q, regular_sum f p -> (forall k, (k < size x)%nat -> p k = q k) ->
     forall j, (j < size y)%nat -> eval_sum f p j = eval_sum f q j) /\
  (forall x y (f : cfns x y) p q, regular_comb f p -> (forall k, (k < size x)%nat -> p k = q k) ->
     forall j, (j < size y)%nat -> eval_comb f p j = eval_comb f q j).
Proof.
  assert (DM : forall c n, (c < n * n)%nat -> (c / n < n /\ c mod n < n)%nat).
  { intros c n Hc. assert (n <> 0%nat) by nia.
    split; [apply Nat.div_lt_upper_bound; nia | apply Nat.mod_upper_bound; assumption]. }
  apply fn_mut; intros; simpl in *;
    repeat match goal with H : _ /\ _ |- _ => destruct H end;
    try reflexivity; auto;
    try (unfold num; rewrite (H0 0%nat) by lia; reflexivity).
  - (* functor *)
    rewrite (map_ext_in p q (seq 0 (size x))); [reflexivity|].
    intros k Hk. apply in_seq in Hk. apply H0. lia.
  - (* plus constant *) erewrite H by eauto. reflexivity.
  - (* product *) apply mul_local; eauto.
  - apply mul_local; eauto.
  - apply mul_local; eauto.
  - unfold num. erewrite H by eauto. reflexivity.
  - (* subscript *) unfold num. apply H; assumption.
  - (* transpose *)
    assert (Hm : m <> 0%nat) by nia.
    assert (j / m < n)%nat by (apply Nat.div_lt_upper_bound; nia).
    assert (j mod m < m)%nat by (apply Nat.mod_upper_bound; assumption).
    eapply H; eauto. nia.
  - (* determinant *)
    unfold num.
    assert (E : forall i k, (i < n)%nat -> (k < n)%nat -> eval f p (i * n + k)%nat = eval f q (i * n + k)%nat).
    { intros i k Hi Hk. eapply H; eauto. nia. }
    unfold mdet, det1, det2, det3. destruct n as [|[|[|[|n]]]]; try reflexivity; rewrite !E by lia; reflexivity.
  - (* inverse *)
    assert (E : forall i k, (i < n)%nat -> (k < n)%nat -> eval f p (i * n + k)%nat = eval f q (i * n + k)%nat).
    { intros i k Hi Hk. eapply H; eauto. nia. }
    destruct (DM _ _ H2) as [Hi Hk]. set (i := (j / n)%nat) in *. set (k := (j mod n)%nat) in *.
    assert (SK : forall a b m, (m < S b)%nat -> (a < b)%nat -> (skip m a < S b)%nat).
    { intros a b m _ Ha. unfold skip. destruct (Nat.ltb a m); lia. }
    unfold minv, minor, det1, det2, det3. destruct n as [|[|[|[|n]]]]; try reflexivity.
    + rewrite !E by lia. reflexivity.
    + rewrite !E by (try apply SK; lia). reflexivity.
    + rewrite !E by (try apply SK; lia). reflexivity.
  - (* dyadic *)
    destruct (DM _ _ H3) as [Hi Hk]. erewrite H, H0 by eauto. reflexivity.
  - (* component *) unfold num. apply H0, H.
  - erewrite H, H0 by eauto. reflexivity.
  - erewrite H by eauto. reflexivity.
  - erewrite H, H0 by eauto. reflexivity.
Qed.

Lemma der_product {x a b y} (op : mulop a b y) (f : fn x a) (g : fn x b) I p k :
  has_rule f = true -> has_rule g = true ->
  eval (der I (f_mul op f g)) p k =
    mul op (eval f p) (eval (der I g) p) k + mul op (eval (der I f) p) (eval g p) k.
Proof.
  intros Hf Hg. unfold der at 1. simpl. rewrite (der_some f I), (der_some g I) by assumption. reflexivity.
Qed.
Lemma der_add {x y} (f g : fn x y) I p k :
  has_rule f = true -> has_rule g = true ->
  eval (der I (f_add f g)) p k = eval (der I f) p k + eval (der I g) p k.
Proof.
  intros Hf Hg. unfold der at 1. simpl. rewrite (der_some f I), (der_some g I) by assumption. reflexivity.
Qed.
Lemma der_scale {x y} c (f : fn x y) I p k :
  has_rule f = true ->
  eval (der I (c_mul_f (mul_sa y) (num c) f)) p k = c * eval (der I f) p k.
Proof. intros Hf. unfold der at 1. simpl. rewrite (der_some f I) by assumption. reflexivity. Qed.
