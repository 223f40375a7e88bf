(* Gauss' theorem on simplices, for polynomials. *)
From Coq Require Import Reals List Bool Arith Lia Lra FunctionalExtensionality.
From Coquelicot Require Import Rbar Hierarchy Derive RInt.
From Verif Require Import M_Tensor M_Geometry S_Geometry P_Volume M_Functions P_Functions.
From Verif Require Import M_Quadrature S_Quadrature P_Quadrature P_Poly.
Import ListNotations.
Open Scope R_scope.

Lemma bint_fun D r s p q : of_degree (S D) r p -> of_degree (S D) s q -> (forall x, poly p x = poly q x) ->
  bint p = bint q.
Proof.
  intros Hp Hq E. apply (is_integral_unique D 1 (fun x => poly p (bary D 1 x)) _ _ Rle_0_1).
  - exact (bpoly_integral D r p Hp).
  - apply (is_integral_ext D 1 (fun x => poly q (bary D 1 x))); [intros x; symmetry; apply E|].
    exact (bpoly_integral D s q Hq).
Qed.
Lemma bint_app p q : bint (p ++ q) = bint p + bint q.
Proof. unfold bint. rewrite map_app, total_app. reflexivity. Qed.
Lemma bint_pscale a p : bint (pscale a p) = a * bint p.
Proof.
  unfold bint, pscale. rewrite map_map. cbn [fst snd]. rewrite <- total_map_scal. apply total_map_ext. intros; ring.
Qed.

(* ------------------------------------------------------------------------------------------- *)
(* Faces of the reference simplex. *)

Fixpoint eface (j : nat) (es : list nat) : option (list nat) :=
  match es with
  | [] => None
  | e :: es' => match j with
                | O => match e with O => Some es' | S _ => None end
                | S j' => option_map (cons e) (eface j' es')
                end
  end.
Definition pface (j : nat) (p : polynomial) : polynomial :=
  flat_map (fun t => match eface j (snd t) with Some es => [(fst t, es)] | None => [] end) p.
(* zero in the j-th place *)
Fixpoint vface (j : nat) (x : vec) : vec :=
  match j with
  | O => fun i => match i with O => 0 | S i' => x i' end
  | S j' => fun i => match i with O => x 0%nat | S i' => vface j' (fun k => x (S k)) i' end
  end.

Lemma eface_monomial es : forall j x, (j < length es)%nat ->
  monomial es (vface j x) = match eface j es with Some es' => monomial es' x | None => 0 end.
Proof.
  induction es as [|e es IH]; intros j x Hj; [cbn in Hj; lia|]. destruct j as [|j]; cbn [eface monomial].
  - cbn [vface]. destruct e as [|e]; cbn; [|ring]. rewrite Rmult_1_l. reflexivity.
  - cbn [vface]. change (monomial es (fun i => vface j (fun k => x (S k)) i))
      with (monomial es (vface j (fun k => x (S k)))).
    rewrite IH by (cbn in Hj; lia). destruct (eface j es); cbn [option_map monomial]; [reflexivity|ring].
Qed.
Lemma eface_facts es : forall j es', eface j es = Some es' ->
  facts es' = facts es /\ list_sum es' = list_sum es /\ S (length es') = length es.
Proof.
  induction es as [|e es IH]; intros j es' H; [destruct j; discriminate H|]. destruct j as [|j]; cbn [eface] in H.
  - destruct e; [|discriminate H]. injection H as <-. unfold facts. cbn. split; [ring|split; reflexivity].
  - destruct (eface j es) as [es''|] eqn:E; [|discriminate H]. injection H as <-.
    destruct (IH j es'' E) as (F & S & L). cbn [facts fold_right list_sum length].
    fold (facts es'') (facts es). rewrite F. split; [reflexivity|].
    unfold list_sum in *. cbn [fold_right]. split; lia.
Qed.
Lemma dexp_facts es : forall j, (j < length es)%nat ->
  match eface j es with
  | Some _ => fst (dexp j es) = 0
  | None => fst (dexp j es) * facts (snd (dexp j es)) = facts es /\ (list_sum (snd (dexp j es)) + 1 = list_sum es)%nat
  end.
Proof.
  induction es as [|e es IH]; intros j Hj; [cbn in Hj; lia|]. destruct j as [|j]; cbn [eface dexp].
  - destruct e as [|e]; [reflexivity|]. cbn [fst snd]. split.
    + cbn [facts fold_right]. replace (S e - 1)%nat with e by lia. rewrite fact_S, S_INR. ring.
    + cbn. lia.
  - cbn [length] in Hj. specialize (IH j ltac:(lia)). destruct (eface j es); cbn [option_map fst snd]; [exact IH|].
    destruct IH as [F S]. split.
    + cbn [facts fold_right]. fold (facts es) (facts (snd (dexp j es))). rewrite <- F. ring.
    + cbn. unfold list_sum in S. lia.
Qed.

(* the integral of a derivative over the simplex and that over the face: the same sum for all *)
Definition whole (es : list nat) : R := facts es / INR (fact (list_sum es + (length es - 2))).
Lemma face_sum es j : (j < length es)%nat -> (2 <= length es)%nat ->
  fst (dexp j es) * bdirichlet (snd (dexp j es))
  + match eface j es with Some es' => bdirichlet es' | None => 0 end = whole es.
Proof.
  intros Hj H2. pose proof (dexp_facts es j Hj) as H. destruct (eface j es) as [es'|] eqn:E.
  - rewrite H. destruct (eface_facts es j es' E) as (F & S & L). unfold bdirichlet, whole.
    rewrite F, S. replace (length es' - 1)%nat with (length es - 2)%nat by lia. ring.
  - destruct H as [F S]. unfold bdirichlet, whole. rewrite dexp_length, <- F.
    replace (list_sum (snd (dexp j es)) + (length es - 1))%nat with (list_sum es + (length es - 2))%nat by lia.
    field. apply fact_nz.
Qed.
Lemma gauss_reference D r p j : of_degree (S (S D)) r p -> (j < S (S D))%nat ->
  bint (dpoly j p) + bint (pface j p) = total (map (fun t => fst t * whole (snd t)) p).
Proof.
  intros Hp Hj. unfold dpoly, pface. induction Hp as [|t p [L _] Hp IH]; [unfold bint, total; cbn; ring|].
  assert (F := face_sum (snd t) j ltac:(lia) ltac:(lia)).
  set (d := fun t0 : R * list nat => (fst t0 * fst (dexp j (snd t0)), snd (dexp j (snd t0)))) in *.
  set (g := fun t0 : R * list nat => match eface j (snd t0) with Some es => [(fst t0, es)] | None => [] end) in *.
  set (w := fun t0 : R * list nat => fst t0 * whole (snd t0)) in *.
  change (bint (map d (t :: p))) with (bint ([d t] ++ map d p)).
  change (flat_map g (t :: p)) with (g t ++ flat_map g p).
  change (total (map w (t :: p))) with (w t + total (map w p)).
  rewrite !bint_app, <- IH.
  assert (E : bint [d t] + bint (g t) = w t); [|lra].
  unfold w. rewrite <- F. unfold d, g.
  destruct (eface j (snd t)) as [es|]; unfold bint, total; cbn [map fold_right fst snd]; ring.
Qed.
Lemma degree_pface n r p j : of_degree (S n) r p -> of_degree n r (pface j p).
Proof.
  unfold pface. induction 1 as [|t p [L Dt] Hp IH]; cbn [flat_map]; [constructor|].
  apply degree_app; [|exact IH]. destruct (eface j (snd t)) as [es|] eqn:E; constructor; [|constructor].
  destruct (eface_facts _ _ _ E) as (_ & S & L'). cbn [snd]. split; [lia|lia].
Qed.
Lemma poly_pface n r p j x : of_degree n r p -> (j < n)%nat -> poly (pface j p) x = poly p (vface j x).
Proof.
  intros Hp Hj. unfold pface. induction Hp as [|t p [L Dt] Hp IH]; cbn [flat_map]; [reflexivity|].
  rewrite poly_app, IH, poly_cons, eface_monomial by lia.
  destruct (eface j (snd t)); rewrite ?poly_cons, poly_nil; cbn [fst snd]; ring.
Qed.

(* ------------------------------------------------------------------------------------------- *)
(* Exchanging two barycentric coordinates. *)

Fixpoint eswap (k : nat) (es : list nat) : list nat :=
  match k with
  | O => match es with a :: b :: es' => b :: a :: es' | _ => es end
  | S k' => match es with a :: es' => a :: eswap k' es' | [] => [] end
  end.
Fixpoint vswap (k : nat) (x : vec) : vec :=
  match k with
  | O => fun i => match i with O => x 1%nat | S O => x 0%nat | _ => x i end
  | S k' => fun i => match i with O => x 0%nat | S i' => vswap k' (fun l => x (S l)) i' end
  end.
Definition pswap (k : nat) (p : polynomial) : polynomial := map (fun t => (fst t, eswap k (snd t))) p.

Lemma eswap_facts k : forall es, facts (eswap k es) = facts es /\ list_sum (eswap k es) = list_sum es /\
  length (eswap k es) = length es.
Proof.
  induction k as [|k IH]; intros es.
  - destruct es as [|a [|b es]]; cbn; try (split; [reflexivity|split; reflexivity]).
    unfold facts. cbn. split; [ring|split; [lia|reflexivity]].
  - destruct es as [|a es]; cbn [eswap]; [split; [reflexivity|split; reflexivity]|].
    destruct (IH es) as (F & S & L). cbn [facts fold_right list_sum length].
    fold (facts (eswap k es)) (facts es). rewrite F, L. split; [reflexivity|].
    unfold list_sum in *. cbn [fold_right]. split; lia.
Qed.
Lemma eswap_monomial k : forall es x, (S k < length es)%nat -> monomial (eswap k es) x = monomial es (vswap k x).
Proof.
  induction k as [|k IH]; intros es x H.
  - destruct es as [|a [|b es]]; [cbn in H; lia..|]. cbn [eswap monomial vswap]. ring.
  - destruct es as [|a es]; [cbn in H; lia|]. cbn [eswap monomial vswap].
    change (fun i => vswap k (fun l => x (S l)) i) with (vswap k (fun l => x (S l))).
    rewrite IH by (cbn in H; lia). reflexivity.
Qed.
Lemma bint_pswap k p : bint (pswap k p) = bint p.
Proof.
  unfold bint, pswap. rewrite map_map. apply total_map_ext. intros t _. cbn [fst snd]. f_equal.
  unfold bdirichlet. destruct (eswap_facts k (snd t)) as (-> & -> & ->). reflexivity.
Qed.
Lemma degree_pswap n r k p : of_degree n r p -> of_degree n r (pswap k p).
Proof.
  unfold pswap. induction 1 as [|t p [L Dt] Hp IH]; cbn [map]; constructor; [|exact IH]. cbn [snd].
  destruct (eswap_facts k (snd t)) as (_ & -> & ->). split; assumption.
Qed.
Lemma poly_pswap n r k p x : of_degree n r p -> (S k < n)%nat -> poly (pswap k p) x = poly p (vswap k x).
Proof.
  intros Hp Hk. unfold pswap. induction Hp as [|t p [L Dt] Hp IH]; cbn [map]; [reflexivity|].
  rewrite !poly_cons, IH. cbn [fst snd]. rewrite eswap_monomial by lia. reflexivity.
Qed.

(* ------------------------------------------------------------------------------------------- *)
(* The simplex with given corners. *)

(* the k-th coordinate of the point with given barycentric coordinates, as a polynomial *)
Fixpoint form_from (n j : nat) (xs : list vec) (k : nat) : polynomial :=
  match xs with
  | [] => []
  | x :: xs' => (x k, evar n j) :: form_from n (S j) xs' k
  end.
Definition form (xs : list vec) (k : nat) : polynomial := form_from (length xs) 0 xs k.
Fixpoint lin (xs : list vec) (l : vec) (k : nat) : R :=
  match xs with
  | [] => 0
  | x :: xs' => l 0%nat * x k + lin xs' (fun i => l (S i)) k
  end.

Lemma degree_form_from n xs : forall j k, of_degree n 1 (form_from n j xs k).
Proof.
  induction xs as [|x xs IH]; intros j k; cbn [form_from]; constructor; [|apply IH].
  cbn [snd]. split; [apply evar_length|apply evar_sum].
Qed.
Lemma degree_form xs k : of_degree (length xs) 1 (form xs k).
Proof. apply degree_form_from. Qed.
Lemma poly_form_from n xs : forall j k l, (j + length xs <= n)%nat ->
  poly (form_from n j xs k) l = lin xs (fun i => l (j + i)%nat) k.
Proof.
  induction xs as [|x xs IH]; intros j k l H; cbn [form_from lin]; [reflexivity|]. cbn [length] in H.
  rewrite poly_cons, IH by lia. cbn [fst snd]. rewrite monomial_evar by lia. rewrite Nat.add_0_r. f_equal; [ring|].
  f_equal. apply functional_extensionality. intros i. f_equal. lia.
Qed.
Lemma poly_form xs k l : poly (form xs k) l = lin xs l k.
Proof. unfold form. rewrite poly_form_from by lia. reflexivity. Qed.

Lemma lin_combo xs : forall l k, lin xs l k = combo (map l (seq 0 (length xs))) xs k.
Proof.
  induction xs as [|x xs IH]; intros l k; [reflexivity|]. cbn [lin length seq map]. unfold combo. cbn [combine fold_right fst snd].
  f_equal. rewrite IH. unfold combo. rewrite <- seq_shift, map_map. reflexivity.
Qed.
Lemma barycentric_lin D xs x : length xs = S D -> barycentric D xs x = lin xs (bary D 1 x).
Proof.
  intros L. apply functional_extensionality. intros k. rewrite lin_combo, L. unfold barycentric. f_equal.
  rewrite seq_S, map_app. f_equal.
  - apply map_ext_in. intros i Hi. apply in_seq in Hi. unfold bary.
    destruct (Nat.ltb_spec i D); [reflexivity|lia].
  - cbn [map]. unfold bary. rewrite Nat.add_0_l, Nat.ltb_irrefl. reflexivity.
Qed.

(* the integral over the reference simplex *)
Definition Fl (p : polynomial) (xs : list vec) : R := bint (psubst (length xs) p (form xs)).

Lemma degree_pullback D r p xs : of_degree D r p -> of_degree (length xs) r (psubst (length xs) p (form xs)).
Proof. intros Hp. apply (degree_psubst _ D); [exact Hp|]. intros i _. apply degree_form. Qed.
Lemma poly_pullback D r p xs l : of_degree D r p -> poly (psubst (length xs) p (form xs)) l = poly p (lin xs l).
Proof.
  intros Hp. rewrite (poly_psubst _ D r) by (try exact Hp; intros i _; apply degree_form).
  f_equal. apply functional_extensionality. intros k. apply poly_form.
Qed.

Lemma Fl_integral D n r p xs : of_degree D r p -> length xs = S n ->
  reference_integral n (fun s => poly p (barycentric n xs s)) (Fl p xs).
Proof.
  intros Hp L. pose proof (degree_pullback D r p xs Hp) as Hd.
  pose proof (poly_pullback D r p xs) as E. unfold Fl. rewrite L in *.
  apply (is_integral_ext n 1 (fun x => poly (psubst (S n) p (form xs)) (bary n 1 x))).
  - intros x. rewrite E by exact Hp. rewrite <- barycentric_lin by exact L. reflexivity.
  - apply (bpoly_integral n r). exact Hd.
Qed.
Lemma Fl_fun D r s n p q xs : of_degree D r p -> of_degree D s q -> length xs = S n -> (forall x, poly p x = poly q x) ->
  Fl p xs = Fl q xs.
Proof.
  intros Hp Hq L E.
  apply (is_integral_unique n 1 (fun s => poly p (barycentric n xs s)) _ _ Rle_0_1).
  - exact (Fl_integral D n r p xs Hp L).
  - apply (is_integral_ext n 1 (fun s => poly q (barycentric n xs s))); [intros x; symmetry; apply E|].
    exact (Fl_integral D n s q xs Hq L).
Qed.

Lemma lin_swap pre : forall x y post l k,
  lin (pre ++ y :: x :: post) l k = lin (pre ++ x :: y :: post) (vswap (length pre) l) k.
Proof.
  induction pre as [|z pre IH]; intros x y post l k; cbn [List.app lin length vswap]; [cbv beta iota; ring|].
  change (fun i => vswap (length pre) (fun l0 => l (S l0)) i) with (vswap (length pre) (fun l0 => l (S l0))).
  rewrite IH. reflexivity.
Qed.
Lemma Fl_swap D r p pre x y post : of_degree D r p ->
  Fl p (pre ++ y :: x :: post) = Fl p (pre ++ x :: y :: post).
Proof.
  intros Hp. set (xs := pre ++ x :: y :: post). set (ys := pre ++ y :: x :: post).
  assert (L : length ys = length xs) by (unfold xs, ys; rewrite !app_length; cbn; lia).
  assert (L2 : (S (length pre) < length xs)%nat) by (unfold xs; rewrite app_length; cbn; lia).
  unfold Fl. rewrite <- (bint_pswap (length pre) (psubst (length xs) p (form xs))).
  pose proof (degree_pullback D r p xs Hp) as H1. pose proof (degree_pullback D r p ys Hp) as H2.
  assert (E1 := poly_pullback D r p xs). assert (E2 := poly_pullback D r p ys). rewrite L in *.
  destruct (length xs) as [|n] eqn:Ln; [lia|]. apply (bint_fun n r r); [exact H2|apply degree_pswap, H1|].
  intros l. rewrite (poly_pswap (S n) r) by (exact H1 || exact L2). rewrite E1, E2 by exact Hp. f_equal.
  apply functional_extensionality. intros k. apply lin_swap.
Qed.
Lemma Fl_swaps D r p odd xs ys : of_degree D r p -> swaps odd xs ys -> Fl p ys = Fl p xs.
Proof.
  intros Hp H. induction H as [l|odd l pre x y post H IH]; [reflexivity|]. rewrite <- IH. apply (Fl_swap D r), Hp.
Qed.

(* the corners other than the j-th *)
Fixpoint without {A} (j : nat) (l : list A) : list A :=
  match l with
  | [] => []
  | x :: l' => match j with O => l' | S j' => x :: without j' l' end
  end.
Lemma without_length {A} (l : list A) : forall j, (j < length l)%nat -> S (length (without j l)) = length l.
Proof.
  induction l as [|x l IH]; intros j Hj; [cbn in Hj; lia|]. destruct j as [|j]; cbn [without length]; [reflexivity|].
  f_equal. apply IH. cbn in Hj. lia.
Qed.
Lemma lin_face xs : forall j l k, (j < length xs)%nat -> lin xs (vface j l) k = lin (without j xs) l k.
Proof.
  induction xs as [|x xs IH]; intros j l k Hj; [cbn in Hj; lia|]. destruct j as [|j]; cbn [lin without vface].
  - rewrite Rmult_0_l, Rplus_0_l. reflexivity.
  - change (fun i => vface j (fun k0 => l (S k0)) i) with (vface j (fun k0 => l (S k0))).
    rewrite IH by (cbn in Hj; lia). reflexivity.
Qed.
Lemma lin_affine xs : forall (a b : vec) t k, lin xs (fun i => a i + t * b i) k = lin xs a k + t * lin xs b k.
Proof. induction xs as [|x xs IH]; intros a b t k; cbn [lin]; [ring|]. rewrite IH. ring. Qed.
Lemma lin_unit xs : forall j k, (j < length xs)%nat ->
  lin xs (fun i => if Nat.eqb i j then 1 else 0) k = nth j xs vzero k.
Proof.
  assert (Z : forall xs k, lin xs (fun _ => 0) k = 0).
  { clear. induction xs as [|x xs IH]; intros k; cbn [lin]; [reflexivity|]. rewrite IH. ring. }
  induction xs as [|x xs IH]; intros j k Hj; [cbn in Hj; lia|]. destruct j as [|j]; cbn [lin nth Nat.eqb].
  - rewrite Z. ring.
  - rewrite IH by (cbn in Hj; lia). ring.
Qed.

(* the derivative of the pull-back in the j-th barycentric coordinate *)
Lemma dpoly_pullback D r p xs j l : of_degree D r p -> (j < length xs)%nat ->
  poly (dpoly j (psubst (length xs) p (form xs))) l
  = rsum D (fun m => nth j xs vzero m * poly (dpoly m p) (lin xs l)).
Proof.
  intros Hp Hj. set (q := psubst (length xs) p (form xs)).
  set (b := fun i : nat => if Nat.eqb i j then 1 else 0).
  pose proof (poly_direction (length xs) r q l b 0 (degree_pullback D r p xs Hp)) as H1.
  pose proof (poly_direction D r p (lin xs l) (lin xs b) 0 Hp) as H2.
  assert (E : forall t, poly p (fun i => lin xs l i + t * lin xs b i) = poly q (fun i => l i + t * b i)).
  { intros t. unfold q. rewrite (poly_pullback D r) by exact Hp. f_equal. apply functional_extensionality. intros k.
    symmetry. apply lin_affine. }
  apply (is_derive_ext _ _ _ _ E) in H2.
  pose proof (is_derive_unique _ _ _ H1) as U1. pose proof (is_derive_unique _ _ _ H2) as U2.
  pose proof (eq_trans (eq_sym U1) U2) as U. clear H1 H2 E U1 U2. rename U into U2.
  assert (Z : forall a b : vec, (fun i => a i + 0 * b i) = a).
  { intros. apply functional_extensionality. intros; ring. }
  rewrite !Z in U2. 
  assert (E : rsum (length xs) (fun m => b m * poly (dpoly m q) l) = poly (dpoly j q) l)
    by exact (rsum_unit (length xs) j (fun m => poly (dpoly m q) l) Hj).
  rewrite <- E, U2.
  apply rsum_ext. intros m Hm. unfold b. rewrite lin_unit by exact Hj. reflexivity.
Qed.

Lemma bint_sum n N r (c : nat -> R) (ps : nat -> polynomial) q :
  (forall m, (m < n)%nat -> of_degree (S N) r (ps m)) -> of_degree (S N) r q ->
  (forall l, poly q l = rsum n (fun m => c m * poly (ps m) l)) ->
  bint q = rsum n (fun m => c m * bint (ps m)).
Proof.
  intros Hps Hq E.
  set (s := (fix go (n : nat) := match n with O => [] | S n' => go n' ++ pscale (c n') (ps n') end) n : polynomial).
  assert (Hs : of_degree (S N) r s /\ (forall l, poly s l = rsum n (fun m => c m * poly (ps m) l)) /\
    bint s = rsum n (fun m => c m * bint (ps m))).
  { unfold s. clear s E. induction n as [|n IH]; [split; [constructor|split; [reflexivity|reflexivity]]|].
    destruct IH as (IH1 & IH2 & IH3); [intros m Hm; apply Hps; lia|]. split; [|split].
    - apply degree_app; [exact IH1|apply degree_pscale, Hps; lia].
    - intros l. rewrite poly_app, poly_pscale, IH2. reflexivity.
    - rewrite bint_app, bint_pscale, IH3. reflexivity. }
  destruct Hs as (Hs1 & Hs2 & <-). apply (bint_fun N r r); [exact Hq|exact Hs1|]. intros l. rewrite E, Hs2. reflexivity.
Qed.

(* Gauss' theorem: an amount that does not depend on the face *)
Lemma gauss_faces D r p xs : of_degree D r p -> (2 <= length xs)%nat -> exists X, forall j, (j < length xs)%nat ->
  rsum D (fun m => nth j xs vzero m * Fl (dpoly m p) xs) + Fl p (without j xs) = X.
Proof.
  intros Hp H2. set (q := psubst (length xs) p (form xs)).
  exists (total (map (fun t => fst t * whole (snd t)) q)). intros j Hj.
  pose proof (degree_pullback D r p xs Hp) as Hq. fold q in Hq.
  destruct (length xs) as [|[|n]] eqn:Ln; [lia..|].
  rewrite <- (gauss_reference n r q j Hq) by lia. f_equal.
  - symmetry. unfold Fl. rewrite Ln.
    apply (bint_sum D (S n) r (fun m => nth j xs vzero m) (fun m => psubst (S (S n)) (dpoly m p) (form xs))).
    + intros m Hm. rewrite <- Ln. apply (degree_pullback D). apply degree_dpoly, Hp.
    + apply degree_dpoly, Hq.
    + intros l. unfold q. rewrite <- Ln. rewrite (dpoly_pullback D r) by (try exact Hp; rewrite Ln; exact Hj).
      apply rsum_ext. intros m Hm. f_equal. symmetry. apply (poly_pullback D r). apply degree_dpoly, Hp.
  - assert (L : S (length (without j xs)) = S (S n)) by (rewrite without_length; lia). injection L as L.
    unfold Fl. rewrite L. apply (bint_fun n r r).
    + rewrite <- L. apply (degree_pullback D), Hp.
    + apply degree_pface, Hq.
    + intros l. rewrite (poly_pface (S (S n)) r) by (exact Hq || exact Hj).
      rewrite <- L. rewrite (poly_pullback D r) by exact Hp.
      unfold q. rewrite <- Ln. rewrite (poly_pullback D r) by exact Hp. f_equal.
      apply functional_extensionality. intros k. symmetry. apply lin_face. lia.
Qed.
