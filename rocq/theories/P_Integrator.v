(* Proofs about polynomials, parametrizations and integration. *)
From Coq Require Import Reals List Bool Arith Lia Lra FunctionalExtensionality.
From Verif Require Import Base M_Tensor M_Geometry S_Geometry.
From Verif Require Import M_Functions P_Functions M_Quadrature S_Quadrature P_Quadrature.
Import ListNotations.
Open Scope R_scope.

(* ------------------------------------------------------------------------------------------- *)
(* Polynomials: sums, products and affine changes of variables. *)

Definition expressible (D r : nat) (f : vec -> R) : Prop :=
  exists p, of_degree D r p /\ forall x, f x = poly p x.

Lemma expressible_ext D r f g : (forall x, f x = g x) -> expressible D r f -> expressible D r g.
Proof. intros E (p & Hp & H). exists p. split; [exact Hp|]. intros x. rewrite <- E. apply H. Qed.

Lemma of_degree_le D r s p : (r <= s)%nat -> of_degree D r p -> of_degree D s p.
Proof.
  intros H. apply Forall_impl. intros [a es] [L S]. split; [exact L|]. simpl in *. lia.
Qed.
Lemma expressible_le D r s f : (r <= s)%nat -> expressible D r f -> expressible D s f.
Proof. intros H (p & Hp & E). exists p. split; [exact (of_degree_le D r s p H Hp) | exact E]. Qed.

Lemma monomial_zeros D x : monomial (repeat 0%nat D) x = 1.
Proof. revert x. induction D as [|D IH]; intros x; simpl; [reflexivity|]. rewrite IH. ring. Qed.
Lemma list_sum_zeros D : list_sum (repeat 0%nat D) = 0%nat.
Proof. induction D as [|D IH]; simpl; auto. Qed.

Lemma expressible_const D r a : expressible D r (fun _ => a).
Proof.
  exists [(a, repeat 0%nat D)]. split.
  - constructor; [|constructor]. simpl. rewrite repeat_length, list_sum_zeros. split; lia.
  - intros x. rewrite poly_cons, poly_nil. simpl. rewrite monomial_zeros. ring.
Qed.

Fixpoint unit_exponents (D i : nat) : list nat :=
  match D, i with
  | O, _ => []
  | S D', O => 1%nat :: repeat 0%nat D'
  | S D', S j => 0%nat :: unit_exponents D' j
  end.
Lemma unit_exponents_ok D : forall i, (i < D)%nat ->
  length (unit_exponents D i) = D /\ list_sum (unit_exponents D i) = 1%nat /\
  forall x, monomial (unit_exponents D i) x = x i.
Proof.
  induction D as [|D IH]; intros i Hi; [lia|]. destruct i as [|i].
  - cbn [unit_exponents length list_sum fold_right monomial]. rewrite repeat_length.
    split; [reflexivity|]. split.
    + change (1 + list_sum (repeat 0 D) = 1)%nat. rewrite list_sum_zeros. reflexivity.
    + intros x. rewrite monomial_zeros. simpl. ring.
  - destruct (IH i ltac:(lia)) as (L & S & M).
    cbn [unit_exponents length monomial]. rewrite L. split; [reflexivity|]. split.
    + exact S.
    + intros x. rewrite M. simpl. ring.
Qed.
Lemma expressible_coordinate D r i : (i < D)%nat -> (1 <= r)%nat -> expressible D r (fun x => x i).
Proof.
  intros Hi Hr. destruct (unit_exponents_ok D i Hi) as (L & S & M).
  exists [(1, unit_exponents D i)]. split.
  - constructor; [|constructor]. simpl. rewrite L, S. split; lia.
  - intros x. rewrite poly_cons, poly_nil. simpl. rewrite M. ring.
Qed.

Lemma expressible_plus D r f g : expressible D r f -> expressible D r g -> expressible D r (fun x => f x + g x).
Proof.
  intros (p & Hp & Ep) (q & Hq & Eq). exists (p ++ q). split.
  - apply Forall_app. split; assumption.
  - intros x. rewrite poly_app, Ep, Eq. reflexivity.
Qed.

Fixpoint add_exponents (es fs : list nat) : list nat :=
  match es, fs with
  | e :: es', f :: fs' => (e + f)%nat :: add_exponents es' fs'
  | _, _ => []
  end.
Lemma add_exponents_ok es : forall fs, length es = length fs ->
  length (add_exponents es fs) = length es /\
  list_sum (add_exponents es fs) = (list_sum es + list_sum fs)%nat /\
  forall x, monomial (add_exponents es fs) x = monomial es x * monomial fs x.
Proof.
  induction es as [|e es IH]; intros [|f fs] L; try discriminate L.
  - simpl. repeat split. intros x. ring.
  - injection L as L. destruct (IH fs L) as (L' & S & M).
    cbn [add_exponents length monomial]. rewrite L'. split; [reflexivity|]. split.
    + change (e + f + list_sum (add_exponents es fs) = e + list_sum es + (f + list_sum fs))%nat. lia.
    + intros x. rewrite M, pow_add. ring.
Qed.
Definition times (a : R * list nat) (b : R * list nat) : R * list nat :=
  (fst a * fst b, add_exponents (snd a) (snd b)).
Lemma poly_times D r a q x : length (snd a) = D -> of_degree D r q ->
  poly (map (times a) q) x = fst a * monomial (snd a) x * poly q x.
Proof.
  intros L. induction 1 as [|b q [L' S] H IH]; [unfold poly, total; simpl; ring|].
  cbn [map]. rewrite !poly_cons, IH. unfold times at 1 2. cbn [fst snd].
  destruct (add_exponents_ok (snd a) (snd b) ltac:(congruence)) as (_ & _ & ->). ring.
Qed.
Lemma expressible_mult D r s f g : expressible D r f -> expressible D s g ->
  expressible D (r + s) (fun x => f x * g x).
Proof.
  intros (p & Hp & Ep) (q & Hq & Eq). exists (flat_map (fun a => map (times a) q) p). split.
  - clear f Ep. induction Hp as [|a p [La Sa] Hp IH]; [constructor|].
    simpl. apply Forall_app. split; [|exact IH]. apply Forall_map.
    revert Hq. apply Forall_impl. intros b [Lb Sb]. unfold times. cbn [fst snd].
    destruct (add_exponents_ok (snd a) (snd b) ltac:(congruence)) as (L & S & _).
    rewrite L, S. split; lia.
  - intros x. rewrite Ep, Eq. clear f Ep g Eq.
    induction Hp as [|a p [La Sa] Hp IH]; [unfold poly, total; simpl; ring|].
    cbn [flat_map]. rewrite poly_app, poly_cons, <- IH, (poly_times D s a q x La Hq). ring.
Qed.
Lemma expressible_pow D f e : expressible D 1 f -> expressible D e (fun x => f x ^ e).
Proof.
  intros H. induction e as [|e IH]; simpl; [apply expressible_const|].
  apply (expressible_mult D 1 e f (fun x => f x ^ e)); assumption.
Qed.
Lemma expressible_monomial D es : forall (y : vec -> vec), (forall i, expressible D 1 (fun x => y x i)) ->
  expressible D (list_sum es) (fun x => monomial es (y x)).
Proof.
  induction es as [|e es IH]; intros y Hy; [exact (expressible_const D 0 1)|].
  cbn [monomial]. change (list_sum (e :: es)) with (e + list_sum es)%nat.
  apply (expressible_mult D e (list_sum es) (fun x => y x 0%nat ^ e) (fun x => monomial es (fun i => y x (S i)))).
  - apply (expressible_pow D (fun x => y x 0%nat)), Hy.
  - apply (IH (fun x i => y x (S i))). intros i. apply Hy.
Qed.
Lemma expressible_poly D E r p (y : vec -> vec) : of_degree E r p ->
  (forall i, expressible D 1 (fun x => y x i)) -> expressible D r (fun x => poly p (y x)).
Proof.
  intros Hp Hy. induction Hp as [|[a es] p [L S] Hp IH].
  - apply (expressible_const D r 0).
  - apply (expressible_plus D r (fun x => a * monomial es (y x)) (fun x => poly p (y x))); [|exact IH].
    apply (expressible_mult D 0 r (fun _ => a) (fun x => monomial es (y x))).
    + apply expressible_const.
    + eapply expressible_le; [exact S|]. apply expressible_monomial, Hy.
Qed.

Lemma expressible_rsum D r n (F : nat -> vec -> R) :
  (forall k, (k < n)%nat -> expressible D r (F k)) -> expressible D r (fun x => rsum n (fun k => F k x)).
Proof.
  induction n as [|n IH]; intros H; simpl; [apply expressible_const|].
  apply (expressible_plus D r (fun x => rsum n (fun k => F k x)) (F n)); [apply IH; auto | apply H; lia].
Qed.

Lemma expressible_combo D (W : list (vec -> R)) i : Forall (expressible D 1) W ->
  forall corners, expressible D 1 (fun x => combo (map (fun w => w x) W) corners i).
Proof.
  unfold combo. induction 1 as [|w W Hw HW IH]; intros corners; [exact (expressible_const D 1 0)|].
  destruct corners as [|c cs]; [exact (expressible_const D 1 0)|].
  cbn [map combine fold_right fst snd].
  apply (expressible_plus D 1 (fun x => w x * c i)
    (fun x => fold_right (fun wp s => fst wp * snd wp i + s) 0 (combine (map (fun w => w x) W) cs))); [|apply IH].
  apply (expressible_ext D 1 (fun x => c i * w x)); [intros x; ring|].
  apply (expressible_mult D 0 1 (fun _ => c i) w); [apply expressible_const | exact Hw].
Qed.

Lemma expressible_barycentric D corners i : expressible D 1 (fun x => barycentric D corners x i).
Proof.
  unfold barycentric.
  apply (expressible_ext D 1 (fun x => combo (map (fun w => w x)
    (map (fun k (x : vec) => x k) (seq 0 D) ++ [fun x => 1 - rsum D x])) corners i)).
  - intros x. f_equal. rewrite map_app, map_map. reflexivity.
  - apply expressible_combo. apply Forall_app. split.
    + apply Forall_map, Forall_forall. intros k Hk. apply in_seq in Hk.
      apply expressible_coordinate; lia.
    + constructor; [|constructor].
      apply (expressible_ext D 1 (fun x => 1 + -1 * rsum D (fun k => x k))); [intros x; change (fun k => x k) with x; ring|].
      apply (expressible_plus D 1 (fun _ => 1)); [apply expressible_const|].
      apply (expressible_mult D 0 1 (fun _ => -1)); [apply expressible_const|].
      apply (expressible_rsum D 1 D (fun k x => x k)). intros k Hk. apply expressible_coordinate; lia.
Qed.

(* A rule that is exact integrates exactly every polynomial over every cell. *)
Lemma cell_exact D r q corners p : accurate D r q 0 -> of_degree D r p ->
  cell_integral D corners (poly p)
    (simplex_volume corners * total (map (fun pw => snd pw * poly p (barycentric D corners (fst pw))) q)).
Proof.
  intros Hq Hp.
  destruct (expressible_poly D D r p (barycentric D corners) Hp (expressible_barycentric D corners))
    as (p' & Hp' & E).
  exists (total (map (fun t => fst t * dirichlet (snd t)) p')). split.
  - apply (is_integral_ext D 1 (poly p')); [intros x; symmetry; apply E|].
    exact (poly_integral D r p' Hp').
  - pose proof (poly_error D r q 0 p' _ Hq Hp' (poly_integral D r p' Hp')) as Z.
    rewrite Rmult_0_l in Z. pose proof (Rabs_pos (quadrature D q (poly p') - total (map (fun t => fst t * dirichlet (snd t)) p'))) as P.
    assert (Q : quadrature D q (poly p') - total (map (fun t => fst t * dirichlet (snd t)) p') = 0).
    { destruct (Req_dec (quadrature D q (poly p') - total (map (fun t => fst t * dirichlet (snd t)) p')) 0) as [e|e]; [exact e|].
      apply Rabs_no_R0 in e. lra. }
    replace (total (map (fun t => fst t * dirichlet (snd t)) p')) with (quadrature D q (poly p')) by lra.
    unfold quadrature.
    rewrite (total_map_ext (fun pw => snd pw * poly p (barycentric D corners (fst pw)))
      (fun pw => snd pw * poly p' (fst pw))) by (intros pw _; rewrite E; reflexivity).
    unfold area. field. apply fact_nz.
Qed.

(* ------------------------------------------------------------------------------------------- *)
(* The parametrization of a cell. *)

Lemma eval_sub_fold {x} (gs : list nat) (G : nat -> fn x scalar) : forall (f : fn x scalar) p k,
  eval (fold_left (fun f a => f_sub f (G a)) gs f) p k
  = eval f p k - total (map (fun a => eval (G a) p k) gs).
Proof.
  induction gs as [|g gs IH]; intros f p k; cbn; [unfold total; simpl; ring|].
  rewrite IH. unfold total. cbn. unfold num. fold (total (map (fun a => eval (G a) p k) gs)). ring.
Qed.
Lemma total_seq n : forall s (f : nat -> R), total (map f (seq s n)) = rsum n (fun k => f (s + k)%nat).
Proof.
  induction n as [|n IH]; intros s f; [reflexivity|].
  cbn [seq map]. rewrite rsum_first. unfold total in *. cbn [fold_right]. rewrite IH.
  rewrite Nat.add_0_r. f_equal. apply P_Volume.rsum_ext. intros k _. f_equal. lia.
Qed.
Lemma eval_one_minus N p k : eval (one_minus_xis N) p k = 1 - rsum N p.
Proof.
  destruct N as [|N]; [cbn; unfold num; ring|].
  unfold one_minus_xis. rewrite eval_sub_fold, total_seq, rsum_first. cbn. unfold num. ring.
Qed.
Lemma eval_xi N a p k : (a <= N)%nat -> eval (xi N a) p k = nth a (map p (seq 0 N) ++ [1 - rsum N p]) 0.
Proof.
  intros H. unfold xi. destruct (Nat.ltb_spec a N) as [L|L].
  - cbn. rewrite app_nth1 by (rewrite map_length, seq_length; exact L).
    rewrite (nth_indep _ 0 (p 0%nat)) by (rewrite map_length, seq_length; exact L).
    rewrite map_nth, seq_nth by exact L. reflexivity.
  - assert (a = N) as -> by lia. rewrite eval_one_minus.
    rewrite app_nth2 by (rewrite map_length, seq_length; lia).
    rewrite map_length, seq_length, Nat.sub_diag. reflexivity.
Qed.

Lemma eval_fold_add {x y} (fs : list (fn x y)) : forall f p k,
  eval (fold_add f fs) p k = total (map (fun g => eval g p k) (f :: fs)).
Proof.
  induction fs as [|g fs IH]; intros f p k.
  - unfold total. simpl. ring.
  - change (eval (fold_add f (g :: fs)) p k) with (eval f p k + eval (fold_add g fs) p k).
    rewrite IH. reflexivity.
Qed.

Lemma combo_total ws : forall ps i, length ws = length ps ->
  combo ws ps i = total (map (fun a => nth a ws 0 * nth a ps vzero i) (seq 0 (length ps))).
Proof.
  unfold combo. induction ws as [|w ws IH]; intros [|p ps] i L; try discriminate L; [reflexivity|].
  injection L as L. cbn [combine fold_right length seq map fst snd nth].
  unfold total in *. cbn [fold_right]. f_equal. rewrite IH by exact L.
  rewrite <- seq_shift, map_map. reflexivity.
Qed.

Lemma placed_length cs nodes xs : placed cs nodes xs -> length nodes = length xs.
Proof. induction 1; cbn; congruence. Qed.

(* The value of a parametrization: the barycentric combination of the vectors of the nodes. *)
Lemma eval_parametrization c cs nodes xs F : placed cs nodes xs ->
  parametrization c cs nodes = Ok F ->
  forall p i, eval F p i
    = barycentric (length nodes - 1) (map (fun x => csub c x origin) xs) p i.
Proof.
  intros HP HF p i. unfold parametrization in HF.
  rewrite (P_Volume.all_coordinates_ok _ _ _ HP) in HF. cbn [rbind] in HF.
  pose proof (placed_length _ _ _ HP) as L. destruct xs as [|x xs]; [discriminate HF|].
  destruct (divides_by_zero c origin); [discriminate HF|]. injection HF as <-. rewrite eval_fold_add. unfold barycentric.
  destruct nodes as [|n nodes]; [discriminate L|]. injection L as L. cbn [length].
  rewrite Nat.sub_succ, Nat.sub_0_r.
  set (N := length nodes) in *.
  rewrite combo_total.
  2: { rewrite app_length, map_length, seq_length. cbn. rewrite map_length. lia. }
  cbn [map length seq]. rewrite map_length. unfold total. cbn [fold_right]. f_equal.
  - cbn [eval mul f_mul_c]. rewrite eval_xi by lia. reflexivity.
  - rewrite <- L. f_equal. rewrite map_map.
    assert (G : forall (l : list vec) s, (s + length l <= S N)%nat ->
      map (fun ax => eval (f_mul_c (mul_sa (vector (dim c))) (xi N (fst ax)) (csub c (snd ax) origin)) p i)
        (combine (seq s (length l)) l)
      = map (fun a => nth a (map p (seq 0 N) ++ [1 - rsum N p]) 0 * nth (a - s) (map (fun x => csub c x origin) l) vzero i)
        (seq s (length l))).
    { induction l as [|y l IHl]; intros s Hs; [reflexivity|].
      cbn [length seq combine map fst snd]. cbn [length] in Hs. f_equal.
      - cbn [eval mul f_mul_c]. rewrite eval_xi by lia. rewrite Nat.sub_diag. reflexivity.
      - rewrite IHl by lia. apply map_ext_in. intros a Ha. apply in_seq in Ha.
        f_equal. replace (a - s)%nat with (S (a - S s)) by lia. reflexivity. }
    pose proof (G xs 1%nat ltac:(lia)) as G1. rewrite <- L in G1. rewrite G1. apply map_ext_in. intros a Ha. apply in_seq in Ha.
    f_equal. destruct a as [|a]; [lia|]. cbn [nth]. rewrite Nat.sub_succ, Nat.sub_0_r. reflexivity.
Qed.

Lemma parametrization_ok D cs nodes xs : placed cs nodes xs -> nodes <> [] ->
  exists F, parametrization (Cartesian D) cs nodes = Ok F.
Proof.
  intros HP Hn. unfold parametrization. rewrite (P_Volume.all_coordinates_ok _ _ _ HP). cbn [rbind].
  destruct HP; [congruence|]. eexists. reflexivity.
Qed.

(* ------------------------------------------------------------------------------------------- *)
(* The integrator. *)

(* The points of a cell, and their weights times the volume of the cell. *)
Definition contributes c w cs (q : rule) (cl : cell) (data : list (vec * R)) : Prop :=
  exists F, parametrization c cs (snd cl) = Ok F /\
    ((q = [] /\ data = []) \/
     exists v, cell_volume c w cs (snd cl) = Ok v /\
       data = map (fun pw => (eval F (fst pw), snd pw * v)) q).
Definition weighted (f : vec -> R) (data : list (vec * R)) : R :=
  total (map (fun xw => f (fst xw) * snd xw) data).

Definition points c cs (q : rule) (cl : cell) (e : nat * list vec) : Prop :=
  fst e = fst cl /\ exists F, parametrization c cs (snd cl) = Ok F /\
    snd e = map (fun pw => eval F (fst pw)) q.

Lemma find_app s m m' : find_simplex s (m ++ m') =
  match find_simplex s m with Some xs => Some xs | None => find_simplex s m' end.
Proof.
  induction m as [|[k xs] m IH]; [reflexivity|]. simpl. destruct (Nat.eqb k s); [reflexivity|apply IH].
Qed.
Lemma find_none s m : find_simplex s m = None <-> ~ In s (map fst m).
Proof.
  induction m as [|[k xs] m IH]; simpl; [tauto|]. destruct (Nat.eqb_spec k s) as [->|H].
  - split; [discriminate|]. tauto.
  - rewrite IH. tauto.
Qed.

Lemma compute_points_new debug c cs q cells : forall m m',
  NoDup (map fst m ++ map fst cells) ->
  (compute_points debug c cs q cells m = Ok m' <->
   exists es, m' = m ++ es /\ Forall2 (points c cs q) cells es).
Proof.
  induction cells as [|[s nodes] cells IH]; intros m m' ND; cbn [compute_points].
  - split.
    + intros H. injection H as <-. exists []. rewrite app_nil_r. split; [reflexivity|constructor].
    + intros (es & -> & H). inversion H. rewrite app_nil_r. reflexivity.
  - cbn [map fst] in ND.
    assert (Hs : find_simplex s m = None).
    { apply find_none. intros H. apply NoDup_remove_2 in ND. apply ND, in_or_app. left; exact H. }
    destruct (parametrization c cs nodes) as [F| |] eqn:EF; cbn [rbind].
    + unfold insert. rewrite Hs. cbn [rbind]. rewrite IH.
      2: { rewrite map_app. cbn. rewrite <- app_assoc. exact ND. }
      split.
      * intros (es & -> & H). exists ((s, map (fun pw => eval F (fst pw)) q) :: es).
        rewrite <- app_assoc. split; [reflexivity|]. constructor; [|exact H].
        split; [reflexivity|]. exists F. split; [exact EF|reflexivity].
      * intros (es & -> & H). inversion H as [|? e ? es' [He (F' & EF' & Ep)] HR]; subst.
        cbn [snd] in EF'. rewrite EF in EF'. injection EF' as <-.
        exists es'. rewrite <- app_assoc. split; [|exact HR]. destruct e as [k xs].
        cbn in He, Ep. subst. reflexivity.
    + split; [discriminate|]. intros (es & _ & H).
      inversion H as [|? e ? es' [He (F' & EF' & Ep)] HR]; subst. cbn [snd] in EF'. congruence.
    + split; [discriminate|]. intros (es & _ & H).
      inversion H as [|? e ? es' [He (F' & EF' & Ep)] HR]; subst. cbn [snd] in EF'. congruence.
Qed.

Lemma add_points_ok f (E : vec -> vec) v q : forall r,
  add_points f q (map (fun pw => E (fst pw)) q) (Ok v) r
  = Ok (r + weighted f (map (fun pw => (E (fst pw), snd pw * v)) q)).
Proof.
  unfold weighted. induction q as [|[p a] q IH]; intros r; cbn [map add_points fst snd].
  - unfold total. simpl. f_equal. ring.
  - cbn [rbind]. rewrite IH. unfold total. cbn [map fold_right fst snd]. f_equal. ring.
Qed.
Lemma add_points_fail f (E : vec -> vec) (vol : res R) q r : q <> [] ->
  (forall v, vol <> Ok v) -> forall I, add_points f q (map (fun pw => E (fst pw)) q) vol r <> Ok I.
Proof.
  intros Hq Hv I. destruct q as [|[p a] q]; [congruence|]. cbn. destruct vol as [v| |]; cbn.
  - exfalso. exact (Hv v eq_refl).
  - discriminate.
  - discriminate.
Qed.

Lemma add_cells_iff c w cs q f m cells : forall r I,
  (forall cl, In cl cells -> exists e, find_simplex (fst cl) m = Some (snd e) /\ points c cs q cl e) ->
  (add_cells c w cs q f m cells r = Ok I <->
   exists datas, Forall2 (contributes c w cs q) cells datas /\ I = r + weighted f (concat datas)).
Proof.
  induction cells as [|[s nodes] cells IH]; intros r I HM; cbn [add_cells].
  - split.
    + intros H. injection H as <-. exists []. split; [constructor|]. unfold weighted, total. simpl. ring.
    + intros (ds & H & ->). inversion H. unfold weighted, total. simpl. f_equal. ring.
  - destruct (HM (s, nodes) (or_introl eq_refl)) as (e & Hf & _ & F & EF & Ep). cbn [fst snd] in *.
    rewrite Hf. cbn [at_or_throw rbind]. rewrite Ep.
    assert (HM' : forall cl, In cl cells -> exists e, find_simplex (fst cl) m = Some (snd e) /\ points c cs q cl e).
    { intros cl H. apply HM. right; exact H. }
    assert (W : forall d ds, weighted f (concat (d :: ds)) = weighted f d + weighted f (concat ds)).
    { intros d ds. unfold weighted. simpl. rewrite map_app, total_app. reflexivity. }
    destruct q as [|pw0 q0] eqn:Eq.
    + cbn [map add_points rbind]. rewrite IH by exact HM'. split.
      * intros (ds & H & ->). exists ([] :: ds). split.
        { constructor; [|exact H]. exists F. split; [exact EF|]. left. split; reflexivity. }
        rewrite W. change (weighted f []) with 0. ring.
      * intros (ds & H & ->). inversion H as [|? d ? ds' Hd HR]; subst.
        exists ds'. split; [exact HR|]. rewrite W.
        destruct Hd as (F' & _ & [[_ ->]|(v & _ & ->)]); cbn [map]; change (weighted f []) with 0; ring.
    + rewrite <- Eq in *. assert (Hq : q <> []) by congruence. clear Eq.
      destruct (cell_volume c w cs nodes) as [v| |] eqn:EV.
      * rewrite add_points_ok. cbn [rbind]. rewrite IH by exact HM'. split.
        -- intros (ds & H & ->). exists (map (fun pw => (eval F (fst pw), snd pw * v)) q :: ds). split.
           { constructor; [|exact H]. exists F. split; [exact EF|]. right. exists v. split; [exact EV|reflexivity]. }
           rewrite W, <- Rplus_assoc. reflexivity.
        -- intros (ds & H & ->). inversion H as [|? d ? ds' Hd HR]; subst. exists ds'. split; [exact HR|].
           rewrite W. destruct Hd as (F' & EF' & [[? _]|(v' & EV' & ->)]); [congruence|].
           cbn [snd] in *. rewrite EF in EF'. injection EF' as <-. rewrite EV in EV'. injection EV' as <-.
           rewrite <- Rplus_assoc. reflexivity.
      * split.
        -- intros H. exfalso.
           destruct (add_points f q (map (fun pw => eval F (fst pw)) q) Abort r) as [v| |] eqn:EA; cbn in H; try discriminate H.
           exact (add_points_fail f (eval F) Abort q r Hq ltac:(discriminate) v EA).
        -- intros (ds & H & _). exfalso. inversion H as [|? d ? ds' Hd HR]; subst.
           destruct Hd as (F' & _ & [[? _]|(v' & EV' & _)]); [congruence|]. cbn [snd] in EV'. congruence.
      * split.
        -- intros H. exfalso.
           destruct (add_points f q (map (fun pw => eval F (fst pw)) q) Ub r) as [v| |] eqn:EA; cbn in H; try discriminate H.
           exact (add_points_fail f (eval F) Ub q r Hq ltac:(discriminate) v EA).
        -- intros (ds & H & _). exfalso. inversion H as [|? d ? ds' Hd HR]; subst.
           destruct Hd as (F' & _ & [[? _]|(v' & EV' & _)]); [congruence|]. cbn [snd] in EV'. congruence.
Qed.

Lemma points_found c cs q cells es : NoDup (map fst cells) -> Forall2 (points c cs q) cells es ->
  forall cl, In cl cells -> exists e, find_simplex (fst cl) es = Some (snd e) /\ points c cs q cl e.
Proof.
  intros ND H. induction H as [|cl [k xs] cells es HP H IH]; intros c0 Hc; [destruct Hc|].
  cbn [map] in ND. apply NoDup_cons_iff in ND. destruct ND as [Hn ND].
  destruct Hc as [->|Hc].
  - exists (k, xs). split; [|exact HP]. destruct HP as [Hk _]. cbn in *. subst. rewrite Nat.eqb_refl. reflexivity.
  - destruct (IH ND c0 Hc) as (e & Hf & He). exists e. split; [|exact He].
    cbn [find_simplex]. destruct HP as [Hk _]. cbn in Hk. subst.
    destruct (Nat.eqb_spec (fst cl) (fst c0)) as [E|E]; [|exact Hf].
    exfalso. apply Hn. rewrite E. apply in_map, Hc.
Qed.

(* What an integrator computes, for cells of different simplices. *)
Lemma integrate_iff debug c w cs q cells f I : NoDup (map fst cells) ->
  (integrate debug c w cs q cells f = Ok I <->
   exists datas, Forall2 (contributes c w cs q) cells datas /\ I = weighted f (concat datas)).
Proof.
  intros ND. unfold integrate.
  destruct (compute_points debug c cs q cells []) as [m| |] eqn:E; cbn [rbind].
  - apply compute_points_new in E; [|exact ND]. destruct E as (es & -> & H). cbn [app].
    rewrite (add_cells_iff c w cs q f es cells 0 I (points_found c cs q cells es ND H)).
    split; intros (ds & Hd & ->); exists ds; (split; [exact Hd|]); ring.
  - split; [discriminate|]. intros (ds & H & _). exfalso.
    assert (X : exists es, Forall2 (points c cs q) cells es).
    { clear -H. induction H as [|cl d cells ds (F & EF & _) H (es & IH)]; [exists []; constructor|].
      exists ((fst cl, map (fun pw => eval F (fst pw)) q) :: es). constructor; [|exact IH].
      split; [reflexivity|]. exists F. split; [exact EF|reflexivity]. }
    destruct X as (es & HX).
    assert (Y : compute_points debug c cs q cells [] = Ok es).
    { apply compute_points_new; [exact ND|]. exists es. split; [reflexivity|exact HX]. }
    congruence.
  - split; [discriminate|]. intros (ds & H & _). exfalso.
    assert (X : exists es, Forall2 (points c cs q) cells es).
    { clear -H. induction H as [|cl d cells ds (F & EF & _) H (es & IH)]; [exists []; constructor|].
      exists ((fst cl, map (fun pw => eval F (fst pw)) q) :: es). constructor; [|exact IH].
      split; [reflexivity|]. exists F. split; [exact EF|reflexivity]. }
    destruct X as (es & HX).
    assert (Y : compute_points debug c cs q cells [] = Ok es).
    { apply compute_points_new; [exact ND|]. exists es. split; [reflexivity|exact HX]. }
    congruence.
Qed.
