(* C41-C43: forms. A one-form is [one_form f] for a function [f] of a vector. [is_form F P phi]
   (S_Tensor.v) says that the value of [F] on P vectors is [phi], and that contracting any of its
   slots leaves the form in the others, in the same order, through any number of contractions. *)
From Coq Require Import Reals Lra Lia List.
From Verif Require Import M_Tensor S_Tensor P_Tensor.
Import ListNotations.
Open Scope R_scope.

(* ---- C41: wedge products of one-forms ---- *)

(* The wedge of one, two, three one-forms exists and is the determinant of their values. *)
Theorem C41_wedge_two f g :
  exists w, wedge [one_form f; one_form g] = Some w /\
    forall x y, app w [Some x; Some y] = Some (Sc (f x * g y - f y * g x)).
Proof.
  destruct (wedge2_det f g) as (w & E & H). exists w. split; [exact E|].
  intros x y. apply (is_form_app w 2 _ [x; y] H); [lia|reflexivity].
Qed.

Theorem C41_wedge_three f g h :
  exists w, wedge [one_form f; one_form g; one_form h] = Some w /\
    forall x y z, app w [Some x; Some y; Some z]
      = Some (Sc (f x * (g y * h z - g z * h y) - f y * (g x * h z - g z * h x)
                  + f z * (g x * h y - g y * h x))).
Proof.
  destruct (wedge3_det f g h) as (w & E & H). exists w. split; [exact E|].
  intros x y z. apply (is_form_app w 3 _ [x; y; z] H); [lia|reflexivity].
Qed.

(* They change sign under the exchange of two arguments (so they vanish on repeated ones) ... *)
Theorem C41_alternating forms w :
  (length forms = 2%nat \/ length forms = 3%nat) ->
  wedge (map one_form forms) = Some w ->
  exists phi, is_form w (length forms) phi /\ alternating (length forms) phi.
Proof.
  intros [L|L] E.
  - destruct forms as [|f [|g [|]]]; try discriminate.
    destruct (wedge2_det f g) as (w' & E' & H). cbn [map] in E. assert (w' = w) as -> by congruence.
    eexists. split; [exact H|]. intros pre x y post Lv. rewrite app_length in Lv. cbn in Lv.
    destruct pre as [|? ?]; destruct post as [|? ?]; cbn in Lv; try lia. cbn. unfold det_of2. ring.
  - destruct forms as [|f [|g [|h [|]]]]; try discriminate.
    destruct (wedge3_det f g h) as (w' & E' & H). cbn [map] in E. assert (w' = w) as -> by congruence.
    eexists. split; [exact H|]. intros pre x y post Lv. rewrite app_length in Lv. cbn in Lv.
    destruct pre as [|? [|? ?]]; destruct post as [|? [|? ?]]; cbn in Lv; try lia;
      cbn; unfold det_of3; ring.
Qed.

Theorem C41_repeated P phi pre x mid post :
  alternating P phi -> length (pre ++ x :: mid ++ x :: post) = P ->
  phi (pre ++ x :: mid ++ x :: post) = 0.
Proof.
  intros HA. revert pre; induction mid as [|m mid IH]; intros pre L.
  - cbn in *. pose proof (HA pre x x post L) as H. lra.
  - cbn [List.app] in *.
    pose proof (HA pre m x (mid ++ x :: post)) as H.
    rewrite H by (rewrite app_length in *; cbn in *; lia).
    specialize (IH (pre ++ [m])). rewrite <- app_assoc in IH. cbn in IH. rewrite IH; [ring|].
    rewrite app_length in *. cbn in *. lia.
Qed.

(* ... and under the exchange of two forms ... *)
Theorem C41_exchange_forms pre f g post w w' :
  (length (pre ++ f :: g :: post) = 2%nat \/ length (pre ++ f :: g :: post) = 3%nat) ->
  wedge (map one_form (pre ++ f :: g :: post)) = Some w ->
  wedge (map one_form (pre ++ g :: f :: post)) = Some w' ->
  exists phi, is_form w (length (pre ++ f :: g :: post)) phi /\
    is_form w' (length (pre ++ f :: g :: post)) (fun vs => - phi vs).
Proof.
  intros L E E'. rewrite app_length in L. cbn in L.
  destruct pre as [|a [|? ?]]; destruct post as [|b [|? ?]]; cbn in L; try lia; cbn in E, E'.
  - destruct (wedge2_det f g) as (v & F & H). destruct (wedge2_det g f) as (v' & F' & H').
    cbn in F, F'. assert (v = w) as -> by congruence. assert (v' = w') as -> by congruence.
    eexists. split; [exact H|]. eapply form_ext; [|exact H'].
    intros vs _. cbn. unfold det_of2. ring.
  - destruct (wedge3_det f g b) as (v & F & H). destruct (wedge3_det g f b) as (v' & F' & H').
    cbn in F, F'. assert (v = w) as -> by congruence. assert (v' = w') as -> by congruence.
    eexists. split; [exact H|]. eapply form_ext; [|exact H'].
    intros vs _. cbn. unfold det_of3. ring.
  - destruct (wedge3_det a f g) as (v & F & H). destruct (wedge3_det a g f) as (v' & F' & H').
    cbn in F, F'. assert (v = w) as -> by congruence. assert (v' = w') as -> by congruence.
    eexists. split; [exact H|]. eapply form_ext; [|exact H'].
    intros vs _. cbn. unfold det_of3. ring.
Qed.

(* ... and are linear in each argument when the forms are. *)
Theorem C41_multilinear forms w :
  (length forms = 2%nat \/ length forms = 3%nat) -> Forall linear1 forms ->
  wedge (map one_form forms) = Some w ->
  exists phi, is_form w (length forms) phi /\ multilinear (length forms) phi.
Proof.
  intros [L|L] HL E.
  - destruct forms as [|f [|g [|]]]; try discriminate.
    inversion HL as [|? ? [Hf1 Hf2] HL1]; subst. inversion HL1 as [|? ? [Hg1 Hg2] _]; subst.
    destruct (wedge2_det f g) as (w' & E' & H). cbn [map] in E. assert (w' = w) as -> by congruence.
    eexists. split; [exact H|]. intros pre x y a post Lv. rewrite app_length in Lv. cbn in Lv.
    destruct pre as [|? [|? ?]]; destruct post as [|? [|? ?]]; cbn in Lv; try lia; cbn;
      unfold det_of2; rewrite ?Hf1, ?Hg1, ?Hf2, ?Hg2; split; ring.
  - destruct forms as [|f [|g [|h [|]]]]; try discriminate.
    inversion HL as [|? ? [Hf1 Hf2] HL1]; subst. inversion HL1 as [|? ? [Hg1 Hg2] HL2]; subst.
    inversion HL2 as [|? ? [Hh1 Hh2] _]; subst.
    destruct (wedge3_det f g h) as (w' & E' & H). cbn [map] in E. assert (w' = w) as -> by congruence.
    eexists. split; [exact H|]. intros pre x y a post Lv. rewrite app_length in Lv. cbn in Lv.
    destruct pre as [|? [|? [|? ?]]]; destruct post as [|? [|? [|? ?]]]; cbn in Lv; try lia; cbn;
      unfold det_of3; rewrite ?Hf1, ?Hg1, ?Hf2, ?Hg2, ?Hh1, ?Hh2; split; ring.
Qed.

(* The one-forms of the library, contractions with a matrix and a vector, are linear. *)
Theorem C41_one_forms_linear D v m : linear1 (fun u => dot D (mvec D m v) u).
Proof.
  split.
  - intros u u'. unfold dot, vadd. induction D as [|D IH] in v, m |- *; cbn [rsum]; [ring|].
    assert (G : forall n (w : vec), rsum n (fun i => w i * (u i + u' i))
      = rsum n (fun i => w i * u i) + rsum n (fun i => w i * u' i)).
    { intros n w. induction n as [|n IHn]; cbn [rsum]; [ring|]. rewrite IHn. ring. }
    rewrite G. ring.
  - intros a u. unfold dot, vscale.
    assert (G : forall n (w : vec), rsum n (fun i => w i * (a * u i)) = a * rsum n (fun i => w i * u i)).
    { intros n w. induction n as [|n IHn]; cbn [rsum]; [ring|]. rewrite IHn. ring. }
    apply G.
Qed.

(* ---- C42: wedge of a one-form and a two-form ---- *)

Lemma add_scaled f g :
  exists w, add (Fm 3 f) (scale 1 (Fm 3 g)) = Some w /\
    forall x y z r s, f [Some x; Some y; Some z] = Some (Sc r) ->
      g [Some x; Some y; Some z] = Some (Sc s) ->
      app w [Some x; Some y; Some z] = Some (Sc (r + s)).
Proof.
  cbn [scale add Nat.eqb]. eexists. split; [reflexivity|]. intros x y z r s Hf Hg.
  rewrite app_act by (cbn; lia). rewrite Hf, Hg. cbn. do 2 f_equal. ring.
Qed.

(* What the library computes ... *)
Theorem C42_value_partial b a alpha beta :
  is_form b 1 beta -> is_form a 2 alpha ->
  exists w, wedge12 b a = Some w /\
    forall x y z, app w [Some x; Some y; Some z]
      = Some (Sc (beta [x] * alpha [y; z] + beta [z] * alpha [x; y])).
Proof.
  intros Hb Ha.
  pose proof (is_form_app b 1 beta) as Eb. pose proof (is_form_app a 2 alpha) as Ea.
  specialize (Eb) with (1 := Hb). specialize (Ea) with (1 := Ha).
  destruct b as [|P f]; [destruct (Hb 0%nat) as [[? _] _]; discriminate|].
  destruct (behaves_form_inv _ _ _ _ _ (Hb 0%nat)) as [-> _].
  destruct a as [|Q g]; [destruct (Ha 0%nat) as [[? _] _]; discriminate|].
  destruct (behaves_form_inv _ _ _ _ _ (Ha 0%nat)) as [-> _].
  unfold wedge12. cbn [is_one is_two andb].
  match goal with |- exists w, add (Fm 3 ?f') (scale 1 (Fm 3 ?g')) = _ /\ _ =>
    destruct (add_scaled f' g') as (w & E & H) end.
  exists w. split; [exact E|]. intros x y z.
  pose proof (form_scale _ _ _ (beta [x]) Ha) as Sa.
  pose proof (form_scale _ _ _ (alpha [x; y]) Hb) as Sb.
  pose proof (is_form_app _ 2 _ [y; z] Sa ltac:(lia) eq_refl) as E1.
  pose proof (is_form_app _ 1 _ [z] Sb ltac:(lia) eq_refl) as E2.
  pose proof (Eb [x] ltac:(lia) eq_refl) as E3. pose proof (Ea [x; y] ltac:(lia) eq_refl) as E4.
  cbn [map] in E1, E2, E3, E4. rewrite (Rmult_comm (beta [z])). apply H.
  - unfold arg in *. rewrite E3. exact E1.
  - unfold arg in *. rewrite E4. exact E2.
Qed.

(* ... is not the wedge product: the term with the middle argument is missing, so the result is
   neither alternating nor the wedge of three one-forms when the two-form is a wedge. *)
Theorem C42_wedge_one_two_refuted :
  exists b c d x y z cd w w3,
    linear1 b /\ linear1 c /\ linear1 d /\
    wedge2 (one_form c) (one_form d) = Some cd /\
    wedge12 (one_form b) cd = Some w /\
    wedge [one_form b; one_form c; one_form d] = Some w3 /\
    app w [Some x; Some y; Some z] <> app w3 [Some x; Some y; Some z] /\
    app w [Some y; Some x; Some z] = Some (Sc 1) /\
    app w [Some x; Some y; Some z] <> Some (Sc (-1)).
Proof.
  set (b := fun v : vec => v 0%nat). set (c := fun v : vec => v 1%nat).
  set (d := fun v : vec => v 2%nat).
  destruct (form_wedge2 _ _ _ _ (form_one c) (form_one d)) as (cd & Ecd & Hcd).
  destruct (C42_value_partial _ _ _ _ (form_one b) Hcd) as (w & Ew & Hw).
  destruct (C41_wedge_three b c d) as (w3 & Ew3 & Hw3).
  exists b, c, d, (unitv 1), (unitv 0), (unitv 2), cd, w, w3.
  assert (lin : forall i, linear1 (fun v : vec => v i)) by (intros i; split; reflexivity).
  split; [apply lin|]. split; [apply lin|]. split; [apply lin|].
  split; [exact Ecd|]. split; [exact Ew|]. split; [exact Ew3|].
  rewrite !Hw, Hw3. unfold prod, b, c, d, unitv. cbn.
  split; [intros H; injection H; lra|]. split; [do 2 f_equal; ring|]. intros H. injection H. lra.
Qed.

(* ---- C43: the algebra of forms ---- *)

Theorem C43_sum F G P phi psi :
  is_form F P phi -> is_form G P psi ->
  exists H, add F G = Some H /\ is_form H P (fun vs => phi vs + psi vs).
Proof. apply form_add. Qed.

Theorem C43_difference F G P phi psi :
  is_form F P phi -> is_form G P psi ->
  exists H, sub F G = Some H /\ is_form H P (fun vs => phi vs - psi vs).
Proof. apply form_sub. Qed.

Theorem C43_scalar F P phi a :
  is_form F P phi ->
  exists H K, mul (Sc a) F = Some H /\ mul F (Sc a) = Some K /\
    is_form H P (fun vs => a * phi vs) /\ is_form K P (fun vs => a * phi vs) /\
    is_form (opp F) P (fun vs => - phi vs).
Proof.
  intros HF.
  assert (HO : is_form (opp F) P (fun vs => - phi vs)).
  { unfold opp. eapply form_ext; [|apply form_scale, HF]. intros vs _. cbn. ring. }
  destruct F as [r|Q f].
  - exists (Sc (a * r)), (Sc (r * a)). split; [reflexivity|]. split; [reflexivity|].
    split; [exact (form_scale _ _ _ a HF)|]. split; [|exact HO].
    intros n. destruct (behaves_scalar_inv _ _ _ _ (HF n)) as [-> ->].
    apply behaves_scalar. ring.
  - exists (scale a (Fm Q f)), (scale a (Fm Q f)). split; [reflexivity|]. split; [reflexivity|].
    split; [apply form_scale, HF|]. split; [apply form_scale, HF|exact HO].
Qed.

Theorem C43_tensor_two f g :
  exists t, tensor2 (one_form f) (one_form g) = Some t /\
    mul (one_form f) (one_form g) = Some t /\
    is_form t 2 (fun vs => f (nth 0 vs vzero) * g (nth 1 vs vzero)).
Proof.
  destruct (form_tensor2 _ _ _ _ (form_one f) (form_one g)) as (t & E & H).
  exists t. split; [exact E|]. split; [exact E|]. eapply form_ext; [|exact H].
  intros vs L. lists. reflexivity.
Qed.

Theorem C43_tensor_three f g h :
  exists t, tensor3 (one_form f) (one_form g) (one_form h) = Some t /\
    is_form t 3 (fun vs => f (nth 0 vs vzero) * g (nth 1 vs vzero) * h (nth 2 vs vzero)).
Proof.
  destruct (form_tensor3 _ _ _ _ _ _ (form_one f) (form_one g) (form_one h)) as (t & E & H).
  exists t. split; [exact E|]. eapply form_ext; [|exact H]. intros vs L. lists. reflexivity.
Qed.

(* Contracting some of the slots, then the rest, is contracting all of them at once. *)
Theorem C43_contraction F P phi args vs :
  is_form F P phi -> length args = P -> (0 < dummies args < P)%nat -> length vs = dummies args ->
  exists G, app F args = Some G /\ is_form G (dummies args) (fun ws => phi (fill args ws)) /\
    app G (map Some vs) = app F (map Some (fill args vs)).
Proof. apply is_form_contract. Qed.

(* For the volume element: w(n, _, _)(u, v) = w(n, u, v), w(_, n, _)(u, v) = w(u, n, v), ... *)
Theorem C43_contraction_wedge f g h x u v :
  exists w G1 G2 G3, wedge [one_form f; one_form g; one_form h] = Some w /\
    app w [Some x; None; None] = Some G1 /\
    app w [None; Some x; None] = Some G2 /\
    app w [None; None; Some x] = Some G3 /\
    app G1 [Some u; Some v] = app w [Some x; Some u; Some v] /\
    app G2 [Some u; Some v] = app w [Some u; Some x; Some v] /\
    app G3 [Some u; Some v] = app w [Some u; Some v; Some x].
Proof.
  destruct (wedge3_det f g h) as (w & E & H).
  destruct (is_form_contract w 3 _ [Some x; None; None] [u; v] H) as (G1 & A1 & _ & B1);
    [reflexivity|cbn; lia|reflexivity|].
  destruct (is_form_contract w 3 _ [None; Some x; None] [u; v] H) as (G2 & A2 & _ & B2);
    [reflexivity|cbn; lia|reflexivity|].
  destruct (is_form_contract w 3 _ [None; None; Some x] [u; v] H) as (G3 & A3 & _ & B3);
    [reflexivity|cbn; lia|reflexivity|].
  exists w, G1, G2, G3. repeat split; assumption.
Qed.

(* ---- cases ---- *)

(* three concrete one-forms of the plane and of space, and the values of their wedges *)
Definition form_a : vec -> R := fun v => v 0%nat + 2 * v 1%nat.
Definition form_b : vec -> R := fun v => v 1%nat - v 2%nat.
Definition form_c : vec -> R := fun v => 3 * v 2%nat.

Example linear_abc : Forall linear1 [form_a; form_b; form_c].
Proof.
  repeat constructor; intros; unfold form_a, form_b, form_c, vadd, vscale; ring.
Qed.

Example wedge_abc :
  exists w, wedge (map one_form [form_a; form_b; form_c]) = Some w /\
    app w [Some (unitv 0); Some (unitv 1); Some (unitv 2)] = Some (Sc 3) /\
    app w [Some (unitv 1); Some (unitv 0); Some (unitv 2)] = Some (Sc (-3)).
Proof.
  destruct (C41_wedge_three form_a form_b form_c) as (w & E & H).
  exists w. split; [exact E|]. rewrite !H. unfold form_a, form_b, form_c, unitv. cbn.
  split; do 2 f_equal; ring.
Qed.

Example alternating_abc :
  exists w phi, wedge (map one_form [form_a; form_b; form_c]) = Some w /\ is_form w 3 phi /\
    alternating 3 phi /\ multilinear 3 phi.
Proof.
  destruct (wedge3_det form_a form_b form_c) as (w & E & H).
  destruct (C41_multilinear [form_a; form_b; form_c] w (or_intror eq_refl) linear_abc E)
    as (phi & Hphi & Hm).
  destruct (C41_alternating [form_a; form_b; form_c] w (or_intror eq_refl) E) as (psi & Hpsi & Ha).
  exists w, phi. split; [exact E|]. split; [exact Hphi|]. split; [|exact Hm].
  intros pre x y post L. pose proof (Ha pre x y post L) as HA.
  rewrite (is_form_unique w 3 phi psi (pre ++ x :: y :: post) Hphi Hpsi L).
  rewrite (is_form_unique w 3 phi psi (pre ++ y :: x :: post) Hphi Hpsi); [exact HA|].
  rewrite <- L. rewrite !app_length. reflexivity.
Qed.

(* w(n, _, _) for the n = e_0: a two-form in the two other directions *)
Example contracted_abc :
  exists w G, wedge (map one_form [form_a; form_b; form_c]) = Some w /\
    app w [Some (unitv 0); None; None] = Some G /\
    app G [Some (unitv 1); Some (unitv 2)] = Some (Sc 3).
Proof.
  destruct (C43_contraction_wedge form_a form_b form_c (unitv 0) (unitv 1) (unitv 2))
    as (w & G & _ & _ & E & E1 & _ & _ & V & _).
  destruct (C41_wedge_three form_a form_b form_c) as (w' & E' & H).
  assert (w' = w) as -> by congruence.
  exists w, G. split; [exact E|]. split; [exact E1|]. rewrite V, H.
  unfold form_a, form_b, form_c, unitv. cbn. do 2 f_equal. ring.
Qed.

Print Assumptions C41_wedge_two.
Print Assumptions C41_wedge_three.
Print Assumptions C41_alternating.
Print Assumptions C41_repeated.
Print Assumptions C41_exchange_forms.
Print Assumptions C41_multilinear.
Print Assumptions C41_one_forms_linear.
Print Assumptions C42_value_partial.
Print Assumptions C42_wedge_one_two_refuted.
Print Assumptions C43_sum.
Print Assumptions C43_difference.
Print Assumptions C43_scalar.
Print Assumptions C43_tensor_two.
Print Assumptions C43_tensor_three.
Print Assumptions C43_contraction.
Print Assumptions C43_contraction_wedge.
