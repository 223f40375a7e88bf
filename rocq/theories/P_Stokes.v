(* The divergence theorem on a simplex, and the integrals over facets. *)
From Coq Require Import Reals List Bool Arith Lia Lra FunctionalExtensionality Permutation.
From Verif Require Import Base M_Tensor M_Geometry S_Geometry P_Volume.
From Verif Require Import M_Functions S_Functions M_Quadrature S_Quadrature P_Quadrature P_Integrator.
From Verif Require Import Properties_Quadrature P_Poly P_Gauss S_Stokes.
Import ListNotations.
Open Scope R_scope.
Local Notation total := S_Geometry.total.

Definition Phi (P : nat -> polynomial) (fs : list vec) : R :=
  det_vecs ((fun k => Fl (P k) fs) :: sides fs).

Lemma flux_Phi D r F (P : nat -> polynomial) fs : (2 <= D <= 3)%nat -> length fs = D ->
  (forall i, (i < D)%nat -> of_degree D r (P i) /\ forall x, F x i = poly (P i) x) ->
  flux D fs F (Phi P fs).
Proof.
  intros HD L HP. unfold flux, Phi.
  assert (HI : forall i, (i < D)%nat -> is_integral (D - 1) 1 (fun s => poly (P i) (barycentric (D - 1) fs s)) (Fl (P i) fs)).
  { intros i Hi. apply (Fl_integral D (D - 1) r); [apply HP, Hi|lia]. }
  destruct D as [|[|[|[|D]]]]; try lia.
  - destruct fs as [|a [|b [|]]]; try discriminate L. cbn [sides map]. cbn [det_vecs].
    set (t := vsub b a).
    pose proof (HI 0%nat ltac:(lia)) as H0. pose proof (HI 1%nat ltac:(lia)) as H1.
    unfold reference_integral.
    replace (Fl (P 0%nat) [a; b] * t 1%nat - Fl (P 1%nat) [a; b] * t 0%nat)
      with (t 1%nat * Fl (P 0%nat) [a; b] + - t 0%nat * Fl (P 1%nat) [a; b]) by ring.
    eapply is_integral_ext;
      [|apply is_integral_plus; [exact (is_integral_scal _ _ _ _ (t 1%nat) H0) | exact (is_integral_scal _ _ _ _ (- t 0%nat) H1)]].
    intros s. cbv beta. rewrite !(fun i Hi => proj2 (HP i Hi)) by lia. ring.
  - destruct fs as [|a [|b [|c [|]]]]; try discriminate L. cbn [sides map]. cbn [det_vecs].
    set (t := vsub b a). set (w := vsub c a). set (fs := [a; b; c]) in *.
    pose proof (HI 0%nat ltac:(lia)) as H0. pose proof (HI 1%nat ltac:(lia)) as H1. pose proof (HI 2%nat ltac:(lia)) as H2.
    unfold reference_integral.
    set (k0 := t 1%nat * w 2%nat - t 2%nat * w 1%nat).
    set (k1 := t 0%nat * w 2%nat - t 2%nat * w 0%nat).
    set (k2 := t 0%nat * w 1%nat - t 1%nat * w 0%nat).
    replace (Fl (P 0%nat) fs * k0 - Fl (P 1%nat) fs * k1 + Fl (P 2%nat) fs * k2)
      with ((k0 * Fl (P 0%nat) fs + - k1 * Fl (P 1%nat) fs) + k2 * Fl (P 2%nat) fs) by ring.
    eapply is_integral_ext;
      [|apply is_integral_plus; [apply is_integral_plus;
          [exact (is_integral_scal _ _ _ _ k0 H0) | exact (is_integral_scal _ _ _ _ (- k1) H1)]
         |exact (is_integral_scal _ _ _ _ k2 H2)]].
    intros s. cbv beta. rewrite !(fun i Hi => proj2 (HP i Hi)) by lia. ring.
Qed.

Lemma Phi_swaps D r (P : nat -> polynomial) odd xs ys : (2 <= D <= 3)%nat ->
  (forall i, (i < D)%nat -> of_degree D r (P i)) -> length xs = D -> swaps odd xs ys ->
  Phi P ys = sign_of odd * Phi P xs.
Proof.
  intros HD HP L H. revert L. induction H as [l|odd l pre x y post H IH]; intros L.
  - unfold sign_of. ring.
  - assert (Lp : length (pre ++ x :: y :: post) = D).
    { rewrite <- (Permutation_length (swaps_permutation _ _ _ H)). exact L. }
    replace (sign_of (negb odd)) with (- sign_of odd) by (destruct odd; unfold sign_of; simpl; ring).
    rewrite Ropp_mult_distr_l_reverse, <- (IH L). clear IH H L.
    unfold Phi. set (p := fun k => Fl (P k) (pre ++ y :: x :: post)). set (q := fun k => Fl (P k) (pre ++ x :: y :: post)).
    assert (E : forall k, (k < D)%nat -> p k = q k).
    { intros k Hk. apply (Fl_swap D r), HP, Hk. }
    clearbody p q. rewrite app_length in Lp. cbn [length] in Lp.
    destruct D as [|[|[|[|D]]]]; try lia.
    + destruct pre as [|]; cbn [length] in Lp; [|lia]. destruct post as [|]; cbn [length] in Lp; [|lia].
      cbn [List.app sides map det_vecs]. unfold vsub. rewrite !E by lia. ring.
    + destruct pre as [|a [|]]; cbn [length] in Lp; try lia.
      * destruct post as [|b [|]]; cbn [length] in Lp; try lia.
        cbn [List.app sides map det_vecs]. unfold vsub. rewrite !E by lia. ring.
      * destruct post as [|]; cbn [length] in Lp; try lia.
        cbn [List.app sides map det_vecs]. unfold vsub. rewrite !E by lia. ring.
Qed.

Lemma swaps_3 {A} (a b c : A) : swaps false [a; b; c] [b; c; a].
Proof.
  apply (swaps_one true _ [b] a c []). apply (swaps_one false _ [] a b [c]). constructor.
Qed.

(* The divergence theorem on a triangle and on a tetrahedron, with the facets mito lists. *)
Lemma gauss_triangle r (P : nat -> polynomial) a b c : (forall i, (i < 2)%nat -> of_degree 2 r (P i)) ->
  det_vecs [vsub b a; vsub c a] * rsum 2 (fun k => Fl (dpoly k (P k)) [a; b; c])
  = Phi P [a; b] + Phi P [b; c] + Phi P [c; a].
Proof.
  intros HP.
  destruct (gauss_faces 2 r (P 0%nat) [a; b; c] ltac:(apply HP; lia) ltac:(cbn; lia)) as (X & HX).
  destruct (gauss_faces 2 r (P 1%nat) [a; b; c] ltac:(apply HP; lia) ltac:(cbn; lia)) as (Y & HY).
  pose proof (HX 0%nat ltac:(cbn; lia)) as X0. pose proof (HX 1%nat ltac:(cbn; lia)) as X1. pose proof (HX 2%nat ltac:(cbn; lia)) as X2.
  pose proof (HY 0%nat ltac:(cbn; lia)) as Y0. pose proof (HY 1%nat ltac:(cbn; lia)) as Y1. pose proof (HY 2%nat ltac:(cbn; lia)) as Y2.
  clear HX HY. cbn [without nth rsum] in X0, X1, X2, Y0, Y1, Y2.
  unfold Phi. cbn [sides map det_vecs rsum]. unfold vsub.
  assert (Eac : forall i, (i < 2)%nat -> Fl (P i) [c; a] = Fl (P i) [a; c]).
  { intros i Hi. apply (Fl_swap 2 r (P i) [] a c []), HP, Hi. }
  rewrite !Eac by lia. clear Eac.
  set (e00 := Fl (dpoly 0 (P 0%nat)) [a; b; c]) in *. set (e10 := Fl (dpoly 1 (P 0%nat)) [a; b; c]) in *.
  set (e01 := Fl (dpoly 0 (P 1%nat)) [a; b; c]) in *. set (e11 := Fl (dpoly 1 (P 1%nat)) [a; b; c]) in *.
  replace (Fl (P 0%nat) [b; c]) with (X - (0 + a 0%nat * e00 + a 1%nat * e10)) by lra.
  replace (Fl (P 0%nat) [a; c]) with (X - (0 + b 0%nat * e00 + b 1%nat * e10)) by lra.
  replace (Fl (P 0%nat) [a; b]) with (X - (0 + c 0%nat * e00 + c 1%nat * e10)) by lra.
  replace (Fl (P 1%nat) [b; c]) with (Y - (0 + a 0%nat * e01 + a 1%nat * e11)) by lra.
  replace (Fl (P 1%nat) [a; c]) with (Y - (0 + b 0%nat * e01 + b 1%nat * e11)) by lra.
  replace (Fl (P 1%nat) [a; b]) with (Y - (0 + c 0%nat * e01 + c 1%nat * e11)) by lra.
  ring.
Qed.

Lemma gauss_tetrahedron r (P : nat -> polynomial) a b c d : (forall i, (i < 3)%nat -> of_degree 3 r (P i)) ->
  det_vecs [vsub b a; vsub c a; vsub d a] * rsum 3 (fun k => Fl (dpoly k (P k)) [a; b; c; d])
  = - (Phi P [a; b; c] + Phi P [b; d; c] + Phi P [d; b; a] + Phi P [d; a; c]).
Proof.
  intros HP.
  destruct (gauss_faces 3 r (P 0%nat) [a; b; c; d] ltac:(apply HP; lia) ltac:(cbn; lia)) as (X & HX).
  destruct (gauss_faces 3 r (P 1%nat) [a; b; c; d] ltac:(apply HP; lia) ltac:(cbn; lia)) as (Y & HY).
  destruct (gauss_faces 3 r (P 2%nat) [a; b; c; d] ltac:(apply HP; lia) ltac:(cbn; lia)) as (Z & HZ).
  pose proof (HX 0%nat ltac:(cbn; lia)) as X0. pose proof (HX 1%nat ltac:(cbn; lia)) as X1.
  pose proof (HX 2%nat ltac:(cbn; lia)) as X2. pose proof (HX 3%nat ltac:(cbn; lia)) as X3.
  pose proof (HY 0%nat ltac:(cbn; lia)) as Y0. pose proof (HY 1%nat ltac:(cbn; lia)) as Y1.
  pose proof (HY 2%nat ltac:(cbn; lia)) as Y2. pose proof (HY 3%nat ltac:(cbn; lia)) as Y3.
  pose proof (HZ 0%nat ltac:(cbn; lia)) as Z0. pose proof (HZ 1%nat ltac:(cbn; lia)) as Z1.
  pose proof (HZ 2%nat ltac:(cbn; lia)) as Z2. pose proof (HZ 3%nat ltac:(cbn; lia)) as Z3.
  clear HX HY HZ. cbn [without nth rsum] in X0, X1, X2, X3, Y0, Y1, Y2, Y3, Z0, Z1, Z2, Z3.
  unfold Phi. cbn [sides map det_vecs rsum]. unfold vsub.
  assert (E1 : forall i, (i < 3)%nat -> Fl (P i) [b; d; c] = Fl (P i) [b; c; d]).
  { intros i Hi. apply (Fl_swap 3 r (P i) [b] c d []), HP, Hi. }
  assert (E2 : forall i, (i < 3)%nat -> Fl (P i) [d; b; a] = Fl (P i) [a; b; d]).
  { intros i Hi. transitivity (Fl (P i) [b; d; a]); [apply (Fl_swap 3 r (P i) [] b d [a] (HP i Hi))|].
    transitivity (Fl (P i) [b; a; d]); [apply (Fl_swap 3 r (P i) [b] a d [] (HP i Hi))|].
    apply (Fl_swap 3 r (P i) [] a b [d] (HP i Hi)). }
  assert (E3 : forall i, (i < 3)%nat -> Fl (P i) [d; a; c] = Fl (P i) [a; c; d]).
  { intros i Hi. transitivity (Fl (P i) [a; d; c]); [apply (Fl_swap 3 r (P i) [] a d [c] (HP i Hi))|].
    apply (Fl_swap 3 r (P i) [a] c d [] (HP i Hi)). }
  rewrite !E1, !E2, !E3 by lia. clear E1 E2 E3.
  set (e00 := Fl (dpoly 0 (P 0%nat)) [a; b; c; d]) in *. set (e10 := Fl (dpoly 1 (P 0%nat)) [a; b; c; d]) in *. set (e20 := Fl (dpoly 2 (P 0%nat)) [a; b; c; d]) in *.
  set (e01 := Fl (dpoly 0 (P 1%nat)) [a; b; c; d]) in *. set (e11 := Fl (dpoly 1 (P 1%nat)) [a; b; c; d]) in *. set (e21 := Fl (dpoly 2 (P 1%nat)) [a; b; c; d]) in *.
  set (e02 := Fl (dpoly 0 (P 2%nat)) [a; b; c; d]) in *. set (e12 := Fl (dpoly 1 (P 2%nat)) [a; b; c; d]) in *. set (e22 := Fl (dpoly 2 (P 2%nat)) [a; b; c; d]) in *.
  replace (Fl (P 0%nat) [b; c; d]) with (X - (0 + a 0%nat * e00 + a 1%nat * e10 + a 2%nat * e20)) by lra.
  replace (Fl (P 0%nat) [a; c; d]) with (X - (0 + b 0%nat * e00 + b 1%nat * e10 + b 2%nat * e20)) by lra.
  replace (Fl (P 0%nat) [a; b; d]) with (X - (0 + c 0%nat * e00 + c 1%nat * e10 + c 2%nat * e20)) by lra.
  replace (Fl (P 0%nat) [a; b; c]) with (X - (0 + d 0%nat * e00 + d 1%nat * e10 + d 2%nat * e20)) by lra.
  replace (Fl (P 1%nat) [b; c; d]) with (Y - (0 + a 0%nat * e01 + a 1%nat * e11 + a 2%nat * e21)) by lra.
  replace (Fl (P 1%nat) [a; c; d]) with (Y - (0 + b 0%nat * e01 + b 1%nat * e11 + b 2%nat * e21)) by lra.
  replace (Fl (P 1%nat) [a; b; d]) with (Y - (0 + c 0%nat * e01 + c 1%nat * e11 + c 2%nat * e21)) by lra.
  replace (Fl (P 1%nat) [a; b; c]) with (Y - (0 + d 0%nat * e01 + d 1%nat * e11 + d 2%nat * e21)) by lra.
  replace (Fl (P 2%nat) [b; c; d]) with (Z - (0 + a 0%nat * e02 + a 1%nat * e12 + a 2%nat * e22)) by lra.
  replace (Fl (P 2%nat) [a; c; d]) with (Z - (0 + b 0%nat * e02 + b 1%nat * e12 + b 2%nat * e22)) by lra.
  replace (Fl (P 2%nat) [a; b; d]) with (Z - (0 + c 0%nat * e02 + c 1%nat * e12 + c 2%nat * e22)) by lra.
  replace (Fl (P 2%nat) [a; b; c]) with (Z - (0 + d 0%nat * e02 + d 1%nat * e12 + d 2%nat * e22)) by lra.
  ring.
Qed.

(* ------------------------------------------------------------------------------------------- *)
(* The integrands on the facets. *)

Lemma rsum2 f : rsum 2 f = f 0%nat + f 1%nat.
Proof. cbn [rsum]. ring. Qed.
Lemma rsum3 f : rsum 3 f = f 0%nat + f 1%nat + f 2%nat.
Proof. cbn [rsum]. ring. Qed.

Lemma normal_integrand D xs (nu a b v : vec) : (2 <= D <= 3)%nat -> length xs = D ->
  dot D nu nu = 1 -> (forall t, In t (sides xs) -> dot D nu t = 0) -> dot D a nu = 1 -> same D b nu ->
  det_vecs (a :: sides xs) * dot D v b = det_vecs (v :: sides xs).
Proof.
  intros HD L Hn Ht Ha Hb. destruct D as [|[|[|[|D]]]]; try lia.
  - destruct xs as [|x [|y [|]]]; try discriminate L. cbn [sides map] in *. set (t := vsub y x) in *. clearbody t.
    pose proof (Ht t ltac:(left; reflexivity)) as H. clear Ht. pose proof (Hb 0%nat ltac:(lia)) as B0. pose proof (Hb 1%nat ltac:(lia)) as B1.
    unfold dot in *. rewrite !rsum2 in *. cbn [det_vecs]. rewrite B0, B1. clear Hb B0 B1.
    set (l := t 1%nat * nu 0%nat - t 0%nat * nu 1%nat).
    assert (E0 : t 0%nat = - l * nu 1%nat).
    { unfold l. replace (t 0%nat) with (t 0%nat * (nu 0%nat * nu 0%nat + nu 1%nat * nu 1%nat)) at 1 by (rewrite Hn; ring).
      replace (t 0%nat * (nu 0%nat * nu 0%nat + nu 1%nat * nu 1%nat))
        with (- (t 1%nat * nu 0%nat - t 0%nat * nu 1%nat) * nu 1%nat + nu 0%nat * (nu 0%nat * t 0%nat + nu 1%nat * t 1%nat)) by ring.
      rewrite H. ring. }
    assert (E1 : t 1%nat = l * nu 0%nat).
    { unfold l. replace (t 1%nat) with (t 1%nat * (nu 0%nat * nu 0%nat + nu 1%nat * nu 1%nat)) at 1 by (rewrite Hn; ring).
      replace (t 1%nat * (nu 0%nat * nu 0%nat + nu 1%nat * nu 1%nat))
        with ((t 1%nat * nu 0%nat - t 0%nat * nu 1%nat) * nu 0%nat + nu 1%nat * (nu 0%nat * t 0%nat + nu 1%nat * t 1%nat)) by ring.
      rewrite H. ring. }
    clearbody l. rewrite E0, E1.
    replace (a 0%nat * (l * nu 0%nat) - a 1%nat * (- l * nu 1%nat)) with (l * (a 0%nat * nu 0%nat + a 1%nat * nu 1%nat)) by ring.
    rewrite Ha. ring.
  - destruct xs as [|x [|y [|z [|]]]]; try discriminate L. cbn [sides map] in *.
    set (t := vsub y x) in *. set (s := vsub z x) in *. clearbody t s.
    pose proof (Ht t ltac:(left; reflexivity)) as H. pose proof (Ht s ltac:(right; left; reflexivity)) as K. clear Ht.
    pose proof (Hb 0%nat ltac:(lia)) as B0. pose proof (Hb 1%nat ltac:(lia)) as B1. pose proof (Hb 2%nat ltac:(lia)) as B2.
    unfold dot in *. rewrite !rsum3 in *. cbn [det_vecs]. rewrite B0, B1, B2. clear Hb B0 B1 B2.
    set (w0 := t 1%nat * s 2%nat - t 2%nat * s 1%nat).
    set (w1 := t 0%nat * s 2%nat - t 2%nat * s 0%nat).
    set (w2 := t 0%nat * s 1%nat - t 1%nat * s 0%nat).
    set (l := w0 * nu 0%nat - w1 * nu 1%nat + w2 * nu 2%nat).
    assert (C2 : w0 * nu 1%nat + w1 * nu 0%nat = 0).
    { replace (w0 * nu 1%nat + w1 * nu 0%nat)
        with (s 2%nat * (nu 0%nat * t 0%nat + nu 1%nat * t 1%nat + nu 2%nat * t 2%nat)
              - t 2%nat * (nu 0%nat * s 0%nat + nu 1%nat * s 1%nat + nu 2%nat * s 2%nat)) by (unfold w0, w1; ring).
      rewrite H, K. ring. }
    assert (C1 : w0 * nu 2%nat - w2 * nu 0%nat = 0).
    { replace (w0 * nu 2%nat - w2 * nu 0%nat)
        with (- s 1%nat * (nu 0%nat * t 0%nat + nu 1%nat * t 1%nat + nu 2%nat * t 2%nat)
              + t 1%nat * (nu 0%nat * s 0%nat + nu 1%nat * s 1%nat + nu 2%nat * s 2%nat)) by (unfold w0, w2; ring).
      rewrite H, K. ring. }
    assert (C0 : w1 * nu 2%nat + w2 * nu 1%nat = 0).
    { replace (w1 * nu 2%nat + w2 * nu 1%nat)
        with (- s 0%nat * (nu 0%nat * t 0%nat + nu 1%nat * t 1%nat + nu 2%nat * t 2%nat)
              + t 0%nat * (nu 0%nat * s 0%nat + nu 1%nat * s 1%nat + nu 2%nat * s 2%nat)) by (unfold w1, w2; ring).
      rewrite H, K. ring. }
    assert (E0 : w0 = l * nu 0%nat).
    { unfold l. replace w0 with (w0 * (nu 0%nat * nu 0%nat + nu 1%nat * nu 1%nat + nu 2%nat * nu 2%nat)) at 1 by (rewrite Hn; ring).
      replace (w0 * (nu 0%nat * nu 0%nat + nu 1%nat * nu 1%nat + nu 2%nat * nu 2%nat))
        with ((w0 * nu 0%nat - w1 * nu 1%nat + w2 * nu 2%nat) * nu 0%nat
              + nu 1%nat * (w0 * nu 1%nat + w1 * nu 0%nat) + nu 2%nat * (w0 * nu 2%nat - w2 * nu 0%nat)) by ring.
      rewrite C2, C1. ring. }
    assert (E1 : w1 = - l * nu 1%nat).
    { unfold l. replace w1 with (w1 * (nu 0%nat * nu 0%nat + nu 1%nat * nu 1%nat + nu 2%nat * nu 2%nat)) at 1 by (rewrite Hn; ring).
      replace (w1 * (nu 0%nat * nu 0%nat + nu 1%nat * nu 1%nat + nu 2%nat * nu 2%nat))
        with (- (w0 * nu 0%nat - w1 * nu 1%nat + w2 * nu 2%nat) * nu 1%nat
              + nu 0%nat * (w0 * nu 1%nat + w1 * nu 0%nat) + nu 2%nat * (w1 * nu 2%nat + w2 * nu 1%nat)) by ring.
      rewrite C2, C0. ring. }
    assert (E2 : w2 = l * nu 2%nat).
    { unfold l. replace w2 with (w2 * (nu 0%nat * nu 0%nat + nu 1%nat * nu 1%nat + nu 2%nat * nu 2%nat)) at 1 by (rewrite Hn; ring).
      replace (w2 * (nu 0%nat * nu 0%nat + nu 1%nat * nu 1%nat + nu 2%nat * nu 2%nat))
        with ((w0 * nu 0%nat - w1 * nu 1%nat + w2 * nu 2%nat) * nu 2%nat
              - nu 0%nat * (w0 * nu 2%nat - w2 * nu 0%nat) + nu 1%nat * (w1 * nu 2%nat + w2 * nu 1%nat)) by ring.
      rewrite C1, C0. ring. }
    clearbody l. clear C0 C1 C2. rewrite E0, E1, E2.
    replace (a 0%nat * (l * nu 0%nat) - a 1%nat * (- l * nu 1%nat) + a 2%nat * (l * nu 2%nat))
      with (l * (a 0%nat * nu 0%nat + a 1%nat * nu 1%nat + a 2%nat * nu 2%nat)) by ring.
    rewrite Ha. ring.
Qed.

(* the points of the tables are off the border *)
Lemma table_interior N r q pw : quadrature_table N r = Some q -> In pw q ->
  (forall i, (i < N)%nat -> 0 < fst pw i) /\ rsum N (fst pw) < 1.
Proof.
  intros H HI. destruct pw as [x w]. cbn [fst].
  destruct N as [|[|[|[|N]]]]; destruct r as [|[|[|[|[|r]]]]]; try discriminate H; injection H as <-;
    cbn in HI;
    repeat match type of HI with
    | _ \/ _ => destruct HI as [HI|HI]
    | False => destruct HI
    end; injection HI as <- <-; cbn;
    (split; [|lra]; intros i Hi; destruct i as [|[|[|i]]]; try lia; simpl; lra).
Qed.
Lemma barycentric_interior D N xs x : length xs = S N -> (forall i, (i < N)%nat -> 0 < x i) -> rsum N x < 1 ->
  interior D xs (barycentric N xs x).
Proof.
  intros L Hp Hs. exists (map x (seq 0 N) ++ [1 - rsum N x]).
  split; [rewrite app_length, map_length, seq_length; simpl; lia|]. split; [|split].
  - apply Forall_app. split.
    + apply Forall_map, Forall_forall. intros k Hk. apply in_seq in Hk. apply Hp. lia.
    + constructor; [lra|constructor].
  - rewrite total_app, total_seq. change (rsum N (fun k => x (0 + k)%nat)) with (rsum N x).
    unfold total. simpl. ring.
  - intros i _. reflexivity.
Qed.

Lemma facet_value D r q xs n F : (2 <= D <= 3)%nat -> quadrature_table (D - 1) r = Some q -> length xs = D ->
  normal_field D xs n ->
  det_vecs (n (hd vzero xs) :: sides xs) / INR (fact (D - 1))
    * total (map (fun pw => snd pw * dot D (F (barycentric (D - 1) xs (fst pw))) (n (barycentric (D - 1) xs (fst pw)))) q)
  = quadrature (D - 1) q (fun s => det_vecs (F (barycentric (D - 1) xs s) :: sides xs)).
Proof.
  intros HD Hq L (nu & Hn & Ht & Hi & Hc). unfold quadrature, area.
  replace (det_vecs (n (hd vzero xs) :: sides xs) / INR (fact (D - 1)) *
    total (map (fun pw => snd pw * dot D (F (barycentric (D - 1) xs (fst pw))) (n (barycentric (D - 1) xs (fst pw)))) q))
  with (1 / INR (fact (D - 1)) * (det_vecs (n (hd vzero xs) :: sides xs) *
    total (map (fun pw => snd pw * dot D (F (barycentric (D - 1) xs (fst pw))) (n (barycentric (D - 1) xs (fst pw)))) q)))
    by (field; apply fact_nz).
  f_equal. rewrite <- total_map_scal. apply total_map_ext. intros pw Hw. cbv beta.
  destruct (table_interior _ _ _ _ Hq Hw) as [H0 H1].
  rewrite <- (normal_integrand D xs nu (n (hd vzero xs)) (n (barycentric (D - 1) xs (fst pw)))
    (F (barycentric (D - 1) xs (fst pw))) HD L Hn Ht).
  - ring.
  - destruct xs as [|x xs]; [cbn in L; lia|]. apply Hc. left. reflexivity.
  - apply Hi. apply barycentric_interior; [lia|exact H0|exact H1].
Qed.

Lemma facet_error D r q xs F u p : quadrature_table (D - 1) r = Some q -> of_degree (D - 1) r p ->
  (forall s, det_vecs (F (barycentric (D - 1) xs s) :: sides xs) = poly p s) -> flux D xs F u ->
  Rabs (quadrature (D - 1) q (fun s => det_vecs (F (barycentric (D - 1) xs s) :: sides xs)) - u)
    <= tolerance (D - 1) r * S_Quadrature.size p.
Proof.
  intros Hq Hp E Hu.
  replace (quadrature (D - 1) q (fun s => det_vecs (F (barycentric (D - 1) xs s) :: sides xs)))
    with (quadrature (D - 1) q (poly p)).
  - apply (C50_tables _ _ _ _ _ Hq Hp). exact (is_integral_ext _ _ _ _ _ E Hu).
  - unfold quadrature. f_equal. apply total_map_ext. intros pw _. rewrite E. reflexivity.
Qed.

(* the integrand on a facet is a polynomial *)
Lemma facet_expressible D r F xs : (2 <= D <= 3)%nat -> length xs = D -> polynomial_field D r F ->
  expressible (D - 1) r (fun s => det_vecs (F (barycentric (D - 1) xs s) :: sides xs)).
Proof.
  intros HD L (P & HP).
  assert (HE : forall i, (i < D)%nat -> expressible (D - 1) r (fun s => F (barycentric (D - 1) xs s) i)).
  { intros i Hi. destruct (HP i Hi) as [Hd E].
    apply (expressible_ext (D - 1) r (fun s => poly (P i) (barycentric (D - 1) xs s))); [intros s; symmetry; apply E|].
    apply (expressible_poly (D - 1) D r (P i) (barycentric (D - 1) xs) Hd). apply expressible_barycentric. }
  assert (HS : forall i k, (i < D)%nat -> expressible (D - 1) r (fun s => k * F (barycentric (D - 1) xs s) i)).
  { intros i k Hi. apply (expressible_mult (D - 1) 0 r (fun _ => k)); [apply expressible_const|apply HE, Hi]. }
  destruct D as [|[|[|[|D]]]]; try lia.
  - destruct xs as [|a [|b [|]]]; try discriminate L. cbn [sides map]. set (t := vsub b a). cbn [det_vecs].
    eapply expressible_ext; [|apply expressible_plus; [apply (HS 0%nat (t 1%nat)); lia|apply (HS 1%nat (- t 0%nat)); lia]].
    intros x. cbv beta. ring.
  - destruct xs as [|a [|b [|c [|]]]]; try discriminate L. cbn [sides map]. set (t := vsub b a). set (w := vsub c a). cbn [det_vecs].
    set (k0 := t 1%nat * w 2%nat - t 2%nat * w 1%nat).
    set (k1 := t 0%nat * w 2%nat - t 2%nat * w 0%nat).
    set (k2 := t 0%nat * w 1%nat - t 1%nat * w 0%nat).
    eapply expressible_ext; [|apply expressible_plus; [apply expressible_plus; [apply (HS 0%nat k0); lia|apply (HS 1%nat (- k1)); lia]|apply (HS 2%nat k2); lia]].
    intros x. cbv beta. ring.
Qed.

(* the value of an integrator on a submanifold with one normal field *)
Lemma sub_value debug D n cs q (cells : list cell) corners f :
  (2 <= D <= 3)%nat -> NoDup (map fst cells) ->
  Forall2 (fun cl xs => placed cs (snd cl) xs /\ length xs = D) cells corners ->
  integrate debug (Cartesian D) (sub_volume_form (Cartesian D) [n] (D - 1)) cs q cells f
  = Ok (total (map (fun xs => det_vecs (n (hd vzero xs) :: sides xs) / INR (fact (D - 1))
         * total (map (fun pw => snd pw * f (barycentric (D - 1) xs (fst pw))) q)) corners)).
Proof.
  intros HD ND HF. apply integrate_iff; [exact ND|].
  exists (map (fun xs => map (fun pw => (barycentric (D - 1) xs (fst pw),
    snd pw * (det_vecs (n (hd vzero xs) :: sides xs) / INR (fact (D - 1))))) q) corners).
  split.
  - clear ND. induction HF as [|[s nodes] xs cells corners [HP L] HF IH]; cbn [map]; [constructor|].
    constructor; [|exact IH]. cbn [snd] in HP.
    assert (Ln : length nodes = D) by (rewrite (placed_length _ _ _ HP); exact L).
    destruct (parametrization_ok D cs nodes xs HP) as (F & EF).
    { intros ->. cbn in Ln. lia. }
    exists F. split; [exact EF|]. right. exists (det_vecs (n (hd vzero xs) :: sides xs) / INR (fact (D - 1))). split.
    + cbn [snd]. destruct xs as [|x0 xs]; [cbn in L; lia|]. cbn [length] in L.
      rewrite (sub_cell_volume (Cartesian D) [n] (D - 1) cs nodes x0 xs); [|cbn; lia|exact HP|lia|exact Logic.I|lia|cbn; lia|cbn; lia].
      cbn [hd sides map List.app]. reflexivity.
    + apply map_ext. intros [p w]. cbn [fst snd]. f_equal.
      apply functional_extensionality. intros i.
      rewrite (eval_parametrization (Cartesian D) cs nodes xs F HP EF). rewrite Ln.
      f_equal. symmetry.
      transitivity (map (fun x : vec => x) xs); [|apply map_id].
      apply map_ext. intros x. apply functional_extensionality. intros k.
      cbn [csub]. unfold vsub, origin, vzero. ring.
  - unfold weighted. clear. induction corners as [|xs corners IH]; [reflexivity|].
    cbn [map concat]. rewrite map_app, total_app, <- IH. cbn [total fold_right]. f_equal.
    rewrite map_map. cbn [fst snd]. rewrite <- total_map_scal. apply total_map_ext.
    intros [p w] _. cbn [fst snd]. ring.
Qed.

(* the divergence of a polynomial field *)
Lemma divergence_poly D r F (P : nat -> polynomial) g :
  (forall i, (i < D)%nat -> of_degree D r (P i) /\ forall x, F x i = poly (P i) x) -> is_divergence D F g ->
  forall y, g y = rsum D (fun k => poly (dpoly k (P k)) y).
Proof.
  intros HP Hg y. destruct (Hg y) as (d & Hd & ->). apply P_Volume.rsum_ext. intros i Hi.
  apply (uniqueness_limite (fun t => F (with_component y i t) i) (y i) (d i)); [exact (Hd i Hi)|].
  destruct (HP i Hi) as [Hdeg E].
  apply Coquelicot.Derive.is_derive_Reals.
  eapply Coquelicot.Derive.is_derive_ext; [|exact (poly_partial D r (P i) y i Hdeg Hi)].
  intros t. cbv beta. rewrite E. f_equal.
Qed.
Lemma divergence_expressible D r F g : polynomial_field D (S r) F -> is_divergence D F g -> expressible D r g.
Proof.
  intros (P & HP) Hg. pose proof (divergence_poly D (S r) F P g HP Hg) as E.
  apply (expressible_ext D r (fun y => rsum D (fun k => poly (dpoly k (P k)) y))); [intros y; symmetry; apply E|].
  apply (expressible_rsum D r D (fun k y => poly (dpoly k (P k)) y)). intros k Hk.
  destruct (dpoly_lower D r k (P k)) as (q & Hq & Eq); [apply HP, Hk|].
  exists q. split; [exact Hq|]. intros x. symmetry. apply Eq.
Qed.

Lemma polynomial_field_le D r s F : (r <= s)%nat -> polynomial_field D r F -> polynomial_field D s F.
Proof.
  intros H (P & HP). exists P. intros i Hi. destruct (HP i Hi) as [Hd E]. split; [exact (of_degree_le D r s _ H Hd)|exact E].
Qed.

(* the integral of the divergence over a cell *)
Lemma cell_divergence D r F (P : nat -> polynomial) g xs : length xs = S D ->
  (forall i, (i < D)%nat -> of_degree D r (P i) /\ forall x, F x i = poly (P i) x) -> is_divergence D F g ->
  cell_integral D xs g (simplex_volume xs * INR (fact D) * rsum D (fun k => Fl (dpoly k (P k)) xs)).
Proof.
  intros L HP Hg. exists (rsum D (fun k => Fl (dpoly k (P k)) xs)). split.
  - pose proof (divergence_poly D r F P g HP Hg) as E.
    apply (is_integral_ext D 1 (fun s => rsum D (fun k => poly (dpoly k (P k)) (barycentric D xs s)))); [intros s; symmetry; apply E|].
    assert (G : forall m, (m <= D)%nat -> is_integral D 1 (fun s => rsum m (fun k => poly (dpoly k (P k)) (barycentric D xs s)))
      (rsum m (fun k => Fl (dpoly k (P k)) xs))); [|apply G; lia].
    induction m as [|m IH]; intros Hm; cbn [rsum]; [apply is_integral_zero|].
    apply is_integral_plus; [apply IH; lia|]. apply (Fl_integral D D r); [|exact L].
    apply degree_dpoly. apply HP. lia.
  - unfold area. field. apply fact_nz.
Qed.
