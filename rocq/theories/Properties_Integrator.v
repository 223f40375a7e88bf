(* C50 (on meshes), C60: integration (lib/mito/quadrature/Integrator.h). Scalars are real numbers (no
   rounding): the literals of the tables stand for the decimal numbers written in the source. *)
From Coq Require Import Reals List Bool Arith Lia Lra Permutation FunctionalExtensionality.
From Verif Require Import Base M_Tensor M_Geometry S_Geometry P_Volume.
From Verif Require Import M_Functions M_Quadrature S_Quadrature P_Quadrature P_Integrator.
From Verif Require Import Properties_Quadrature.
Import ListNotations.
Open Scope R_scope.

Lemma cartesian_value debug D cs q cells corners f :
  (1 <= D <= 3)%nat -> described D cs cells corners ->
  integrate debug (Cartesian D) (volume_form (Cartesian D)) cs q cells f
  = Ok (total (map (fun xs => simplex_volume xs
         * total (map (fun pw => snd pw * f (barycentric D xs (fst pw))) q)) corners)).
Proof.
  intros HD [ND HF]. apply integrate_iff; [exact ND|].
  exists (map (fun xs => map (fun pw => (barycentric D xs (fst pw), snd pw * simplex_volume xs)) q) corners).
  split.
  - clear ND. induction HF as [|[s nodes] xs cells corners [HP L] HF IH]; cbn [map]; [constructor|].
    constructor; [|exact IH]. cbn [snd] in HP.
    assert (Ln : length nodes = S D) by (rewrite (placed_length _ _ _ HP); exact L).
    destruct (parametrization_ok D cs nodes xs HP) as (F & EF).
    { intros ->. discriminate Ln. }
    exists F. split; [exact EF|]. right. exists (simplex_volume xs). split.
    + cbn [snd]. destruct xs as [|x0 xs]; [discriminate L|]. injection L as L.
      rewrite (cell_volume_simplex (Cartesian D) cs nodes xs x0 HD HP L Logic.I).
      do 2 f_equal. clear. cbn [map position]. f_equal. induction xs; cbn; congruence.
    + apply map_ext. intros [p w]. cbn [fst snd]. f_equal.
      apply functional_extensionality. intros i.
      rewrite (eval_parametrization (Cartesian D) cs nodes xs F HP EF). rewrite Ln.
      rewrite Nat.sub_succ, Nat.sub_0_r. f_equal. symmetry.
      transitivity (map (fun x : vec => x) xs); [|apply map_id].
      apply map_ext. intros x. apply functional_extensionality. intros k.
      cbn [csub]. unfold vsub, origin, vzero. ring.
  - unfold weighted. clear. induction corners as [|xs corners IH]; [reflexivity|].
    cbn [map concat]. rewrite map_app, total_app, <- IH. cbn [total fold_right]. f_equal.
    rewrite map_map. cbn [fst snd]. rewrite <- total_map_scal. apply total_map_ext.
    intros [p w] _. cbn [fst snd]. ring.
Qed.

(* Integrating a polynomial of the degree over a mesh with a rule written in fractions gives the sum
   of its integrals over the cells. *)
Theorem C50_meshes debug D r q cs cells corners p :
  quadrature_table D r = Some q -> In (D, r) [(1, 1); (2, 1); (2, 2); (3, 1)]%nat ->
  of_degree D r p -> described D cs cells corners ->
  exists vs, Forall2 (fun xs v => cell_integral D xs (poly p) v) corners vs /\
    integrate debug (Cartesian D) (volume_form (Cartesian D)) cs q cells (poly p) = Ok (total vs).
Proof.
  intros Hq HN Hp Hd.
  assert (HD : (1 <= D <= 3)%nat).
  { destruct HN as [E|[E|[E|[E|[]]]]]; injection E as <- <-; lia. }
  assert (HA : accurate D r q 0).
  { pose proof (table_accurate D r q Hq) as A.
    destruct HN as [E|[E|[E|[E|[]]]]]; injection E as <- <-; exact A. }
  rewrite (cartesian_value debug D cs q cells corners (poly p) HD Hd).
  eexists. split; [|reflexivity]. clear Hd. induction corners as [|xs corners IH]; cbn [map]; constructor.
  - exact (cell_exact D r q xs p HA Hp).
  - exact IH.
Qed.
(* With the other rules, the error on a cell is bounded by the coefficients of the polynomial in the
   parametric coordinates of the cell. *)
Theorem C50_meshes_decimal debug D r q cs cells corners f ps :
  quadrature_table D r = Some q -> described D cs cells corners ->
  Forall2 (fun xs p => of_degree D r p /\ forall x, f (barycentric D xs x) = poly p x) corners ps ->
  exists vs v, Forall2 (fun xs v => cell_integral D xs f v) corners vs /\
    integrate debug (Cartesian D) (volume_form (Cartesian D)) cs q cells f = Ok v /\
    Rabs (v - total vs) <= total (map (fun xp => Rabs (simplex_volume (fst xp)) * INR (fact D)
                                       * tolerance D r * S_Quadrature.size (snd xp)) (combine corners ps)).
Proof.
  intros Hq Hd HF.
  assert (HD : (1 <= D <= 3)%nat).
  { destruct D as [|[|[|[|D]]]]; try lia; destruct r as [|[|[|[|[|r]]]]]; discriminate Hq. }
  rewrite (cartesian_value debug D cs q cells corners f HD Hd). clear Hd.
  assert (G : exists vs, Forall2 (fun xs v => cell_integral D xs f v) corners vs /\
    Rabs (total (map (fun xs => simplex_volume xs
           * total (map (fun pw => snd pw * f (barycentric D xs (fst pw))) q)) corners) - total vs)
    <= total (map (fun xp => Rabs (simplex_volume (fst xp)) * INR (fact D)
                                       * tolerance D r * S_Quadrature.size (snd xp)) (combine corners ps))).
  { induction HF as [|xs p corners ps [Hp E] HF (vs & HV & HE)].
    - exists []. split; [constructor|]. unfold total. simpl. rewrite Rminus_0_r, Rabs_R0. lra.
    - destruct (C50_integrals D r p Hp) as (u & Hu & _).
      exists (simplex_volume xs / area D * u :: vs). split.
      + constructor; [|exact HV]. exists u. split; [|reflexivity].
        apply (is_integral_ext D 1 (poly p)); [intros x; symmetry; apply E|exact Hu].
      + cbn [map combine total fold_right fst snd].
        pose proof (C50_tables D r q p u Hq Hp Hu) as B. unfold quadrature in B.
        rewrite (total_map_ext (fun pw => snd pw * f (barycentric D xs (fst pw)))
          (fun pw => snd pw * poly p (fst pw))) by (intros pw _; rewrite E; reflexivity).
        set (T := total (map (fun pw => snd pw * poly p (fst pw)) q)) in *.
        fold (total (map (fun xs => simplex_volume xs
           * total (map (fun pw => snd pw * f (barycentric D xs (fst pw))) q)) corners)) in *.
        fold (total vs).
        fold (total (map (fun xp => Rabs (simplex_volume (fst xp)) * INR (fact D)
                                       * tolerance D r * S_Quadrature.size (snd xp)) (combine corners ps))).
        set (U := total (map (fun xs => simplex_volume xs
           * total (map (fun pw => snd pw * f (barycentric D xs (fst pw))) q)) corners)) in *.
        set (Z := total (map (fun xp => _) _)) in *.
        replace (simplex_volume xs * T + U - (simplex_volume xs / area D * u + total vs))
          with (simplex_volume xs * INR (fact D) * (area D * T - u) + (U - total vs)).
        2: { unfold area. field. apply fact_nz. }
        eapply Rle_trans; [apply Rabs_triang|]. apply Rplus_le_compat; [|exact HE].
        rewrite !Rabs_mult, (Rabs_pos_eq (INR (fact D))) by (apply pos_INR).
        rewrite (Rmult_assoc _ (tolerance D r)). apply Rmult_le_compat_l; [|exact B].
        apply Rmult_le_pos; [apply Rabs_pos|apply pos_INR]. }
  destruct G as (vs & HV & HE). exists vs. eexists. split; [exact HV|]. split; [reflexivity|exact HE].
Qed.

(* ------------------------------------------------------------------------------------------- *)
(* C60 *)

(* On a Cartesian mesh the integral is the sum over the cells of the volume times the weighted
   sum of the values at the points of the cell that have the barycentric coordinates of the rule. *)
Theorem C60_value debug D cs q cells corners f :
  (1 <= D <= 3)%nat -> described D cs cells corners ->
  integrate debug (Cartesian D) (volume_form (Cartesian D)) cs q cells f
  = Ok (total (map (fun xs => simplex_volume xs
         * total (map (fun pw => snd pw * f (barycentric D xs (fst pw))) q)) corners)).
Proof. apply cartesian_value. Qed.

(* For any coordinates, volume form and rule: linear in the field, ... *)
Lemma weighted_linear a f g data :
  weighted (fun x => a * f x + g x) data = a * weighted f data + weighted g data.
Proof.
  unfold weighted. rewrite <- total_map_scal, <- total_map_plus. apply total_map_ext. intros; ring.
Qed.
Lemma contributes_unique c w cs q cl d d' :
  contributes c w cs q cl d -> contributes c w cs q cl d' -> d = d'.
Proof.
  intros (F & EF & H) (F' & EF' & H'). rewrite EF in EF'. injection EF' as <-.
  destruct H as [[Hq ->]|(v & EV & ->)]; destruct H' as [[Hq' ->]|(v' & EV' & ->)]; try (subst; reflexivity).
  rewrite EV in EV'. injection EV' as <-. reflexivity.
Qed.
Lemma contributes_all_unique c w cs q cells ds ds' :
  Forall2 (contributes c w cs q) cells ds -> Forall2 (contributes c w cs q) cells ds' -> ds = ds'.
Proof.
  intros H. revert ds'. induction H as [|cl d cells ds Hd H IH]; intros ds' H'; inversion H'; subst; [reflexivity|].
  f_equal; [eapply contributes_unique; eassumption | apply IH; assumption].
Qed.

Theorem C60_linear debug c w cs q cells a f g u v :
  NoDup (map fst cells) ->
  integrate debug c w cs q cells f = Ok u -> integrate debug c w cs q cells g = Ok v ->
  integrate debug c w cs q cells (fun x => a * f x + g x) = Ok (a * u + v).
Proof.
  intros ND Hf Hg. apply integrate_iff in Hf, Hg; try exact ND.
  destruct Hf as (ds & Hd & ->), Hg as (ds' & Hd' & ->).
  rewrite (contributes_all_unique _ _ _ _ _ _ _ Hd' Hd).
  apply integrate_iff; [exact ND|]. exists ds. split; [exact Hd|]. symmetry. apply weighted_linear.
Qed.

(* ... defined for all fields or for none, and depending only on the values of the field, ... *)
Theorem C60_defined debug c w cs q cells f g u :
  NoDup (map fst cells) -> integrate debug c w cs q cells f = Ok u ->
  exists v, integrate debug c w cs q cells g = Ok v.
Proof.
  intros ND Hf. apply integrate_iff in Hf; [|exact ND]. destruct Hf as (ds & Hd & _).
  exists (weighted g (concat ds)). apply integrate_iff; [exact ND|]. exists ds. split; [exact Hd|reflexivity].
Qed.

(* ... additive over the cells, ... *)
Theorem C60_additive debug c w cs q cells cells' f v :
  NoDup (map fst (cells ++ cells')) ->
  (integrate debug c w cs q (cells ++ cells') f = Ok v <->
   exists u u', integrate debug c w cs q cells f = Ok u /\
     integrate debug c w cs q cells' f = Ok u' /\ v = u + u').
Proof.
  intros ND. rewrite integrate_iff by exact ND.
  assert (ND1 : NoDup (map fst cells) /\ NoDup (map fst cells')).
  { rewrite map_app in ND. split.
    - clear -ND. induction (map fst cells) as [|x l IH]; [constructor|].
      simpl in ND. apply NoDup_cons_iff in ND. destruct ND as [H ND]. constructor; [|apply IH, ND].
      intros Hx. apply H, in_or_app. left; exact Hx.
    - clear -ND. induction (map fst cells) as [|x l IH]; [exact ND|].
      apply IH. simpl in ND. apply NoDup_cons_iff in ND. apply ND. }
  destruct ND1 as [ND1 ND2]. split.
  - intros (ds & H & ->). apply Forall2_app_inv_l in H. destruct H as (d1 & d2 & H1 & H2 & ->).
    exists (weighted f (concat d1)), (weighted f (concat d2)).
    rewrite !integrate_iff by assumption. split; [exists d1; auto|]. split; [exists d2; auto|].
    rewrite concat_app. unfold weighted. rewrite map_app, total_app. reflexivity.
  - intros (u & u' & Hu & Hu' & ->). rewrite integrate_iff in Hu, Hu' by assumption.
    destruct Hu as (d1 & H1 & ->), Hu' as (d2 & H2 & ->). exists (d1 ++ d2).
    split; [apply Forall2_app; assumption|].
    rewrite concat_app. unfold weighted. rewrite map_app, total_app. reflexivity.
Qed.
(* ... whatever the order in which they are visited. *)
Theorem C60_order debug c w cs q cells cells' f :
  Permutation cells cells' -> NoDup (map fst cells) -> forall u,
  integrate debug c w cs q cells f = Ok u -> integrate debug c w cs q cells' f = Ok u.
Proof.
  intros HP ND u Hu. assert (ND' : NoDup (map fst cells')).
  { eapply Permutation_NoDup; [apply Permutation_map, HP | exact ND]. }
  apply integrate_iff in Hu; [|exact ND]. apply integrate_iff; [exact ND'|].
  destruct Hu as (ds & Hd & ->).
  assert (G : forall ds, Forall2 (contributes c w cs q) cells ds -> exists ds',
    Forall2 (contributes c w cs q) cells' ds' /\ weighted f (concat ds) = weighted f (concat ds')).
  { assert (W : forall d ds, weighted f (concat (d :: ds)) = weighted f d + weighted f (concat ds)).
    { intros d e. unfold weighted. simpl. rewrite map_app, total_app. reflexivity. }
    clear -HP W. induction HP as [|x l l' HP IH|x y l|l l' l'' HP1 IH1 HP2 IH2]; intros ds H.
    - exists ds. split; [exact H|reflexivity].
    - inversion H as [|? d ? es Hx HR]; subst. destruct (IH _ HR) as (es' & H' & E).
      exists (d :: es'). split; [constructor; assumption|]. rewrite !W, E. reflexivity.
    - inversion H as [|? d ? es Hx HR]; subst. inversion HR as [|? e ? es' Hy HR']; subst.
      exists (e :: d :: es'). split; [repeat constructor; assumption|]. rewrite !W. ring.
    - destruct (IH1 _ H) as (d1 & H1 & E1). destruct (IH2 _ H1) as (d2 & H2 & E2).
      exists d2. split; [exact H2|]. rewrite E1. exact E2. }
  destruct (G ds Hd) as (ds' & Hd' & E). exists ds'. split; assumption.
Qed.

(* A constant times the volume, when the weights sum to one. *)
Theorem C60_constant debug D w cs q cells a v :
  NoDup (map fst cells) -> total (map snd q) = 1 ->
  (forall cl, In cl cells -> exists xs, placed cs (snd cl) xs) ->
  mesh_volume (Cartesian D) w cs (map snd cells) = Ok v ->
  integrate debug (Cartesian D) w cs q cells (fun _ => a) = Ok (a * v).
Proof.
  intros ND Hw HP Hv. apply integrate_iff; [exact ND|].
  assert (G : forall r, add_volumes (Cartesian D) w cs (map snd cells) r = Ok v ->
    exists ds, Forall2 (contributes (Cartesian D) w cs q) cells ds /\ a * v = a * r + weighted (fun _ => a) (concat ds)).
  { clear ND Hv. induction cells as [|[s nodes] cells IH]; intros r Hr.
    - injection Hr as ->. exists []. split; [constructor|]. unfold weighted, total. simpl. ring.
    - cbn [map add_volumes snd] in Hr.
      destruct (cell_volume (Cartesian D) w cs nodes) as [u| |] eqn:EV; cbn [rbind] in Hr; try discriminate Hr.
      destruct (IH (fun cl H => HP cl (or_intror H)) _ Hr) as (ds & Hd & E).
      destruct (HP (s, nodes) (or_introl eq_refl)) as (xs & Hxs). cbn [snd] in Hxs.
      assert (Hn : nodes <> []).
      { intros ->. unfold cell_volume, directors in EV. discriminate EV. }
      destruct (parametrization_ok D cs nodes xs Hxs Hn) as (F & EF).
      exists (map (fun pw => (eval F (fst pw), snd pw * u)) q :: ds). split.
      + constructor; [|exact Hd]. exists F. split; [exact EF|]. right. exists u. split; [exact EV|reflexivity].
      + rewrite E. unfold weighted. cbn [concat]. rewrite map_app, total_app, map_map. cbn [fst snd].
        assert (E2 : total (map (fun pw : vec * R => a * (snd pw * u)) q) = a * u).
        { rewrite (total_map_ext _ (fun pw => a * u * snd pw)) by (intros; ring).
          rewrite total_map_scal. change (map (fun x : vec * R => snd x) q) with (map snd q).
          rewrite Hw. ring. }
        change value with vec. rewrite E2. ring. }
  destruct (G 0 Hv) as (ds & Hd & E). exists ds. split; [exact Hd|]. rewrite E. ring.
Qed.

(* The points of the cells are inside them, so ... *)
Lemma barycentric_inside D xs x : length xs = S D -> in_reference D x -> inside D xs (barycentric D xs x).
Proof.
  intros L [Hp Hs]. exists (map x (seq 0 D) ++ [1 - rsum D x]).
  split; [rewrite app_length, map_length, seq_length; simpl; lia|]. split; [|split].
  - apply Forall_app. split.
    + apply Forall_map, Forall_forall. intros k Hk. apply in_seq in Hk. apply Hp. lia.
    + constructor; [lra|constructor].
  - rewrite total_app, total_seq. change (rsum D (fun k => x (0 + k)%nat)) with (rsum D x).
    unfold total. simpl. ring.
  - intros i _. reflexivity.
Qed.
(* ... a field that is constant on each cell integrates to the sum of the values times the volumes,
   for every table (whose weights may sum to one only within the tolerance) ... *)
Theorem C60_cellwise debug D r q cs cells corners f values :
  quadrature_table D r = Some q -> described D cs cells corners ->
  Forall2 (fun xs v => forall x, inside D xs x -> f x = v) corners values ->
  integrate debug (Cartesian D) (volume_form (Cartesian D)) cs q cells f
  = Ok (total (map snd q) * total (map (fun xv => snd xv * simplex_volume (fst xv)) (combine corners values))).
Proof.
  intros Hq Hd HF.
  assert (HD : (1 <= D <= 3)%nat).
  { destruct D as [|[|[|[|D]]]]; try lia; destruct r as [|[|[|[|[|r]]]]]; discriminate Hq. }
  rewrite (cartesian_value debug D cs q cells corners f HD Hd). f_equal.
  assert (HL : Forall (fun xs => length xs = S D) corners).
  { destruct Hd as [_ Hd]. clear -Hd. induction Hd as [|cl xs cells corners [_ L] Hd IH]; constructor; assumption. }
  clear Hd. destruct (C50_points D r q Hq) as [Hin _].
  induction HF as [|xs v corners values Hv HF IH]; [unfold total; simpl; ring|].
  inversion HL as [|? ? L HL']; subst.
  cbn [map combine fst snd]. unfold total at 1 5. cbn [fold_right].
  fold (total (map (fun xs => simplex_volume xs
         * total (map (fun pw => snd pw * f (barycentric D xs (fst pw))) q)) corners)).
  fold (total (map (fun xv => snd xv * simplex_volume (fst xv)) (combine corners values))).
  rewrite (IH HL').
  rewrite (total_map_ext (fun pw => snd pw * f (barycentric D xs (fst pw))) (fun pw => v * snd pw)).
  - rewrite total_map_scal. change (map (fun x : vec * R => snd x) q) with (map snd q). ring.
  - intros [p w] HI. cbn [fst snd]. rewrite (Hv (barycentric D xs p)); [ring|].
    apply barycentric_inside; [exact L|]. apply (Hin p w HI).
Qed.
(* ... and integration preserves inequalities between fields on positively oriented meshes. *)
Theorem C60_monotone debug D r q cs cells corners f g u v :
  quadrature_table D r = Some q -> described D cs cells corners ->
  Forall (fun xs => 0 <= simplex_volume xs) corners ->
  (forall xs x, In xs corners -> inside D xs x -> f x <= g x) ->
  integrate debug (Cartesian D) (volume_form (Cartesian D)) cs q cells f = Ok u ->
  integrate debug (Cartesian D) (volume_form (Cartesian D)) cs q cells g = Ok v ->
  u <= v.
Proof.
  intros Hq Hd Hpos Hfg Hu Hv.
  assert (HD : (1 <= D <= 3)%nat).
  { destruct D as [|[|[|[|D]]]]; try lia; destruct r as [|[|[|[|[|r]]]]]; discriminate Hq. }
  rewrite (cartesian_value debug D cs q cells corners _ HD Hd) in Hu.
  rewrite (cartesian_value debug D cs q cells corners _ HD Hd) in Hv.
  injection Hu as <-. injection Hv as <-.
  assert (HL : Forall (fun xs => length xs = S D) corners).
  { destruct Hd as [_ Hd]. clear -Hd. induction Hd as [|cl xs cells corners [_ L] Hd IH]; constructor; assumption. }
  clear Hd. destruct (C50_points D r q Hq) as [Hin _].
  assert (MT : forall (A : Type) (l : list A) (F G : A -> R), (forall x, In x l -> F x <= G x) ->
    total (map F l) <= total (map G l)).
  { intros A l F G. unfold total. induction l as [|x l IH]; intros H; simpl; [lra|].
    apply Rplus_le_compat; [apply H; left; reflexivity | apply IH; intros y Hy; apply H; right; exact Hy]. }
  apply MT. intros xs Hxs. rewrite Forall_forall in Hpos, HL. apply Rmult_le_compat_l; [apply Hpos, Hxs|].
  apply MT. intros [p w] HI. cbn [fst snd]. destruct (Hin p w HI) as [Hp Hw].
  apply Rmult_le_compat_l; [lra|]. apply (Hfg xs); [exact Hxs|].
  apply barycentric_inside; [apply HL, Hxs | exact Hp].
Qed.

(* The integral over a cell does not depend on the order of its nodes, but for the sign. *)
Lemma total_list_ext {A} (f : A -> R) l l' : l = l' -> total (map f l) = total (map f l').
Proof. intros ->. reflexivity. Qed.

Ltac same_point := apply functional_extensionality; intros ?; unfold barycentric, combo, vec1, vec2, vec3; cbn; lra.

Lemma symmetric_of_neighbours D q :
  (forall pre x y post f, length (pre ++ x :: y :: post) = S D ->
    total (map (fun pw => snd pw * f (barycentric D (pre ++ y :: x :: post) (fst pw))) q)
    = total (map (fun pw => snd pw * f (barycentric D (pre ++ x :: y :: post) (fst pw))) q)) ->
  symmetric D q.
Proof.
  intros H corners corners' odd f L S. induction S as [l | odd l pre x y post S IH]; [reflexivity|].
  rewrite H; [apply IH, L|]. clear -S L.
  assert (G : forall o (a b : list vec), swaps o a b -> length b = length a).
  { intros o a b. induction 1 as [|? ? ? ? ? ? ? IH]; [reflexivity|].
    rewrite <- IH, !app_length. reflexivity. }
  rewrite (G _ _ _ S). exact L.
Qed.

Ltac name_right f :=
  repeat match goal with
  | |- _ = ?B => match B with context [f (barycentric ?D ?L ?v)] =>
      let X := fresh "X" in let E := fresh "EX" in remember (barycentric D L v) as X eqn:E end
  end.
Ltac name_left f :=
  repeat match goal with
  | |- context [f (barycentric ?D ?L ?v)] => match goal with E : ?X = barycentric D _ _ |- _ =>
      replace (barycentric D L v) with X by (rewrite E; same_point) end
  end.
Lemma table_symmetric N r q :
  quadrature_table N r = Some q -> (N, r) <> (2, 4)%nat -> symmetric N q.
Proof.
  intros H Hne. apply symmetric_of_neighbours. intros pre x y post f L.
  destruct N as [|[|[|[|N]]]]; destruct r as [|[|[|[|[|r]]]]]; try discriminate H; injection H as <-;
    try (exfalso; apply Hne; reflexivity);
    rewrite app_length in L; cbn [length] in L;
    destruct pre as [|p0 [|p1 [|p2 pre]]]; cbn [length] in L; try lia;
    destruct post as [|q0 [|q1 [|q2 post]]]; cbn [length] in L; try lia; cbn [app];
    clear L Hne; unfold segment_1, segment_2, triangle_1, triangle_2, triangle_3, tetrahedron_1, tetrahedron_2;
    cbn [map fst snd]; unfold total; cbn [fold_right].
  all: name_right f; name_left f; lra.
Qed.

(* Reordering the nodes of the cells multiplies the integral by the sign of the permutation. *)
Theorem C60_orientation debug D r q cs odd cells cells' corners corners' f u :
  quadrature_table D r = Some q -> (D, r) <> (2, 4)%nat ->
  described D cs cells corners -> described D cs cells' corners' ->
  Forall2 (swaps odd) corners corners' ->
  integrate debug (Cartesian D) (volume_form (Cartesian D)) cs q cells f = Ok u ->
  integrate debug (Cartesian D) (volume_form (Cartesian D)) cs q cells' f = Ok (sign_of odd * u).
Proof.
  intros Hq Hne Hd Hd' Hs Hu.
  assert (HD : (1 <= D <= 3)%nat).
  { destruct D as [|[|[|[|D]]]]; try lia; destruct r as [|[|[|[|[|r]]]]]; discriminate Hq. }
  rewrite (cartesian_value debug D cs q cells corners _ HD Hd) in Hu. injection Hu as <-.
  rewrite (cartesian_value debug D cs q cells' corners' _ HD Hd'). f_equal.
  assert (HL : Forall (fun xs => length xs = S D) corners).
  { destruct Hd as [_ Hd]. clear -Hd. induction Hd as [|cl xs cells corners [_ L] Hd IH]; constructor; assumption. }
  clear Hd Hd'. pose proof (table_symmetric D r q Hq Hne) as SY.
  induction Hs as [|xs xs' corners corners' Hs HF IH]; [unfold total; simpl; ring|].
  inversion HL as [|? ? L HL']; subst. specialize (IH HL').
  assert (TC : forall a l, total (a :: l) = a + total l) by reflexivity.
  cbn [map]. rewrite !TC, IH.
  destruct (simplex_volume_swaps odd D xs xs' HD L Hs) as [_ ->].
  rewrite (SY xs xs' odd f L Hs). ring.
Qed.

(* The values of the field used are those at points of the cells. *)
Theorem C69_local_partial debug D r q cs cells corners f g :
  quadrature_table D r = Some q -> described D cs cells corners ->
  (forall xs x, In xs corners -> inside D xs x -> f x = g x) ->
  integrate debug (Cartesian D) (volume_form (Cartesian D)) cs q cells f
  = integrate debug (Cartesian D) (volume_form (Cartesian D)) cs q cells g.
Proof.
  intros Hq Hd Hfg.
  assert (HD : (1 <= D <= 3)%nat).
  { destruct D as [|[|[|[|D]]]]; try lia; destruct r as [|[|[|[|[|r]]]]]; discriminate Hq. }
  rewrite !(cartesian_value debug D cs q cells corners _ HD Hd). f_equal.
  assert (HL : Forall (fun xs => length xs = S D) corners).
  { destruct Hd as [_ Hd]. clear -Hd. induction Hd as [|cl xs cells corners [_ L] Hd IH]; constructor; assumption. }
  destruct (C50_points D r q Hq) as [Hin _]. rewrite Forall_forall in HL.
  apply total_map_ext. intros xs Hxs. f_equal. apply total_map_ext. intros [p w] HI. cbn [fst snd].
  rewrite (Hfg xs); [reflexivity|exact Hxs|].
  apply barycentric_inside; [apply HL, Hxs|]. apply (Hin p w HI).
Qed.

(* An integrator throws when the coordinates of a node are missing, and in debug mode it does not
   accept the same simplex twice. *)
Theorem C60_missing debug D w cs q cells cl p f :
  Forall (fun cl => snd cl <> []) cells ->
  In cl cells -> In p (snd cl) -> coordinates cs p = Abort ->
  integrate debug (Cartesian D) w cs q cells f = Abort.
Proof.
  intros Hn Hcl Hp Hc. unfold integrate.
  assert (CU : forall p, coordinates cs p <> Ub).
  { intros p0. unfold coordinates. destruct (find_point p0 cs); discriminate. }
  assert (AU : forall ps, all_coordinates cs ps <> Ub).
  { induction ps as [|p0 ps IH]; cbn [all_coordinates]; [discriminate|].
    destruct (coordinates cs p0) eqn:E; cbn [rbind]; try discriminate.
    - destruct (all_coordinates cs ps); cbn [rbind]; try discriminate. congruence.
    - exfalso. exact (CU p0 E). }
  assert (AC : forall ps, In p ps -> all_coordinates cs ps = Abort).
  { clear -Hc AU CU. induction ps as [|p0 ps IH]; intros Hp; [destruct Hp|]. cbn [all_coordinates].
    destruct Hp as [->|Hp]; [rewrite Hc; reflexivity|].
    destruct (coordinates cs p0) eqn:E; cbn [rbind]; [|reflexivity|exfalso; exact (CU p0 E)].
    rewrite (IH Hp). reflexivity. }
  assert (PU : forall nodes, nodes <> [] -> parametrization (Cartesian D) cs nodes <> Ub).
  { intros nodes H. unfold parametrization.
    destruct (all_coordinates cs nodes) as [xs| |] eqn:E; cbn [rbind]; try discriminate.
    - destruct nodes as [|n nodes]; [congruence|]. cbn [all_coordinates] in E.
      destruct (coordinates cs n); cbn [rbind] in E; try discriminate E.
      destruct (all_coordinates cs nodes); cbn [rbind] in E; try discriminate E.
      injection E as <-. discriminate.
    - exfalso. exact (AU nodes E). }
  assert (G : forall m, compute_points debug (Cartesian D) cs q cells m = Abort).
  { induction Hn as [|[s nodes] cells Hne Hn IH]; intros m; [destruct Hcl|].
    cbn [compute_points snd] in *. destruct Hcl as [<-|Hcl].
    - cbn [snd] in Hp. unfold parametrization. rewrite (AC nodes Hp). reflexivity.
    - pose proof (PU nodes Hne) as P.
      destruct (parametrization (Cartesian D) cs nodes); cbn [rbind]; [|reflexivity|congruence].
      unfold insert. destruct (find_simplex s m); [destruct debug|]; cbn [rbind]; try reflexivity; apply IH, Hcl. }
  rewrite G. reflexivity.
Qed.
Theorem C60_debug c w cs q cells f v :
  integrate true c w cs q cells f = Ok v -> NoDup (map fst cells).
Proof.
  unfold integrate. intros H.
  assert (G : forall m m', compute_points true c cs q cells m = Ok m' -> NoDup (map fst m) ->
    NoDup (map fst m') /\ map fst m' = map fst m ++ map fst cells).
  { clear H. induction cells as [|[s nodes] cells IH]; intros m m' H ND.
    - injection H as <-. rewrite app_nil_r. split; [exact ND|reflexivity].
    - cbn [compute_points] in H. destruct (parametrization c cs nodes); cbn [rbind] in H; try discriminate H.
      unfold insert in H. destruct (find_simplex s m) as [xs|] eqn:E; cbn [rbind] in H; [discriminate H|].
      apply IH in H.
      + destruct H as [ND' E']. split; [exact ND'|]. rewrite E', map_app, <- app_assoc. reflexivity.
      + rewrite map_app. apply find_none in E. cbn. apply Permutation_NoDup with (s :: map fst m).
        * apply Permutation_cons_append.
        * constructor; assumption. }
  destruct (compute_points true c cs q cells []) as [m| |] eqn:E; try discriminate H.
  destruct (G [] m E (NoDup_nil _)) as [ND EQ]. change (map fst m = map fst cells) in EQ.
  rewrite <- EQ. exact ND.
Qed.

(* In polar and in spherical coordinates an integrator divides by the radius of the origin, which is
   zero: there is no mesh (with cells) that can be integrated on. *)
Theorem C69_other_coordinates_refuted debug c w cs q cl cells f :
  c = Polar \/ c = Spherical ->
  (exists xs, placed cs (snd cl) xs) ->
  integrate debug c w cs q (cl :: cells) f = Ub.
Proof.
  intros Hc (xs & HP). unfold integrate. destruct cl as [s nodes]. cbn [compute_points snd] in *.
  assert (E : parametrization c cs nodes = Ub).
  { unfold parametrization. rewrite (all_coordinates_ok _ _ _ HP). cbn [rbind].
    destruct xs as [|x xs]; [reflexivity|].
    assert (Z : divides_by_zero c origin = true).
    { destruct Hc as [-> | ->]; cbn; unfold origin, vzero.
      - destruct (Req_EM_T 0 0); [reflexivity|congruence].
      - destruct (Req_EM_T (0 * sin 0) 0) as [e|e]; [reflexivity|]. exfalso. apply e. ring. }
    rewrite Z. reflexivity. }
  rewrite E. reflexivity.
Qed.

(* ------------------------------------------------------------------------------------------- *)
(* The unit square in two triangles. *)
Definition square_cs : csys :=
  [(0%nat, vec2 0 0); (1%nat, vec2 1 0); (2%nat, vec2 1 1); (3%nat, vec2 0 1)].
Definition square_cells : list cell := [(7, [0; 1; 2]); (9, [0; 2; 3])]%nat.
Definition square_corners : list (list vec) :=
  [[vec2 0 0; vec2 1 0; vec2 1 1]; [vec2 0 0; vec2 1 1; vec2 0 1]].
Example square_described : described 2 square_cs square_cells square_corners.
Proof.
  split.
  - cbn. repeat constructor; cbn; lia.
  - unfold square_cells, square_corners. repeat constructor.
Qed.
(* 3 x^2 + x y on it: 1 + 1/4. *)
Definition sample : polynomial := [(3, [2; 0]%nat); (1, [1; 1]%nat)].
Example square_integral debug :
  integrate debug (Cartesian 2) (volume_form (Cartesian 2)) square_cs triangle_2 square_cells (poly sample)
  = Ok (5 / 4).
Proof.
  rewrite (C60_value debug 2 square_cs triangle_2 square_cells square_corners (poly sample) ltac:(lia) square_described).
  f_equal. unfold total, square_corners, triangle_2, poly, sample, barycentric, combo, simplex_volume,
    det_vecs, vsub, vec2, total. cbn. lra.
Qed.
Example square_exact : exists vs,
  Forall2 (fun xs v => cell_integral 2 xs (poly sample) v) square_corners vs /\ total vs = 5 / 4.
Proof.
  destruct (C50_meshes true 2 2 triangle_2 square_cs square_cells square_corners sample eq_refl) as (vs & H & E).
  - right; right; left; reflexivity.
  - repeat constructor.
  - exact square_described.
  - exists vs. split; [exact H|]. rewrite square_integral in E. injection E as E. symmetry. exact E.
Qed.
(* A constant, a field that is 2 on one triangle and 3 on the other. *)
Example square_constant debug :
  integrate debug (Cartesian 2) (volume_form (Cartesian 2)) square_cs triangle_2 square_cells (fun _ => 5)
  = Ok (5 * 1).
Proof.
  apply C60_constant.
  - cbn. repeat constructor; cbn; lia.
  - unfold triangle_2, total. cbn. lra.
  - intros cl [<-|[<-|[]]]; eexists; repeat constructor.
  - assert (HF : Forall2 (fun cell xs => placed square_cs cell xs /\ length xs = S (dim (Cartesian 2))
        /\ Forall (proper (Cartesian 2)) xs) (map snd square_cells) square_corners).
    { unfold square_cells, square_corners. repeat constructor. }
    unfold mesh_volume. cbn [map snd square_cells add_volumes].
    rewrite (cell_volume_simplex (Cartesian 2) square_cs [0; 1; 2]%nat [vec2 1 0; vec2 1 1] (vec2 0 0));
      [|cbn; lia|repeat constructor|reflexivity|exact Logic.I].
    rewrite (cell_volume_simplex (Cartesian 2) square_cs [0; 2; 3]%nat [vec2 1 1; vec2 0 1] (vec2 0 0));
      [|cbn; lia|repeat constructor|reflexivity|exact Logic.I].
    cbn [rbind]. f_equal. unfold simplex_volume, det_vecs, vsub, vec2. cbn. lra.
Qed.
Definition far_cs : csys :=
  [(0%nat, vec2 0 0); (1%nat, vec2 1 0); (2%nat, vec2 0 1); (3%nat, vec2 2 0); (4%nat, vec2 3 0); (5%nat, vec2 2 1)].
Definition far_cells : list cell := [(7, [0; 1; 2]); (9, [3; 4; 5])]%nat.
Definition far_corners : list (list vec) :=
  [[vec2 0 0; vec2 1 0; vec2 0 1]; [vec2 2 0; vec2 3 0; vec2 2 1]].
Definition two_three (x : vec) : R := if Rle_dec (x 0%nat) (3 / 2) then 2 else 3.
Example far_integral debug :
  integrate debug (Cartesian 2) (volume_form (Cartesian 2)) far_cs triangle_2 far_cells two_three
  = Ok (5 / 2).
Proof.
  rewrite (C60_cellwise debug 2 2 triangle_2 far_cs far_cells far_corners two_three [2; 3] eq_refl).
  - f_equal. unfold triangle_2, far_corners, simplex_volume, det_vecs, vsub, vec2, total. cbn. lra.
  - split.
    + cbn. repeat constructor; cbn; lia.
    + unfold far_cells, far_corners. repeat constructor.
  - assert (W : forall xs x, inside 2 xs x -> length xs = 3%nat -> exists a b c, 0 <= a /\ 0 <= b /\ 0 <= c /\
      a + b + c = 1 /\ x 0%nat = combo [a; b; c] xs 0).
    { intros xs x (ws & L & HP & HT & HC) L3. rewrite L3 in L.
      destruct ws as [|a [|b [|c [|d ws]]]]; try discriminate L.
      inversion HP as [|? ? Ha HP1]; subst. inversion HP1 as [|? ? Hb HP2]; subst.
      inversion HP2 as [|? ? Hc HP3]; subst. exists a, b, c. repeat split; try assumption.
      - unfold total in HT. cbn in HT. lra.
      - apply HC. lia. }
    constructor; [|constructor; [|constructor]]; intros x Hx;
      destruct (W _ x Hx eq_refl) as (a & b & c & Ha & Hb & Hc & Hs & E); unfold combo, vec2 in E; cbn in E;
      unfold two_three; destruct (Rle_dec (x 0%nat) (3 / 2)); lra.
Qed.
(* Exchanging two nodes of the first triangle. *)
Example square_first : described 2 square_cs [(7, [0; 1; 2])]%nat [[vec2 0 0; vec2 1 0; vec2 1 1]] /\
  described 2 square_cs [(8, [0; 2; 1])]%nat [[vec2 0 0; vec2 1 1; vec2 1 0]] /\
  Forall2 (swaps true) [[vec2 0 0; vec2 1 0; vec2 1 1]] [[vec2 0 0; vec2 1 1; vec2 1 0]].
Proof.
  repeat split; try (cbn; repeat constructor; cbn; tauto).
  constructor; [|constructor].
  apply (swaps_one false [vec2 0 0; vec2 1 0; vec2 1 1] [vec2 0 0] (vec2 1 0) (vec2 1 1) []).
  apply swaps_none.
Qed.
Example square_reversed debug : exists u,
  integrate debug (Cartesian 2) (volume_form (Cartesian 2)) square_cs triangle_2 [(7, [0; 1; 2])]%nat
    (poly sample) = Ok u /\
  integrate debug (Cartesian 2) (volume_form (Cartesian 2)) square_cs triangle_2 [(8, [0; 2; 1])]%nat
    (poly sample) = Ok (-1 * u).
Proof.
  destruct square_first as (D1 & D2 & S).
  eexists. split; [apply (cartesian_value debug 2 _ _ _ _ _ ltac:(lia) D1)|].
  apply (C60_orientation debug 2 2 triangle_2 square_cs true [(7, [0; 1; 2])]%nat [(8, [0; 2; 1])]%nat _ _
    (poly sample) _ eq_refl ltac:(discriminate) D1 D2 S).
  apply (cartesian_value debug 2 _ _ _ _ _ ltac:(lia) D1).
Qed.
Example square_positive : Forall (fun xs => 0 <= simplex_volume xs) square_corners.
Proof. repeat constructor; unfold simplex_volume, det_vecs, vsub, vec2; cbn; lra. Qed.
(* With the table for r = 3 and the same field, in parametric coordinates on each cell. *)
Example square_decimal : exists ps, Forall2 (fun xs p => of_degree 2 3 p /\
    forall x, poly [(1, [1; 0]%nat)] (barycentric 2 xs x) = poly p x) square_corners ps.
Proof.
  exists [[(0, [1; 0]%nat); (1, [0; 1]%nat); (1, [0; 0]%nat); (-1, [1; 0]%nat); (-1, [0; 1]%nat)];
          [(0, [1; 0]%nat); (1, [0; 1]%nat)]].
  repeat constructor; intros x; unfold poly, barycentric, combo, total, vec2; cbn; ring.
Qed.
Example square_missing debug :
  integrate debug (Cartesian 2) (volume_form (Cartesian 2)) square_cs triangle_2 [(7, [0; 1; 4])]%nat
    (fun _ => 1) = Abort.
Proof.
  apply (C60_missing debug 2 _ _ _ _ (7, [0; 1; 4])%nat 4%nat).
  - repeat constructor. discriminate.
  - left. reflexivity.
  - cbn. tauto.
  - reflexivity.
Qed.
Example sector_undefined debug :
  integrate debug Polar (volume_form Polar) [(0%nat, vec2 1 0); (1%nat, vec2 2 0); (2%nat, vec2 1 (PI / 2))]
    triangle_1 [(7, [0; 1; 2])]%nat (fun _ => 1) = Ub.
Proof.
  apply C69_other_coordinates_refuted; [left; reflexivity|]. eexists. cbn. repeat constructor.
Qed.

Print Assumptions C50_meshes.
Print Assumptions C50_meshes_decimal.
Print Assumptions C60_value.
Print Assumptions C60_linear.
Print Assumptions C60_defined.
Print Assumptions C60_additive.
Print Assumptions C60_order.
Print Assumptions C60_constant.
Print Assumptions C60_cellwise.
Print Assumptions C60_monotone.
Print Assumptions C60_orientation.
Print Assumptions C69_local_partial.
Print Assumptions C60_missing.
Print Assumptions C60_debug.
Print Assumptions C69_other_coordinates_refuted.
