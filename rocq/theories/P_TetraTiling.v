(* The children of a refined simplex tile it: each is in it, they cover it, their interiors are
   disjoint, and they have the same oriented volume. *)
From Coq Require Import Reals Lra Lia List Psatz.
From Verif Require Import Base M_Tensor M_Geometry S_Geometry P_TetraGeometry P_Volume.
Import ListNotations.
Open Scope R_scope.

(* the corners of a simplex in its own barycentric coordinates *)
Definition unit (k : nat) : vec := fun i => if Nat.eqb i k then 1 else 0.
Definition units (N : nat) : list vec := map unit (seq 0 (S N)).

Ltac orders N := destruct N as [|[|[|[|]]]]; try lia.
Ltac corners ps L :=
  repeat match goal with
  | H : length ?l = S _ |- _ => is_var l; destruct l as [|? l]; cbn [length] in H; [discriminate H|injection H as H]
  | H : length ?l = 0%nat |- _ => is_var l; destruct l; [clear H|discriminate H]
  end.
Ltac indices k := repeat (destruct k as [|k]; cbn [nth_error] in *; try discriminate).
Ltac values := repeat match goal with H : Some _ = Some _ |- _ => injection H as H; subst end.

(* the weights of a point in a child, in terms of the corners of the parent *)
Definition parent_weights (N : nat) (U : list vec) (ws : list R) : list R :=
  map (combo ws U) (seq 0 (S N)).

Lemma kids_length N last ps : (1 <= N <= 3)%nat -> length ps = S N ->
  length (kids N last ps) = (2 ^ N)%nat /\ Forall (fun qs => length qs = S N) (kids N last ps).
Proof.
  intros HN L. orders N; corners ps L; destruct last; cbn; split; auto; repeat constructor.
Qed.

Lemma parent_weights_ok N last ps qs U k ws i :
  (1 <= N <= 3)%nat -> length ps = S N ->
  nth_error (kids N last ps) k = Some qs -> nth_error (kids N last (units N)) k = Some U ->
  length ws = S N -> combo (parent_weights N U ws) ps i = combo ws qs i.
Proof.
  intros HN L Hq HU Lw. orders N; corners ps L; destruct last; cbn in Hq, HU; indices k; values;
    unfold parent_weights, combo, avg, unit; cbn; field.
Qed.

Ltac entries := repeat (apply (f_equal2 (@cons R)); [lra|]); reflexivity.

Lemma units_combo N ws : (1 <= N <= 3)%nat -> length ws = S N -> map (combo ws (units N)) (seq 0 (S N)) = ws.
Proof.
  intros HN L. orders N; corners ws L; unfold combo, units, unit; cbn; entries.
Qed.

Lemma kids_nth N last ps ps' k qs :
  (1 <= N <= 3)%nat -> length ps = S N -> length ps' = S N -> nth_error (kids N last ps) k = Some qs ->
  exists qs', nth_error (kids N last ps') k = Some qs'.
Proof.
  intros HN L L' H. destruct (nth_error (kids N last ps') k) as [qs'|] eqn:E; [eauto|].
  apply nth_error_None in E. destruct (kids_length N last ps' HN L') as [E' _].
  assert (k < length (kids N last ps))%nat by (apply nth_error_Some; congruence).
  destruct (kids_length N last ps HN L) as [E'' _]. lia.
Qed.

Lemma parent_weights_length N U ws : length (parent_weights N U ws) = S N.
Proof. unfold parent_weights. rewrite map_length, seq_length. reflexivity. Qed.

Lemma parent_weights_sum N last U k ws :
  (1 <= N <= 3)%nat -> nth_error (kids N last (units N)) k = Some U -> length ws = S N ->
  total (parent_weights N U ws) = total ws.
Proof.
  intros HN HU Lw. orders N; corners ps L; destruct last; cbn in HU; indices k; values;
    unfold parent_weights, combo, avg, unit; cbn; field.
Qed.

Ltac signs := repeat (apply Forall_cons; [lra|]); apply Forall_nil.
Ltac positive :=
  repeat match goal with H : Forall _ (_ :: _) |- _ => inversion H; subst; clear H end.

Lemma parent_weights_nonneg N last U k ws :
  (1 <= N <= 3)%nat -> nth_error (kids N last (units N)) k = Some U -> length ws = S N ->
  Forall (fun a => 0 <= a) ws -> Forall (fun a => 0 <= a) (parent_weights N U ws).
Proof.
  intros HN HU Lw Hw. orders N; corners ps L; positive; destruct last; cbn in HU; indices k; values;
    unfold parent_weights, combo, avg, unit; cbn; signs.
Qed.
Lemma parent_weights_pos N last U k ws :
  (1 <= N <= 3)%nat -> nth_error (kids N last (units N)) k = Some U -> length ws = S N ->
  Forall (fun a => 0 < a) ws -> Forall (fun a => 0 < a) (parent_weights N U ws).
Proof.
  intros HN HU Lw Hw. orders N; corners ps L; positive; destruct last; cbn in HU; indices k; values;
    unfold parent_weights, combo, avg, unit; cbn; signs.
Qed.

(* the weights in a child are determined by those in the parent *)
Lemma parent_weights_zero N last U k ws :
  (1 <= N <= 3)%nat -> nth_error (kids N last (units N)) k = Some U -> length ws = S N ->
  Forall (fun a => a = 0) (parent_weights N U ws) -> Forall (fun a => a = 0) ws.
Proof.
  intros HN HU Lw. orders N; corners ps L; destruct last; cbn in HU; indices k; values;
    unfold parent_weights, combo, avg, unit; cbn; intros Hz; positive; signs.
Qed.

(* no point is off the faces of two children *)
Lemma parent_weights_disjoint N last U U' k k' ws ws' :
  (1 <= N <= 3)%nat -> nth_error (kids N last (units N)) k = Some U ->
  nth_error (kids N last (units N)) k' = Some U' -> length ws = S N -> length ws' = S N ->
  Forall (fun a => 0 < a) ws -> Forall (fun a => 0 < a) ws' ->
  parent_weights N U ws = parent_weights N U' ws' -> k = k'.
Proof.
  intros HN HU HU' Lw Lw' Hw Hw' E. destruct (PeanoNat.Nat.eq_dec k k') as [|Hk]; [assumption|exfalso].
  revert E. orders N; corners ps L; positive; destruct last; cbn in HU, HU'; indices k; indices k';
    try lia; values;
    unfold parent_weights, combo, avg, unit; cbn; intros E; injection E; intros; lra.
Qed.

(* every point is in some child *)
Ltac child last k l :=
  exists k; eexists _, l; split; [first [reflexivity|destruct last; reflexivity]|split; [reflexivity|]];
  unfold parent_weights, combo, avg, unit; cbn; split; [signs|entries].
Lemma parent_weights_cover N last vs :
  (1 <= N <= 3)%nat -> length vs = S N -> Forall (fun a => 0 <= a) vs -> total vs = 1 ->
  exists k U ws, nth_error (kids N last (units N)) k = Some U /\ length ws = S N /\
    Forall (fun a => 0 <= a) ws /\ parent_weights N U ws = vs.
Proof.
  intros HN L Hv Ht. orders N; corners vs L; positive; cbn in Ht.
  - destruct (Rle_lt_dec r0 r).
    + child last 0%nat [r - r0; 2 * r0].
    + child last 1%nat [2 * r; r0 - r].
  - destruct (Rle_lt_dec (1 / 2) r); [child last 0%nat [r - r0 - r1; 2 * r0; 2 * r1]|].
    destruct (Rle_lt_dec (1 / 2) r0); [child last 1%nat [2 * r; r0 - r - r1; 2 * r1]|].
    destruct (Rle_lt_dec (1 / 2) r1); [child last 2%nat [2 * r0; r1 - r - r0; 2 * r]|].
    child last 3%nat [1 - 2 * r0; 1 - 2 * r1; 1 - 2 * r].
  - destruct (Rle_lt_dec (1 / 2) r); [child last 0%nat [2 * r - 1; 2 * r0; 2 * r1; 2 * r2]|].
    destruct (Rle_lt_dec (1 / 2) r0); [child last 1%nat [2 * r0 - 1; 2 * r; 2 * r2; 2 * r1]|].
    destruct (Rle_lt_dec (1 / 2) r1); [child last 2%nat [2 * r1 - 1; 2 * r; 2 * r0; 2 * r2]|].
    destruct (Rle_lt_dec (1 / 2) r2).
    { destruct last; [child true 3%nat [2 * r2 - 1; 2 * r0; 2 * r; 2 * r1]
                     |child false 3%nat [2 * r; 2 * r2 - 1; 2 * r0; 2 * r1]]. }
    destruct (Rle_lt_dec (r1 + r2) (r + r0)), (Rle_lt_dec (r0 + r1) (r + r2)).
    + child last 4%nat [2 * r1; r - r1 + r0 - r2; 1 - 2 * r; r - r1 - r0 + r2].
    + destruct last; [child true 6%nat [1 - 2 * r0; 2 * r2; r - r1 - r2 + r0; r1 + r0 - r - r2]
                     |child false 6%nat [r - r1 - r2 + r0; 1 - 2 * r0; 2 * r2; r1 + r0 - r - r2]].
    + child last 5%nat [1 - 2 * r2; r - r1 + r2 - r0; 2 * r0; r1 - r + r2 - r0].
    + child last 7%nat [2 * r; r2 - r - r0 + r1; 1 - 2 * r1; r0 - r + r1 - r2].
Qed.

(* ---- one level ---- *)

Lemma units_length N : length (units N) = S N.
Proof. unfold units. rewrite map_length, seq_length. reflexivity. Qed.

Lemma kid_inside N last ps qs D q :
  (1 <= N <= 3)%nat -> length ps = S N -> In qs (kids N last ps) -> inside D qs q -> inside D ps q.
Proof.
  intros HN L Hin (ws & Lw & Hw & Ht & Hq). apply In_nth_error in Hin as (k & Hk).
  destruct (kids_nth N last ps (units N) k qs HN L (units_length N) Hk) as (U & HU).
  assert (Lq : length ws = S N).
  { rewrite Lw. destruct (kids_length N last ps HN L) as [_ F]. rewrite Forall_forall in F.
    apply F. eapply nth_error_In, Hk. }
  exists (parent_weights N U ws). split; [rewrite L; apply parent_weights_length|].
  split; [eapply parent_weights_nonneg; eauto|]. split; [erewrite parent_weights_sum; eauto|].
  intros i Hi. rewrite (Hq i Hi). symmetry. eapply parent_weights_ok; eauto.
Qed.

Lemma kid_interior N last ps qs D q :
  (1 <= N <= 3)%nat -> length ps = S N -> In qs (kids N last ps) -> interior D qs q ->
  interior D ps q.
Proof.
  intros HN L Hin (ws & Lw & Hw & Ht & Hq). apply In_nth_error in Hin as (k & Hk).
  destruct (kids_nth N last ps (units N) k qs HN L (units_length N) Hk) as (U & HU).
  assert (Lq : length ws = S N).
  { rewrite Lw. destruct (kids_length N last ps HN L) as [_ F]. rewrite Forall_forall in F.
    apply F. eapply nth_error_In, Hk. }
  exists (parent_weights N U ws). split; [rewrite L; apply parent_weights_length|].
  split; [eapply parent_weights_pos; eauto|]. split; [erewrite parent_weights_sum; eauto|].
  intros i Hi. rewrite (Hq i Hi). symmetry. eapply parent_weights_ok; eauto.
Qed.

Lemma kid_independent N last ps qs D :
  (1 <= N <= 3)%nat -> length ps = S N -> In qs (kids N last ps) -> independent D ps ->
  independent D qs.
Proof.
  intros HN L Hin Hps ws Lw Ht Hz. apply In_nth_error in Hin as (k & Hk).
  destruct (kids_nth N last ps (units N) k qs HN L (units_length N) Hk) as (U & HU).
  assert (Lq : length ws = S N).
  { rewrite Lw. destruct (kids_length N last ps HN L) as [_ F]. rewrite Forall_forall in F.
    apply F. eapply nth_error_In, Hk. }
  eapply (parent_weights_zero N last U k); eauto. apply Hps.
  - rewrite L. apply parent_weights_length.
  - erewrite parent_weights_sum; eauto.
  - intros i Hi. erewrite parent_weights_ok; eauto.
Qed.

Lemma kid_cover N last ps D q :
  (1 <= N <= 3)%nat -> length ps = S N -> inside D ps q ->
  exists qs, In qs (kids N last ps) /\ inside D qs q.
Proof.
  intros HN L (vs & Lv & Hv & Ht & Hq).
  destruct (parent_weights_cover N last vs HN ltac:(congruence) Hv Ht) as (k & U & ws & HU & Lw & Hw & E).
  destruct (kids_nth N last (units N) ps k U HN (units_length N) L HU) as (qs & Hk).
  exists qs. split; [eapply nth_error_In, Hk|]. exists ws. split; [|split; [exact Hw|split]].
  - destruct (kids_length N last ps HN L) as [_ F]. rewrite Forall_forall in F.
    rewrite Lw. symmetry. apply F. eapply nth_error_In, Hk.
  - rewrite <- Ht, <- E. symmetry. eapply parent_weights_sum; eauto.
  - intros i Hi. rewrite (Hq i Hi), <- E. eapply parent_weights_ok; eauto.
Qed.

Lemma combo_sub vs vs' ps i :
  length vs = length ps -> length vs' = length ps ->
  combo (map (fun p => fst p - snd p) (combine vs vs')) ps i = combo vs ps i - combo vs' ps i.
Proof.
  revert vs vs'. induction ps as [|p ps IH]; intros [|v vs] [|v' vs'] L L'; try discriminate; cbn.
  - unfold combo. cbn. ring.
  - unfold combo in *. cbn. rewrite IH by (cbn in *; lia). ring.
Qed.
Lemma total_sub vs vs' :
  length vs = length vs' ->
  total (map (fun p => fst p - snd p) (combine vs vs')) = total vs - total vs'.
Proof.
  revert vs'. induction vs as [|v vs IH]; intros [|v' vs'] L; try discriminate; cbn; [ring|].
  unfold total in *. rewrite IH by (cbn in *; lia). ring.
Qed.
Lemma zero_diff vs vs' :
  length vs = length vs' ->
  Forall (fun a => a = 0) (map (fun p => fst p - snd p) (combine vs vs')) -> vs = vs'.
Proof.
  revert vs'. induction vs as [|v vs IH]; intros [|v' vs'] L F; try discriminate; [reflexivity|].
  cbn in F. inversion F; subst. f_equal; [lra|]. apply IH; [cbn in L; lia|assumption].
Qed.

Lemma kid_disjoint N last ps D k k' qs qs' q :
  (1 <= N <= 3)%nat -> length ps = S N -> independent D ps ->
  nth_error (kids N last ps) k = Some qs -> nth_error (kids N last ps) k' = Some qs' ->
  interior D qs q -> interior D qs' q -> k = k'.
Proof.
  intros HN L Hind Hk Hk' (ws & Lw & Hw & Ht & Hq) (ws' & Lw' & Hw' & Ht' & Hq').
  destruct (kids_nth N last ps (units N) k qs HN L (units_length N) Hk) as (U & HU).
  destruct (kids_nth N last ps (units N) k' qs' HN L (units_length N) Hk') as (U' & HU').
  destruct (kids_length N last ps HN L) as [_ F]. rewrite Forall_forall in F.
  assert (Lq : length ws = S N) by (rewrite Lw; eapply F, nth_error_In, Hk).
  assert (Lq' : length ws' = S N) by (rewrite Lw'; eapply F, nth_error_In, Hk').
  pose proof (parent_weights_length N U ws) as P1. pose proof (parent_weights_length N U' ws') as P2.
  apply (parent_weights_disjoint N last U U' k k' ws ws'); auto.
  apply zero_diff; [congruence|]. apply Hind.
  - rewrite map_length, combine_length. lia.
  - rewrite total_sub by congruence. erewrite !parent_weights_sum by eauto. lra.
  - intros i Hi. rewrite combo_sub by congruence.
    erewrite (parent_weights_ok N last ps qs U k), (parent_weights_ok N last ps qs' U' k') by eauto.
    rewrite <- Hq, <- Hq' by assumption. ring.
Qed.

Lemma kid_volume N last ps qs :
  (1 <= N <= 3)%nat -> length ps = S N -> In qs (kids N last ps) ->
  simplex_volume qs = simplex_volume ps / 2 ^ N.
Proof.
  intros HN L Hin. orders N; corners ps L; destruct last; cbn [kids In] in Hin;
    repeat destruct Hin as [<-|Hin]; try destruct Hin;
    unfold simplex_volume, avg, vsub; cbn; field.
Qed.

(* ---- all levels ---- *)

Lemma refine_length N n : (1 <= N <= 3)%nat -> forall ps, length ps = S N ->
  length (refine N n ps) = (2 ^ (N * n))%nat /\ Forall (fun qs => length qs = S N) (refine N n ps).
Proof.
  intros HN. induction n as [|n IH]; intros ps L; cbn [refine].
  - rewrite PeanoNat.Nat.mul_0_r. split; [reflexivity|]. repeat constructor. exact L.
  - destruct (kids_length N (Nat.eqb n 0) ps HN L) as [Lk F].
    assert (Hgen : forall l, Forall (fun qs => length qs = S N) l ->
      length (concat (map (refine N n) l)) = (length l * 2 ^ (N * n))%nat /\
      Forall (fun qs => length qs = S N) (concat (map (refine N n) l))).
    { induction 1 as [|qs l Hqs _ [IHl IHf]]; cbn; [split; auto|].
      destruct (IH qs Hqs) as [E1 E2]. rewrite app_length, IHl, E1.
      split; [lia|]. apply Forall_app. split; assumption. }
    destruct (Hgen _ F) as [E1 E2]. split; [|exact E2].
    rewrite E1, Lk, <- PeanoNat.Nat.pow_add_r. f_equal. lia.
Qed.

Lemma refine_S N n ps qs :
  In qs (refine N (S n) ps) <-> exists c, In c (kids N (Nat.eqb n 0) ps) /\ In qs (refine N n c).
Proof.
  cbn [refine]. rewrite in_concat. split.
  - intros (l & (c & <- & Hc)%in_map_iff & Hq). eauto.
  - intros (c & Hc & Hq). exists (refine N n c). split; [apply in_map, Hc|exact Hq].
Qed.

Lemma kids_in_length N last ps c : (1 <= N <= 3)%nat -> length ps = S N -> In c (kids N last ps) ->
  length c = S N.
Proof.
  intros HN L Hc. destruct (kids_length N last ps HN L) as [_ F]. rewrite Forall_forall in F. auto.
Qed.

Lemma refine_volume N n : (1 <= N <= 3)%nat -> forall ps qs, length ps = S N -> In qs (refine N n ps) ->
  simplex_volume qs = simplex_volume ps / 2 ^ (N * n).
Proof.
  intros HN. induction n as [|n IH]; intros ps qs L Hin.
  - destruct Hin as [<-|[]]. rewrite PeanoNat.Nat.mul_0_r. cbn. field.
  - apply refine_S in Hin as (c & Hc & Hq).
    rewrite (IH c qs (kids_in_length _ _ _ _ HN L Hc) Hq), (kid_volume N (Nat.eqb n 0) ps c) by assumption.
    rewrite PeanoNat.Nat.mul_succ_r, Rdef_pow_add. field. split; apply pow_nonzero; lra.
Qed.

Lemma refine_inside N n : (1 <= N <= 3)%nat -> forall ps D q, length ps = S N ->
  inside D ps q <-> exists qs, In qs (refine N n ps) /\ inside D qs q.
Proof.
  intros HN. induction n as [|n IH]; intros ps D q L.
  - split; [intros H; exists ps; split; [left; reflexivity|exact H]|].
    intros (qs & [<-|[]] & H). exact H.
  - split.
    + intros H. destruct (kid_cover N (Nat.eqb n 0) ps D q HN L H) as (c & Hc & Hq).
      apply (IH c D q (kids_in_length _ _ _ _ HN L Hc)) in Hq as (qs & Hin & Hq).
      exists qs. split; [|exact Hq]. apply refine_S. eauto.
    + intros (qs & Hin & Hq). apply refine_S in Hin as (c & Hc & Hin).
      eapply (kid_inside N (Nat.eqb n 0)); eauto.
      apply (IH c D q (kids_in_length _ _ _ _ HN L Hc)). eauto.
Qed.

Lemma refine_interior N n : (1 <= N <= 3)%nat -> forall ps D q qs, length ps = S N ->
  In qs (refine N n ps) -> interior D qs q -> interior D ps q.
Proof.
  intros HN. induction n as [|n IH]; intros ps D q qs L Hin Hq.
  - destruct Hin as [<-|[]]. exact Hq.
  - apply refine_S in Hin as (c & Hc & Hin).
    eapply (kid_interior N (Nat.eqb n 0)); eauto. eapply IH; eauto. eapply kids_in_length; eauto.
Qed.

Lemma nth_error_concat {A} (ls : list (list A)) m : (forall l, In l ls -> length l = m) -> (0 < m)%nat ->
  forall k x, nth_error (concat ls) k = Some x ->
  exists l, nth_error ls (k / m) = Some l /\ nth_error l (k mod m) = Some x.
Proof.
  intros Hl Hm. induction ls as [|l ls IH]; intros k x Hk; [destruct k; discriminate|].
  cbn in Hk. pose proof (Hl l (or_introl eq_refl)) as L.
  destruct (PeanoNat.Nat.lt_ge_cases k m) as [Hlt|Hge].
  - rewrite nth_error_app1 in Hk by lia. exists l.
    rewrite PeanoNat.Nat.div_small, PeanoNat.Nat.mod_small by lia. auto.
  - rewrite nth_error_app2 in Hk by lia. rewrite L in Hk.
    destruct (IH (fun l H => Hl l (or_intror H)) (k - m)%nat x Hk) as (l' & H1 & H2).
    exists l'. replace k with ((k - m) + 1 * m)%nat by lia.
    rewrite PeanoNat.Nat.div_add, PeanoNat.Nat.mod_add by lia.
    rewrite PeanoNat.Nat.add_1_r. auto.
Qed.

Lemma refine_disjoint N n : (1 <= N <= 3)%nat -> forall ps D k k' qs qs' q, length ps = S N ->
  independent D ps -> nth_error (refine N n ps) k = Some qs -> nth_error (refine N n ps) k' = Some qs' ->
  interior D qs q -> interior D qs' q -> k = k'.
Proof.
  intros HN. induction n as [|n IH]; intros ps D k k' qs qs' q L Hind Hk Hk' Hq Hq'.
  - cbn in Hk, Hk'. destruct k as [|[|]], k' as [|[|]]; try discriminate. reflexivity.
  - cbn [refine] in Hk, Hk'. set (m := (2 ^ (N * n))%nat).
    assert (Hm : (0 < m)%nat) by (unfold m; apply PeanoNat.Nat.neq_0_lt_0, PeanoNat.Nat.pow_nonzero; lia).
    assert (Hl : forall l, In l (map (refine N n) (kids N (Nat.eqb n 0) ps)) -> length l = m).
    { intros l (c & <- & Hc)%in_map_iff. apply (refine_length N n HN).
      eapply kids_in_length; eauto. }
    apply (nth_error_concat _ m Hl Hm) in Hk as (l & H1 & H2).
    apply (nth_error_concat _ m Hl Hm) in Hk' as (l' & H1' & H2').
    rewrite nth_error_map in H1, H1'.
    destruct (nth_error (kids N (Nat.eqb n 0) ps) (k / m)) as [c|] eqn:Ec; [|discriminate].
    destruct (nth_error (kids N (Nat.eqb n 0) ps) (k' / m)) as [c'|] eqn:Ec'; [|discriminate].
    cbn in H1, H1'. injection H1 as <-. injection H1' as <-.
    pose proof (nth_error_In _ _ Ec) as Hc. pose proof (nth_error_In _ _ Ec') as Hc'.
    pose proof (kids_in_length _ _ _ _ HN L Hc) as Lc. pose proof (kids_in_length _ _ _ _ HN L Hc') as Lc'.
    assert (E : (k / m = k' / m)%nat).
    { eapply (kid_disjoint N (Nat.eqb n 0) ps D _ _ c c' q); eauto.
      - exact (refine_interior N n HN c D q qs Lc (nth_error_In _ _ H2) Hq).
      - exact (refine_interior N n HN c' D q qs' Lc' (nth_error_In _ _ H2') Hq'). }
    assert (c = c') as <- by congruence.
    assert (E' : (k mod m = k' mod m)%nat).
    { exact (IH c D _ _ qs qs' q Lc (kid_independent _ _ _ _ _ HN L Hc Hind) H2 H2' Hq Hq'). }
    rewrite (PeanoNat.Nat.div_mod_eq k m), (PeanoNat.Nat.div_mod_eq k' m). congruence.
Qed.

Lemma refine_side N n c d : forall ps qs, In qs (refine N n ps) -> Forall (on c d) ps -> Forall (on c d) qs.
Proof.
  induction n as [|n IH]; intros ps qs Hin Hon.
  - destruct Hin as [<-|[]]. exact Hon.
  - apply refine_S in Hin as (ch & Hc & Hin). apply (IH ch qs Hin). clear Hin IH.
    unfold kids in Hc. destruct N as [|[|[|[|]]]]; try (destruct Hc; fail);
      repeat (destruct ps as [|? ps]; try (destruct Hc; fail));
      repeat match goal with H : Forall _ (_ :: _) |- _ => inversion H; subst; clear H end;
      cbn [In] in Hc; destruct (Nat.eqb n 0);
      repeat destruct Hc as [<-|Hc]; try destruct Hc;
      repeat (apply Forall_cons; [first [assumption|apply on_avg; assumption]|]); apply Forall_nil.
Qed.

(* the corners remain, and the midpoints of the edges are corners of the first children *)
Lemma kid_corner N last ps p :
  (1 <= N <= 3)%nat -> length ps = S N -> In p ps -> exists qs, In qs (kids N last ps) /\ In p qs.
Proof.
  intros HN L Hin. orders N; corners ps L; destruct last; cbn [kids In] in *;
    repeat destruct Hin as [<-|Hin]; try destruct Hin;
    solve [eexists; split; [left; reflexivity|cbn; tauto]
          |eexists; split; [right; left; reflexivity|cbn; tauto]
          |eexists; split; [right; right; left; reflexivity|cbn; tauto]
          |eexists; split; [right; right; right; left; reflexivity|cbn; tauto]].
Qed.
Lemma refine_corner N n : (1 <= N <= 3)%nat -> forall ps p, length ps = S N -> In p ps ->
  exists qs, In qs (refine N n ps) /\ In p qs.
Proof.
  intros HN. induction n as [|n IH]; intros ps p L Hin.
  - exists ps. split; [left; reflexivity|exact Hin].
  - destruct (kid_corner N (Nat.eqb n 0) ps p HN L Hin) as (c & Hc & Hp).
    destruct (IH c p (kids_in_length _ _ _ _ HN L Hc) Hp) as (qs & Hq & Hpq).
    exists qs. split; [apply refine_S; eauto|exact Hpq].
Qed.
Lemma avg_comm p q i : avg p q i = avg q p i.
Proof. unfold avg. lra. Qed.
Ltac exists_child r p q :=
  eexists _, r;
  let t := (split; [cbn [In]; tauto|intros; first [reflexivity|apply avg_comm]]) in
  solve [split; [left; reflexivity|t] | split; [right; left; reflexivity|t]
        |split; [right; right; left; reflexivity|t]|split; [right; right; right; left; reflexivity|t]].
Lemma kid_mid N last ps i j p q :
  (1 <= N <= 3)%nat -> length ps = S N -> nth_error ps i = Some p -> nth_error ps j = Some q -> i <> j ->
  exists qs r, In qs (kids N last ps) /\ In r qs /\ forall k, r k = avg p q k.
Proof.
  intros HN L Hp Hq Hij. orders N; corners ps L; destruct last; indices i; indices j; try lia; values;
    cbn [kids];
    match goal with |- exists _ _, _ /\ _ /\ forall k, _ = avg ?p ?q k =>
      first [ (* the midpoint as it is written *)
        exists_child (avg p q) p q | exists_child (avg q p) p q ] end.
Qed.
Lemma refine_mid N n ps i j p q :
  (1 <= N <= 3)%nat -> length ps = S N -> nth_error ps i = Some p -> nth_error ps j = Some q -> i <> j ->
  exists qs r, In qs (refine N (S n) ps) /\ In r qs /\ forall k, r k = avg p q k.
Proof.
  intros HN L Hp Hq Hij.
  destruct (kid_mid N (Nat.eqb n 0) ps i j p q HN L Hp Hq Hij) as (c & r & Hc & Hr & E).
  destruct (refine_corner N n HN c r (kids_in_length _ _ _ _ HN L Hc) Hr) as (qs & Hqs & Hrq).
  exists qs, r. split; [apply refine_S; eauto|auto].
Qed.

(* ---- volumes ---- *)

Lemma cell_volume_at c cs cell xs ps :
  supported c -> length cell = S (dim c) -> placed cs cell xs -> Forall (proper c) xs ->
  Forall2 (fun x p => same (dim c) (position c x) p) xs ps ->
  cell_volume c (volume_form c) cs cell = Ok (simplex_volume ps).
Proof.
  intros Hc L HP Hpr HF.
  assert (Lx : length xs = S (dim c)) by (rewrite <- L; clear - HP; induction HP; cbn; congruence).
  assert (HD : (1 <= dim c <= 3)%nat) by (destruct c; cbn in *; lia).
  destruct xs as [|x0 xs]; [discriminate|].
  rewrite (cell_volume_simplex c cs cell xs x0); auto.
  - f_equal. apply (simplex_volume_same (dim c)); [exact HD|rewrite map_length; exact Lx|].
    clear - HF. induction HF; cbn; constructor; auto.
  - inversion Hpr; auto.
Qed.

Lemma total_app l l' : total (l ++ l') = total l + total l'.
Proof. unfold total. induction l as [|a l IH]; cbn; [ring|]. rewrite IH. ring. Qed.
Lemma total_repeat v k : total (repeat v k) = INR k * v.
Proof. induction k as [|k IH]; [cbn; ring|]. rewrite S_INR. cbn [repeat total fold_right] in *. fold (total (repeat v k)). rewrite IH. ring. Qed.
Lemma total_split vs k :
  total (concat (map (fun v => repeat (v / 2 ^ k) (2 ^ k)) vs)) = total vs.
Proof.
  induction vs as [|v vs IH]; [reflexivity|]. cbn [map concat]. rewrite total_app, IH, total_repeat.
  cbn [total fold_right]. fold (total vs). rewrite pow_INR. cbn [INR]. change (1 + 1) with 2. field. apply pow_nonzero. lra.
Qed.

(* the midpoint of an edge of a proper simplex is not a corner *)
Lemma mid_not_corner N ps D i j k p q r :
  (1 <= N <= 3)%nat -> length ps = S N -> independent D ps ->
  nth_error ps i = Some p -> nth_error ps j = Some q -> nth_error ps k = Some r -> i <> j ->
  same D r (avg p q) -> False.
Proof.
  intros HN L Hind Hi Hj Hk Hij Hs.
  set (ws := map (fun t => (if Nat.eqb t k then 1 else 0) - (if Nat.eqb t i then / 2 else 0)
                           - (if Nat.eqb t j then / 2 else 0)) (seq 0 (S N))).
  assert (Hz : Forall (fun a => a = 0) ws).
  { apply Hind.
    - unfold ws. rewrite map_length, seq_length. auto.
    - unfold ws, total. clear Hind Hs ws. orders N; corners ps L; indices i; indices j; indices k; try lia; cbn; lra.
    - intros t Ht. pose proof (Hs t Ht) as E. unfold avg in E. unfold ws, combo. clear Hind Hs ws.
      orders N; corners ps L; indices i; indices j; indices k; try lia; values; cbn; lra. }
  unfold ws in Hz. clear Hind Hs ws.
  orders N; corners ps L; indices i; indices j; indices k; try lia; cbn in Hz; positive; lra.
Qed.
