(* Proofs about coordinate systems, midpoints, barycenters and volumes. *)
From Coq Require Import Reals Lra Lia List Permutation.
From Verif Require Import Base M_Tensor S_Tensor P_Tensor M_Geometry S_Geometry P_Atan2 P_Geometry
  P_Metric.
Import ListNotations.
Open Scope R_scope.

(* ------------------------------------------------------------------------------------------- *)
(* The map of a coordinate system. *)

Lemma find_app p cs cs' :
  find_point p (cs ++ cs')
  = match find_point p cs with Some x => Some x | None => find_point p cs' end.
Proof.
  induction cs as [|[q x] cs IH]; cbn; [reflexivity|]. destruct (Nat.eqb q p); auto.
Qed.

Lemma find_place p q x cs :
  find_point p (fst (place cs q x))
  = match find_point p cs with
    | Some y => Some y
    | None => if Nat.eqb q p then Some x else None
    end.
Proof.
  unfold place. destruct (find_point q cs) as [y|] eqn:E; cbn [fst].
  - destruct (find_point p cs) as [z|] eqn:E'; [reflexivity|].
    destruct (Nat.eqb_spec q p) as [->|N]; congruence.
  - rewrite find_app. cbn. reflexivity.
Qed.

Lemma find_placements_from p history cs :
  find_point p (fold_left (fun cs entry => fst (place cs (fst entry) (snd entry))) history cs)
  = match find_point p cs with
    | Some y => Some y
    | None => first_placed p history
    end.
Proof.
  revert cs; induction history as [|[q x] history IH]; intros cs; cbn [fold_left fst snd].
  - destruct (find_point p cs); reflexivity.
  - rewrite IH, find_place. destruct (find_point p cs); [reflexivity|].
    unfold first_placed. cbn. destruct (Nat.eqb q p); reflexivity.
Qed.

Lemma find_placements p history : find_point p (placements history) = first_placed p history.
Proof. unfold placements. rewrite find_placements_from. reflexivity. Qed.

Lemma find_none_in p cs : find_point p cs = None <-> ~ In p (map fst cs).
Proof.
  induction cs as [|[q x] cs IH]; cbn; [tauto|].
  destruct (Nat.eqb_spec q p) as [->|N]; [|tauto].
  split; [discriminate|tauto].
Qed.

Lemma place_nodup cs p x : NoDup (map fst cs) -> NoDup (map fst (fst (place cs p x))).
Proof.
  intros H. unfold place. destruct (find_point p cs) eqn:E; cbn [fst]; [exact H|].
  apply find_none_in in E. rewrite map_app. cbn.
  apply NoDup_Add with (a := p) (l := map fst cs).
  - rewrite <- (app_nil_r (map fst cs)) at 1. apply Add_app.
  - split; assumption.
Qed.

Lemma placements_nodup history : NoDup (map fst (placements history)).
Proof.
  unfold placements. assert (H : NoDup (map fst csys_empty)) by constructor. revert H.
  generalize csys_empty. induction history as [|[q x] history IH]; intros cs H; cbn; [exact H|].
  apply IH, place_nodup, H.
Qed.

Lemma find_in cs p x : NoDup (map fst cs) -> find_point p cs = Some x <-> In (p, x) cs.
Proof.
  induction cs as [|[q y] cs IH]; cbn [map fst find_point In].
  - intros _. split; [discriminate|tauto].
  - intros H. inversion H as [|? ? Hq Hn]; subst. destruct (Nat.eqb_spec q p) as [->|N].
    + split.
      * intros [= ->]. left. reflexivity.
      * intros [E|Hin]; [congruence|]. exfalso. apply Hq. apply (in_map fst) in Hin. exact Hin.
    + rewrite IH by exact Hn. split; [tauto|]. intros [E|Hin]; [congruence|exact Hin].
Qed.

Lemma place_all_spec T entries cs :
  NoDup (map fst entries) ->
  (forall p, In p (map fst entries) -> find_point p cs = None) ->
  exists cs', place_all T entries cs = (cs', true) /\
    forall p, find_point p cs'
      = match find_point p cs with
        | Some y => Some y
        | None => option_map T (find_point p entries)
        end.
Proof.
  revert cs; induction entries as [|[q x] entries IH]; intros cs Hn Hf; cbn [place_all].
  - exists cs. split; [reflexivity|]. intros p. cbn. destruct (find_point p cs); reflexivity.
  - inversion Hn as [|? ? Hq Hn']; subst.
    assert (Eq : place cs q (T x) = (cs ++ [(q, T x)], true)).
    { unfold place. rewrite (Hf q); [reflexivity|]. cbn. auto. }
    rewrite Eq. destruct (IH (cs ++ [(q, T x)]) Hn') as (cs' & E & H).
    { intros p Hp. rewrite find_app, Hf by (cbn; auto). cbn.
      destruct (Nat.eqb_spec q p) as [->|N]; [contradiction|reflexivity]. }
    exists cs'. split; [exact E|]. intros p. rewrite H, find_app. cbn.
    destruct (find_point p cs); [reflexivity|]. destruct (Nat.eqb q p); reflexivity.
Qed.

Lemma find_permutation cs entries p :
  NoDup (map fst cs) -> Permutation cs entries -> find_point p entries = find_point p cs.
Proof.
  intros Hn HP. assert (Hn' : NoDup (map fst entries)).
  { eapply Permutation_NoDup; [|exact Hn]. apply Permutation_map, HP. }
  destruct (find_point p cs) as [x|] eqn:E.
  - apply find_in; [exact Hn'|]. eapply Permutation_in; [exact HP|]. apply find_in; assumption.
  - destruct (find_point p entries) as [x|] eqn:E'; [|reflexivity].
    apply find_in in E'; [|exact Hn'].
    eapply Permutation_in in E'; [|apply Permutation_sym, HP].
    apply find_in in E'; [congruence|exact Hn].
Qed.

Lemma all_coordinates_ok cs cell xs : placed cs cell xs -> all_coordinates cs cell = Ok xs.
Proof.
  induction 1 as [|p x cell xs H HF IH]; cbn; [reflexivity|].
  unfold coordinates. rewrite H. cbn. rewrite IH. reflexivity.
Qed.

(* ------------------------------------------------------------------------------------------- *)
(* Distances, midpoints, barycenters. *)

Lemma dot_same D u v u' v' : same D u u' -> same D v v' -> dot D u v = dot D u' v'.
Proof.
  unfold dot. induction D as [|D IH]; intros Hu Hv; cbn; [reflexivity|].
  rewrite IH by (intros i Hi; first [apply Hu; lia|apply Hv; lia]).
  rewrite (Hu D), (Hv D) by lia. reflexivity.
Qed.

Lemma distance_euclid c xA xB :
  regular c xB -> distance c xA xB = euclid (dim c) (position c xA) (position c xB).
Proof.
  intros H. unfold distance, norm, euclid. f_equal.
  rewrite <- (in_frame_dot c xB).
  rewrite (dot_same _ _ _ _ _ (sub_position c xB xA H) (sub_position c xB xA H)).
  reflexivity.
Qed.

Lemma half_position c xa xb :
  regular c xa ->
  same (dim c) (position c (cadd c xa (vscale (/ 2) (csub c xb xa))))
    (fun i => (position c xa i + position c xb i) / 2).
Proof.
  intros H i Hi. rewrite (add_position c xa _ H i Hi). unfold vadd at 1.
  rewrite in_frame_scale, (sub_position c xa xb H i Hi). unfold vsub. field.
Qed.

Lemma euclid_same D p q p' q' : same D p p' -> same D q q' -> euclid D p q = euclid D p' q'.
Proof.
  intros Hp Hq. unfold euclid. f_equal. induction D as [|D IH]; cbn; [reflexivity|].
  rewrite IH by (intros i Hi; first [apply Hp; lia|apply Hq; lia]).
  rewrite (Hp D), (Hq D) by lia. reflexivity.
Qed.

Lemma rsum_ext n f g : (forall i, (i < n)%nat -> f i = g i) -> rsum n f = rsum n g.
Proof.
  induction n as [|n IH]; intros H; cbn; [reflexivity|]. rewrite IH, H by (intros; auto; lia).
  reflexivity.
Qed.

Lemma euclid_half D p q :
  euclid D (fun i => (p i + q i) / 2) p = euclid D (fun i => (p i + q i) / 2) q.
Proof. unfold euclid. f_equal. apply rsum_ext. intros i _. field. Qed.

Lemma fold_barycenter c x0 xs acc :
  regular c x0 -> forall i, (i < dim c)%nat ->
  in_frame c x0 (fold_left (fun acc x => vadd acc (csub c x x0)) xs acc) i
  = in_frame c x0 acc i
    + (fold_right (fun x s => position c x i + s) 0 xs - INR (length xs) * position c x0 i).
Proof.
  intros H. revert acc; induction xs as [|x xs IH]; intros acc i Hi; cbn [fold_left fold_right length].
  - cbn. ring.
  - rewrite IH by exact Hi. rewrite in_frame_add, (sub_position c x0 x H i Hi), S_INR.
    unfold vsub. ring.
Qed.

Lemma in_frame_zero c x v : (forall i, (i < dim c)%nat -> v i = 0) ->
  forall i, (i < dim c)%nat -> in_frame c x v i = 0.
Proof.
  intros H. destruct c as [D| |]; cbn [dim] in *; [exact H| |].
  - intros i Hi. unfold in_frame. rewrite !(H 0%nat), !(H 1%nat) by lia.
    destruct i as [|[|i]]; cbn; ring.
  - intros i Hi. unfold in_frame. rewrite !(H 0%nat), !(H 1%nat), !(H 2%nat) by lia.
    destruct i as [|[|[|i]]]; cbn; ring.
Qed.

Lemma csub_self c x i : regular c x -> (i < dim c)%nat -> in_frame c x (csub c x x) i = 0.
Proof.
  intros H Hi. rewrite (sub_position c x x H i Hi). unfold vsub. ring.
Qed.

Lemma barycenter_position c x0 xs :
  regular c x0 -> xs <> [] ->
  same (dim c)
    (position c (cadd c x0 (vdiv (fold_left (fun acc x => vadd acc (csub c x x0)) xs
       (csub c x0 x0)) (INR (length xs)))))
    (average (map (position c) xs)).
Proof.
  intros H Hne i Hi. rewrite (add_position c x0 _ H i Hi). unfold vadd at 1.
  set (V := fold_left _ xs _).
  assert (EV : in_frame c x0 (vdiv V (INR (length xs))) i
    = / INR (length xs) * in_frame c x0 V i).
  { rewrite <- in_frame_scale. destruct c as [D| |]; unfold vscale, vdiv, in_frame.
    - cbn. unfold Rdiv. ring.
    - destruct i as [|[|i]]; cbn; unfold Rdiv; ring.
    - destruct i as [|[|[|i]]]; cbn; unfold Rdiv; ring. }
  rewrite EV. unfold V. rewrite fold_barycenter by assumption.
  rewrite csub_self by assumption. unfold average. rewrite map_length.
  assert (N : INR (length xs) <> 0).
  { apply not_0_INR. destruct xs; cbn; congruence. }
  assert (F : fold_right (fun p acc => p i + acc) 0 (map (position c) xs)
    = fold_right (fun x s => position c x i + s) 0 xs).
  { clear. induction xs as [|x xs IH]; cbn; [reflexivity|]. rewrite IH. reflexivity. }
  rewrite F. field. exact N.
Qed.

(* ------------------------------------------------------------------------------------------- *)
(* Volumes. *)

Lemma cell_volume_simplex c cs cell xs x0 :
  supported c -> placed cs cell (x0 :: xs) -> length xs = dim c -> proper c x0 ->
  cell_volume c (volume_form c) cs cell = Ok (simplex_volume (map (position c) (x0 :: xs))).
Proof.
  intros Hc HP L Hx. inversion HP as [|p0 ? ps ? Hp0 HPs]; subst.
  unfold cell_volume, directors. unfold coordinates at 1. rewrite Hp0. cbn [at_or_throw rbind].
  rewrite (all_coordinates_ok _ _ _ HPs). cbn [rbind].
  destruct (volume_form_det c x0 Hc Hx) as (f & -> & Hf). cbn [app_of].
  rewrite (is_form_app f (dim c) det_vecs).
  - cbn [map simplex_volume]. rewrite directors_det by assumption.
    rewrite !map_length. f_equal. unfold Rdiv. ring.
  - exact Hf.
  - destruct c; cbn in *; lia.
  - rewrite map_length. exact L.
Qed.

Lemma simplex_volume_swap D pre p q post :
  (1 <= D <= 3)%nat -> length (pre ++ p :: q :: post) = S D ->
  simplex_volume (pre ++ q :: p :: post) = - simplex_volume (pre ++ p :: q :: post).
Proof.
  intros HD L. rewrite app_length in L. cbn in L.
  destruct pre as [|a [|b [|c pre]]]; destruct post as [|d [|e [|f post]]]; cbn in L; try lia;
    cbn [List.app]; unfold simplex_volume, det_vecs, vsub; cbn [map length];
    match goal with |- context [INR (fact ?n)] =>
      assert (INR (fact n) <> 0) by (apply INR_fact_neq_0) end;
    field; assumption.
Qed.

Lemma simplex_volume_swaps odd D ps qs :
  (1 <= D <= 3)%nat -> length ps = S D -> swaps odd ps qs ->
  length qs = S D /\ simplex_volume qs = sign_of odd * simplex_volume ps.
Proof.
  intros HD L H. induction H as [l|odd l pre x y post H IH].
  - cbn. split; [exact L|ring].
  - destruct (IH L) as [L' E]. split.
    + rewrite app_length in *. cbn in *. lia.
    + rewrite (simplex_volume_swap D pre x y post HD L'), E. destruct odd; cbn; ring.
Qed.

Lemma swaps_map {A B} (f : A -> B) odd l l' : swaps odd l l' -> swaps odd (map f l) (map f l').
Proof.
  induction 1 as [l|odd l pre x y post H IH]; [constructor|].
  rewrite map_app in *. cbn in *. constructor. exact IH.
Qed.

Lemma swaps_permutation {A} odd (l l' : list A) : swaps odd l l' -> Permutation l l'.
Proof.
  induction 1 as [l|odd l pre x y post H IH]; [reflexivity|].
  rewrite IH. apply Permutation_app_head. constructor.
Qed.

Lemma simplex_volume_translate t ps :
  simplex_volume (map (fun p => vadd p t) ps) = simplex_volume ps.
Proof.
  destruct ps as [|p0 ps]; [reflexivity|]. cbn [map simplex_volume].
  rewrite !map_length, map_map. f_equal.
  assert (E : forall p i, vsub (vadd p t) (vadd p0 t) i = vsub p p0 i)
    by (intros; unfold vsub, vadd; ring).
  destruct ps as [|p1 [|p2 [|p3 [|]]]]; cbn [map det_vecs]; rewrite ?E; reflexivity.
Qed.

Lemma simplex_volume_same D ps qs :
  (1 <= D <= 3)%nat -> length ps = S D -> Forall2 (same D) ps qs ->
  simplex_volume ps = simplex_volume qs.
Proof.
  intros HD L H. destruct H as [|p q ps qs H0 H]; [reflexivity|]. cbn [simplex_volume].
  assert (L' : length ps = length qs) by (clear - H; induction H; cbn; congruence).
  rewrite L'. f_equal. apply (same_det D).
  - rewrite map_length. cbn in L. lia.
  - clear L L'. induction H as [|p' q' ps qs H1 H IH]; cbn; constructor; [|exact IH].
    intros i Hi. unfold vsub. rewrite (H1 i Hi), (H0 i Hi). reflexivity.
Qed.

Lemma add_volumes_total c cs cells vols acc :
  Forall2 (fun cell v => cell_volume c (volume_form c) cs cell = Ok v) cells vols ->
  add_volumes c (volume_form c) cs cells acc = Ok (acc + total vols).
Proof.
  intros H. revert acc; induction H as [|cell v cells vols H HF IH]; intros acc;
    cbn [add_volumes total fold_right].
  - f_equal. ring.
  - rewrite H. cbn [rbind]. rewrite IH. f_equal. unfold total. ring.
Qed.

Lemma total_app vs ws : total (vs ++ ws) = total vs + total ws.
Proof. unfold total. induction vs as [|v vs IH]; cbn; [ring|]. rewrite IH. ring. Qed.

Lemma total_permutation vs ws : Permutation vs ws -> total vs = total ws.
Proof. unfold total. induction 1; cbn; lra. Qed.

(* Submanifolds. *)
Lemma fill_normals ns k vs :
  length vs = k -> fill (map Some ns ++ repeat None k) vs = ns ++ vs.
Proof.
  intros L. induction ns as [|n ns IH]; cbn; [|f_equal; exact IH].
  revert vs L; induction k as [|k IH]; intros vs L; destruct vs as [|v vs]; try discriminate;
    cbn; [reflexivity|]. f_equal. apply IH. cbn in L. lia.
Qed.

Lemma dummies_normals (ns : list vec) k : dummies (map Some ns ++ repeat None k) = k.
Proof. induction ns as [|n ns IH]; cbn; [|exact IH]. induction k; cbn; congruence. Qed.

Lemma sub_volume_form_det c normals k x :
  supported c -> proper c x -> (0 < k)%nat -> (0 < length normals)%nat ->
  (length normals + k = dim c)%nat ->
  exists f, sub_volume_form c normals k x = Some f /\
    is_form f k (fun vs => det_vecs (map (fun n => n x) normals ++ vs)).
Proof.
  intros Hc Hx Hk Hn L. unfold sub_volume_form.
  destruct (volume_form_det c x Hc Hx) as (w & -> & Hw). cbn [app_of].
  rewrite <- (map_map (fun n => n x) Some).
  set (ns := map (fun n => n x) normals).
  assert (Ln : length ns = length normals) by (unfold ns; apply map_length).
  destruct (is_form_contract w (dim c) det_vecs (map Some ns ++ repeat None k) (repeat vzero k))
    as (G & E & HG & _).
  - exact Hw.
  - rewrite app_length, map_length, repeat_length. lia.
  - rewrite dummies_normals. lia.
  - rewrite dummies_normals. apply repeat_length.
  - exists G. split; [exact E|]. rewrite dummies_normals in HG. eapply form_ext; [|exact HG].
    intros vs Lv. cbn beta. rewrite fill_normals by exact Lv. reflexivity.
Qed.

Lemma sub_cell_volume c normals k cs cell x0 xs :
  supported c -> placed cs cell (x0 :: xs) -> length xs = k -> proper c x0 ->
  (0 < k)%nat -> (0 < length normals)%nat -> (length normals + k = dim c)%nat ->
  cell_volume c (sub_volume_form c normals k) cs cell
  = Ok (det_vecs (map (fun n => n x0) normals ++ map (fun x => csub c x x0) xs)
        / INR (fact k)).
Proof.
  intros Hc HP Lx Hx Hk Hn L. inversion HP as [|p0 ? ps ? Hp0 HPs]; subst.
  unfold cell_volume, directors. unfold coordinates at 1. rewrite Hp0. cbn [at_or_throw rbind].
  rewrite (all_coordinates_ok _ _ _ HPs). cbn [rbind].
  destruct (sub_volume_form_det c normals (length xs) x0 Hc Hx Hk Hn L) as (f & -> & Hf).
  cbn [app_of].
  rewrite (is_form_app f (length xs) _ _ Hf) by (auto; rewrite map_length; reflexivity).
  rewrite map_length. f_equal. unfold Rdiv. ring.
Qed.

(* Gram determinants. *)
Lemma gram2 n u :
  det_vecs [n; u] * det_vecs [n; u] = dot 2 n n * dot 2 u u - dot 2 n u * dot 2 n u.
Proof. unfold det_vecs, dot; cbn. ring. Qed.

Lemma gram3 n u v :
  det_vecs [n; u; v] * det_vecs [n; u; v]
  = dot 3 n n * (dot 3 u u * dot 3 v v - dot 3 u v * dot 3 u v)
    - dot 3 n u * (dot 3 n u * dot 3 v v - dot 3 u v * dot 3 n v)
    + dot 3 n v * (dot 3 n u * dot 3 u v - dot 3 u u * dot 3 n v).
Proof. unfold det_vecs, dot; cbn. ring. Qed.
