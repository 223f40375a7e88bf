(* Integrals of polynomials over the children of a cell, and the size of the children. *)
From Coq Require Import Reals List Bool Arith Lia Lra Psatz Permutation FunctionalExtensionality.
From Coquelicot Require Import Rbar Hierarchy Derive RInt.
From Verif Require Import M_Tensor M_Geometry S_Geometry P_Volume M_Functions P_Functions.
From Verif Require Import M_Quadrature S_Quadrature P_Quadrature P_Poly P_Gauss P_TetraGeometry P_TetraTiling S_Refine.
Import ListNotations.
Open Scope R_scope.

(* ------------------------------------------------------------------------------------------- *)
(* The integral in barycentric coordinates does not depend on the order of the corners. *)

Lemma Fl_perm D r p xs ys : of_degree D r p -> Permutation xs ys -> forall pre, Fl p (pre ++ xs) = Fl p (pre ++ ys).
Proof.
  intros Hp H. induction H as [|x l l' H IH|x y l|l l' l'' H1 IH1 H2 IH2]; intros pre; [reflexivity| | |].
  - change (x :: l) with ([x] ++ l). change (x :: l') with ([x] ++ l'). rewrite !app_assoc. apply IH.
  - apply (Fl_swap D r), Hp.
  - rewrite IH1. apply IH2.
Qed.
Lemma Fl_permutation D r p xs ys : of_degree D r p -> Permutation xs ys -> Fl p xs = Fl p ys.
Proof. intros Hp H. exact (Fl_perm D r p xs ys Hp H []). Qed.

Lemma rsum_cocycle_sums n D c (x : nat -> nat -> R) (F : nat -> R) X :
  rsum n (fun j => X * c j - rsum D (fun m => c j * x j m * F m))
  = X * rsum n c - rsum D (fun m => F m * rsum n (fun j => c j * x j m)).
Proof.
  induction n as [|n IH]; cbn [rsum].
  - rewrite rsum_scale_r. ring.
  - rewrite IH.
    rewrite (rsum_ext D (fun m => F m * (rsum n (fun j => c j * x j m) + c n * x n m))
      (fun m => F m * rsum n (fun j => c j * x j m) + c n * x n m * F m)) by (intros; ring).
    rewrite rsum_plus. ring.
Qed.

(* the integrals over the simplices with one of the points left out, weighted by an affine dependence
   of the points *)
Lemma Fl_cocycle D r p xs c : of_degree D r p -> (2 <= length xs)%nat ->
  rsum (length xs) c = 0 -> (forall m, (m < D)%nat -> rsum (length xs) (fun j => c j * nth j xs vzero m) = 0) ->
  rsum (length xs) (fun j => c j * Fl p (without j xs)) = 0.
Proof.
  intros Hp H2 Hc Hx. destruct (gauss_faces D r p xs Hp H2) as (X & HX).
  assert (E : rsum (length xs) (fun j => c j * Fl p (without j xs))
            = X * rsum (length xs) c - rsum D (fun m => Fl (dpoly m p) xs * rsum (length xs) (fun j => c j * nth j xs vzero m))).
  { transitivity (rsum (length xs) (fun j => X * c j - rsum D (fun m => c j * nth j xs vzero m * Fl (dpoly m p) xs))).
    - apply rsum_ext. intros j Hj. pose proof (HX j Hj) as E.
      assert (E' : rsum D (fun m => c j * nth j xs vzero m * Fl (dpoly m p) xs) = c j * rsum D (fun m => nth j xs vzero m * Fl (dpoly m p) xs)).
      { rewrite <- rsum_scale. apply rsum_ext. intros; ring. }
      cbv beta. rewrite E', <- E. ring.
    - apply (rsum_cocycle_sums (length xs) D c (fun j m => nth j xs vzero m) (fun m => Fl (dpoly m p) xs) X). }
  rewrite E, Hc. rewrite (rsum_ext D _ (fun _ => 0)) by (intros m Hm; rewrite (Hx m Hm); ring).
  rewrite rsum_0. ring.
Qed.

(* ------------------------------------------------------------------------------------------- *)
(* One level of refinement. *)

Ltac dependence D r p Hp xs cs E :=
  assert (E := Fl_cocycle D r p xs (fun j => nth j cs 0) Hp ltac:(cbn; lia) ltac:(cbn; lra)
                 ltac:(intros m Hm; cbn; unfold avg; lra));
  cbn [length rsum nth without] in E.
(* sorting by exchanges of neighbours *)
Ltac to_front x l :=
  lazymatch l with
  | x :: ?t => constr:(Permutation_refl l)
  | ?y :: ?t => let H := to_front x t in
      lazymatch type of H with Permutation _ (_ :: ?t') =>
        constr:(perm_trans (perm_skip y H) (perm_swap x y t')) end
  end.
Ltac solve_perm :=
  lazymatch goal with
  | |- Permutation [] [] => apply perm_nil
  | |- Permutation ?l (?x :: ?t) => let H := to_front x l in
      refine (perm_trans H _); apply perm_skip; solve_perm
  end.

Lemma kids_Fl_1 D r p last a b : of_degree D r p ->
  total (map (Fl p) (kids 1 last [a; b])) = 2 * Fl p [a; b].
Proof.
  intros Hp. cbn [kids map total fold_right]. 
  dependence D r p Hp [a; avg a b; b] [1; -2; 1] E. 
  lra.
Qed.

Lemma kids_Fl_2 D r p last a b c : of_degree D r p ->
  total (map (Fl p) (kids 2 last [a; b; c])) = 4 * Fl p [a; b; c].
Proof.
  intros Hp. cbn [kids map total fold_right].
  dependence D r p Hp [c; avg c a; avg a b; avg b c] [1; -1; 1; -1] rel0.
  dependence D r p Hp [a; b; c; avg a b] [1; 1; 0; -2] rel1.
  dependence D r p Hp [a; c; avg c a; avg a b] [1; 1; -2; 0] rel2.
  dependence D r p Hp [b; c; avg a b; avg b c] [1; 1; 0; -2] rel3.
  pose proof (Fl_permutation D r p [a; avg a b; avg c a] [a; avg c a; avg a b] Hp ltac:(solve_perm)) as per0.
  pose proof (Fl_permutation D r p [avg a b; b; avg b c] [b; avg a b; avg b c] Hp ltac:(solve_perm)) as per1.
  pose proof (Fl_permutation D r p [avg b c; c; avg c a] [c; avg c a; avg b c] Hp ltac:(solve_perm)) as per2.
  lra.
Qed.

Lemma kids_Fl_3 D r p last a b c d : of_degree D r p ->
  total (map (Fl p) (kids 3 last [a; b; c; d])) = 8 * Fl p [a; b; c; d].
Proof.
  intros Hp.
  dependence D r p Hp [a; b; avg a b; avg b c; avg b d] [-1/2; -1/2; 1; 0; 0] rel0.
  dependence D r p Hp [a; avg a b; avg a c; avg a d; avg b d] [1; -1; 0; -1; 1] rel1.
  dependence D r p Hp [d; avg a c; avg a d; avg b d; avg c d] [-1; -1; 1; 0; 1] rel2.
  dependence D r p Hp [c; d; avg a c; avg b d; avg c d] [-1/2; -1/2; 0; 0; 1] rel3.
  dependence D r p Hp [a; c; d; avg a c; avg b d] [-1/2; -1/2; 0; 1; 0] rel4.
  dependence D r p Hp [a; b; c; d; avg b d] [0; -1/2; 0; -1/2; 1] rel5.
  dependence D r p Hp [a; d; avg a c; avg a d; avg b d] [-1/2; -1/2; 0; 1; 0] rel6.
  dependence D r p Hp [a; avg a b; avg a c; avg b c; avg b d] [1; -1; -1; 1; 0] rel7.
  dependence D r p Hp [c; avg a c; avg b c; avg b d; avg c d] [-1; 0; 1; -1; 1] rel8.
  dependence D r p Hp [a; c; avg a c; avg b c; avg b d] [-1/2; -1/2; 1; 0; 0] rel9.
  dependence D r p Hp [a; b; c; avg b c; avg b d] [0; -1/2; -1/2; 1; 0] rel10.
  pose proof (Fl_permutation D r p [b; avg a b; avg b d; avg b c] [b; avg a b; avg b c; avg b d] Hp ltac:(solve_perm)) as per1.
  pose proof (Fl_permutation D r p [d; avg b d; avg a d; avg c d] [d; avg a d; avg b d; avg c d] Hp ltac:(solve_perm)) as per3.
  pose proof (Fl_permutation D r p [avg a d; d; avg b d; avg c d] [d; avg a d; avg b d; avg c d] Hp ltac:(solve_perm)) as per4.
  pose proof (Fl_permutation D r p [avg a c; avg a b; avg b d; avg a d] [avg a b; avg a c; avg a d; avg b d] Hp ltac:(solve_perm)) as per5.
  pose proof (Fl_permutation D r p [avg a c; avg b d; avg a b; avg b c] [avg a b; avg a c; avg b c; avg b d] Hp ltac:(solve_perm)) as per7.
  pose proof (Fl_permutation D r p [avg a b; avg a c; avg b d; avg b c] [avg a b; avg a c; avg b c; avg b d] Hp ltac:(solve_perm)) as per8.
  pose proof (Fl_permutation D r p [avg a c; avg c d; avg b d; avg b c] [avg a c; avg b c; avg b d; avg c d] Hp ltac:(solve_perm)) as per9.
  destruct last; cbn [kids map total fold_right]; lra.
Qed.

Lemma kids_Fl D r p N last ps : of_degree D r p -> (1 <= N <= 3)%nat -> length ps = S N ->
  total (map (Fl p) (kids N last ps)) = 2 ^ N * Fl p ps.
Proof.
  intros Hp HN L. orders N; corners ps L.
  - rewrite (kids_Fl_1 D r) by assumption. ring.
  - rewrite (kids_Fl_2 D r) by assumption. ring.
  - rewrite (kids_Fl_3 D r) by assumption. ring.
Qed.

Lemma total_concat (ls : list (list R)) : total (concat ls) = total (map total ls).
Proof. induction ls as [|l ls IH]; cbn [concat map]; [reflexivity|]. rewrite total_app, IH. reflexivity. Qed.

Lemma refine_Fl D r p N n : of_degree D r p -> (1 <= N <= 3)%nat -> forall ps, length ps = S N ->
  total (map (Fl p) (refine N n ps)) = 2 ^ (N * n) * Fl p ps.
Proof.
  intros Hp HN. induction n as [|n IH]; intros ps L; cbn [refine].
  - rewrite Nat.mul_0_r. cbn. ring.
  - rewrite concat_map, total_concat, !map_map.
    rewrite (map_ext_in _ (fun qs => 2 ^ (N * n) * Fl p qs)).
    + rewrite total_map_scal, (kids_Fl D r) by assumption. rewrite Nat.mul_succ_r, pow_add. ring.
    + intros qs Hq. apply IH. exact (kids_in_length N _ ps qs HN L Hq).
Qed.

(* ------------------------------------------------------------------------------------------- *)
(* The sizes of the cells, one coordinate at a time. *)

Lemma sq_pos x : 0 <= sq x.
Proof. unfold sq. nra. Qed.


Lemma total_nonneg l : (forall x, In x l -> 0 <= x) -> 0 <= total l.
Proof.
  induction l as [|x l IH]; intros H; [cbn; lra|]. cbn [total fold_right]. fold (total l).
  pose proof (H x (or_introl eq_refl)). assert (0 <= total l) by (apply IH; intros; apply H; right; assumption). lra.
Qed.
Lemma spread_pos m ps : 0 <= spread m ps.
Proof.
  induction ps as [|p ps IH]; cbn [spread]; [lra|].
  assert (0 <= total (map (fun q => sq (p m - q m)) ps)); [|lra].
  apply total_nonneg. intros x Hx. apply in_map_iff in Hx as (q & <- & _). apply sq_pos.
Qed.
Lemma total_member (f : vec -> R) (l : list vec) x : (forall y, 0 <= f y) -> In x l -> f x <= total (map f l).
Proof.
  intros Hf. induction l as [|y l IH]; intros Hx; [destruct Hx|]. cbn [map total fold_right]. fold (total (map f l)).
  assert (P : 0 <= total (map f l)) by (apply total_nonneg; intros z Hz; apply in_map_iff in Hz as (u & <- & _); apply Hf).
  destruct Hx as [->|Hx]; [lra|]. specialize (IH Hx). pose proof (Hf y). lra.
Qed.
Lemma spread_edge m ps p q : In p ps -> In q ps -> sq (p m - q m) <= spread m ps.
Proof.
  induction ps as [|x ps IH]; intros Hp Hq; [destruct Hp|]. cbn [spread].
  pose proof (spread_pos m ps).
  assert (P : 0 <= total (map (fun q => sq (x m - q m)) ps)) by (apply total_nonneg; intros z Hz; apply in_map_iff in Hz as (u & <- & _); apply sq_pos).
  destruct Hp as [->|Hp]; destruct Hq as [->|Hq].
  - unfold sq. replace (q m - q m) with 0 by ring. unfold sq in *. lra.
  - pose proof (total_member (fun q => sq (p m - q m)) ps q (fun y => sq_pos _) Hq). cbv beta in *. unfold vec in *. lra.
  - pose proof (total_member (fun p => sq (q m - p m)) ps p (fun y => sq_pos _) Hp) as T. cbv beta in T.
    replace (sq (p m - q m)) with (sq (q m - p m)) by (unfold sq; ring). unfold vec in *. lra.
  - specialize (IH Hp Hq). lra.
Qed.

(* the children are half as spread out, or less *)
Lemma kid_spread N last ps qs m : (1 <= N <= 3)%nat -> length ps = S N -> In qs (kids N last ps) ->
  spread m qs <= spread m ps / 2.
Proof.
  intros HN L Hq. orders N; corners ps L; cbn [kids In] in Hq.
  - destruct Hq as [<-|[<-|[]]]; unfold avg; cbn [spread map total fold_right]; unfold sq;
      generalize (v m) (v0 m); intros x y; pose proof (sq_pos (x - y)); unfold sq in *; lra.
  - destruct Hq as [<-|[<-|[<-|[<-|[]]]]]; unfold avg; cbn [spread map total fold_right]; unfold sq;
      generalize (v m) (v0 m) (v1 m); intros x y z;
      pose proof (sq_pos (x - y)); pose proof (sq_pos (x - z)); pose proof (sq_pos (y - z)); unfold sq in *; lra.
  - assert (A : forall x y z u : R,
      0 <= 3/4 * sq (x - 1/3 * y - 1/3 * z - 1/3 * u) /\ 0 <= sq (y - 1/2 * z - 1/2 * u) /\ 0 <= sq (x - y) /\
      0 <= sq (x - z) /\ 0 <= sq (x - u) /\ 0 <= sq (y - z) /\ 0 <= sq (y - u) /\ 0 <= sq (z - u)).
    { intros x y z u. repeat split; try apply sq_pos. apply Rmult_le_pos; [lra|apply sq_pos]. }
    specialize (A (v m) (v0 m) (v1 m) (v2 m)).
    repeat (destruct Hq as [<-|Hq]; [destruct last; unfold avg; cbn [spread map total fold_right]; revert A;
      generalize (v m) (v0 m) (v1 m) (v2 m); intros x y z u A; unfold sq in *; decompose [and] A; clear A; lra|]).
    destruct Hq.
Qed.
Lemma refine_spread N n m : (1 <= N <= 3)%nat -> forall ps qs, length ps = S N -> In qs (refine N n ps) ->
  spread m qs <= spread m ps / 2 ^ n.
Proof.
  intros HN. induction n as [|n IH]; intros ps qs L Hq.
  - cbn in Hq. destruct Hq as [<-|[]]. cbn. lra.
  - apply refine_S in Hq as (rs & Hr & Hq). 
    pose proof (IH rs qs (kids_in_length N _ ps rs HN L Hr) Hq) as A.
    pose proof (kid_spread N _ ps rs m HN L Hr) as B.
    assert (P : 0 < / 2 ^ n) by (apply Rinv_0_lt_compat, pow_lt; lra).
    cbn [pow]. unfold Rdiv in *. rewrite Rinv_mult. nra.
Qed.
