(* Gauss's theorem on the triangles of a mesh, for the product of a piecewise polynomial and the gradient of a
   polynomial. *)
From stdpp Require Import base gmap list sorting.
From Coq Require Import Reals Lra FunctionalExtensionality.
From Coquelicot Require Import Hierarchy Derive.
From Verif Require Import Base M_Tensor M_Geometry S_Geometry P_Volume.
From Verif Require Import M_Functions S_Functions P_Functions M_Quadrature S_Quadrature P_Quadrature P_Poly P_Gauss P_Integrator M_Fem S_Fem.
From Verif Require Import S_Stokes P_Stokes S_Solver P_Mesh S_Energy.
Local Open Scope nat_scope.

(* ---- a triangle ---- *)

Lemma exact_value s q (p : polynomial) xs : exact_to 2 s q → length xs = 3 → of_degree 2 s p →
  (S_Geometry.total (map (λ pw, snd pw * poly p (barycentric 2 xs (fst pw))) q) = 2 * Fl p xs)%R.
Proof.
  intros Hq L Hp. destruct (expressible_poly 2 2 s p (barycentric 2 xs) Hp (expressible_barycentric 2 xs)) as (p' & Hp' & E).
  assert (HI := Fl_integral 2 2 s p xs Hp L).
  assert (HI' : reference_integral 2 (poly p') (Fl p xs)) by (refine (is_integral_ext 2 1 _ _ _ _ HI); intros y; by rewrite E).
  rewrite <- (Hq p' _ Hp' HI'). unfold quadrature, area. cbn [fact Nat.mul Nat.add INR].
  rewrite (total_map_ext (λ pw, snd pw * poly p (barycentric 2 xs (fst pw)))%R (λ pw, snd pw * poly p' (fst pw))%R) by (intros pw _; by rewrite E).
  set (X := S_Geometry.total _). clearbody X. lra.
Qed.
Lemma position_barycentric E a b c p : edim E = 2 → position E [a; b; c] p = barycentric 2 [a; b; c] p.
Proof.
  intros HE. apply functional_extensionality. intros i. unfold position, barycentric, combo.
  destruct E; try discriminate HE; cbn; lra.
Qed.

(* what flows through a side *)
Definition through (p0 p1 : polynomial) (u v : vec) : R := ((v 1%nat - u 1%nat) * Fl p0 [u; v] - (v 0%nat - u 0%nat) * Fl p1 [u; v])%R.

Lemma gauss_triangle r (p0 p1 : polynomial) a b c : of_degree 2 r p0 → of_degree 2 r p1 →
  (2 * simplex_volume [a; b; c] * (Fl (dpoly 0 p0) [a; b; c] + Fl (dpoly 1 p1) [a; b; c])
   = through p0 p1 a b + through p0 p1 b c + through p0 p1 c a)%R.
Proof.
  intros H0 H1.
  destruct (gauss_faces 2 r p0 [a; b; c] H0 ltac:(cbn; lia)) as (X & HX).
  destruct (gauss_faces 2 r p1 [a; b; c] H1 ltac:(cbn; lia)) as (Y & HY).
  pose proof (HX 0 ltac:(cbn; lia)) as X0. pose proof (HX 1 ltac:(cbn; lia)) as X1. pose proof (HX 2 ltac:(cbn; lia)) as X2.
  pose proof (HY 0 ltac:(cbn; lia)) as Y0. pose proof (HY 1 ltac:(cbn; lia)) as Y1. pose proof (HY 2 ltac:(cbn; lia)) as Y2.
  cbn [nth without rsum] in *. unfold through. 
  pose proof (Fl_swap 2 r p0 [] a c [] H0) as S0. pose proof (Fl_swap 2 r p1 [] a c [] H1) as S1. cbn [List.app] in S0, S1. rewrite S0, S1.
  set (A := Fl (dpoly 0 p0) [a; b; c]) in *. set (B := Fl (dpoly 1 p0) [a; b; c]) in *.
  set (C := Fl (dpoly 0 p1) [a; b; c]) in *. set (D := Fl (dpoly 1 p1) [a; b; c]) in *.
  assert (E0 : Fl p0 [b; c] = (X - (0 + a 0%nat * A + a 1%nat * B))%R) by (unfold vec in *; lra).
  assert (E1 : Fl p0 [a; c] = (X - (0 + b 0%nat * A + b 1%nat * B))%R) by (unfold vec in *; lra).
  assert (E2 : Fl p0 [a; b] = (X - (0 + c 0%nat * A + c 1%nat * B))%R) by (unfold vec in *; lra).
  assert (F0 : Fl p1 [b; c] = (Y - (0 + a 0%nat * C + a 1%nat * D))%R) by (unfold vec in *; lra).
  assert (F1 : Fl p1 [a; c] = (Y - (0 + b 0%nat * C + b 1%nat * D))%R) by (unfold vec in *; lra).
  assert (F2 : Fl p1 [a; b] = (Y - (0 + c 0%nat * C + c 1%nat * D))%R) by (unfold vec in *; lra).
  rewrite E0, E1, E2, F0, F1, F2. unfold simplex_volume, det_vecs, vsub. cbn. field.
Qed.

Lemma barycentric_between u v s : barycentric 1 [u; v] s = between (1 - s 0%nat) u v.
Proof. apply functional_extensionality. intros i. unfold barycentric, between, combo. cbn. lra. Qed.
Lemma Fl_segment r s (p p' : polynomial) u v : of_degree 2 r p → of_degree 2 s p' →
  (∀ t, poly p (between t u v) = poly p' (between t u v)) → Fl p [u; v] = Fl p' [u; v].
Proof.
  intros Hp Hp' E. apply (is_integral_unique 1 1 (λ s, poly p (barycentric 1 [u; v] s)) _ _ Rle_0_1).
  - by apply (Fl_integral 2 1 r).
  - apply (is_integral_ext 1 1 (λ s, poly p' (barycentric 1 [u; v] s))); [|by apply (Fl_integral 2 1 s)]. intros y. cbv beta. rewrite !barycentric_between. symmetry. apply E.
Qed.

(* ---- sums over the sides ---- *)

Lemma total_Permutation (l l' : list R) : l ≡ₚ l' → S_Geometry.total l = S_Geometry.total l'.
Proof. induction 1; unfold S_Geometry.total in *; cbn; lra. Qed.

Lemma sides_cancel {K : Type} `{EqDecision K} (l : list (K * K)) (N : K * K → R) : NoDup l →
  (∀ k j, N (j, k) = - N (k, j))%R → (∀ k j, (k, j) ∈ l → (j, k) ∈ l ∨ N (k, j) = 0%R) →
  S_Geometry.total (map N l) = 0%R.
Proof.
  intros Hnd HN Hl. set (swap := λ e : K * K, (e.2, e.1)). set (l' := filter (λ e : K * K, swap e ∈ l) l).
  assert (H1 : S_Geometry.total (map N l) = S_Geometry.total (map N l')).
  { assert (X : ∀ m, (∀ e, e ∈ m → e ∈ l) → S_Geometry.total (map N m) = S_Geometry.total (map N (filter (λ e : K * K, swap e ∈ l) m))).
    { induction m as [|e m IH]; intros Hm; [done|]. rewrite filter_cons. specialize (IH ltac:(intros e' He'; apply Hm; by right)).
      destruct (decide (swap e ∈ l)) as [Hs|Hs].
      - cbn [map]. unfold S_Geometry.total in *. cbn [fold_right]. by rewrite IH.
      - cbn [map]. unfold S_Geometry.total in *. cbn [fold_right]. rewrite IH. destruct e as [k j].
        destruct (Hl k j ltac:(apply Hm; left)) as [?| ->]; [done|]. lra. }
    by apply X. }
  assert (H2 : swap <$> l' ≡ₚ l').
  { apply NoDup_Permutation.
    - apply NoDup_fmap_2; [|by apply NoDup_filter]. intros [a b] [a' b'] [= -> ->]. done.
    - by apply NoDup_filter.
    - intros [k j]. rewrite elem_of_list_fmap. unfold l'. setoid_rewrite elem_of_list_filter. split.
      + intros ([a b] & [= -> ->] & H1' & H2'). by split.
      + intros [H1' H2']. by exists (j, k). }
  assert (H3 : S_Geometry.total (map N (swap <$> l')) = S_Geometry.total (map N l')).
  { apply total_Permutation. apply Permutation_map. exact H2. }
  assert (H4 : S_Geometry.total (map N (swap <$> l')) = (- S_Geometry.total (map N l'))%R).
  { clear -HN. induction l' as [|[k j] m IH]; [unfold S_Geometry.total; cbn; lra|]. rewrite fmap_cons. cbn [map]. unfold S_Geometry.total in *. cbn [fold_right].
    rewrite IH. unfold swap at 1. cbn [fst snd]. rewrite HN. lra. }
  lra.
Qed.

(* ---- gradients of polynomials ---- *)

Lemma dpoly_gradient D r (p : polynomial) : of_degree D r p → has_gradient D (poly p) (λ y j, poly (dpoly j p) y).
Proof.
  intros Hp y j Hj. unfold partial, is_partial, num, with_component. apply is_derive_Reals.
  apply (poly_partial D r p y j Hp Hj).
Qed.
Lemma gradient_dpoly D r (p : polynomial) G y j : of_degree D r p → has_gradient D (poly p) G → j < D → G y j = poly (dpoly j p) y.
Proof.
  intros Hp HG Hj. refine (partial_unique (λ y, num (poly p y)) j 0 y _ _ (HG y j Hj) _). by apply (dpoly_gradient D r).
Qed.
Lemma dpoly_pmul D r s (p p' : polynomial) j y : of_degree D r p → of_degree D s p' → j < D →
  poly (dpoly j (pmul p p')) y = (poly (dpoly j p) y * poly p' y + poly p y * poly (dpoly j p') y)%R.
Proof.
  intros Hp Hp' Hj. pose proof (degree_pmul D r s p p' Hp Hp') as Hm.
  refine (partial_unique (λ y, num (poly (pmul p p') y)) j 0 y _ _ (dpoly_gradient D (r + s) _ Hm y j Hj) _).
  unfold is_partial, num. pose proof (dpoly_gradient D r p Hp y j Hj) as H1. pose proof (dpoly_gradient D s p' Hp' y j Hj) as H2.
  unfold partial, is_partial, num in H1, H2.
  pose proof (derivable_pt_lim_mult _ _ _ _ _ H1 H2) as H3.
  assert (Hy : with_component y j (y j) = y) by (apply functional_extensionality; intros k; unfold with_component; destruct (Nat.eqb_spec k j); by subst).
  cbv beta in H3. rewrite Hy in H3. apply is_derive_Reals in H3. apply is_derive_Reals.
  refine (is_derive_ext _ _ _ _ _ H3). intros t. unfold mult_fct. cbv beta. by rewrite (poly_pmul D r s).
Qed.

Lemma through_values r s (p0 p1 p0' p1' : polynomial) u v : of_degree 2 r p0 → of_degree 2 r p1 → of_degree 2 s p0' → of_degree 2 s p1' →
  (∀ t, ((v 1%nat - u 1%nat) * poly p0 (between t u v) - (v 0%nat - u 0%nat) * poly p1 (between t u v)
       = (v 1%nat - u 1%nat) * poly p0' (between t u v) - (v 0%nat - u 0%nat) * poly p1' (between t u v))%R) →
  through p0 p1 u v = through p0' p1' u v.
Proof.
  intros H0 H1 H0' H1' E. unfold through.
  assert (X : ∀ n (a b : polynomial), of_degree 2 n a → of_degree 2 n b →
    is_integral 1 1 (λ s, (v 1%nat - u 1%nat) * poly a (barycentric 1 [u; v] s) + - (v 0%nat - u 0%nat) * poly b (barycentric 1 [u; v] s))%R
      ((v 1%nat - u 1%nat) * Fl a [u; v] + - (v 0%nat - u 0%nat) * Fl b [u; v])%R).
  { intros n a b Ha Hb. apply is_integral_plus; apply is_integral_scal; by apply (Fl_integral 2 1 n). }
  assert (E' : ((v 1%nat - u 1%nat) * Fl p0 [u; v] + - (v 0%nat - u 0%nat) * Fl p1 [u; v]
    = (v 1%nat - u 1%nat) * Fl p0' [u; v] + - (v 0%nat - u 0%nat) * Fl p1' [u; v])%R).
  2:{ unfold vec in *. transitivity ((v 1%nat - u 1%nat) * Fl p0 [u; v] + - (v 0%nat - u 0%nat) * Fl p1 [u; v])%R; [ring|]. rewrite E'. ring. }
  refine (is_integral_unique 1 1 _ _ _ Rle_0_1 (X r p0 p1 H0 H1) _).
  apply (is_integral_ext 1 1 (λ s, (v 1%nat - u 1%nat) * poly p0' (barycentric 1 [u; v] s) + - (v 0%nat - u 0%nat) * poly p1' (barycentric 1 [u; v] s))%R);
    [|by apply (X s)].
  intros y. cbv beta. rewrite !barycentric_between. specialize (E (1 - y 0%nat)%R). set (z := between (1 - y 0%nat) u v) in *.
  transitivity ((v 1%nat - u 1%nat) * poly p0 z - (v 0%nat - u 0%nat) * poly p1 z)%R; [rewrite E; ring|ring].
Qed.
Lemma through_back r (p0 p1 : polynomial) u v : of_degree 2 r p0 → of_degree 2 r p1 → (through p0 p1 v u = - through p0 p1 u v)%R.
Proof.
  intros H0 H1. unfold through.
  pose proof (Fl_swap 2 r p0 [] u v [] H0) as S0. pose proof (Fl_swap 2 r p1 [] u v [] H1) as S1. cbn [List.app] in S0, S1. rewrite S0, S1. ring.
Qed.

(* ---- a mesh ---- *)

Section green.
  Context {K : Type} `{Countable K} (E : element_type) (HE : edim E = 2) (x : K → vec) (cells domain : list (list K)).
  Context (Hcells : good_cells E x cells).
  Context (r : nat) (G : vec → vec) (g : vec → R) (Q : nat → polynomial).
  Context (HQ : ∀ i, i < 2 → of_degree 2 (S r) (Q i) ∧ ∀ y, G y i = poly (Q i) y) (Hg : is_divergence 2 G g).
  Context (q : rule) (Hq : exact_to 2 (r + degree E) q).
  Context (V : list K → polynomial) (GV : list K → vec → vec).
  Context (HV : piecewise E x cells domain V) (HGV : ∀ c, c ∈ cells → has_gradient 2 (poly (V c)) (GV c)).

  Local Definition pp (c : list K) (i : nat) : polynomial := pmul (V c) (Q i).
  Local Lemma degV c : c ∈ cells → of_degree 2 (degree E) (V c).
  Proof. intros Hc. rewrite <- HE. by apply HV. Qed.
  Local Lemma degpp c i : c ∈ cells → i < 2 → of_degree 2 (degree E + S r) (pp c i).
  Proof. intros Hc Hi. apply degree_pmul; [by apply degV|by apply HQ]. Qed.

  Local Lemma expressible_div c : c ∈ cells →
    expressible 2 (r + degree E) (λ y, dot 2 (G y) (GV c y) + g y * poly (V c) y)%R.
  Proof.
    intros Hc. assert (HD := degV c Hc). apply expressible_plus.
    - unfold dot. apply (expressible_ext 2 (r + degree E) (λ y, rsum 2 (λ i, poly (Q i) y * poly (dpoly i (V c)) y)%R)).
      { intros y. apply P_Volume.rsum_ext. intros i Hi. destruct (HQ i Hi) as [_ ->]. by rewrite (gradient_dpoly 2 (degree E) (V c) (GV c)) by (done || by apply HGV). }
      apply (expressible_rsum 2 _ 2 (λ i y, poly (Q i) y * poly (dpoly i (V c)) y)%R). intros i Hi.
      assert (S (degree E - 1) = degree E) as Hd by (by destruct E).
      destruct (dpoly_lower 2 (degree E - 1) i (V c)) as (w & Hw & Ew); [by rewrite Hd|].
      apply (expressible_ext 2 _ (λ y, poly (Q i) y * poly w y)%R); [intros y; by rewrite Ew|].
      replace (r + degree E) with (S r + (degree E - 1)) by lia.
      apply expressible_mult; [exists (Q i)|exists w]; split; try done. by apply HQ.
    - apply expressible_mult; [|by exists (V c)]. apply (divergence_expressible 2 r G g); [|done]. by exists Q.
  Qed.

  Local Lemma green_cell k l m : [k; l; m] ∈ cells →
    (simplex_volume (x <$> [k; l; m]) * S_Geometry.total (map (λ pw, snd pw * (dot 2 (G (position E (x <$> [k; l; m]) (fst pw))) (GV [k; l; m] (position E (x <$> [k; l; m]) (fst pw)))
       + g (position E (x <$> [k; l; m]) (fst pw)) * poly (V [k; l; m]) (position E (x <$> [k; l; m]) (fst pw)))) q)
     = through (pp [k; l; m] 0) (pp [k; l; m] 1) (x k) (x l) + through (pp [k; l; m] 0) (pp [k; l; m] 1) (x l) (x m)
       + through (pp [k; l; m] 0) (pp [k; l; m] 1) (x m) (x k))%R.
  Proof.
    intros Hc. set (c := [k; l; m]) in *. destruct (expressible_div c Hc) as (h & Hh & Eh).
    change (x <$> c) with [x k; x l; x m].
    rewrite (total_map_ext _ (λ pw, snd pw * poly h (barycentric 2 [x k; x l; x m] (fst pw)))%R) by (intros pw _; by rewrite position_barycentric, <- Eh).
    rewrite (exact_value _ q h [x k; x l; x m] Hq eq_refl Hh).
    rewrite <- (gauss_triangle (degree E + S r)) by (apply degpp; [done|lia]).
    assert (Fl h [x k; x l; x m] = Fl (dpoly 0 (pp c 0)) [x k; x l; x m] + Fl (dpoly 1 (pp c 1)) [x k; x l; x m])%R as ->; [|ring].
    apply (is_integral_unique 2 1 (λ s, poly h (barycentric 2 [x k; x l; x m] s)) _ _ Rle_0_1); [by apply (Fl_integral 2 2 (r + degree E))|].
    apply (is_integral_ext 2 1 (λ s, poly (dpoly 0 (pp c 0)) (barycentric 2 [x k; x l; x m] s) + poly (dpoly 1 (pp c 1)) (barycentric 2 [x k; x l; x m] s))%R).
    - intros s. cbv beta. set (y := barycentric 2 [x k; x l; x m] s). clearbody y. rewrite <- Eh. unfold pp.
      assert (HD := degV c Hc). destruct (HQ 0 ltac:(lia)) as [D0 E0], (HQ 1 ltac:(lia)) as [D1 E1].
      rewrite (dpoly_pmul 2 (degree E) (S r)), (dpoly_pmul 2 (degree E) (S r)) by (done || lia).
      rewrite (divergence_poly 2 (S r) G Q g HQ Hg y). unfold dot. cbn [rsum].
      rewrite !(gradient_dpoly 2 (degree E) (V c) (GV c)) by (done || lia || by apply HGV). rewrite E0, E1. ring.
    - apply is_integral_plus; apply (Fl_integral 2 2 (degree E + S r)); try done; apply degree_dpoly, degpp; try done; lia.
  Qed.

  (* what flows through a side, whichever of the triangles is looked at *)
  Local Definition holders (k l : K) : list (list K) := filter (λ c : list K, k ∈ c ∧ l ∈ c) cells.
  Local Definition flow (e : K * K) : R :=
    match holders e.1 e.2 with
    | c :: _ => through (pp c 0) (pp c 1) (x e.1) (x e.2)
    | [] => 0%R
    end.
  Local Lemma flow_cell c k l : c ∈ cells → k ∈ c → l ∈ c → flow (k, l) = through (pp c 0) (pp c 1) (x k) (x l).
  Proof.
    intros Hc Hk Hl. unfold flow. cbn [fst snd]. destruct (holders k l) as [|c' rest] eqn:Hh.
    { exfalso. assert (Hin : c ∈ holders k l) by (apply elem_of_list_filter; done). rewrite Hh in Hin. by apply elem_of_nil in Hin. }
    assert (Hin : c' ∈ holders k l) by (rewrite Hh; left). apply elem_of_list_filter in Hin as [[Hk' Hl'] Hc'].
    apply (through_values (degree E + S r) (degree E + S r)); try (apply degpp; done || lia). intros t. unfold pp.
    destruct (HQ 0 ltac:(lia)) as [D0 _], (HQ 1 ltac:(lia)) as [D1 _].
    rewrite !(poly_pmul 2 (degree E) (S r)) by (done || by apply degV). destruct HV as (_ & Hcont & _).
    by rewrite (Hcont c' c k l t).
  Qed.
  Local Lemma flow_back k l : (flow (l, k) = - flow (k, l))%R.
  Proof.
    destruct (holders k l) as [|c rest] eqn:Hh.
    - assert (Hh' : holders l k = []). { rewrite <- Hh. apply list_filter_iff. tauto. } unfold flow. cbn [fst snd]. rewrite Hh, Hh'. lra.
    - assert (Hin : c ∈ holders k l) by (rewrite Hh; left). apply elem_of_list_filter in Hin as [[Hk Hl] Hc].
      rewrite (flow_cell c k l), (flow_cell c l k) by done. apply (through_back (degree E + S r)); apply degpp; done || lia.
  Qed.
  Local Lemma flow_zero c k l : c ∈ cells → k ∈ c → l ∈ c →
    ((∃ b, b ∈ domain ∧ k ∈ b ∧ l ∈ b) ∨
     (∀ (n : vec) t, dot 2 n (vsub (x l) (x k)) = 0%R → dot 2 n (G (between t (x k) (x l))) = 0%R)) → flow (k, l) = 0%R.
  Proof.
    intros Hc Hk Hl Hor. rewrite (flow_cell c k l) by done. destruct (HQ 0 ltac:(lia)) as [D0 E0], (HQ 1 ltac:(lia)) as [D1 E1].
    rewrite (through_values (degree E + S r) 0 (pp c 0) (pp c 1) [] [] (x k) (x l)); try (apply degpp; done || lia); [|constructor|constructor|].
    { unfold through, Fl, psubst, bint, S_Geometry.total. cbn. lra. }
    intros t. unfold pp. rewrite !(poly_pmul 2 (degree E) (S r)) by (done || by apply degV). rewrite poly_nil.
    destruct Hor as [(b & Hb & Hkb & Hlb)|Hn].
    - destruct HV as (_ & _ & Hz). rewrite (Hz c b k l t) by done. ring.
    - rewrite <- E0, <- E1.
      specialize (Hn (λ i, match i with 0%nat => x l 1%nat - x k 1%nat | _ => - (x l 0%nat - x k 0%nat) end)%R t).
      unfold dot, vsub in Hn. cbn [rsum] in Hn. specialize (Hn ltac:(ring)).
      set (y := between t (x k) (x l)) in *.
      transitivity (poly (V c) y * (0 + (x l 1%nat - x k 1%nat) * G y 0%nat + - (x l 0%nat - x k 0%nat) * G y 1%nat))%R; [ring|]. rewrite Hn. ring.
  Qed.

  Lemma green : matching x cells domain G →
    mesh_integral E x cells q (λ c y, dot 2 (G y) (GV c y) + g y * poly (V c) y)%R = 0%R.
  Proof.
    intros [Hnd Hm]. rewrite <- (sides_cancel (concat (around <$> cells)) flow Hnd flow_back).
    - unfold mesh_integral.
      assert (X : ∀ l, (∀ c, c ∈ l → c ∈ cells) → S_Geometry.total (map (λ c, simplex_volume (x <$> c) * S_Geometry.total (map (λ pw, snd pw *
          (dot 2 (G (position E (x <$> c) (fst pw))) (GV c (position E (x <$> c) (fst pw))) + g (position E (x <$> c) (fst pw)) * poly (V c) (position E (x <$> c) (fst pw)))) q))%R l)
        = S_Geometry.total (map flow (concat (around <$> l)))); [|by apply X].
      induction l as [|c l IH]; intros Hl; [done|]. change (concat (around <$> c :: l)) with (around c ++ concat (around <$> l)). rewrite List.map_app, total_app. cbn [map].
      rewrite <- IH by (intros c' Hc'; apply Hl; by right). change (S_Geometry.total (?a :: ?l)) with (a + S_Geometry.total l)%R. f_equal.
      assert (Hc : c ∈ cells) by (apply Hl; left). destruct (Hcells c Hc) as [L _]. rewrite HE in L. destruct c as [|k [|j [|m [|]]]]; try discriminate L.
      rewrite green_cell by done. cbn [around map]. unfold S_Geometry.total. cbn [fold_right].
      rewrite !(flow_cell [k; j; m]) by (done || set_solver). lra.
    - intros k l Hkl. destruct (Hm k l Hkl) as [?|Hor]; [by left|]. right.
      apply elem_of_concat in Hkl as (s & Hs & Hin). apply elem_of_list_fmap in Hin as (c & -> & Hc).
      destruct (Hcells c Hc) as [L _]. rewrite HE in L. destruct c as [|a [|b [|m [|]]]]; try discriminate L.
      cbn [around] in Hs. rewrite !elem_of_cons, elem_of_nil in Hs.
      apply (flow_zero [a; b; m]); [done|..|done]; destruct Hs as [[= -> ->]|[[= -> ->]|[[= -> ->]|[]]]]; set_solver.
  Qed.
End green.
