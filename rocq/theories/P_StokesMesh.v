(* The divergence theorem on a mesh: the facets inside it cancel. *)
From stdpp Require Import base gmap list.
From Coq Require Import Reals Lra.
From Verif Require Import Base M_SegAlloc M_Perm S_Perm P_Perm M_Topology S_Topology P_Topology P_TopologyErase
  P_TopologyValid P_TopologyOrder P_TopologyVertices P_TopologyCanonical M_Mesh S_Mesh P_MeshBoundary.
From Verif Require Import M_Tensor M_Geometry S_Geometry P_Volume M_Quadrature S_Quadrature P_Quadrature.
From Verif Require Import P_Poly P_Gauss S_Stokes P_Stokes.

Local Open Scope nat_scope.

Local Ltac splits := repeat match goal with |- _ ∧ _ => split end.

(* ---- reorderings ---- *)
Lemma swaps_trans {A} p q (l1 l2 l3 : list A) : swaps p l1 l2 → swaps q l2 l3 → swaps (xorb p q) l1 l3.
Proof.
  intros H1 H2. induction H2 as [l|q l pre x y post H2 IH]; [by rewrite xorb_false_r|].
  rewrite <- negb_xorb_r. constructor. by apply IH.
Qed.
Lemma swaps_far {A} (m : list A) : ∀ l1 a b l2, swaps true (l1 ++ a :: m ++ b :: l2) (l1 ++ b :: m ++ a :: l2).
Proof.
  induction m as [|c m IH]; intros l1 a b l2; cbn [List.app].
  - apply (swaps_one false _ l1 a b l2). constructor.
  - apply (swaps_one false _ l1 c b (m ++ a :: l2)).
    apply (swaps_trans true true _ (l1 ++ c :: a :: m ++ b :: l2)).
    + apply (swaps_one false _ l1 a c (m ++ b :: l2)). constructor.
    + pose proof (IH (l1 ++ [c]) a b l2) as H. by rewrite <- !app_assoc in H.
Qed.
Lemma reord_swaps b l l' : reord b l l' → swaps (negb b) l l'.
Proof.
  intros (n & <- & H). induction H as [l|n l l' l'' (l1 & a & m & c & l2 & -> & ->) _ IH]; [constructor|].
  rewrite Nat.even_succ, <- Nat.negb_even. rewrite negb_involutive.
  replace (Nat.even n) with (xorb true (negb (Nat.even n))) by (by destruct (Nat.even n)).
  eapply swaps_trans; [apply swaps_far|done].
Qed.

(* ---- facets with both orientations cancel ---- *)
Definition signed (psi : nat → R) (p : nat * Z) : R := (IZR p.2 * psi p.1)%R.

Lemma occurs_in p L : occurs p.1 p.2 L ≠ 0 ↔ p ∈ L.
Proof.
  unfold occurs. destruct p as [g s]. cbn [fst snd]. split.
  - destruct (filter (λ p, p = (g, s)) L) as [|q l'] eqn:E; [done|]. intros _.
    assert (q ∈ filter (λ p, p = (g, s)) L) as (-> & ?)%elem_of_list_filter by (rewrite E; left). done.
  - intros Hin. apply elem_of_list_split in Hin as (l1 & l2 & ->).
    rewrite filter_app, filter_cons_True by done. rewrite app_length. cbn. lia.
Qed.

Lemma total_app' u v : total (u ++ v) = (total u + total v)%R.
Proof. unfold total. induction u as [|x u IH]; cbn; [lra|]. rewrite IH. lra. Qed.

Lemma filter_split {A} (Q : A → Prop) `{∀ x, Decision (Q x)} (L : list A) : L ≡ₚ filter Q L ++ filter (λ p, ¬ Q p) L.
Proof.
  induction L as [|p L IH]; [done|]. destruct (decide (Q p)) as [Hp|Hp].
  - rewrite (filter_cons_True Q) by done. rewrite (filter_cons_False (λ p, ¬ Q p)) by tauto. cbn. by rewrite <- IH.
  - rewrite (filter_cons_False Q) by done. rewrite (filter_cons_True (λ p, ¬ Q p)) by done.
    rewrite <- Permutation_middle. by rewrite <- IH.
Qed.

Lemma cancel psi L : consistent L →
  total (map (signed psi) L)
  = total (map (signed psi) (filter (λ p : nat * Z, occurs p.1 (- p.2) L = 0) L)).
Proof.
  intros Hc. set (Q := λ p : nat * Z, occurs p.1 (- p.2) L = 0).
  pose proof (consistent_nodup L Hc) as Hnd.
  set (I := filter (λ p, ¬ Q p) L).
  assert (HP : L ≡ₚ filter Q L ++ I).
  { apply filter_split. }
  rewrite (total_permutation _ _ (Permutation_map (signed psi) HP)).
  rewrite map_app, total_app'.
  assert (H0 : total (map (signed psi) I) = 0%R); [|lra].
  assert (HI : ∀ p, p ∈ I ↔ p ∈ L ∧ (p.1, (- p.2)%Z) ∈ L).
  { intros p. unfold I, Q. rewrite elem_of_list_filter. rewrite <- (occurs_in (p.1, (- p.2)%Z)). cbn [fst snd]. tauto. }
  set (flip := λ p : nat * Z, (p.1, (- p.2)%Z)).
  assert (HF : I ≡ₚ map flip I).
  { apply NoDup_Permutation.
    - by apply NoDup_filter.
    - apply NoDup_fmap_2_strong; [|by apply NoDup_filter].
      intros [g s] [g' s'] _ _ E. unfold flip in E. cbn [fst snd] in E.
      pose proof (f_equal fst E) as E1. pose proof (f_equal snd E) as E2. cbn [fst snd] in E1, E2.
      apply Z.opp_inj in E2. by rewrite E1, E2.
    - intros p. change (map flip I) with (flip <$> I). rewrite elem_of_list_fmap. split.
      + intros Hp. exists (flip p). split.
        * destruct p as [g s]. unfold flip. cbn [fst snd]. by rewrite Z.opp_involutive.
        * apply HI. apply HI in Hp as [Hp Hq]. split; [done|]. unfold flip. cbn [fst snd].
          rewrite Z.opp_involutive. by destruct p.
      + intros (q & -> & Hq). apply HI. apply HI in Hq as [Hp Hq]. split; [done|]. unfold flip. cbn [fst snd].
        rewrite Z.opp_involutive. by destruct q. }
  assert (E : total (map (signed psi) I) = (- total (map (signed psi) I))%R); [|lra].
  rewrite (total_permutation _ _ (Permutation_map (signed psi) HF)) at 1.
  clear. induction I as [|p I IH]; unfold total in *; cbn [map fold_right]; [lra|]. rewrite IH.
  unfold flip, signed at 1. cbn [fst snd]. rewrite opp_IZR. unfold signed at 2. lra.
Qed.

(* ---- one cell ---- *)
Section cells.
  Context (debug : bool) (st : topo) (X : nat → vec) (K r : nat) (P : nat → polynomial).
  Context (HI : Inv st) (HC : Can st) (HK : S (S K) ≤ 3).
  Context (HP : ∀ i, i < S (S K) → of_degree (S (S K)) r (P i)).

  Definition psi (g : nat) : R :=
    match fvertex_list debug st (S K) g [] with
    | Ok ls => Phi P (map X ls)
    | _ => 0%R
    end.

  Lemma reord_Phi b vs ws : length vs = S (S K) → reord b vs ws →
    Phi P (map X ws) = (IZR (zs b) * Phi P (map X vs))%R.
  Proof using HP HK.
    intros L H. apply reord_swaps in H. apply (swaps_map X) in H.
    rewrite (Phi_swaps (S (S K)) r P (negb b) (map X vs) (map X ws)); [|lia|done|by rewrite map_length|done].
    by destruct b.
  Qed.
  Lemma spans_psi o vs g s : spans st (S K) o vs → ors st !! (S K, o) = Some (g, s) →
    Phi P (map X vs) = signed psi (g, s).
  Proof using HP HK.
    intros (f & b & ws & Ho & Hord & Hr) Hg. rewrite Hg in Ho. injection Ho as -> ->.
    destruct (order_shape _ _ _ _ Hord) as (Hlen & _ & _).
    destruct (fvertex_list_order debug st (S K) f ws Hord) as (ls & Els & Hls).
    unfold signed, psi. cbn [fst snd]. rewrite Els.
    rewrite (reord_Phi b ws vs Hlen Hr).
    rewrite (reord_Phi true ls ws); [|by rewrite (Permutation_length (reord_perm _ _ _ Hls))|done].
    cbn [zs]. lra.
  Qed.
  Lemma spans_total c fs : Forall2 (spans st (S K)) c fs →
    total (map (λ vs, Phi P (map X vs)) fs)
    = total (map (signed psi) (base.omap (λ sub, ors st !! (S K, sub)) c)).
  Proof using HP HK.
    induction 1 as [|o vs c fs Ho _ IH]; [done|]. cbn [map base.omap list_omap].
    pose proof Ho as (f & b & ws & Hf & _). rewrite Hf. cbn [map]. unfold total in *. cbn [fold_right].
    rewrite <- (spans_psi o vs f (zs b) Ho Hf). by rewrite IH.
  Qed.

  Lemma cell_psi o us f : ors st !! (S (S K), o) = Some (f, 1%Z) → vertices debug st (S (S K)) o = Ok us →
    (simplex_volume (map X us) * INR (fact (S (S K))) * rsum (S (S K)) (λ k, Fl (dpoly k (P k)) (map X us))
     = facets_sign (S (S K)) * total (map (signed psi) (facets_of st (S (S K)) o)))%R.
  Proof using HP HK HI HC.
    intros Ho Hus.
    destruct (Can_spans debug st (S (S K)) o us HI HC ltac:(lia) ltac:(eauto) Hus) as (f' & b & ws & Ho' & Hord & Hr).
    rewrite Ho in Ho'. injection Ho' as <- Hb. assert (b = true) as -> by (by destruct b). clear Hb.
    pose proof (proj1 (order_SS _ _ _ _) Hord) as (_ & Hlen & _ & c & Hc & HF).
    pose proof (spans_total c _ HF) as HT.
    assert (Hfac : facets_of st (S (S K)) o = base.omap (λ sub, ors st !! (S K, sub)) c).
    { unfold facets_of, composition, oriented, fcomposition. rewrite Ho. cbn [deref rbind]. rewrite Hc. done. }
    rewrite Hfac, <- HT. clear Hfac HT HF Hc.
    assert (Hsw : swaps false (map X ws) (map X us)) by (apply (swaps_map X), (reord_swaps true), Hr).
    assert (Hlen' : length (map X ws) = S (S (S K))) by (by rewrite map_length).
    destruct (simplex_volume_swaps false (S (S K)) (map X ws) (map X us) ltac:(lia) Hlen' Hsw) as [_ ->].
    rewrite (rsum_ext _ _ (λ k, Fl (dpoly k (P k)) (map X ws))).
    2:{ intros k Hk. apply (Fl_swaps (S (S K)) r _ false); [|done]. apply degree_dpoly, HP. lia. }
    clear Hsw Hlen' Hr Hord us Hus.
    destruct K as [|[|K']]; [| |lia].
    - destruct ws as [|a [|b [|d [|]]]]; try done. cbn [map faces facets_sign].
      pose proof (gauss_triangle r P (X a) (X b) (X d) HP) as HG.
      unfold simplex_volume. cbn [map length]. set (dv := det_vecs _) in *. set (S := rsum 2 _) in *.
      unfold total. cbn [map fold_right sign_of].
      replace (1 * (dv / INR (fact 2)) * INR (fact 2) * S)%R with (dv * S)%R by (field; apply INR_fact_neq_0).
      rewrite HG. lra.
    - destruct ws as [|a [|b [|d [|e [|]]]]]; try done. cbn [map faces facets_sign].
      pose proof (gauss_tetrahedron r P (X a) (X b) (X d) (X e) HP) as HG.
      unfold simplex_volume. cbn [map length]. set (dv := det_vecs _) in *. set (S := rsum 3 _) in *.
      unfold total. cbn [map fold_right sign_of].
      replace (1 * (dv / INR (fact 3)) * INR (fact 3) * S)%R with (dv * S)%R by (field; apply INR_fact_neq_0).
      rewrite HG. lra.
  Qed.
End cells.
