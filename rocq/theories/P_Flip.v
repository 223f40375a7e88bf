(* Proofs about M_Flip. *)
From stdpp Require Import base gmap list.
From Verif Require Import Base S_Perm M_Perm P_Perm M_Topology S_Topology P_Topology P_TopologyErase P_TopologyValid P_TopologyOrder
  P_TopologyVertices P_TopologyCanonical P_TopologyApi M_Flip.

Lemma first_match_from (test : nat → res bool) l acc :
  rfold (λ acc y, match acc with Some _ => Ok acc | None => let! b := test y in Ok (if b : bool then Some y else None) end)
    (Some acc) l = Ok (Some acc).
Proof. induction l; [done|]. cbn [rfold rbind]. done. Qed.
Lemma first_match_one (test : nat → res bool) l z :
  z ∈ l → test z = Ok true → (∀ y, y ∈ l → y ≠ z → test y = Ok false) → first_match test l = Ok (Some z).
Proof.
  unfold first_match. intros Hz Ht. induction l as [|y l IH]; intros Hno; [by apply elem_of_nil in Hz|].
  cbn [rfold]. destruct (decide (y = z)) as [->|Hyz].
  - rewrite Ht. cbn [rbind]. apply first_match_from.
  - rewrite (Hno y) by (done || left). cbn [rbind]. apply IH; [|intros; apply Hno; [by right|done]].
    apply elem_of_cons in Hz as [->|]; done.
Qed.
Lemma first_match_none (test : nat → res bool) l :
  (∀ y, y ∈ l → test y = Ok false) → first_match test l = Ok None.
Proof.
  unfold first_match. induction l as [|y l IH]; intros Hno; [done|]. cbn [rfold]. rewrite (Hno y) by left. cbn [rbind].
  apply IH. intros; apply Hno; by right.
Qed.

Lemma spans_footprint st o vs : spans st 1 o vs → ∃ f, footprint st 1 o = Ok f.
Proof. intros (f & b & ws & Ho & _). exists f. unfold footprint, oriented. by rewrite Ho. Qed.

(* two segments have the same footprint exactly when they have the same ends *)
Lemma same_ends st x y a b c d f g :
  Inv st → spans st 1 x [a; b] → spans st 1 y [c; d] → footprint st 1 x = Ok f → footprint st 1 y = Ok g →
  f = g ↔ (a = c ∧ b = d) ∨ (a = d ∧ b = c).
Proof.
  intros HI Hx Hy Hf Hg. unfold footprint, oriented in Hf, Hg.
  destruct (ors st !! (1, x)) as [[f' s]|] eqn:Ex; [|done]. destruct (ors st !! (1, y)) as [[g' s']|] eqn:Ey; [|done].
  injection Hf as ->. injection Hg as ->.
  pose proof (spans_sedge _ _ _ _ _ _ Hx Ex) as Hsx. pose proof (spans_sedge _ _ _ _ _ _ Hy Ey) as Hsy. split.
  - intros ->. pose proof (sedge_same _ _ _ _ _ _ _ _ HI Hsx Hsy) as Hp.
    apply Permutation_length_2 in Hp. naive_solver.
  - intros [[-> ->]|[-> ->]].
    + pose proof (sedge_det _ _ _ _ _ HI Hsx Hsy) as E. by injection E.
    + apply sedge_flip in Hsy. pose proof (sedge_det _ _ _ _ _ HI Hsx Hsy) as E. by injection E.
Qed.

(* the vertices of a triangle, as its footprint lists them *)
Definition fspans (st : topo) (t a b c : nat) : Prop :=
  ∃ f s, ors st !! (2, t) = Some (f, zs s) ∧ spans st 2 t (if s then [a; b; c] else [b; a; c]).

Lemma fspans_grows debug st st' t a b c :
  Inv st → Inv st' → growsd debug st st' → fspans st t a b c → fspans st' t a b c.
Proof.
  intros HI HI' Hg (f & s & Ho & Hs). exists f, s. split; [by apply (grows_or debug st)|by apply (spans_grows debug st)].
Qed.

(* the composition of a triangle *)
Lemma members st t a b c :
  Inv st → fspans st t a b c →
  NoDup [a; b; c] ∧ ∃ f x y z l ws, footprint st 2 t = Ok f ∧
    spans st 1 x [a; b] ∧ spans st 1 y [b; c] ∧ spans st 1 z [c; a] ∧
    composition st 2 t = Ok l ∧ l ≡ₚ [x; y; z] ∧ order st 2 f ws ∧ ws ≡ₚ [a; b; c].
Proof.
  intros HI (f & s & Ht & (f' & s' & ws & Ho & Hord & Hre)). rewrite Ht in Ho. injection Ho as <- Hs.
  assert (s' = s) as -> by (by destruct s, s'). clear Hs.
  pose proof Hord as Hord'. apply order_SS in Hord' as (_ & Hlen & Hnd & d & Hd & HF).
  destruct ws as [|u [|v [|w [|]]]]; try done. cbn [faces] in HF.
  inversion HF as [|x ? ? ? Hx HF1]; subst. inversion HF1 as [|y ? ? ? Hy HF2]; subst.
  inversion HF2 as [|z ? ? ? Hz HF3]; subst. inversion HF3; subst.
  assert (∃ l, composition st 2 t = Ok l ∧ l ≡ₚ [x; y; z]) as (l & Hc & Hl).
  { unfold composition, oriented, fcomposition. rewrite Ht. cbn [deref rbind]. rewrite Hd. cbn [deref rbind].
    rewrite decide_zs. eexists. split; [done|]. destruct s; [done|apply Permutation_swap]. }
  assert (Hf : footprint st 2 t = Ok f) by (unfold footprint, oriented; by rewrite Ht).
  assert (Hcase : (a = u ∧ b = v ∧ c = w) ∨ (a = v ∧ b = w ∧ c = u) ∨ (a = w ∧ b = u ∧ c = v)).
  { destruct s; apply reord3 in Hre; naive_solver. }
  destruct Hcase as [(-> & -> & ->)|[(-> & -> & ->)|(-> & -> & ->)]].
  - split; [done|]. exists f, x, y, z, l, [u; v; w]. split_and!; try done; apply Permutation_refl.
  - assert (Hp : [u; v; w] ≡ₚ [v; w; u]) by (apply (Permutation_cons_append [v; w] u)). split; [by rewrite <- Hp|].
    exists f, y, z, x, l, [u; v; w]. split_and!; try done. rewrite Hl. apply (Permutation_cons_append [y; z] x).
  - assert (Hp : [u; v; w] ≡ₚ [w; u; v]) by (symmetry; apply (Permutation_cons_append [u; v] w)). split; [by rewrite <- Hp|].
    exists f, z, x, y, l, [u; v; w]. split_and!; try done. rewrite Hl. symmetry. apply (Permutation_cons_append [x; y] z).
Qed.

Lemma spans_ends_registered st o a b : Inv st → spans st 1 o [a; b] → is_Some (fps st !! (0, a)) ∧ is_Some (fps st !! (0, b)).
Proof.
  intros HI (f & s & ws & _ & Hord & Hre). apply order_1 in Hord as (p & q & u & v & -> & _ & _ & Hp & Hq).
  apply (i_or _ HI) in Hp as [Hp _]. apply (i_or _ HI) in Hq as [Hq _].
  apply reord_perm, Permutation_length_2 in Hre. naive_solver.
Qed.

Lemma set_insert_perm x l : sorted_ l → x ∉ l → set_insert x l ≡ₚ x :: l.
Proof.
  induction 1 as [|y l Hy Hl IH]; [done|]. intros Hx. cbn [set_insert].
  apply not_elem_of_cons in Hx as [Hxy Hx]. destruct (Nat.ltb_spec x y); [done|].
  destruct (Nat.eqb_spec x y); [done|]. rewrite IH by done. apply Permutation_swap.
Qed.

(* the two segments of a triangle that are not shared *)
Lemma boundary_insert_ok st t l x y z shared bs :
  composition st 2 t = Ok l → l ≡ₚ [x; y; z] → sorted_ bs → NoDup (x :: z :: bs) →
  footprint st 1 y = Ok shared → (∃ f, footprint st 1 x = Ok f ∧ f ≠ shared) → (∃ f, footprint st 1 z = Ok f ∧ f ≠ shared) →
  ∃ r, boundary_insert st t shared bs = Ok r ∧ sorted_ r ∧ r ≡ₚ x :: z :: bs.
Proof.
  intros Hc Hl Hs Hnd Hy (fx & Hx & Hfx) (fz & Hz & Hfz). unfold boundary_insert. rewrite Hc. cbn [rbind]. clear Hc.
  assert (Hg : ∀ l bs, sorted_ bs → (∀ u, u ∈ l → u = x ∨ u = y ∨ u = z) → NoDup (filter (λ u, u ≠ y) l ++ bs) →
    ∃ r, rfold (λ bs u, let! f := footprint st 1 u in Ok (if f =? shared then bs else set_insert u bs)) bs l = Ok r ∧
      sorted_ r ∧ r ≡ₚ filter (λ u, u ≠ y) l ++ bs).
  { clear Hl Hs Hnd l bs. induction l as [|u l IH]; intros bs Hs Hu Hnd; [by exists bs|]. cbn [rfold].
    assert (Hyx : y ≠ x) by (intros ->; congruence). assert (Hyz : y ≠ z) by (intros ->; congruence).
    destruct (decide (u = y)) as [->|Huy].
    - rewrite Hy. cbn [rbind]. rewrite Nat.eqb_refl. rewrite filter_cons_False in Hnd |- * by naive_solver.
      apply IH; [done| |done]. intros v Hv. apply Hu. by right.
    - rewrite filter_cons_True in Hnd |- * by done.
      assert (footprint st 1 u = Ok fx ∧ u = x ∨ footprint st 1 u = Ok fz ∧ u = z) as Hfu.
      { destruct (Hu u) as [->|[->| ->]]; [left|left; by split|done|right; by split]. }
      assert (∃ f, footprint st 1 u = Ok f ∧ f ≠ shared) as (f & -> & Hf) by naive_solver. cbn [rbind].
      destruct (Nat.eqb_spec f shared); [done|]. cbn in Hnd. apply NoDup_cons in Hnd as [Hnu Hnd].
      destruct (IH (set_insert u bs)) as (r & E & Hsr & Hr).
      + by apply set_insert_sorted.
      + intros v Hv. apply Hu. by right.
      + rewrite set_insert_perm; [|done|set_solver]. rewrite <- Permutation_middle. by apply NoDup_cons.
      + exists r. split_and!; [done|done|]. rewrite Hr, set_insert_perm; [|done|set_solver]. by rewrite <- Permutation_middle. }
  assert (Hyx : y ≠ x) by (intros ->; congruence). assert (Hyz : y ≠ z) by (intros ->; congruence).
  assert (Hfl : filter (λ u, u ≠ y) l ≡ₚ [x; z]).
  { rewrite Hl. rewrite filter_cons_True by done. rewrite filter_cons_False by naive_solver. rewrite filter_cons_True by done. done. }
  destruct (Hg l bs Hs) as (r & E & Hsr & Hr).
  - intros u Hu. rewrite Hl in Hu. by apply elem_of_3.
  - by rewrite Hfl.
  - exists r. split_and!; [done|done|]. by rewrite Hr, Hfl.
Qed.

Lemma erase_subsimplex_ok st i bs c te x z rest v :
  c !! i = Some (Some x) → head st x = Ok v → tail st z = Ok v → (∀ y, y ∈ rest → ∃ w, tail st y = Ok w ∧ w ≠ v) →
  bs ≡ₚ z :: rest → NoDup bs →
  ∃ bs', erase_subsimplex st i (bs, c, te) = Ok (bs', <[S i := Some z]> c, z) ∧ bs' ≡ₚ rest.
Proof.
  intros Hx Hh Ht Hno Hbs Hnd. unfold erase_subsimplex.
  rewrite (first_match_one _ bs z).
  - cbn [rbind]. eexists. split; [done|]. rewrite Hbs. rewrite filter_cons_False by naive_solver.
    rewrite Hbs in Hnd. apply NoDup_cons in Hnd as [Hz _]. clear -Hz.
    induction rest as [|y rest IH]; [done|]. rewrite filter_cons_True by set_solver. rewrite IH; [done|set_solver].
  - rewrite Hbs. left.
  - unfold entry. rewrite Hx. cbn [deref rbind]. unfold head_tail_connected. rewrite Hh, Ht. cbn [rbind]. by rewrite Nat.eqb_refl.
  - intros y Hy Hyz. rewrite Hbs in Hy. apply elem_of_cons in Hy as [->|Hy]; [done|].
    destruct (Hno y Hy) as (w & Hw & Hwv). unfold entry. rewrite Hx. cbn [deref rbind].
    unfold head_tail_connected. rewrite Hh, Hw. cbn [rbind]. destruct (Nat.eqb_spec v w); congruence.
Qed.

(* the boundary of the quadrilateral q: from [v1] to [p], to [v0], to [q], and back *)
Lemma new_compositions_ok debug st t0 t1 shared d d' v0 v1 p q e1 e2 e3 e4 b1 b2 :
  Inv st → NoDup [v0; v1; p; q] → spans st 1 d [v0; v1] → spans st 1 d' [v1; v0] →
  spans st 1 e1 [v1; p] → spans st 1 e2 [p; v0] → spans st 1 e3 [v0; q] → spans st 1 e4 [q; v1] →
  boundary_insert st t0 shared [] = Ok b1 → length b1 = 2 → boundary_insert st t1 shared b1 = Ok b2 → NoDup b2 →
  b2 ≡ₚ [e1; e2; e3; e4] →
  new_compositions debug st t0 t1 shared d d' = Ok ([Some d; Some e1; Some e2], [Some d'; Some e3; Some e4]).
Proof.
  intros HI Hnd Hd Hd' H1 H2 H3 H4 E1 Hl1 E2 Hnd2 Hb2.
  apply (tail_head_spans st) in Hd as [Htd Hhd], Hd' as [Htd' Hhd'], H1 as [Ht1 Hh1], H2 as [Ht2 Hh2], H3 as [Ht3 Hh3], H4 as [Ht4 Hh4];
    [|done..].
  assert (v0 ≠ v1 ∧ v0 ≠ p ∧ v0 ≠ q ∧ v1 ≠ p ∧ v1 ≠ q ∧ p ≠ q) as (? & ? & ? & ? & ? & ?).
  { rewrite !NoDup_cons in Hnd. set_solver. }
  unfold new_compositions. rewrite E1. cbn [rbind]. rewrite Hl1. cbn [Nat.eqb].
  assert (Ha : assert_ debug true = Ok tt) by (unfold assert_; cbn; by rewrite andb_false_r). rewrite Ha. cbn [rbind].
  rewrite E2. cbn [rbind].
  rewrite (Permutation_length Hb2). change (length [e1; e2; e3; e4] =? 4) with true. rewrite Ha. cbn [rbind].
  destruct b2 as [|te b2]. { by apply Permutation_nil_cons in Hb2. }
  change (entry (te :: b2) 0) with (Ok te). cbn [rbind].
  destruct (erase_subsimplex_ok st 0 (te :: b2) [Some d; None; None] te d e1 [e2; e3; e4] v1) as (bs & E & Hbs); try done.
  { intros y. rewrite !elem_of_cons, elem_of_nil. intros [->|[->|[->|[]]]]; eexists; (split; [eassumption|congruence]). }
  rewrite E. cbn [rbind]. clear E. assert (Hnb : NoDup bs).
  { rewrite Hbs. rewrite Hb2 in Hnd2. by apply NoDup_cons in Hnd2 as [_ ?]. }
  change (<[1 := Some e1]> [Some d; None; None]) with [Some d; Some e1; None].
  destruct (erase_subsimplex_ok st 1 bs [Some d; Some e1; None] e1 e1 e2 [e3; e4] p) as (bs1 & E & Hbs1); try done.
  { intros y. rewrite !elem_of_cons, elem_of_nil. intros [->|[->|[]]]; eexists; (split; [eassumption|congruence]). }
  rewrite E. cbn [rbind]. clear E. assert (Hnb1 : NoDup bs1).
  { rewrite Hbs1. rewrite Hbs in Hnb. by apply NoDup_cons in Hnb as [_ ?]. }
  change (<[2 := Some e2]> [Some d; Some e1; None]) with [Some d; Some e1; Some e2].
  rewrite (Permutation_length Hbs1). change (length [e3; e4] =? 2) with true. rewrite Ha. cbn [rbind].
  assert (Hcl : assert_closed debug st [Some d; Some e1; Some e2] = Ok tt).
  { unfold assert_closed. destruct debug; [|done]. unfold entry. cbn [lookup list_lookup deref rbind].
    unfold head_tail_connected. rewrite Hh2, Htd. cbn [rbind]. by rewrite Nat.eqb_refl. }
  rewrite Hcl. cbn [rbind].
  destruct (erase_subsimplex_ok st 0 bs1 [Some d'; None; None] e2 d' e3 [e4] v0) as (bs2 & E & Hbs2); try done.
  { intros y. rewrite !elem_of_cons, elem_of_nil. intros [->|[]]; eexists; (split; [eassumption|congruence]). }
  rewrite E. cbn [rbind]. clear E. assert (Hnb2 : NoDup bs2).
  { rewrite Hbs2. apply NoDup_singleton. }
  change (<[1 := Some e3]> [Some d'; None; None]) with [Some d'; Some e3; None].
  destruct (erase_subsimplex_ok st 1 bs2 [Some d'; Some e3; None] e3 e3 e4 [] q) as (bs3 & E & Hbs3); try done.
  { intros y Hy. by apply elem_of_nil in Hy. }
  rewrite E. cbn [rbind]. clear E.
  change (<[2 := Some e4]> [Some d'; Some e3; None]) with [Some d'; Some e3; Some e4].
  rewrite (Permutation_length Hbs3). change (length (A := nat) [] =? 0) with true. rewrite Ha. cbn [rbind].
  assert (Hcl' : assert_closed debug st [Some d'; Some e3; Some e4] = Ok tt).
  { unfold assert_closed. destruct debug; [|done]. unfold entry. cbn [lookup list_lookup deref rbind].
    unfold head_tail_connected. rewrite Hh4, Htd'. cbn [rbind]. by rewrite Nat.eqb_refl. }
  rewrite Hcl'. done.
Qed.

Lemma erase_subsimplex_none st i bs c te x v :
  c !! i = Some (Some x) → head st x = Ok v → (∀ y, y ∈ bs → ∃ w, tail st y = Ok w ∧ w ≠ v) →
  erase_subsimplex st i (bs, c, te) = Ok (filter (λ y, y ≠ te) bs, c, te).
Proof.
  intros Hx Hh Hno. unfold erase_subsimplex. rewrite first_match_none; [done|].
  intros y Hy. destruct (Hno y Hy) as (w & Hw & Hwv). unfold entry. rewrite Hx. cbn [deref rbind].
  unfold head_tail_connected. rewrite Hh, Hw. cbn [rbind]. destruct (Nat.eqb_spec v w); congruence.
Qed.

(* two edges from [v1] and [v0] to [p], and two from [q] to them: no boundary *)
Lemma new_compositions_mixed (debug : bool) st t0 t1 shared d d' v0 v1 p q e1 e2 e3 e4 b1 b2 :
  Inv st → NoDup [v0; v1; p; q] → spans st 1 d [v0; v1] → spans st 1 d' [v1; v0] →
  spans st 1 e1 [v1; p] → spans st 1 e2 [q; v0] → spans st 1 e3 [v0; p] → spans st 1 e4 [q; v1] →
  boundary_insert st t0 shared [] = Ok b1 → length b1 = 2 → boundary_insert st t1 shared b1 = Ok b2 → NoDup b2 →
  b2 ≡ₚ [e1; e2; e3; e4] →
  if debug then new_compositions debug st t0 t1 shared d d' = Abort
  else ∃ c1, new_compositions debug st t0 t1 shared d d' = Ok ([Some d; Some e1; None], c1).
Proof.
  intros HI Hnd Hd Hd' H1 H2 H3 H4 E1 Hl1 E2 Hnd2 Hb2.
  apply (tail_head_spans st) in Hd as [Htd Hhd], Hd' as [Htd' Hhd'], H1 as [Ht1 Hh1], H2 as [Ht2 Hh2], H3 as [Ht3 Hh3], H4 as [Ht4 Hh4];
    [|done..].
  assert (v0 ≠ v1 ∧ v0 ≠ p ∧ v0 ≠ q ∧ v1 ≠ p ∧ v1 ≠ q ∧ p ≠ q) as (? & ? & ? & ? & ? & ?).
  { rewrite !NoDup_cons in Hnd. set_solver. }
  unfold new_compositions. rewrite E1. cbn [rbind]. rewrite Hl1. cbn [Nat.eqb].
  assert (Ha : assert_ debug true = Ok tt) by (unfold assert_; cbn; by rewrite andb_false_r). rewrite Ha. cbn [rbind].
  rewrite E2. cbn [rbind].
  rewrite (Permutation_length Hb2). change (length [e1; e2; e3; e4] =? 4) with true. rewrite Ha. cbn [rbind].
  destruct b2 as [|te b2]. { by apply Permutation_nil_cons in Hb2. }
  change (entry (te :: b2) 0) with (Ok te). cbn [rbind].
  destruct (erase_subsimplex_ok st 0 (te :: b2) [Some d; None; None] te d e1 [e2; e3; e4] v1) as (bs & E & Hbs); try done.
  { intros y. rewrite !elem_of_cons, elem_of_nil. intros [->|[->|[->|[]]]]; eexists; (split; [eassumption|congruence]). }
  rewrite E. cbn [rbind]. clear E. assert (Hnb : NoDup [e1; e2; e3; e4]) by (by rewrite <- Hb2).
  change (<[1 := Some e1]> [Some d; None; None]) with [Some d; Some e1; None].
  rewrite (erase_subsimplex_none st 1 bs [Some d; Some e1; None] e1 e1 p); [|done|done|].
  2: { intros y. rewrite Hbs, !elem_of_cons, elem_of_nil. intros [->|[->|[->|[]]]]; eexists; (split; [eassumption|congruence]). }
  cbn [rbind].
  assert (Hbs1 : filter (λ y, y ≠ e1) bs ≡ₚ [e2; e3; e4]).
  { rewrite Hbs. rewrite NoDup_cons in Hnb. rewrite !filter_cons_True by set_solver. done. }
  rewrite (Permutation_length Hbs1). destruct debug; [done|]. change (assert_ false (length [e2; e3; e4] =? 2)) with (Ok tt). cbn [rbind].
  cbn [assert_closed rbind].
  destruct (erase_subsimplex_ok st 0 (filter (λ y, y ≠ e1) bs) [Some d'; None; None] e1 d' e3 [e2; e4] v0) as (bs2 & E & Hbs2); try done.
  { intros y. rewrite !elem_of_cons, elem_of_nil. intros [->|[->|[]]]; eexists; (split; [eassumption|congruence]). }
  { rewrite Hbs1. apply Permutation_swap. }
  { rewrite Hbs1. by apply NoDup_cons in Hnb as [_ ?]. }
  rewrite E. cbn [rbind]. clear E.
  change (<[1 := Some e3]> [Some d'; None; None]) with [Some d'; Some e3; None].
  rewrite (erase_subsimplex_none st 1 bs2 [Some d'; Some e3; None] e3 e3 p); [|done|done|].
  2: { intros y. rewrite Hbs2, !elem_of_cons, elem_of_nil. intros [->|[->|[]]]; eexists; (split; [eassumption|congruence]). }
  cbn [rbind]. eexists. by unfold assert_.
Qed.

Section flip.
  Context (al : alloc) (Hal : good_alloc al) (debug : bool).

  (* the two triangles ACD and BXY, on the two sides of CD *)
  Lemma quadrilateral st t0 t1 a b c d x y :
    Inv st → fspans st t0 a c d → fspans st t1 b x y → x = d ∧ y = c ∨ x = c ∧ y = d → a ≠ b →
    ∃ shared xac xda xbd xcb, NoDup [a; b; c; d] ∧
      spans st 1 xac [a; c] ∧ spans st 1 xda [d; a] ∧ spans st 1 xbd [b; x] ∧ spans st 1 xcb [y; b] ∧
      (∃ xcd, spans st 1 xcd [c; d] ∧ footprint st 1 xcd = Ok shared) ∧ find_shared_simplex st t0 t1 = Ok shared ∧
      (∃ vs, opposite_vertices debug st t0 t1 shared = Ok vs ∧ vs ≡ₚ [a; b]) ∧
      (∃ b1 b2, boundary_insert st t0 shared [] = Ok b1 ∧ length b1 = 2 ∧ boundary_insert st t1 shared b1 = Ok b2 ∧
         NoDup b2 ∧ b2 ≡ₚ [xac; xda; xbd; xcb]).
  Proof.
    intros HI Hs0 Hs1 Hxy Hab.
    destruct (members st t0 a c d HI Hs0) as (Hn0 & f0 & xac & xcd & xda & l0 & ws0 & H0 & Hac & Hcd & Hda & Hc0 & Hl0 & Hw0 & Hp0).
    destruct (members st t1 b x y HI Hs1) as (Hn1 & f1 & xbd & xdc & xcb & l1 & ws1 & H1 & Hbd & Hdc & Hcb & Hc1 & Hl1 & Hw1 & Hp1).
    assert (a ≠ c ∧ a ≠ d ∧ c ≠ d ∧ b ≠ c ∧ b ≠ d) as (? & ? & ? & ? & ?).
    { rewrite !NoDup_cons in Hn0. rewrite !NoDup_cons in Hn1. destruct Hxy as [[-> ->]|[-> ->]]; set_solver. }
    assert (Hnd : NoDup [a; b; c; d]). { rewrite !NoDup_cons, !not_elem_of_cons. split_and!; try done; try apply not_elem_of_nil. constructor. }
    destruct (spans_footprint _ _ _ Hac) as [fac Fac]. destruct (spans_footprint _ _ _ Hcd) as [fcd Fcd].
    destruct (spans_footprint _ _ _ Hda) as [fda Fda]. destruct (spans_footprint _ _ _ Hbd) as [fbd Fbd].
    destruct (spans_footprint _ _ _ Hdc) as [fdc Fdc]. destruct (spans_footprint _ _ _ Hcb) as [fcb Fcb].
    assert (fcd = fdc) as <- by (apply (same_ends st xcd xdc c d x y); try done; destruct Hxy as [[-> ->]|[-> ->]]; tauto).
    assert (Hne : ∀ u v p q r s f g, spans st 1 u [p; q] → spans st 1 v [r; s] → footprint st 1 u = Ok f → footprint st 1 v = Ok g →
      ¬ ((p = r ∧ q = s) ∨ (p = s ∧ q = r)) → f ≠ g).
    { intros u v p q r s f g Hx Hy Hf Hg Hn E. apply Hn. by eapply (same_ends st u v p q r s). }
    assert (fac ≠ fcd) by (eapply (Hne xac xcd); try done; naive_solver).
    assert (fda ≠ fcd) by (eapply (Hne xda xcd); try done; naive_solver).
    assert (fbd ≠ fcd) by (eapply (Hne xbd xcd); try done; naive_solver).
    assert (fcb ≠ fcd) by (eapply (Hne xcb xcd); try done; naive_solver).
    assert (fac ≠ fbd) by (eapply (Hne xac xbd); try done; naive_solver).
    assert (fac ≠ fcb) by (eapply (Hne xac xcb); try done; naive_solver).
    assert (fac ≠ fda) by (eapply (Hne xac xda); try done; naive_solver).
    assert (fda ≠ fbd) by (eapply (Hne xda xbd); try done; naive_solver).
    assert (fda ≠ fcb) by (eapply (Hne xda xcb); try done; naive_solver).
    assert (fbd ≠ fcb) by (eapply (Hne xbd xcb); try done; naive_solver).
    exists fcd, xac, xda, xbd, xcb. split_and!; [done|done|done|done|done|by exists xcd| | |].
    - unfold find_shared_simplex. rewrite Hc0. cbn [rbind]. rewrite (first_match_one _ l0 xcd).
      + cbn [rbind at_or_throw]. done.
      + rewrite Hl0. right. left.
      + rewrite Hc1. cbn [rbind]. rewrite (first_match_one _ l1 xdc); [done|rewrite Hl1; right; left| |].
        * rewrite Fcd, Fdc. cbn [rbind]. by rewrite Nat.eqb_refl.
        * intros v Hv Hvn. rewrite Hl1 in Hv. apply elem_of_3 in Hv as [->|[->| ->]]; [|done|].
          -- rewrite Fcd, Fbd. cbn [rbind]. destruct (Nat.eqb_spec fcd fbd); congruence.
          -- rewrite Fcd, Fcb. cbn [rbind]. destruct (Nat.eqb_spec fcd fcb); congruence.
      + intros u Hu Hun. rewrite Hc1. cbn [rbind]. rewrite first_match_none; [done|].
        intros v Hv. rewrite Hl1 in Hv. rewrite Hl0 in Hu.
        apply elem_of_3 in Hu as [->|[->| ->]]; [|done|]; apply elem_of_3 in Hv as [->|[->| ->]];
          rewrite ?Fac, ?Fda, ?Fbd, ?Fdc, ?Fcb; cbn [rbind];
          match goal with |- Ok (?u =? ?v) = _ => destruct (Nat.eqb_spec u v) end; congruence.
    - unfold opposite_vertices. rewrite H0. cbn [rbind].
      destruct (fvertex_set_order st 2 f0 ws0 [] Hw0) as (r0 & E0 & Hr0). rewrite E0. cbn [rbind].
      rewrite H1. cbn [rbind].
      destruct (fvertex_set_order st 2 f1 ws1 r0 Hw1) as (r1 & E1 & Hr1). rewrite E1. cbn [rbind].
      destruct Hcd as (fcd' & s & wcd & Ocd & Wcd & Pcd). assert (fcd' = fcd) as ->.
      { unfold footprint, oriented in Fcd. rewrite Ocd in Fcd. by injection Fcd. }
      destruct (fvertex_set_order st 1 fcd wcd [] Wcd) as (r2 & E2 & Hr2). rewrite E2. cbn [rbind].
      assert (Hsr : NoDup r1).
      { apply sorted_nodup. eapply fvertex_set_sorted; [|exact E1]. eapply fvertex_set_sorted; [|exact E0]. constructor. }
      assert (Hp : filter (λ v, v ∉ r2) r1 ≡ₚ [a; b]).
      { apply NoDup_Permutation.
        - by apply NoDup_filter.
        - apply NoDup_2. done.
        - intros u. rewrite elem_of_list_filter, Hr1, Hr2, Hr0, Hp0, Hp1, (reord_perm _ _ _ Pcd).
          rewrite !elem_of_cons, !elem_of_nil. apply NoDup_4 in Hnd. clear -Hxy Hab Hnd.
          destruct Hxy as [[-> ->]|[-> ->]]; naive_solver. }
      eexists. split; [|exact Hp]. rewrite (Permutation_length Hp). cbn. unfold assert_. destruct debug; done.
    - assert (NoDup [xac; xda]) by (apply NoDup_2; congruence).
      destruct (boundary_insert_ok st t0 l0 xac xcd xda fcd []) as (b1 & E1 & Hs & Hb1); try done; [constructor|by exists fac|by exists fda|].
      destruct (boundary_insert_ok st t1 l1 xbd xdc xcb fcd b1) as (b2 & E2 & Hs2 & Hb2); try done; [|by exists fbd|by exists fcb|].
      { rewrite Hb1. rewrite !NoDup_cons, !not_elem_of_cons. split_and!; try congruence; try apply not_elem_of_nil. constructor. }
      exists b1, b2. split_and!; [done|by rewrite (Permutation_length Hb1)|done|by apply sorted_nodup|].
      rewrite Hb2, Hb1. solve_Permutation.
  Qed.

  (* what a returned result satisfies *)
  Definition wlp {A} (m : act A) (st : topo) (Q : A → topo → Prop) : Prop :=
    match m st with Ret a st' => Q a st' | _ => True end.
  Lemma wlp_bind {A B} (m : act A) (k : A → act B) st Q : wlp m st (λ a st', wlp (k a) st' Q) → wlp (abind m k) st Q.
  Proof. unfold wlp, abind. by destruct (m st). Qed.
  Lemma wlp_wp {A} (m : act A) st Q E : wp m st Q E → wlp m st Q.
  Proof. unfold wlp, wp. by destruct (m st). Qed.
  Lemma wlp_mono {A} (m : act A) st (Q Q' : A → topo → Prop) : wlp m st Q → (∀ a st', Q a st' → Q' a st') → wlp m st Q'.
  Proof. unfold wlp. destruct (m st); auto. Qed.
  Lemma wlp_read {A} (f : topo → res A) st (Q : A → topo → Prop) : (∀ a, f st = Ok a → Q a st) → wlp (aread f) st Q.
  Proof. unfold wlp, aread. destruct (f st); auto. Qed.
  Lemma wp_and {A} (m : act A) st Q1 E1 (Q2 : A → topo → Prop) :
    wp m st Q1 E1 → wlp m st Q2 → wp m st (λ x st', Q1 x st' ∧ Q2 x st') E1.
  Proof. unfold wp, wlp. destruct (m st); tauto. Qed.

  (* no triangle has these vertices *)
  Definition no_triangle (st : topo) (vs : list nat) : Prop := ∀ f ws, order st 2 f ws → ¬ ws ≡ₚ vs.

  Lemma no_triangle_same st st' vs :
    Inv st → Inv st' → growsd debug st st' → (∀ f, fps st' !! (2, f) = fps st !! (2, f)) →
    no_triangle st vs → no_triangle st' vs.
  Proof.
    intros HI HI' Hg Hf Hn f ws Hord. apply (Hn f). eapply (proj1 (order_agree st' st 2 HI' HI ltac:(apply agree_sub; apply Hg))).
    - done.
    - rewrite <- Hf. apply order_SS in Hord as (_ & _ & _ & c & Hc & _). by eexists.
  Qed.

  Lemma wp_segment_keeps st v0 v1 :
    Inv st → is_Some (fps st !! (0, v0)) → is_Some (fps st !! (0, v1)) →
    wlp (segment al debug v0 v1) st (λ _ st', ∀ f, fps st' !! (2, f) = fps st !! (2, f)).
  Proof.
    intros HI H0 H1. unfold segment. apply wlp_bind.
    eapply wlp_mono; [eapply wlp_wp, (wp_oriented al Hal debug _ _ _ _ (λ _, False)); [done..|by right]|].
    intros t st1 (HI1 & Hg1 & Ht & Hf1 & _). cbn beta. apply wlp_bind.
    eapply wlp_mono; [eapply wlp_wp, (wp_oriented al Hal debug _ _ _ _ (λ _, False)); [done|by rewrite Hf1|by left]|].
    intros h st2 (HI2 & Hg2 & Hh & Hf2 & _). cbn beta.
    assert (Hreg : ∀ o, o ∈ [t; h] → is_Some (ors st2 !! (0, o))).
    { intros o [->|[->|Ho]%elem_of_cons]%elem_of_cons; [|by eexists|inversion Ho]. eapply grows_or_some; [exact Hg2|by eexists]. }
    apply wlp_bind. eapply wlp_mono; [by eapply wlp_wp, (wp_simplex al Hal debug st2 0 [t; h])|].
    intros o st3 (_ & HI3 & Hg3 & f & s & c' & r & _ & _ & _ & _ & _ & _ & Hold & Hnew & _). cbn beta.
    assert (Hk : ∀ f, fps st3 !! (2, f) = fps st !! (2, f)).
    { intros g. rewrite <- Hf1, <- Hf2. destruct (representative_ok st2 1 [t; h] Hreg) as (l & Hl & Hrep).
      destruct (find_simplex st2 1 [t; h]) as [[e|]| |] eqn:Hfs.
      - destruct (Hold e eq_refl) as (_ & -> & _). done.
      - destruct (Hnew eq_refl) as (-> & _). by rewrite lookup_insert_ne.
      - unfold find_simplex in Hfs. by rewrite Hrep in Hfs.
      - unfold find_simplex in Hfs. by rewrite Hrep in Hfs. }
    apply wlp_bind. unfold assert_vertices. destruct debug; [|done]. apply wlp_bind, wlp_read. intros us _.
    apply wlp_bind, wlp_read. intros s' _. destruct (decide _); done.
  Qed.

  (* a triangle that was not there has the orientation of its footprint, and no other is made *)
  Lemma wp_triangle_new st c x y z :
    Inv st → Can st → NoDup [x; y; z] → Forall2 (spans st 1) c (faces 2 [x; y; z]) →
    wlp (simplex al debug 2 c) st (λ o st',
      (no_triangle st [x; y; z] → ∃ f, ors st' !! (2, o) = Some (f, 1%Z)) ∧
      (∀ vs, no_triangle st vs → ¬ vs ≡ₚ [x; y; z] → no_triangle st' vs)).
  Proof.
    intros HI HC Hnd HF. pose proof (spans_registered _ _ _ _ HF) as Hreg.
    pose proof (wp_simplex_faces al Hal debug st 1 c [x; y; z] HI HC ltac:(lia) eq_refl Hnd HF) as Hw.
    pose proof (wlp_wp _ _ _ _ (wp_and _ _ _ _ _ Hw (wlp_wp _ _ _ _ (wp_simplex al Hal debug st 1 c HI ltac:(by rewrite (Forall2_length _ _ _ HF)) Hreg)))) as Hb.
    eapply wlp_mono; [exact Hb|]. clear Hb Hw. cbn beta.
    intros o st' ((HI' & HC' & Hg & Hsp) & _ & _ & _ & f & s & c' & r & Ho & _ & Hf & _ & _ & _ & Hold & Hnew & _).
    assert (HF' : Forall2 (spans st' 1) c (faces 2 [x; y; z])).
    { eapply Forall2_impl; [exact HF|]. intros u fv. by apply (spans_grows debug st). }
    destruct Hsp as (f' & b & ws & Ho' & Hord & Hre). rewrite Ho in Ho'. injection Ho' as <- ->.
    destruct (representative_ok st 2 c Hreg) as (l & Hl & Hrep).
    destruct (find_simplex st 2 c) as [[g|]| |] eqn:Hfs.
    - destruct (Hold g eq_refl) as (-> & Hfe & _). split.
      + intros Hn. exfalso. apply (no_triangle_same st st' _ HI HI' Hg) in Hn; [|by intros; rewrite Hfe].
        eapply Hn; [exact Hord|]. by eapply reord_perm.
      + intros vs Hn _. apply (no_triangle_same st st' _ HI HI' Hg); [|done]. by intros; rewrite Hfe.
    - destruct (Hnew eq_refl) as (Hfe & Hfn).
      assert (Hord' : order st' 2 f [x; y; z]).
      { apply order_SS. split_and!; try done; [lia|]. exists c. split; [|done]. by rewrite Hfe, lookup_insert. }
      split.
      + intros _. exists f. rewrite Ho. f_equal. f_equal.
        apply order_SS in Hord as (_ & Hlen & Hndw & d & Hd & HFd). rewrite Hfe, lookup_insert in Hd. injection Hd as <-.
        destruct ws as [|u [|v [|w [|]]]]; try done. cbn [faces] in HF', HFd.
        inversion HF' as [|e1 ? ? ? H1 HF1]; subst. inversion HF1 as [|e2 ? ? ? H2 HF2]; subst.
        inversion HFd as [|? ? ? ? K1 KF1]; subst. inversion KF1 as [|? ? ? ? K2 KF2]; subst.
        apply (tail_head_spans st') in H1 as [H1 H1'], H2 as [H2 H2'], K1 as [K1 K1'], K2 as [K2 K2']; [|done..].
        assert (u = x) as -> by congruence. assert (v = y) as -> by congruence. assert (w = z) as -> by congruence.
        rewrite (reord_det b true [x; y; z] [x; y; z]); [done|done|done|apply reord_refl].
      + intros vs Hn Hp g us Hus Hpu. destruct (decide (g = f)) as [->|Hgf].
        * apply Hp. rewrite <- Hpu. by apply (proj1 (order_unique st' 2 HI') f).
        * apply (Hn g us); [|done]. eapply (proj1 (order_agree st' st 2 HI' HI ltac:(apply agree_sub; apply Hg))); [done|].
          apply order_SS in Hus as (_ & _ & _ & d & Hd & _). rewrite Hfe, lookup_insert_ne in Hd by congruence. by eexists.
    - unfold find_simplex in Hfs. by rewrite Hrep in Hfs.
    - unfold find_simplex in Hfs. by rewrite Hrep in Hfs.
  Qed.

  (* the orientation of the footprint *)
  Definition upright (st : topo) (t : nat) : Prop := ∃ f, ors st !! (2, t) = Some (f, 1%Z).

  Lemma wp_two_triangles st d d' v0 v1 p q e1 e2 e3 e4 :
    Inv st → Can st → NoDup [v0; v1; p; q] → spans st 1 d [v0; v1] → spans st 1 d' [v1; v0] →
    spans st 1 e1 [v1; p] → spans st 1 e2 [p; v0] → spans st 1 e3 [v0; q] → spans st 1 e4 [q; v1] →
    wp (do! c0 := aread (λ _, rmap deref [Some d; Some e1; Some e2]) in
        do! n0 := simplex al debug 2 c0 in
        do! c1 := aread (λ _, rmap deref [Some d'; Some e3; Some e4]) in
        do! n1 := simplex al debug 2 c1 in
        aret (n0, n1)) st
      (λ ns st', Inv st' ∧ Can st' ∧ growsd debug st st' ∧ spans st' 2 ns.1 [v0; v1; p] ∧ spans st' 2 ns.2 [v1; v0; q] ∧
         (no_triangle st [v0; v1; p] → no_triangle st [v1; v0; q] → upright st' ns.1 ∧ upright st' ns.2))
      (λ _, False).
  Proof.
    intros HI HC Hnd Hd Hd' H1 H2 H3 H4.
    assert (NoDup [v0; v1; p] ∧ NoDup [v1; v0; q]) as [Hn0 Hn1] by (revert Hnd; rewrite !NoDup_cons; set_solver).
    apply wp_bind, wp_read; [|done..]. intros ? [= <-]. apply wp_bind.
    assert (HF0 : Forall2 (spans st 1) [d; e1; e2] (faces 2 [v0; v1; p])) by (by repeat constructor).
    eapply wp_mono; [apply (wp_and _ _ _ _ _ (wp_simplex_faces al Hal debug st 1 _ [v0; v1; p] HI HC ltac:(lia) eq_refl Hn0 HF0)
      (wp_triangle_new _ _ _ _ _ HI HC Hn0 HF0))| |done].
    intros n0 st1 ((HI1 & HC1 & Hg1 & Hn) & Hup0 & Hno0). cbn beta. apply wp_bind, wp_read; [|done..]. intros ? [= <-]. apply wp_bind.
    assert (HF1 : Forall2 (spans st1 1) [d'; e3; e4] (faces 2 [v1; v0; q])).
    { repeat constructor; by apply (spans_grows debug st). }
    eapply wp_mono; [apply (wp_and _ _ _ _ _ (wp_simplex_faces al Hal debug st1 1 _ [v1; v0; q] HI1 HC1 ltac:(lia) eq_refl Hn1 HF1)
      (wp_triangle_new _ _ _ _ _ HI1 HC1 Hn1 HF1))| |done].
    intros n1 st2 ((HI2 & HC2 & Hg2 & Hn') & Hup1 & _). cbn beta. unfold wp, aret. split; [done|]. cbn [fst snd]. split_and!; try done.
    - by eapply grows_trans.
    - by apply (spans_grows debug st1).
    - intros H H'. split; [destruct (Hup0 H) as [f Hf]; exists f; by apply (grows_or debug st1)|].
      apply Hup1, Hno0; [done|]. intros Hp. assert (q ∈ [v0; v1; p]) as Hq by (rewrite <- Hp; set_solver).
      revert Hnd. rewrite !NoDup_cons. set_solver.
  Qed.

  Lemma wp_flip_diagonal st t0 t1 a b c d :
    Inv st → Can st → fspans st t0 a c d → fspans st t1 b d c → a ≠ b →
    wp (flip_diagonal al debug t0 t1) st
      (λ ns st', Inv st' ∧ Can st' ∧ growsd debug st st' ∧
         (spans st' 2 ns.1 [a; b; d] ∧ spans st' 2 ns.2 [b; a; c] ∨ spans st' 2 ns.1 [b; a; c] ∧ spans st' 2 ns.2 [a; b; d]) ∧
         (no_triangle st [a; b; d] → no_triangle st [b; a; c] → upright st' ns.1 ∧ upright st' ns.2))
      (λ _, False).
  Proof.
    intros HI HC Hs0 Hs1 Hab.
    destruct (quadrilateral st t0 t1 a b c d d c HI Hs0 Hs1 (or_introl (conj eq_refl eq_refl)) Hab) as (sh & xac0 & _ & xbd0 & _ & Hnd & Hac0 & _ & Hbd0 & _ & (xs & Hxs & Fxs) & Esh & (vs & Evs & Hvs) & _).
    destruct (spans_ends_registered _ _ _ _ HI Hac0) as [Ha _]. destruct (spans_ends_registered _ _ _ _ HI Hbd0) as [Hb _].
    unfold flip_diagonal. apply wp_bind. apply wp_read; [|by rewrite Esh..]. intros ? [= <-]%(eq_trans (eq_sym Esh)).
    apply wp_bind. apply wp_read; [|by rewrite Evs..]. intros ? [= <-]%(eq_trans (eq_sym Evs)).
    assert (∃ v0 v1 p q, vs = [v0; v1] ∧ NoDup [v0; v1; p; q] ∧ is_Some (fps st !! (0, v0)) ∧ is_Some (fps st !! (0, v1)) ∧
      ((v0 = a ∧ v1 = b ∧ p = d ∧ q = c) ∨ (v0 = b ∧ v1 = a ∧ p = c ∧ q = d))) as (v0 & v1 & p & q & -> & Hndv & Hv0 & Hv1 & Hcase).
    { symmetry in Hvs. apply Permutation_length_2_inv in Hvs as [-> | ->].
      - exists a, b, d, c. split_and!; try done; [|by left]. revert Hnd. rewrite !NoDup_cons. set_solver.
      - exists b, a, c, d. split_and!; try done; [|by right]. revert Hnd. rewrite !NoDup_cons. set_solver. }
    apply wp_bind. apply wp_read; [|done..]. intros ? [= <-]. apply wp_bind. apply wp_read; [|done..]. intros ? [= <-].
    apply wp_bind. eapply wp_mono; [apply (wp_and _ _ _ _ _ (wp_segment_can al Hal debug st v0 v1 HI HC Hv0 Hv1) (wp_segment_keeps st v0 v1 HI Hv0 Hv1))| |].
    2: { intros st' (_ & _ & _ & Hn). apply Hn. revert Hndv. rewrite !NoDup_cons. set_solver. }
    intros dg st1 ((_ & HI1 & HC1 & Hg1 & Hdg) & Hk1). cbn beta. apply wp_bind.
    pose proof (grows_fp_some _ _ _ _ Hg1 Hv0) as Hv0'. pose proof (grows_fp_some _ _ _ _ Hg1 Hv1) as Hv1'.
    eapply wp_mono; [apply (wp_and _ _ _ _ _ (wp_segment_can al Hal debug st1 v1 v0 HI1 HC1 Hv1' Hv0') (wp_segment_keeps st1 v1 v0 HI1 Hv1' Hv0'))| |].
    2: { intros st' (_ & _ & _ & Hn). apply Hn. revert Hndv. rewrite !NoDup_cons. set_solver. }
    intros dg' st2 ((_ & HI2 & HC2 & Hg2 & Hdg') & Hk2). cbn beta.
    assert (Hg : growsd debug st st2) by (by eapply grows_trans).
    assert (Hno : ∀ vs, no_triangle st vs → no_triangle st2 vs).
    { intros us. apply no_triangle_same; try done. intros f. by rewrite Hk2, Hk1. }
    pose proof (fspans_grows debug _ _ _ _ _ _ HI HI2 Hg Hs0) as Hs0'. pose proof (fspans_grows debug _ _ _ _ _ _ HI HI2 Hg Hs1) as Hs1'.
    pose proof (spans_grows debug _ _ _ _ _ HI1 HI2 Hg2 Hdg) as Hdg2.
    destruct (quadrilateral st2 t0 t1 a b c d d c HI2 Hs0' Hs1' (or_introl (conj eq_refl eq_refl)) Hab) as
      (sh' & xac & xda & xbd & xcb & _ & Hac & Hda & Hbd & Hcb & (ys & Hys & Fys) & Esh' & _ & (b1 & b2 & Eb1 & Hlb1 & Eb2 & Hndb & Hb2)).
    assert (sh' = sh) as ->.
    { assert (Fxs2 : footprint st2 1 xs = Ok sh).
      { unfold footprint, oriented in Fxs |- *. destruct (ors st !! (1, xs)) as [o|] eqn:Eo; [|done]. by rewrite (grows_or _ _ _ _ _ Hg Eo). }
      apply (same_ends st2 ys xs c d c d); try done; [|tauto]. by apply (spans_grows debug st). }
    apply wp_bind. destruct Hcase as [(-> & -> & -> & ->)|(-> & -> & -> & ->)].
    - assert (E : new_compositions debug st2 t0 t1 sh dg dg' = Ok ([Some dg; Some xbd; Some xda], [Some dg'; Some xac; Some xcb])).
      { apply (new_compositions_ok debug st2 t0 t1 sh dg dg' a b d c xbd xda xac xcb b1 b2); try done.
        rewrite Hb2. solve_Permutation. }
      apply wp_read; rewrite E; [|done..]. intros ? [= <-]. cbn [fst snd].
      eapply wp_mono; [apply (wp_two_triangles st2 dg dg' a b d c); done| |done].
      intros ns st3 (HI3 & HC3 & Hg3 & Hn1 & Hn2 & Hup). cbn beta. split_and!; [done|done|by eapply grows_trans|by left|].
      intros H1 H2. apply Hup; by apply Hno.
    - assert (E : new_compositions debug st2 t0 t1 sh dg dg' = Ok ([Some dg; Some xac; Some xcb], [Some dg'; Some xbd; Some xda])).
      { apply (new_compositions_ok debug st2 t0 t1 sh dg dg' b a c d xac xcb xbd xda b1 b2); try done.
        rewrite Hb2. solve_Permutation. }
      apply wp_read; rewrite E; [|done..]. intros ? [= <-]. cbn [fst snd].
      eapply wp_mono; [apply (wp_two_triangles st2 dg dg' b a c d); done| |done].
      intros ns st3 (HI3 & HC3 & Hg3 & Hn1 & Hn2 & Hup). cbn beta. split_and!; [done|done|by eapply grows_trans|by right|].
      intros H1 H2. apply Hup; by apply Hno.
  Qed.

  (* the footprints go through the shared segment in the same direction *)
  Lemma flip_diagonal_mixed st t0 t1 a b c d :
    Inv st → Can st → fspans st t0 a c d → fspans st t1 b c d → a ≠ b →
    match flip_diagonal al debug t0 t1 st with Ret _ _ => False | Throw _ => debug = true | Undef => debug = false end.
  Proof.
    intros HI HC Hs0 Hs1 Hab.
    destruct (quadrilateral st t0 t1 a b c d c d HI Hs0 Hs1 (or_intror (conj eq_refl eq_refl)) Hab)
      as (sh & xac0 & _ & xbd0 & _ & Hnd & Hac0 & _ & Hbd0 & _ & (xs & Hxs & Fxs) & Esh & (vs & Evs & Hvs) & _).
    destruct (spans_ends_registered _ _ _ _ HI Hac0) as [Ha _]. destruct (spans_ends_registered _ _ _ _ HI Hbd0) as [Hb _].
    assert (∃ v0 v1, vs = [v0; v1] ∧ NoDup [v0; v1; c; d] ∧ is_Some (fps st !! (0, v0)) ∧ is_Some (fps st !! (0, v1)) ∧
      ((v0 = a ∧ v1 = b) ∨ (v0 = b ∧ v1 = a))) as (v0 & v1 & -> & Hndv & Hv0 & Hv1 & Hcase).
    { symmetry in Hvs. apply Permutation_length_2_inv in Hvs as [-> | ->].
      - exists a, b. split_and!; try done. by left.
      - exists b, a. split_and!; try done; [|by right]. revert Hnd. rewrite !NoDup_cons. set_solver. }
    assert (NoDup [v0; v1] ∧ NoDup [v1; v0]) as [Hn Hn'] by (revert Hndv; rewrite !NoDup_cons; set_solver).
    unfold flip_diagonal. unfold abind at 1, aread at 1. rewrite Esh. unfold abind at 1, aread at 1. rewrite Evs.
    unfold abind at 1, aread at 1. change (entry [v0; v1] 0) with (Ok v0).
    unfold abind at 1, aread at 1. change (entry [v0; v1] 1) with (Ok v1).
    cbv beta iota. unfold abind at 1.
    pose proof (wp_segment_can al Hal debug st v0 v1 HI HC Hv0 Hv1) as Hw. unfold wp in Hw.
    destruct (segment al debug v0 v1 st) as [dg st1|st1|]; [|by destruct Hw as (_ & _ & _ & ?)|done].
    destruct Hw as (_ & HI1 & HC1 & Hg1 & Hdg). unfold abind at 1.
    pose proof (wp_segment_can al Hal debug st1 v1 v0 HI1 HC1 (grows_fp_some _ _ _ _ Hg1 Hv1) (grows_fp_some _ _ _ _ Hg1 Hv0)) as Hw. unfold wp in Hw.
    destruct (segment al debug v1 v0 st1) as [dg' st2|st2|]; [|by destruct Hw as (_ & _ & _ & ?)|done].
    destruct Hw as (_ & HI2 & HC2 & Hg2 & Hdg').
    assert (Hg : growsd debug st st2) by (by eapply grows_trans).
    pose proof (fspans_grows debug _ _ _ _ _ _ HI HI2 Hg Hs0) as Hs0'. pose proof (fspans_grows debug _ _ _ _ _ _ HI HI2 Hg Hs1) as Hs1'.
    pose proof (spans_grows debug _ _ _ _ _ HI1 HI2 Hg2 Hdg) as Hdg2.
    destruct (quadrilateral st2 t0 t1 a b c d c d HI2 Hs0' Hs1' (or_intror (conj eq_refl eq_refl)) Hab) as
      (sh' & xac & xda & xbc & xdb & _ & Hac & Hda & Hbc & Hdb & (ys & Hys & Fys) & Esh' & _ & (b1 & b2 & Eb1 & Hlb1 & Eb2 & Hndb & Hb2)).
    assert (sh' = sh) as ->.
    { assert (Fxs2 : footprint st2 1 xs = Ok sh).
      { unfold footprint, oriented in Fxs |- *. destruct (ors st !! (1, xs)) as [o|] eqn:Eo; [|done]. by rewrite (grows_or _ _ _ _ _ Hg Eo). }
      apply (same_ends st2 ys xs c d c d); try done; [|tauto]. by apply (spans_grows debug st). }
    assert (∃ e1, if debug then new_compositions debug st2 t0 t1 sh dg dg' = Abort
      else ∃ c1, new_compositions debug st2 t0 t1 sh dg dg' = Ok ([Some dg; Some e1; None], c1)) as (e1 & E).
    { destruct Hcase as [[-> ->]|[-> ->]].
      - exists xbc. apply (new_compositions_mixed debug st2 t0 t1 sh dg dg' a b c d xbc xda xac xdb b1 b2); try done.
        rewrite Hb2. solve_Permutation.
      - exists xac. apply (new_compositions_mixed debug st2 t0 t1 sh dg dg' b a c d xac xdb xbc xda b1 b2); try done.
        rewrite Hb2. solve_Permutation. }
    unfold abind at 1, aread at 1. destruct debug.
    - by rewrite E.
    - destruct E as (c1 & E). by rewrite E.
  Qed.
End flip.
