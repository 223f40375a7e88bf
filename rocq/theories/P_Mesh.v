From stdpp Require Import base gmap list.
From Verif Require Import Base M_SegAlloc S_SegAlloc P_SegAlloc M_Topology S_Topology P_Topology
  P_TopologyErase P_TopologyValid P_TopologyApi M_Mesh S_Mesh.

(* ---- counting ---- *)

Lemma occurs_nil g s : occurs g s [] = 0.
Proof. done. Qed.
Lemma occurs_cons g s p L : occurs g s (p :: L) = (if decide (p = (g, s)) then 1 else 0) + occurs g s L.
Proof. unfold occurs. rewrite filter_cons. case_decide; done. Qed.
Lemma occurs_app g s L L' : occurs g s (L ++ L') = occurs g s L + occurs g s L'.
Proof. unfold occurs. by rewrite filter_app, app_length. Qed.
Lemma occurs_perm g s L L' : L ≡ₚ L' → occurs g s L = occurs g s L'.
Proof. intros H. unfold occurs. by rewrite H. Qed.
Lemma occurs_pos g s L : 0 < occurs g s L ↔ (g, s) ∈ L.
Proof.
  unfold occurs. split.
  - destruct (filter _ L) as [|x l] eqn:E; cbn; [lia|]. intros _.
    assert (x ∈ filter (λ p, p = (g, s)) L) as [-> H]%elem_of_list_filter by (rewrite E; left). done.
  - intros H. assert ((g, s) ∈ filter (λ p, p = (g, s)) L) as H' by (by apply elem_of_list_filter).
    destruct (filter _ L); [by apply elem_of_nil in H'|]. cbn. lia.
Qed.

Lemma elem_of_concat {A} (x : A) (ls : list (list A)) : x ∈ concat ls ↔ ∃ l, x ∈ l ∧ l ∈ ls.
Proof.
  induction ls as [|l ls IH]; cbn [concat].
  - split; [by intros ?%elem_of_nil|]. by intros (? & _ & ?%elem_of_nil).
  - rewrite elem_of_app, IH. setoid_rewrite elem_of_cons. naive_solver.
Qed.

(* ---- the map of orientations ---- *)

Definition ori_fold (d : Z) (L : list (nat * Z)) (m : gmap nat (Z * Z)) : gmap nat (Z * Z) :=
  fold_left (λ m p, ori_add m p.1 p.2 d) L m.
Definition ori_unfold (L : list (nat * Z)) (m : gmap nat (Z * Z)) : gmap nat (Z * Z) :=
  fold_left (λ m p, let m := ori_add m p.1 p.2 (-1) in
                    if decide (m !! p.1 = Some (0, 0)%Z) then delete p.1 m else m) L m.

(* the map is determined by the numbers of occurrences *)
Definition counts (m : gmap nat (Z * Z)) (L : list (nat * Z)) : Prop :=
  ∀ g, m !! g = if decide (occurs g 1 L = 0 ∧ occurs g (-1) L = 0) then None
                else Some (Z.of_nat (occurs g 1 L), Z.of_nat (occurs g (-1) L)).

Lemma counts_at m L g :
  counts m L → ori_at m g = (Z.of_nat (occurs g 1 L), Z.of_nat (occurs g (-1) L)).
Proof.
  intros H. unfold ori_at. rewrite H. destruct (decide _) as [[-> ->]|]; done.
Qed.

Lemma counts_unique m m' L : counts m L → counts m' L → m = m'.
Proof. intros H H'. apply map_eq. intros g. by rewrite H, H'. Qed.

Lemma counts_perm m L L' : L ≡ₚ L' → counts m L → counts m L'.
Proof. intros HL H g. rewrite <- !(occurs_perm _ _ _ _ HL). apply H. Qed.

Lemma counts_add m L g s : sign s → counts m L → counts (ori_add m g s 1) ((g, s) :: L).
Proof.
  intros Hs H h. unfold ori_add. rewrite (counts_at m L g H). cbn [fst snd].
  rewrite !occurs_cons.
  destruct (decide (h = g)) as [->|Hne].
  - rewrite lookup_insert.
    destruct Hs as [-> | ->].
    + rewrite (decide_True (P := (g, 1%Z) = (g, 1%Z))) by done.
      rewrite (decide_False (P := (g, 1%Z) = (g, (-1)%Z))) by congruence.
      rewrite decide_True by done. rewrite decide_False by lia. do 2 f_equal; lia.
    + rewrite (decide_False (P := (g, (-1)%Z) = (g, 1%Z))) by congruence.
      rewrite (decide_True (P := (g, (-1)%Z) = (g, (-1)%Z))) by done.
      rewrite decide_False by done. rewrite decide_False by lia. do 2 f_equal; lia.
  - rewrite lookup_insert_ne by done.
    rewrite !(decide_False (P := (g, _) = (h, _))) by congruence. apply H.
Qed.

Lemma counts_fold L : ∀ m L0,
  (∀ p, p ∈ L → sign p.2) → counts m L0 → counts (ori_fold 1 L m) (L ++ L0).
Proof.
  induction L as [|[g s] L IH]; intros m L0 Hs H; [done|]. cbn [ori_fold fold_left app].
  apply (counts_perm _ (L ++ (g, s) :: L0)); [by rewrite <- Permutation_middle|].
  apply IH; [intros p Hp; apply Hs; by right|]. apply counts_add; [|done]. apply (Hs (g, s)). left.
Qed.

Lemma counts_sub m L g s :
  sign s → counts m ((g, s) :: L) →
  counts (let m := ori_add m g s (-1) in
          if decide (m !! g = Some (0, 0)%Z) then delete g m else m) L.
Proof.
  intros Hs H h. cbv zeta. unfold ori_add. rewrite (counts_at m _ g H). cbn [fst snd].
  rewrite !occurs_cons. rewrite lookup_insert.
  assert (E : (if decide (s = 1%Z)
          then (Z.of_nat ((if decide ((g, s) = (g, 1%Z)) then 1 else 0) + occurs g 1 L) + -1,
                Z.of_nat ((if decide ((g, s) = (g, (-1)%Z)) then 1 else 0) + occurs g (-1) L))%Z
          else (Z.of_nat ((if decide ((g, s) = (g, 1%Z)) then 1 else 0) + occurs g 1 L),
                Z.of_nat ((if decide ((g, s) = (g, (-1)%Z)) then 1 else 0) + occurs g (-1) L) + -1)%Z)
          = (Z.of_nat (occurs g 1 L), Z.of_nat (occurs g (-1) L))).
  { destruct Hs as [-> | ->].
    - rewrite (decide_True (P := (g, 1%Z) = (g, 1%Z))) by done.
      rewrite (decide_False (P := (g, 1%Z) = (g, (-1)%Z))) by congruence.
      rewrite decide_True by done. f_equal; lia.
    - rewrite (decide_False (P := (g, (-1)%Z) = (g, 1%Z))) by congruence.
      rewrite (decide_True (P := (g, (-1)%Z) = (g, (-1)%Z))) by done.
      rewrite decide_False by done. f_equal; lia. }
  rewrite E. clear E.
  assert (Hz : Some (Z.of_nat (occurs g 1 L), Z.of_nat (occurs g (-1) L)) = Some (0, 0)%Z ↔
               occurs g 1 L = 0 ∧ occurs g (-1) L = 0).
  { split; [intros [= ? ?]; lia|]. intros [-> ->]. done. }
  destruct (decide (h = g)) as [->|Hne].
  - destruct (decide (Some _ = _)) as [E|E].
    + rewrite lookup_delete. rewrite decide_True by (by apply Hz). done.
    + rewrite lookup_insert. rewrite decide_False by (by rewrite <- Hz). done.
  - assert (H' := H h). rewrite !occurs_cons in H'.
    rewrite !(decide_False (P := (g, _) = (h, _))) in H' by congruence. cbn [Nat.add] in H'.
    destruct (decide (Some _ = _)).
    + by rewrite lookup_delete_ne, lookup_insert_ne.
    + by rewrite lookup_insert_ne.
Qed.

Lemma counts_unfold L : ∀ m L0,
  (∀ p, p ∈ L → sign p.2) → counts m (L ++ L0) → counts (ori_unfold L m) L0.
Proof.
  induction L as [|[g s] L IH]; intros m L0 Hs H; [done|]. cbn [ori_unfold fold_left app].
  apply IH; [intros p Hp; apply Hs; by right|]. cbn [fst snd].
  apply counts_sub; [|done]. apply (Hs (g, s)). left.
Qed.

(* ---- facets ---- *)

Lemma facets_ok st M o :
  Inv st → is_Some (ors st !! (S M, o)) →
  ∃ c, composition st (S M) o = Ok c ∧ length c = S (S M) ∧
    (∀ sub, sub ∈ c → is_Some (ors st !! (M, sub))) ∧
    Forall2 (λ sub p, ors st !! (M, sub) = Some p) c (facets_of st (S M) o).
Proof.
  intros HI Ho. destruct (composition_ok st M o HI Ho) as (f & s & c0 & c & _ & Hf & Hc & Hp & _).
  destruct (i_fS _ HI _ _ _ Hf) as [Hlen Hmem].
  assert (Hc' : ∀ sub, sub ∈ c → is_Some (ors st !! (M, sub))) by (intros sub Hs; apply Hmem; by rewrite <- Hp).
  exists c. split_and!; [done|by rewrite Hp|done|].
  unfold facets_of. rewrite Hc. cbn [pred]. clear -Hc'.
  induction c as [|a c IH]; [constructor|]. cbn [base.omap list_omap].
  destruct (Hc' a) as [p Hp]; [left|]. rewrite Hp. constructor; [done|].
  apply IH. intros sub Hs. apply Hc'. by right.
Qed.

Lemma facets_sign st N o p : Inv st → p ∈ facets_of st N o → sign p.2.
Proof.
  intros HI. unfold facets_of. destruct (composition st N o) as [c| |]; [|by intros ?%elem_of_nil..].
  intros (sub & _ & Hs)%elem_of_list_omap. destruct p as [g s].
  by destruct (i_or _ HI _ _ _ _ Hs) as (_ & _ & ?).
Qed.

Lemma facets_agree st st' M o :
  Inv st → Inv st' → agree st st' →
  is_Some (ors st !! (S M, o)) → is_Some (ors st' !! (S M, o)) →
  composition st' (S M) o = composition st (S M) o ∧
  facets_of st' (S M) o = facets_of st (S M) o.
Proof.
  intros HI HI' [Hao Haf] Ho Ho'.
  destruct (composition_ok st M o HI Ho) as (f & s & d & c & Hf & Hd & Hc & Hp & Ec).
  destruct (composition_ok st' M o HI' Ho') as (f' & s' & d' & c' & Hf' & Hd' & Hc' & Hp' & Ec').
  pose proof (Hao _ _ _ Hf Hf') as [= <- <-]. pose proof (Haf _ _ _ Hd Hd') as <-.
  subst c c'. split; [by rewrite Hc, Hc'|]. unfold facets_of. rewrite Hc, Hc'. cbn [pred].
  destruct (i_fS _ HI _ _ _ Hd) as [_ Hm]. destruct (i_fS _ HI' _ _ _ Hd') as [_ Hm'].
  assert (E : ∀ sub, sub ∈ (if decide (s = (-1)%Z) then swap01 d else d) →
                ors st' !! (M, sub) = ors st !! (M, sub)).
  { intros sub Hsub. rewrite Hp in Hsub. destruct (Hm _ Hsub) as [x Hx], (Hm' _ Hsub) as [y Hy].
    rewrite Hx, Hy. f_equal. symmetry. by apply (Hao _ _ _ Hx Hy). }
  clear -E. induction (if decide _ then _ else _) as [|a l IH]; [done|]. cbn [base.omap list_omap].
  rewrite E by left. rewrite IH; [done|]. intros. apply E. by right.
Qed.

Lemma register_ok st M o m :
  Inv st → is_Some (ors st !! (S M, o)) →
  register st (S M) o m = Ok (ori_fold 1 (facets_of st (S M) o) m).
Proof.
  intros HI Ho. destruct (facets_ok st M o HI Ho) as (c & Hc & _ & _ & Hf).
  unfold register. rewrite Hc. cbn [rbind pred]. clear Hc Ho. revert m.
  induction Hf as [|sub [g s] c L Hs _ IH]; intros m; [done|]. cbn [rfold].
  unfold oriented at 1. rewrite Hs. cbn [deref rbind]. by rewrite IH.
Qed.
Lemma unregister_ok st M o m :
  Inv st → is_Some (ors st !! (S M, o)) →
  unregister st (S M) o m = Ok (ori_unfold (facets_of st (S M) o) m).
Proof.
  intros HI Ho. destruct (facets_ok st M o HI Ho) as (c & Hc & _ & _ & Hf).
  unfold unregister. rewrite Hc. cbn [rbind pred]. clear Hc Ho. revert m.
  induction Hf as [|sub [g s] c L Hs _ IH]; intros m; [done|]. cbn [rfold].
  unfold oriented at 1. rewrite Hs. cbn [deref rbind]. by rewrite IH.
Qed.

(* ---- the slots of the container ---- *)

Section slots.
  Context {V : Type}.

  Lemma vec_emplace_cells blk debug (v : V) valid c c' a :
    vec_emplace blk debug v valid c = Ok (c', a) →
    ∃ id, cells c' = <[a := Cell id true (v, valid)]> (cells c).
  Proof.
    unfold vec_emplace. intros ([[s loc] reused] & _ & H)%rbind_ok.
    apply rbind_ok in H as (c1 & H1 & H). apply rbind_ok in H as (c2 & H2 & H).
    apply rbind_ok in H as (s' & _ & [= <- <-]). cbn [cells].
    unfold construct in H2. destruct (decide _); [|done]. injection H2 as <-. cbn [cells].
    exists (serial c1). destruct reused.
    - unfold destroy in H1. apply rbind_ok in H1 as (x & _ & [= <-]). cbn [cells].
      by rewrite insert_insert.
    - by injection H1 as <-.
  Qed.
  Lemma vec_erase_cells debug (c c' : cont (V * bool)) loc b :
    vec_erase debug loc c = Ok (c', b) →
    if b then ∃ x, cells c !! loc = Some x ∧
                   cells c' = <[loc := Cell (cid x) true ((cval x).1, false)]> (cells c)
    else c' = c.
  Proof.
    unfold vec_erase. intros (x & Hx & H)%rbind_ok.
    unfold deref in Hx. destruct (cells c !! loc) as [y|] eqn:E; [|done]. injection Hx as ->.
    destruct (negb (calive x)); [done|]. destruct (negb (obj_valid (cval x))).
    - by injection H as <- <-.
    - apply rbind_ok in H as (s & _ & [= <- <-]). exists x. done.
  Qed.
End slots.


Definition uses_cells (cs : gmap addr (cell (gcell * bool))) (o : nat) : nat :=
  length (filter (λ p : addr * cell (gcell * bool), (cval p.2).1.1 = o) (map_to_list cs)).

Lemma uses_insert_None cs a x o :
  cs !! a = None →
  uses_cells (<[a := x]> cs) o = (if decide ((cval x).1.1 = o) then 1 else 0) + uses_cells cs o.
Proof.
  intros H. unfold uses_cells. rewrite map_to_list_insert by done. rewrite filter_cons. cbn [snd].
  case_decide; done.
Qed.
Lemma uses_delete cs a x o :
  cs !! a = Some x →
  uses_cells cs o = (if decide ((cval x).1.1 = o) then 1 else 0) + uses_cells (delete a cs) o.
Proof.
  intros H. rewrite <- (insert_id cs a x) at 1 by done. rewrite <- insert_delete_insert.
  apply uses_insert_None. apply lookup_delete.
Qed.
Lemma uses_insert_Some cs a x y o :
  cs !! a = Some y →
  uses_cells (<[a := x]> cs) o + (if decide ((cval y).1.1 = o) then 1 else 0) =
  (if decide ((cval x).1.1 = o) then 1 else 0) + uses_cells cs o.
Proof.
  intros H. rewrite (uses_delete cs a y o H). rewrite <- insert_delete_insert.
  rewrite uses_insert_None by apply lookup_delete. lia.
Qed.
Lemma uses_pos cs a x : cs !! a = Some x → 0 < uses_cells cs (cval x).1.1.
Proof. intros H. rewrite (uses_delete cs a x _ H). rewrite decide_True by done. lia. Qed.

Lemma held_holdO N o st k : held (hO (holdO N o st)) k = held (hO st) k + if decide (k = (N, o)) then 1 else 0.
Proof.
  unfold holdO, upd_hO, inc. cbn [hO]. unfold held at 1. destruct (decide (k = (N, o))) as [->|Hk].
  - rewrite lookup_insert. cbn. lia.
  - rewrite lookup_insert_ne by done. unfold held. lia.
Qed.
Lemma held_dropO N o st k :
  held (hO (dropO N o st)) k = held (hO st) k - if decide (k = (N, o)) then 1 else 0.
Proof.
  unfold dropO, upd_hO, dec. cbn [hO]. unfold held at 1. destruct (decide (k = (N, o))) as [->|Hk].
  - rewrite lookup_insert. cbn. lia.
  - rewrite lookup_insert_ne by done. unfold held. lia.
Qed.

Lemma step_agree al (Hal : good_alloc al) debug st x st' :
  reach al debug st → legal st x →
  (step al debug x st = Throw st' ∨ ∃ a, step al debug x st = Ret a st') →
  reach al debug st' ∧ Inv st ∧ Inv st' ∧ agree st st'.
Proof.
  intros Hr Hl E. pose proof (reach_Inv al Hal debug _ Hr) as HI.
  pose proof (step_safe al Hal debug st x HI Hl) as Hw. unfold wp in Hw.
  assert (Hev : evolves debug st st') by (destruct E as [E|[a E]]; by rewrite E in Hw).
  destruct Hev as [HI' Hev]. clear Hw. split_and!; try done.
  - destruct E as [E|[a E]]; [by eapply reach_throw|by eapply reach_ret].
  - destruct Hev as [(st1 & Ha & Hf & Ho)|[Hf Ho]]; [|by apply agree_sub].
    assert (Hsub : fps st ⊆ fps st1 ∧ ors st ⊆ ors st1).
    { clear -Ha. induction Ha as [|st st1 st' _ _ Ha _ [IH1 IH2]]; [done|].
      apply atom_sub in Ha as [? ?]. split; by etrans. }
    apply agree_sym, agree_sub; rewrite ?Hf, ?Ho; apply Hsub.
Qed.

(* ---- the invariant of histories ---- *)

Section histories.
  Context (pick : M_Topology.alloc) (Hpick : good_alloc pick) (blk : nat → nat)
    (Hblk : ∀ i j, blk i = blk j → i = j) (debug : bool) (M : nat).

  (* the facets of the cells of the mesh, in no particular order *)
  Definition bag (st : topo) (cs : gmap addr gcell) : list (nat * Z) :=
    all_facets st (S M) (map_to_list cs).

  Lemma bag_insert st cs a x :
    cs !! a = None → bag st (<[a := x]> cs) ≡ₚ facets_of st (S M) x.1 ++ bag st cs.
  Proof.
    intros H. unfold bag, all_facets.
    rewrite (map_to_list_insert cs a x H). done.
  Qed.
  Lemma bag_delete st cs a x :
    cs !! a = Some x → bag st cs ≡ₚ facets_of st (S M) x.1 ++ bag st (delete a cs).
  Proof.
    intros H. rewrite <- (bag_insert st (delete a cs) a x) by apply lookup_delete.
    by rewrite insert_delete.
  Qed.

  Record MInv (st : topo) (m : mesh) (es : list (vevent (V:=gcell))) : Prop := {
    m_reach : reach pick debug st;
    m_vec : ∃ xs q, vinv blk 100 (mcells m) es xs q ∧ count_inv (mcells m) xs q;
    m_held : ∀ o, uses m o <= held (hO st) (S M, o);
    m_count : counts (mori m) (bag st (contents ∅ es));
  }.

  Lemma contents_cells m es xs q a x :
    vinv blk 100 (mcells m) es xs q → contents ∅ es !! a = Some x →
    ∃ y, cells (mcells m) !! a = Some y ∧ (cval y).1 = x.
  Proof.
    intros (_ & (Hc & _) & _ & (_ & _ & Hcs)) (i & y & -> & Hy & Ey)%Hcs.
    exists y. split; [apply Hc; eauto|]. by rewrite Ey.
  Qed.

  Lemma minv_slot st m es a y :
    MInv st m es → cells (mcells m) !! a = Some y → has st (S M) (cval y).1.1.
  Proof.
    intros HI Hy. pose proof (m_held _ _ _ HI (cval y).1.1) as H. unfold has.
    pose proof (uses_pos _ _ _ Hy). unfold uses in H. unfold uses_cells in *. lia.
  Qed.
  Lemma minv_cell st m es a x :
    MInv st m es → contents ∅ es !! a = Some x → has st (S M) x.1.
  Proof.
    intros HI Hx. destruct (m_vec _ _ _ HI) as (xs & q & Hv & _).
    destruct (contents_cells m es xs q a x Hv Hx) as (y & Hy & <-). by eapply minv_slot.
  Qed.

  Lemma bag_stable st st' cs :
    Inv st → Inv st' → agree st st' →
    (∀ a x, cs !! a = Some x → has st (S M) x.1 ∧ has st' (S M) x.1) →
    bag st' cs = bag st cs.
  Proof.
    intros HI HI' Hag Hcs. unfold bag, all_facets. f_equal. apply list_fmap_ext.
    intros i [a x] Hi. cbn [fst snd].
    destruct (Hcs a x) as [H H'].
    { apply elem_of_map_to_list. by eapply elem_of_list_lookup_2. }
    apply facets_agree; try done; by apply i_hO.
  Qed.

  Lemma MInv_init st : reach pick debug st → MInv st mesh0 [].
  Proof.
    intros Hr. constructor; [done| | |].
    - exists [], []. split; [by apply vinv_init; try lia|]. unfold count_inv. cbn. lia.
    - intros o. unfold uses, mesh0. cbn [mcells cont_init cells]. rewrite map_to_list_empty. cbn. lia.
    - intros g. cbn [contents]. unfold bag. rewrite map_to_list_empty. done.
  Qed.

  Lemma MInv_topology st m es x st' :
    MInv st m es → legal st x →
    (step pick debug x st = Throw st' ∨ ∃ a, step pick debug x st = Ret a st') →
    (∀ o, uses m o <= held (hO st') (S M, o)) → MInv st' m es.
  Proof.
    intros H Hl E Hh.
    destruct (step_agree pick Hpick debug st x st' (m_reach _ _ _ H) Hl E) as (Hr' & HI & HI' & Hag).
    constructor; [done|apply H|done|].
    assert (bag st' (contents ∅ es) = bag st (contents ∅ es)) as ->; [|apply H].
    apply bag_stable; try done. intros a y Hy. split; [by eapply minv_cell|].
    destruct (m_vec _ _ _ H) as (xs & q & Hv & _).
    destruct (contents_cells m es xs q a y Hv Hy) as (z & Hz & <-).
    pose proof (Hh (cval z).1.1) as Hle. unfold has. pose proof (uses_pos _ _ _ Hz).
    unfold uses in Hle. unfold uses_cells in *. lia.
  Qed.

  Lemma insert_state st o old :
    reach pick debug st → has st (S M) o →
    (∀ y, old = Some y → has st (S M) (cval y).1.1) →
    let st' := match old with
               | Some y => dropO (S M) (cval (A := gcell * bool) y).1.1 (holdO (S M) o st)
               | None => holdO (S M) o st
               end in
    reach pick debug st' ∧ fps st' = fps st ∧ ors st' = ors st.
  Proof.
    intros Hr Ho Hold. cbv zeta.
    assert (Hr1 : reach pick debug (holdO (S M) o st)).
    { eapply (reach_ret _ _ st (OCopy (S M) o)); [done|done|]. done. }
    destruct old as [y|]; [|done]. split; [|done].
    eapply (reach_ret _ _ _ (ODrop (S M) (cval y).1.1)); [exact Hr1| |done].
    cbn [legal]. unfold has. rewrite held_holdO. specialize (Hold y eq_refl). unfold has in Hold. lia.
  Qed.

  (* an insertion succeeds *)
  Lemma insert_total st m es x :
    MInv st m es → has st (S M) x.1 →
    ∃ st' m' a, mesh_insert blk debug (S M) x true st m = Ok (st', m', a).
  Proof.
    intros H Hx. pose proof (reach_Inv pick Hpick debug _ (m_reach _ _ _ H)) as HI.
    destruct (m_vec _ _ _ H) as (xs & q & Hv & _).
    destruct (emplace_total blk Hblk 100 ltac:(lia) debug (mcells m) es xs q x Hv) as (c' & a & E).
    unfold mesh_insert. rewrite register_ok by (done || by apply i_hO). cbn [rbind].
    rewrite E. cbn [rbind]. by eexists _, _, _.
  Qed.

  (* the part of the invariant that does not need the state to be one a client sees *)
  Record MCore (st : topo) (m : mesh) (es : list (vevent (V:=gcell))) : Prop := {
    c_vec : ∃ xs q, vinv blk 100 (mcells m) es xs q ∧ count_inv (mcells m) xs q;
    c_held : ∀ o, uses m o <= held (hO st) (S M, o);
    c_count : counts (mori m) (bag st (contents ∅ es));
  }.

  Lemma MInv_core st m es : MInv st m es ↔ reach pick debug st ∧ MCore st m es.
  Proof. split; [intros []; by repeat constructor|]. intros [? []]. by constructor. Qed.

  Lemma insert_core st m es x :
    Inv st → MCore st m es → is_Some (ors st !! (S M, x.1)) →
    ∃ m' a st', mesh_insert blk debug (S M) x true st m = Ok (st', m', a) ∧
      st' = match cells (mcells m) !! a with
            | Some y => dropO (S M) (cval y).1.1 (holdO (S M) x.1 st)
            | None => holdO (S M) x.1 st
            end ∧
      MCore st' m' (es ++ [EvEmplace x true a]) ∧ contents ∅ es !! a = None ∧
      fps st' = fps st ∧ ors st' = ors st ∧
      match free_queue [] es with
      | [] => a ∉ first_uses [] es ∧ cells (mcells m) !! a = None
      | b :: _ => a = b
      end.
  Proof.
    intros HI H Hx.
    destruct (c_vec _ _ _ H) as (xs & q & Hv & Hc).
    destruct (emplace_total blk Hblk 100 ltac:(lia) debug (mcells m) es xs q x Hv) as (c' & a' & E).
    unfold mesh_insert. rewrite register_ok by done. cbn [rbind]. rewrite E. cbn [rbind].
    eexists _, _, _. split; [reflexivity|]. split; [reflexivity|].
    destruct (emplace_location blk Hblk 100 ltac:(lia) debug _ _ _ _ _ _ _ Hv E) as [Hfresh Hloc].
    destruct (vec_emplace_cells _ _ _ _ _ _ _ E) as (id & Hcells).
    set (st' := match cells (mcells m) !! a' with Some _ => _ | None => _ end) in *.
    assert (Hf' : fps st' = fps st) by (subst st'; destruct (cells (mcells m) !! a'); done).
    assert (Ho' : ors st' = ors st) by (subst st'; destruct (cells (mcells m) !! a'); done).
    split; [|split_and!; try done].
    2:{ destruct (free_queue [] es); [|done]. split; [done|].
        destruct (cells (mcells m) !! a') as [y|] eqn:Ey; [|done]. exfalso. apply Hloc.
        destruct Hv as (_ & (Hcs & _) & _ & (-> & _)). apply Hcs in Ey as (i & Hi & ->).
        apply elem_of_list_fmap. exists i. split; [done|]. apply elem_of_seq.
        apply lookup_lt_Some in Hi. lia. }
    constructor.
    - destruct (vstep_inv blk Hblk 100 ltac:(lia) debug (mcells m) es xs q (Emplace x true) c'
                  (EvEmplace x true a')) as (xs' & q' & Hv' & Hc'); [done|done| | |by eauto].
      + by intros v b [= _ <-].
      + cbn [vstep]. by rewrite E.
    - intros o. pose proof (c_held _ _ _ H o) as Hh. unfold uses in *. cbn [mcells].
      rewrite Hcells. change (uses_cells (cells (mcells m)) o <= held (hO st) (S M, o)) in Hh.
      match goal with |- ?u <= _ => change u with
        (uses_cells (<[a':=Cell id true (x, true)]> (cells (mcells m))) o) end.
      subst st'. destruct (cells (mcells m) !! a') as [y|] eqn:Ey.
      + pose proof (uses_insert_Some (cells (mcells m)) a' (Cell id true (x, true)) y o Ey) as Hu.
        pose proof (uses_delete _ _ _ o Ey) as Hd.
        rewrite held_dropO, held_holdO. cbn [cval fst] in Hu.
        destruct (decide (x.1 = o)), (decide ((cval y).1.1 = o)),
          (decide ((S M, o) = (S M, x.1))), (decide ((S M, o) = (S M, (cval y).1.1))); try congruence; lia.
      + rewrite uses_insert_None by done. rewrite held_holdO. cbn [cval fst].
        destruct (decide (x.1 = o)), (decide ((S M, o) = (S M, x.1))); try congruence; lia.
    - cbn [mori]. rewrite contents_snoc. cbn [contents].
      assert (Hbag : bag st' (contents ∅ es) = bag st (contents ∅ es)).
      { unfold bag, all_facets, facets_of, composition, fcomposition, oriented. by rewrite Hf', Ho'. }
      eapply counts_perm; [symmetry; by apply bag_insert|]. rewrite Hbag.
      assert (facets_of st' (S M) x.1 = facets_of st (S M) x.1) as ->.
      { unfold facets_of, composition, fcomposition, oriented. by rewrite Hf', Ho'. }
      apply counts_fold; [|apply H]. intros p. by apply facets_sign.
  Qed.

  Lemma insert_spec st m es x st' m' a :
    MInv st m es → has st (S M) x.1 →
    mesh_insert blk debug (S M) x true st m = Ok (st', m', a) →
    MInv st' m' (es ++ [EvEmplace x true a]) ∧ contents ∅ es !! a = None ∧
    fps st' = fps st ∧ ors st' = ors st ∧
    match free_queue [] es with [] => a ∉ first_uses [] es | b :: _ => a = b end.
  Proof.
    intros H Hx E. pose proof (reach_Inv pick Hpick debug _ (m_reach _ _ _ H)) as HI.
    destruct (insert_core st m es x HI) as (m1 & a1 & st1 & E1 & Est & HC & Hfresh & Hf & Ho & Hq);
      [by apply MInv_core|by apply i_hO|].
    rewrite E in E1. injection E1 as <- <- <-.
    split_and!; [|done|done|done|by destruct (free_queue [] es); [apply Hq|]].
    apply MInv_core. split; [|done]. rewrite Est.
    apply (insert_state st x.1 (cells (mcells m) !! a) (m_reach _ _ _ H) Hx).
    intros y Hy. by eapply minv_slot.
  Qed.

  Lemma erase_spec st m es a :
    MInv st m es → a ∈ first_uses [] es →
    ∃ m', mesh_erase debug (S M) a st m = Ok m' ∧
      MInv st m' (es ++ [EvErase a (bool_decide (is_Some (contents ∅ es !! a)))]) ∧
      (contents ∅ es !! a = None → m' = m) ∧
      (∃ c, vec_erase debug a (mcells m) = Ok (c, bool_decide (is_Some (contents ∅ es !! a))) ∧
            mcells m' = c).
  Proof.
    intros H Ha. pose proof (reach_Inv pick Hpick debug _ (m_reach _ _ _ H)) as HI.
    destruct (m_vec _ _ _ H) as (xs & q & Hv & Hc).
    pose proof (erase_used blk Hblk 100 ltac:(lia) debug (mcells m) es xs q a Hv Ha) as He.
    destruct (contents ∅ es !! a) as [x|] eqn:Ex.
    - destruct He as (c' & xs' & i & E & -> & Hlen & Hi & Hv' & Hn & _).
      pose proof (vec_erase_cells _ _ _ _ _ E) as (y & Hy & Hcells).
      destruct (contents_cells m es xs q _ x Hv Ex) as (y' & Hy' & Ey').
      rewrite Hy in Hy'. injection Hy' as <-.
      rewrite bool_decide_eq_true_2 by eauto.
      unfold mesh_erase. rewrite E. cbn [rbind]. rewrite Hcells, lookup_insert. cbn [deref rbind cval fst].
      rewrite Ey'.
      rewrite unregister_ok; [|done|apply i_hO; [done|by eapply minv_cell]]. cbn [rbind].
      eexists. split; [done|]. split; [|by split; [|eauto]]. constructor.
      + apply H.
      + exists xs', (q ++ [i]). split; [done|]. unfold count_inv in *. rewrite app_length. cbn. lia.
      + intros o. pose proof (m_held _ _ _ H o) as Hh. unfold uses in *. cbn [mcells].
        rewrite Hcells.
        match goal with |- ?u <= _ => change u with
          (uses_cells (<[addr_of blk 100 i:=Cell (cid y) true ((cval y).1, false)]> (cells (mcells m))) o) end.
        pose proof (uses_insert_Some (cells (mcells m)) _ (Cell (cid y) true ((cval y).1, false)) y o Hy) as Hu.
        cbn [cval fst] in Hu. unfold uses_cells in *. lia.
      + cbn [mori]. rewrite contents_snoc. cbn [contents].
        apply counts_unfold; [intros p; by apply facets_sign|].
        eapply counts_perm; [by apply bag_delete|]. apply H.
    - destruct He as [E Hv']. rewrite bool_decide_eq_false_2 by (by intros [? ?]).
      unfold mesh_erase. rewrite E. cbn [rbind]. exists m. split; [by destruct m|].
      split; [|by split; [|eauto]]. constructor; try apply H.
      + eauto.
      + rewrite contents_snoc. cbn [contents]. apply H.
  Qed.

  Lemma mreach_MInv st m es : mreach pick blk debug (S M) st m es → MInv st m es.
  Proof.
    induction 1 as [st Hr|st m es x st' _ IH Hl E Hh|st m es x st' m' a _ IH Hx E|st m es a m' _ IH Ha E].
    - by apply MInv_init.
    - by eapply MInv_topology.
    - by eapply insert_spec.
    - destruct (erase_spec st m es a IH Ha) as (m1 & E1 & H1 & _). rewrite E in E1. by injection E1 as <-.
  Qed.

  (* ---- what the client sees ---- *)

  Definition cells_listed (es : list (vevent (V:=gcell))) : list (addr * gcell) :=
    base.omap (λ a, (λ x, (a, x)) <$> contents ∅ es !! a) (first_uses [] es).

  Lemma mesh_cells_ok st m es :
    MInv st m es → mesh_cells m = Ok (cells_listed es) ∧ cells_listed es ≡ₚ map_to_list (contents ∅ es).
  Proof.
    intros H. destruct (m_vec _ _ _ H) as (xs & q & Hv & _).
    assert (E : (λ p : addr * (gcell * bool), (p.1, p.2.1)) <$> base.omap (slot_item es) (first_uses [] es)
                = cells_listed es).
    { unfold cells_listed. clear. induction (first_uses [] es) as [|a l IH]; [done|].
      cbn [base.omap list_omap]. unfold slot_item at 1. destruct (contents ∅ es !! a); cbn.
      - by rewrite IH.
      - done. }
    split.
    - unfold mesh_cells. rewrite (vec_range blk Hblk 100 ltac:(lia) _ _ _ _ Hv). cbn [rbind].
      by rewrite E.
    - rewrite <- E. by eapply (vec_range_perm blk Hblk 100 ltac:(lia)).
  Qed.

  Lemma bag_listed st m es :
    MInv st m es → bag st (contents ∅ es) ≡ₚ all_facets st (S M) (cells_listed es).
  Proof.
    intros H. destruct (mesh_cells_ok _ _ _ H) as [_ Hp]. unfold bag, all_facets. by rewrite Hp.
  Qed.

  Lemma counts_listed st m es :
    MInv st m es → counts (mori m) (all_facets st (S M) (cells_listed es)).
  Proof. intros H. eapply counts_perm; [by eapply bag_listed|]. apply H. Qed.

  Lemma listed_has st m es x : MInv st m es → x ∈ cells_listed es → has st (S M) x.2.1.
  Proof.
    intros H Hx. destruct (mesh_cells_ok _ _ _ H) as [_ Hp]. rewrite Hp in Hx.
    destruct x as [a x]. apply elem_of_map_to_list in Hx. by eapply minv_cell.
  Qed.

  (* a facet of a cell of the mesh *)
  Lemma facet_in st m es x sub c :
    MInv st m es → x ∈ cells_listed es → composition st (S M) x.2.1 = Ok c → sub ∈ c →
    ∃ g s, ors st !! (M, sub) = Some (g, s) ∧ sign s ∧ (g, s) ∈ all_facets st (S M) (cells_listed es).
  Proof.
    intros H Hx Hc Hs. pose proof (reach_Inv pick Hpick debug _ (m_reach _ _ _ H)) as HI.
    destruct (facets_ok st M x.2.1 HI) as (c' & Hc' & _ & _ & Hf);
      [apply i_hO; [done|by eapply listed_has]|].
    rewrite Hc in Hc'. injection Hc' as <-.
    apply elem_of_list_lookup in Hs as (i & Hi).
    destruct (Forall2_lookup_l _ _ _ _ _ Hf Hi) as ([g s] & Hl & Ho). exists g, s. split_and!; [done| |].
    - by destruct (i_or _ HI _ _ _ _ Ho) as (_ & _ & ?).
    - unfold all_facets. apply elem_of_concat. exists (facets_of st (S M) x.2.1).
      split; [by eapply elem_of_list_lookup_2|]. apply elem_of_list_fmap. by exists x.
  Qed.

  Lemma on_boundary_spec st m L sub g s :
    counts (mori m) L → ors st !! (M, sub) = Some (g, s) → sign s → (g, s) ∈ L →
    isOnBoundary (S M) st m sub = Ok (bool_decide (occurs g (- s) L = 0)).
  Proof.
    intros H Ho Hs Hin. unfold isOnBoundary, oriented. cbn [pred]. rewrite Ho. cbn [deref rbind].
    apply occurs_pos in Hin. rewrite H. rewrite decide_False by (destruct Hs as [-> | ->]; lia).
    cbn [at_or_throw rbind fst snd]. f_equal. apply bool_decide_ext.
    destruct Hs as [-> | ->].
    - rewrite decide_False by done. change (- (1))%Z with (-1)%Z. lia.
    - rewrite decide_True by done. change (- (-1))%Z with 1%Z. lia.
  Qed.
  Lemma on_boundary_foreign st m L sub g s :
    counts (mori m) L → ors st !! (M, sub) = Some (g, s) → occurs g 1 L = 0 → occurs g (-1) L = 0 →
    isOnBoundary (S M) st m sub = Abort.
  Proof.
    intros H Ho H1 H2. unfold isOnBoundary, oriented. cbn [pred]. rewrite Ho. cbn [deref rbind].
    rewrite H. rewrite decide_True by done. done.
  Qed.
End histories.
