(* Refinement of meshes: what subdivide does to the topology, the coordinates and the new mesh. *)
From stdpp Require Import base gmap list sorting.
From Verif Require Import M_Tensor M_Geometry S_Geometry.
From Verif Require Import Base M_SegAlloc S_SegAlloc P_SegAlloc M_Topology S_Topology P_Topology
  P_TopologyErase P_TopologyValid P_TopologyOrder P_TopologyVertices P_TopologyCanonical
  P_TopologyApi Properties_Topology M_Mesh S_Mesh P_Mesh P_MeshBoundary P_MeshBuild M_Tetra
  S_Tetra P_TetraGeometry.

Lemma held_holdF N f st k :
  held (hF (holdF N f st)) k = held (hF st) k + if decide (k = (N, f)) then 1 else 0.
Proof.
  unfold holdF, upd_hF, inc, held. cbn [hF]. destruct (decide (k = (N, f))) as [->|Hk].
  - rewrite lookup_insert. cbn. lia.
  - rewrite lookup_insert_ne by congruence. lia.
Qed.

Lemma held_holdO N f st k :
  held (hO (holdO N f st)) k = held (hO st) k + if decide (k = (N, f)) then 1 else 0.
Proof.
  unfold holdO, upd_hO, inc, held. cbn [hO]. destruct (decide (k = (N, f))) as [->|Hk].
  - rewrite lookup_insert. cbn. lia.
  - rewrite lookup_insert_ne by congruence. lia.
Qed.

Lemma rfold_map {A B S} (f : S → B → res S) (g : A → B) s l :
  rfold (λ s x, f s (g x)) s l = rfold f s (g <$> l).
Proof. revert s. induction l as [|x l IH]; intros s; [done|]. cbn. destruct (f s (g x)); [apply IH|done..]. Qed.

Lemma find_point_app p cs cs' :
  find_point p (cs ++ cs') = match find_point p cs with Some x => Some x | None => find_point p cs' end.
Proof. induction cs as [|[q x] cs IH]; [done|]. cbn. by destruct (Nat.eqb q p). Qed.

(* what stays true while the refinement goes on *)
Definition ext (w w' : world) : Prop :=
  extends (wtop w) (wtop w') ∧ (∀ v, hasF (wtop w) 0 v → hasF (wtop w') 0 v) ∧
  (∀ p x, find_point p (wsys w) = Some x → find_point p (wsys w') = Some x) ∧ wnext w <= wnext w'.

Lemma ext_refl w : ext w w.
Proof. unfold ext. split_and!; auto. apply extends_refl. Qed.
Lemma ext_trans w1 w2 w3 : ext w1 w2 → ext w2 w3 → ext w1 w3.
Proof.
  intros (? & ? & ? & ?) (? & ? & ? & ?). unfold ext. split_and!; [|auto..|lia].
  by eapply extends_trans.
Qed.

Lemma fit_ext w w' ns : ext w w' → fit w ns → fit w' ns.
Proof.
  intros (_ & Hf & Hp & Hn) [Hnd H]. split; [done|]. intros n Hin.
  destruct (H n Hin) as (? & ? & x & ?). split_and!; [auto|lia|eauto].
Qed.
Lemma fit_sub w ns ns' : ns' ⊆+ ns → fit w ns → fit w ns'.
Proof.
  intros Hs [Hnd H]. split.
  - apply submseteq_Permutation in Hs as (k & Hk). rewrite Hk, fmap_app in Hnd.
    by apply NoDup_app in Hnd as (? & _).
  - intros n Hn. apply H. by eapply elem_of_submseteq.
Qed.

Lemma pos_ext c w w' n p : ext w w' → pos c w n p → pos c w' n p.
Proof. intros (_ & _ & Hp & _) (x & ? & ? & ?). exists x. eauto. Qed.

Lemma poss_ext c w w' ns ps : ext w w' → poss c w ns ps → poss c w' ns ps.
Proof.
  intros He H. eapply Forall2_impl; [exact H|]. intros n p. by apply pos_ext.
Qed.

Lemma concat_length_const {A} (ls : list (list A)) k :
  Forall (λ l, length l = k) ls → length (concat ls) = length ls * k.
Proof. induction 1 as [|l ls E _ IH]; [done|]. cbn. rewrite app_length. lia. Qed.

(* any two elements, the first before the second *)
Section pairs.
  Context {A : Type} (R : A → A → Prop).
  Lemma pairs_app l l' :
    ForallOrdPairs R l → ForallOrdPairs R l' → (∀ x y, x ∈ l → y ∈ l' → R x y) → ForallOrdPairs R (l ++ l').
  Proof.
    intros Hl Hl' Hx. induction Hl as [|x l Hf Hl IH]; cbn; [done|]. constructor.
    - apply List.Forall_app. split; [done|]. apply List.Forall_forall. intros y Hy%elem_of_list_In. apply Hx; [left|done].
    - apply IH. intros y z Hy Hz. apply Hx; [by right|done].
  Qed.
  Lemma pairs_lookup l :
    (∀ i j x y, i < j → l !! i = Some x → l !! j = Some y → R x y) → ForallOrdPairs R l.
  Proof.
    induction l as [|x l IH]; intros H; constructor.
    - apply List.Forall_forall. intros y (j & Hj)%elem_of_list_In%elem_of_list_lookup. by apply (H 0 (S j)); [lia|..].
    - apply IH. intros i j y z Hij Hi Hj. by apply (H (S i) (S j)); [lia|..].
  Qed.
  Lemma pairs_lookup_1 l : ForallOrdPairs R l →
    ∀ i j x y, i < j → l !! i = Some x → l !! j = Some y → R x y.
  Proof.
    induction 1 as [|x l Hf Hl IH]; intros i j y z Hij Hi Hj; [done|].
    destruct i as [|i], j as [|j]; try lia; cbn in Hi, Hj.
    - injection Hi as <-. rewrite List.Forall_forall in Hf. apply Hf, elem_of_list_In. by eapply elem_of_list_lookup_2.
    - apply (IH i j); [lia|done..].
  Qed.
End pairs.
Lemma pairs_concat {A} (R : A → A → Prop) ls :
  (∀ l, l ∈ ls → ForallOrdPairs R l) → ForallOrdPairs (λ l l', ∀ x y, x ∈ l → y ∈ l' → R x y) ls →
  ForallOrdPairs R (concat ls).
Proof.
  intros Hl H. induction H as [|l ls Hf H IH]; [constructor|]. cbn. apply pairs_app.
  - apply Hl. left.
  - apply IH. intros l' Hl'. apply Hl. by right.
  - intros x y Hx (l' & Hy & Hl')%P_Mesh.elem_of_concat. rewrite List.Forall_forall in Hf.
    apply (Hf l'); [by apply elem_of_list_In|done|done].
Qed.

(* cells on different vertices *)
Definition apart (g h : gcell) : Prop := ¬ (g.2.*1 ≡ₚ h.2.*1).

Section refine.
  Context (pick : M_Topology.alloc) (Hpick : good_alloc pick) (blk : nat → nat)
    (Hblk : ∀ i j, blk i = blk j → i = j) (debug : bool) (c : chart) (K : nat) (HK : S K <= 3).

  Record Pre (w : world) (m : mesh) (es : list (vevent (V:=gcell))) : Prop := {
    p_listed : reach_listed pick debug (wtop w);
    p_core : MCore blk K (wtop w) m es;
    p_mesh : mreach pick blk debug (S K) (wtop w) m es;
    p_queue : free_queue [] es = [];
    p_next : ∀ p, wnext w <= p → find_point p (wsys w) = None;
  }.

  Lemma new_node_ok x w m es ns :
    Pre w m es → fit w ns →
    ∃ w' n, new_node pick x w = Ok (w', n) ∧ Pre w' m es ∧ ext w w' ∧ n.2 = wnext w ∧
      ¬ hasF (wtop w) 0 n.1 ∧ find_point n.2 (wsys w') = Some x ∧ fit w' (n :: ns).
  Proof.
    intros HP Hfit. destruct HP as [Hl HC Hm Hq Hn]. unfold new_node.
    set (st := wtop w) in *. set (f := pickF pick st 0).
    assert (Hpl : place (wsys w) (wnext w) x = (wsys w ++ [(wnext w, x)], true)).
    { unfold place. by rewrite Hn by lia. }
    rewrite Hpl. unfold vertex_f, emplace_footprint. fold st f.
    set (st0 := Topo (<[(0, f):=[]]> (fps st)) (ors st) (cmap st) (omap st) (hO st) (hF st) (S (clk st))).
    assert (Hfr : fps st !! (0, f) = None) by apply (Hpick st 0).
    assert (Hr : reach_listed pick debug (holdF 0 f st0)).
    { eapply (listed_ret _ _ st OVertex); [done|done|done|]. reflexivity. }
    destruct (listed_fine pick Hpick debug st Hl) as [HI _].
    destruct (listed_fine pick Hpick debug _ Hr) as [HI' _].
    assert (He : extends st (holdF 0 f st0)).
    { split; cbn; [|done]. by apply insert_subseteq. }
    assert (HnF : ¬ hasF st 0 f).
    { intros H%(i_hF _ HI). rewrite Hfr in H. by destruct H. }
    assert (Hmono : ∀ v, hasF st 0 v → hasF (holdF 0 f st0) 0 v).
    { intros v Hv. unfold hasF in *. rewrite held_holdF. cbn [hF st0]. lia. }
    set (w' := World (holdF 0 f st0) (wsys w ++ [(wnext w, x)]) (S (wnext w))).
    assert (Hext : ext w w').
    { unfold ext. split_and!; [done|done| |cbn; lia].
      intros p y Hy. cbn. by rewrite find_point_app, Hy. }
    exists w', (f, wnext w). split_and!; [done| |done|done|done| |].
    - constructor; [done| | |done|].
      2:{ apply (mreach_topology _ _ _ _ st m es OVertex); [done|done| |intros o; cbn; apply HC].
          right. eexists. reflexivity. }
      + constructor; [apply HC|intros o; cbn; apply HC|].
        change (wtop w') with (holdF 0 f st0).
        assert (bag K (holdF 0 f st0) (contents ∅ es) = bag K st (contents ∅ es)) as ->; [|apply HC].
        apply bag_stable; [done|done|by apply extends_agree|].
        * intros a y Hy. unfold has. cbn.
          destruct (c_vec _ _ _ _ _ HC) as (xs & q & Hv & _).
          destruct (contents_cells blk m es xs q a y Hv Hy) as (z & Hz & <-).
          pose proof (c_held _ _ _ _ _ HC (cval z).1.1) as Hh. pose proof (uses_pos _ _ _ Hz).
          unfold uses in Hh. unfold uses_cells in *. lia.
      + cbn. intros p Hp. rewrite find_point_app, Hn by lia. cbn.
        destruct (Nat.eqb_spec (wnext w) p); [lia|done].
    - cbn. rewrite find_point_app, Hn by lia. cbn. by rewrite Nat.eqb_refl.
    - split.
      + cbn. constructor; [|apply Hfit]. intros (n & En & Hin)%elem_of_list_fmap.
        destruct (proj2 Hfit n Hin) as (Hh & _). rewrite <- En in Hh. done.
      + intros n [->|Hin]%elem_of_cons.
        * cbn. split_and!; [|lia|].
          { unfold hasF. rewrite held_holdF, decide_True by done. lia. }
          { exists x. rewrite find_point_app, Hn by lia. cbn. by rewrite Nat.eqb_refl. }
        * by apply (fit_ext w w' ns).
  Qed.

  (* the geometry of a midpoint *)
  Lemma midnode_ok a b w m es ns :
    Pre w m es → fit w ns → a ∈ ns → b ∈ ns →
    ∃ w' n, midnode pick c a b w = Ok (w', n) ∧ Pre w' m es ∧ ext w w' ∧ n.2 = wnext w ∧
      ¬ hasF (wtop w) 0 n.1 ∧ fit w' (n :: ns) ∧
      (∀ d pa pb, pos c w a pa → pos c w b pb → on c d pa → on c d pb →
         pos c w' n (avg pa pb) ∧ on c d (avg pa pb)).
  Proof.
    intros HP Hfit Ha Hb. unfold midnode, midpoint, coordinates.
    destruct (proj2 Hfit a Ha) as (_ & _ & xa & Exa). destruct (proj2 Hfit b Hb) as (_ & _ & xb & Exb).
    rewrite Exa, Exb. cbn [at_or_throw rbind].
    set (x := cadd c xa _).
    destruct (new_node_ok x w m es ns HP Hfit) as (w' & n & E & HP' & Hext & Hn & Hv & Hx & Hfit').
    exists w', n. split_and!; [done..|].
    intros d pa pb (ya & Ey & Hya & Hpa) (yb & Ey' & Hyb & Hpb) Hoa Hob.
    rewrite Exa in Ey. injection Ey as <-. rewrite Exb in Ey'. injection Ey' as <-.
    destruct (mid_position c d xa xb pa pb Hya Hpa Hpb Hoa Hob) as (Hpr & Hps & Hom).
    split; [|done]. exists x. split_and!; done.
  Qed.

  (* what a refined cell becomes *)
  Record Block (w w' : world) (n : nat) (ns : list node) (gcs : list gcell) : Prop := {
    b_length : length gcs = 2 ^ (S K * n);
    b_copy : n = 0 → gcs.*2 = [ns];
    b_cells : ∀ gc, gc ∈ gcs → length gc.2 = S (S K) ∧ fit w' gc.2 ∧ spans (wtop w') (S K) gc.1 gc.2.*1;
    b_nodes : ∀ gc nd, gc ∈ gcs → nd ∈ gc.2 → nd ∈ ns ∨ wnext w <= nd.2;
    b_vertices : ∀ gc nd, gc ∈ gcs → nd ∈ gc.2 → nd ∈ ns ∨ ¬ hasF (wtop w) 0 nd.1;
    b_new : 0 < n → ∀ gc, gc ∈ gcs → ∃ nd, nd ∈ gc.2 ∧ ¬ hasF (wtop w) 0 nd.1;
    b_apart : ForallOrdPairs apart gcs;
    b_positions : ∀ d ps, poss c w ns ps → Forall (on c d) ps →
      Forall2 (λ gc qs, poss c w' gc.2 qs) gcs (refine (S K) n ps);
  }.

  Lemma spans_extends st st' o us :
    Inv st → Inv st' → extends st st' → spans st (S K) o us → spans st' (S K) o us.
  Proof.
    intros HI HI' He Hs. apply (order_agree st st' (S K)); try done.
    - by apply extends_agree.
    - apply (extends_or_some st); [done|]. destruct Hs as (f & b & ws & Ho & _). by exists (f, zs b).
  Qed.

  Lemma Pre_Inv w m es : Pre w m es → Inv (wtop w).
  Proof. intros H. by apply (listed_fine pick Hpick debug), H. Qed.

  Lemma Block_mono w0 w w' w1 n ns gcs m1 es1 m2 es2 :
    Pre w' m1 es1 → Pre w1 m2 es2 →
    ext w0 w → ext w' w1 → Block w w' n ns gcs → Block w0 w1 n ns gcs.
  Proof.
    intros HP1 HP2 H0 H1 [Hl Hz Hc Hn Hv Hw Ha Hp]. constructor; [done|done| | | | |done|].
    - intros gc Hgc. destruct (Hc gc Hgc) as (? & ? & ?). split_and!; [done|by eapply fit_ext|].
      apply (spans_extends (wtop w')); [by eapply Pre_Inv|by eapply Pre_Inv|apply H1|done].
    - intros gc nd Hgc Hnd. destruct (Hn gc nd Hgc Hnd) as [?|?]; [by left|right].
      destruct H0 as (_ & _ & _ & ?). lia.
    - intros gc nd Hgc Hnd. destruct (Hv gc nd Hgc Hnd) as [?|Hf]; [by left|right].
      intros Hf'. apply Hf. by apply H0.
    - intros Hpos gc Hgc. destruct (Hw Hpos gc Hgc) as (nd & Hnd & Hf). exists nd. split; [done|].
      intros Hf'. apply Hf. by apply H0.
    - intros d ps Hps Hon. eapply Forall2_impl; [eapply Hp, Hon; by eapply poss_ext|].
      intros gc qs. by apply poss_ext.
  Qed.

  Definition does (op : world * mesh → res (world * mesh)) (n : nat) (ns : list node) : Prop :=
    ∀ w m es, Pre w m es → fit w ns →
      ∃ w' m' es' gcs, op (w, m) = Ok (w', m') ∧ Pre w' m' es' ∧ ext w w' ∧
        (cells_listed es').*2 = (cells_listed es).*2 ++ gcs ∧ Block w w' n ns gcs.

  Lemma does_list n (op : list node → world * mesh → res (world * mesh)) children :
    (∀ ns, ns ∈ children → does (op ns) n ns) →
    ∀ w m es, Pre w m es → (∀ ns, ns ∈ children → fit w ns) →
      ∃ w' m' es' gcss, rfold (λ s ns, op ns s) (w, m) children = Ok (w', m') ∧ Pre w' m' es' ∧
        ext w w' ∧ (cells_listed es').*2 = (cells_listed es).*2 ++ concat gcss ∧
        Forall2 (Block w w' n) children gcss ∧
        (∀ i j gi gj nd, i < j → gcss !! i = Some gi → gcss !! j = Some gj →
           nd ∈ concat (gi.*2) → nd ∈ concat (gj.*2) → nd.2 < wnext w) ∧
        (∀ i j gi gj nd nd', i < j → gcss !! i = Some gi → gcss !! j = Some gj →
           nd ∈ concat (gi.*2) → nd' ∈ concat (gj.*2) → nd.1 = nd'.1 → hasF (wtop w) 0 nd.1).
  Proof.
    induction children as [|ns children IH]; intros Hdo w m es HP Hfit.
    - exists w, m, es, []. cbn. rewrite app_nil_r. split_and!; [done|done|apply ext_refl|done|constructor| |].
      { intros i j gi gj nd _ Hi. by rewrite lookup_nil in Hi. }
      intros i j gi gj nd nd' _ Hi. by rewrite lookup_nil in Hi.
    - destruct (Hdo ns ltac:(left) w m es HP ltac:(apply Hfit; left))
        as (w1 & m1 & es1 & gcs & E1 & HP1 & Hx1 & Hl1 & HB1).
      destruct (IH ltac:(intros; apply Hdo; by right) w1 m1 es1 HP1)
        as (w' & m' & es' & gcss & E' & HP' & Hx' & Hl' & HB' & Hd' & Hv').
      { intros ns' Hns'. eapply fit_ext; [exact Hx1|]. apply Hfit. by right. }
      exists w', m', es', (gcs :: gcss). cbn [rfold]. rewrite E1. cbn [rbind].
      split_and!; [done|done|by eapply ext_trans| | | |].
      + rewrite Hl', Hl1. cbn. by rewrite app_assoc.
      + constructor; [by eapply Block_mono; [exact HP1|exact HP'|apply ext_refl|exact Hx'|]|].
        eapply Forall2_impl; [exact HB'|]. intros ns' gcs'.
        by eapply Block_mono; [exact HP'|exact HP'|exact Hx1|apply ext_refl].
      + intros [|i] [|j] gi gj nd Hij Hi Hj Hni Hnj; try lia; cbn in Hi, Hj.
        * injection Hi as <-.
          destruct (Forall2_lookup_r _ _ _ _ _ HB' Hj) as (ns' & Hns' & HBj).
          apply elem_of_list_lookup_2 in Hns'.
          apply P_Mesh.elem_of_concat in Hnj as (lj & Hlj & (gc & -> & Hgc)%elem_of_list_fmap).
          destruct (b_nodes _ _ _ _ _ HBj gc nd Hgc Hlj) as [Hin|Hge].
          { by apply (proj2 (Hfit ns' ltac:(by right))). }
          apply P_Mesh.elem_of_concat in Hni as (li & Hli & (gc' & -> & Hgc')%elem_of_list_fmap).
          destruct (b_cells _ _ _ _ _ HB1 gc' Hgc') as (_ & [_ Hf] & _).
          destruct (Hf nd Hli) as (_ & ? & _). lia.
        * assert (Hlt : nd.2 < wnext w1) by (eapply (Hd' i j gi gj); [lia|done..]).
          destruct (Forall2_lookup_r _ _ _ _ _ HB' Hj) as (ns' & Hns' & HBj).
          apply elem_of_list_lookup_2 in Hns'.
          apply P_Mesh.elem_of_concat in Hnj as (lj & Hlj & (gc & -> & Hgc)%elem_of_list_fmap).
          destruct (b_nodes _ _ _ _ _ HBj gc nd Hgc Hlj) as [Hin|Hge]; [|lia].
          by apply (proj2 (Hfit ns' ltac:(by right))).
      + intros i j gi gj nd nd' Hij Hi Hj Hni Hnj Env. rewrite Env.
        destruct j as [|j]; [lia|]. cbn in Hj.
        destruct (Forall2_lookup_r _ _ _ _ _ HB' Hj) as (ns' & Hns' & HBj).
        apply elem_of_list_lookup_2 in Hns'.
        assert (Hnj' := Hnj). apply P_Mesh.elem_of_concat in Hnj' as (lj & Hlj & (gc & -> & Hgc)%elem_of_list_fmap).
        destruct (b_vertices _ _ _ _ _ HBj gc nd' Hgc Hlj) as [Hin|Hge].
        { by apply (proj2 (Hfit ns' ltac:(by right))). }
        exfalso. apply Hge. rewrite <- Env. destruct i as [|i]; cbn in Hi.
        * injection Hi as <-.
          apply P_Mesh.elem_of_concat in Hni as (li & Hli & (gc' & -> & Hgc')%elem_of_list_fmap).
          destruct (b_cells _ _ _ _ _ HB1 gc' Hgc') as (_ & [_ Hf] & _). by destruct (Hf nd Hli).
        * eapply (Hv' i j gi gj nd nd'); [lia|done..].
  Qed.

  Lemma build_ok st us :
    reach_listed pick debug st → length us = S (S K) → NoDup us → (∀ v, v ∈ us → hasF st 0 v) →
    ∃ o st0, simplex_of_vertices pick debug (S K) us st = Ret o st0 ∧ growsd debug st st0 ∧ Inv st0 ∧
      spans st0 (S K) o us ∧ reach_listed pick debug (holdO (S K) o st0) ∧
      ∃ x, legal st x ∧ step pick debug x st = Ret (AOriented (S K) o) (holdO (S K) o st0).
  Proof.
    intros Hr Hlen Hnd Hh. destruct (listed_fine pick Hpick debug st Hr) as [HI HC].
    assert (∃ x, legal st x ∧ well_listed debug st x ∧
                 step pick debug x = keepO (S K) (simplex_of_vertices pick debug (S K) us) ∧
                 wp (simplex_of_vertices pick debug (S K) us) st
                   (λ o st', NoDup us ∧ good debug st (S K) us o st') (refused debug st us))
      as (x & Hl & Hwl & Hstep & Hw).
    { destruct K as [|[|[|]]]; try lia.
      - destruct us as [|a [|b [|]]]; try done. exists (OSegment a b).
        assert (hasF st 0 a ∧ hasF st 0 b) as (? & ?) by (split; apply Hh; set_solver).
        split_and!; try done.
        apply (wp_segment_can pick Hpick debug); [done|done|by apply (i_hF _ HI)..].
      - destruct us as [|a [|b [|c0 [|]]]]; try done. exists (OTriangle a b c0).
        assert (hasF st 0 a ∧ hasF st 0 b ∧ hasF st 0 c0) as (? & ? & ?) by (split_and!; apply Hh; set_solver).
        split_and!; try done.
        apply (wp_triangle_can pick Hpick debug); [done|done|by apply (i_hF _ HI)..].
      - destruct us as [|a [|b [|c0 [|d [|]]]]]; try done. exists (OTetrahedron a b c0 d).
        assert (hasF st 0 a ∧ hasF st 0 b ∧ hasF st 0 c0 ∧ hasF st 0 d) as (? & ? & ? & ?)
          by (split_and!; apply Hh; set_solver).
        split_and!; try done.
        apply (wp_tetrahedron_can pick Hpick debug); [done|done|by apply (i_hF _ HI)..]. }
    unfold wp in Hw.
    destruct (simplex_of_vertices pick debug (S K) us st) as [o st0|st0|] eqn:E;
      [|by destruct Hw as (_ & _ & _ & ?)|done].
    destruct Hw as (_ & HI0 & _ & Hg & Hsp'). exists o, st0. split_and!; [done|done|done|done| |].
    - eapply (listed_ret _ _ st x); [done|done|done|]. rewrite Hstep. unfold keepO, abind. by rewrite E.
    - exists x. split; [done|]. rewrite Hstep. unfold keepO, abind. by rewrite E.
  Qed.

  Lemma insert_nodes_does ns :
    length ns = S (S K) → does (insert_nodes pick blk debug (S K) ns) 0 ns.
  Proof.
    intros Hlen w m es HP Hfit. destruct HP as [Hl HC Hm Hq Hn].
    destruct (build_ok (wtop w) ns.*1) as (o & st0 & E & Hg & HI0 & Hsp & Hr0 & Hstep).
    { done. } { by rewrite fmap_length. } { apply Hfit. }
    { intros v (n & -> & Hin)%elem_of_list_fmap. by apply Hfit. }
    unfold insert_nodes. cbn [fst snd]. rewrite E.
    assert (Ho : is_Some (ors st0 !! (S K, o))).
    { destruct Hsp as (f & b & ws & Ho & _). by exists (f, zs b). }
    assert (HI : Inv (wtop w)) by (by apply (listed_fine pick Hpick debug)).
    destruct (insert_core blk Hblk debug K st0 m es (o, ns) HI0)
      as (m1 & a & st1 & E1 & Est & HC1 & Hfresh & Hf1 & Ho1 & Hfq).
    { by apply (core_grows blk debug K (wtop w) st0). }
    { done. }
    rewrite E1. cbn [rbind]. rewrite Hq in Hfq. destruct Hfq as [Hnew Hcell].
    rewrite Hcell in Est. cbn [fst] in Est. subst st1.
    set (w' := World (holdO (S K) o st0) (wsys w) (wnext w)).
    assert (He : extends (wtop w) (wtop w')) by exact (grows_extends _ _ _ Hg).
    assert (Hx : ext w w').
    { unfold ext. split_and!; [done| |done|done]. intros v Hv.
      destruct Hg as (_ & _ & _ & _ & _ & HhF & _). unfold hasF. cbn [wtop w' holdO upd_hO hF]. by rewrite HhF. }
    exists w', m1, (es ++ [EvEmplace (o, ns) true a]), [(o, ns)].
    split_and!; [done| |done| |].
    - constructor; [done|done| | |done]; [|by rewrite free_queue_snoc, Hq].
      assert (Hh : ∀ o', uses m o' <= held (hO st0) (S K, o'))
        by apply (core_grows blk debug K (wtop w) st0 m es HI HI0 Hg HC).
      assert (Hm1 : mreach pick blk debug (S K) (holdO (S K) o st0) m es).
      { destruct Hstep as (x & Hlx & Hst).
        apply (mreach_topology _ _ _ _ (wtop w) m es x); [done|done|right; eauto|].
        intros o'. rewrite held_holdO. specialize (Hh o'). lia. }
      assert (Hm2 : mreach pick blk debug (S K) (holdO (S K) o (holdO (S K) o st0)) m1
                      (es ++ [EvEmplace (o, ns) true a])).
      { eapply (mreach_insert _ _ _ _ _ _ _ (o, ns)); [exact Hm1| |].
        - unfold has. cbn [fst]. rewrite held_holdO, decide_True by done. lia.
        - revert E1. unfold mesh_insert. cbn [fst].
          change (register (holdO (S K) o st0) (S K) o (mori m)) with (register st0 (S K) o (mori m)).
          destruct (register st0 (S K) o (mori m)) as [ori| |]; cbn [rbind]; try done.
          destruct (vec_emplace blk debug (o, ns) true (mcells m)) as [[c' a']| |]; cbn [rbind]; try done.
          intros E1. injection E1 as E1 <- <-. by rewrite Hcell. }
      assert (Hd : dropO (S K) o (holdO (S K) o (holdO (S K) o st0)) = holdO (S K) o st0).
      { unfold dropO, holdO, upd_hO, dec, inc, held. cbn [hO fps ors cmap omap hF clk].
        by rewrite !lookup_insert, !insert_insert. }
      change (wtop w') with (holdO (S K) o st0).
      apply (mreach_topology _ _ _ _ _ _ _ (ODrop (S K) o)) with (1 := Hm2).
      + cbn [legal]. unfold has. rewrite held_holdO, decide_True by done. lia.
      + right. exists ANone. cbn [step]. by rewrite Hd.
      + apply HC1.
    - rewrite elem_snoc_emplace by done. by rewrite fmap_app.
    - constructor.
      + by rewrite Nat.mul_0_r.
      + done.
      + intros gc ->%elem_of_list_singleton. cbn [fst snd]. split_and!; [done|by eapply fit_ext|].
        apply (spans_extends st0); [done|by apply (listed_fine pick Hpick debug)| |done].
        split; done.
      + intros gc nd ->%elem_of_list_singleton. by left.
      + intros gc nd ->%elem_of_list_singleton. by left.
      + lia.
      + repeat constructor.
      + intros d ps Hps _. constructor; [|constructor]. by eapply poss_ext.
  Qed.
  Lemma split_does (op : world * mesh → res (world * mesh)) (op' : list node → world * mesh → res (world * mesh)) n ns :
    (∀ ns', length ns' = S (S K) → does (op' ns') n ns') →
    (∀ w m es, Pre w m es → fit w ns → ∃ w1 ch,
       op (w, m) = rfold (λ s ns, op' ns s) (w1, m) ch ∧ Pre w1 m es ∧ ext w w1 ∧
       length ch = 2 ^ S K ∧
       (∀ child, child ∈ ch → length child = S (S K) ∧ fit w1 child ∧
          (∀ nd, nd ∈ child → nd ∈ ns ∨ wnext w <= nd.2 ∧ ¬ hasF (wtop w) 0 nd.1) ∧
          ∃ nd, nd ∈ child ∧ ¬ hasF (wtop w) 0 nd.1) ∧
       ForallOrdPairs (λ g h : list node, ¬ (g.*1 ≡ₚ h.*1)) ch ∧
       (∀ d ps, poss c w ns ps → Forall (on c d) ps →
          Forall2 (λ child qs, poss c w1 child qs ∧ Forall (on c d) qs) ch
            (kids (S K) (Nat.eqb n 0) ps))) →
    does op (S n) ns.
  Proof.
    intros Hop' H w m es HP Hfit.
    destruct (H w m es HP Hfit) as (w1 & ch & Eop & HP1 & Hx1 & Hlen & Hch & Hap & Hgeo).
    destruct (does_list n op' ch) with (w := w1) (m := m) (es := es)
      as (w' & m' & es' & gcss & E & HP' & Hx' & Hl & HB & _ & Hv).
    { intros ns' Hns'. apply Hop'. by apply Hch. }
    { done. }
    { intros ns' Hns'. by apply Hch. }
    exists w', m', es', (concat gcss). split_and!; [congruence|done|by eapply ext_trans|done|].
    constructor.
    - rewrite (concat_length_const _ (2 ^ (S K * n))).
      + rewrite <- (Forall2_length _ _ _ HB), Hlen, <- Nat.pow_add_r. f_equal. lia.
      + apply Forall_lookup. intros i gcs Hi.
        destruct (Forall2_lookup_r _ _ _ _ _ HB Hi) as (ns' & _ & HBi). apply HBi.
    - done.
    - intros gc (gcs & Hgc & Hgcs)%P_Mesh.elem_of_concat.
      apply elem_of_list_lookup in Hgcs as (i & Hi).
      destruct (Forall2_lookup_r _ _ _ _ _ HB Hi) as (ns' & _ & HBi). by apply HBi.
    - intros gc nd (gcs & Hgc & Hgcs)%P_Mesh.elem_of_concat Hnd.
      apply elem_of_list_lookup in Hgcs as (i & Hi).
      destruct (Forall2_lookup_r _ _ _ _ _ HB Hi) as (ns' & Hns' & HBi).
      destruct (b_nodes _ _ _ _ _ HBi gc nd Hgc Hnd) as [Hin|Hge].
      + apply elem_of_list_lookup_2 in Hns'. destruct (Hch ns' Hns') as (_ & _ & Hn & _).
        destruct (Hn nd Hin) as [?|[? _]]; [by left|by right].
      + right. destruct Hx1 as (_ & _ & _ & ?). lia.
    - intros gc nd (gcs & Hgc & Hgcs)%P_Mesh.elem_of_concat Hnd.
      apply elem_of_list_lookup in Hgcs as (i & Hi).
      destruct (Forall2_lookup_r _ _ _ _ _ HB Hi) as (ns' & Hns' & HBi).
      destruct (b_vertices _ _ _ _ _ HBi gc nd Hgc Hnd) as [Hin|Hge].
      + apply elem_of_list_lookup_2 in Hns'. destruct (Hch ns' Hns') as (_ & _ & Hn & _).
        destruct (Hn nd Hin) as [?|[_ ?]]; [by left|by right].
      + right. intros Hf. apply Hge. by apply Hx1.
    - intros _ gc (gcs & Hgc & Hgcs)%P_Mesh.elem_of_concat.
      apply elem_of_list_lookup in Hgcs as (i & Hi).
      destruct (Forall2_lookup_r _ _ _ _ _ HB Hi) as (ns' & Hns' & HBi). destruct n as [|n].
      + pose proof (b_copy _ _ _ _ _ HBi eq_refl) as Ec.
        apply elem_of_list_lookup_2 in Hns'. destruct (Hch ns' Hns') as (_ & _ & _ & nd & Hnd & Hf).
        exists nd. split; [|done]. apply (elem_of_list_fmap_1 snd) in Hgc. rewrite Ec in Hgc.
        apply elem_of_list_singleton in Hgc as ->. done.
      + destruct (b_new _ _ _ _ _ HBi ltac:(lia) gc Hgc) as (nd & Hnd & Hf). exists nd. split; [done|].
        intros Hf'. apply Hf. by apply Hx1.
    - apply pairs_concat.
      + intros gcs (i & Hi)%elem_of_list_lookup.
        destruct (Forall2_lookup_r _ _ _ _ _ HB Hi) as (ns' & Hns' & HBi). apply HBi.
      + apply pairs_lookup. intros i j gi gj Hij Hi Hj g h Hg Hh Hp.
        destruct (Forall2_lookup_r _ _ _ _ _ HB Hi) as (nsi & Hnsi & HBi).
        destruct (Forall2_lookup_r _ _ _ _ _ HB Hj) as (nsj & Hnsj & HBj). destruct n as [|n].
        * pose proof (b_copy _ _ _ _ _ HBi eq_refl) as Ei. pose proof (b_copy _ _ _ _ _ HBj eq_refl) as Ej.
          apply (elem_of_list_fmap_1 snd) in Hg, Hh. rewrite Ei in Hg. rewrite Ej in Hh.
          apply elem_of_list_singleton in Hg, Hh. rewrite Hg, Hh in Hp.
          by apply (pairs_lookup_1 _ _ Hap i j nsi nsj).
        * destruct (b_new _ _ _ _ _ HBi ltac:(lia) g Hg) as (nd & Hnd & Hf). apply Hf.
          assert (Hin : nd.1 ∈ h.2.*1) by (rewrite <- Hp; by apply elem_of_list_fmap_1).
          apply elem_of_list_fmap in Hin as (nd' & En & Hnd').
          apply (Hv i j gi gj nd nd' Hij Hi Hj); [| |done].
          { apply P_Mesh.elem_of_concat. exists g.2. split; [done|by apply elem_of_list_fmap_1]. }
          { apply P_Mesh.elem_of_concat. exists h.2. split; [done|by apply elem_of_list_fmap_1]. }
    - intros d ps Hps Hon. specialize (Hgeo d ps Hps Hon). cbn [refine].
      set (kd := kids (S K) (n =? 0) ps) in *. clearbody kd. clear -HB Hgeo.
      revert kd Hgeo. induction HB as [|child gcs ch gcss HBi _ IH]; intros kd Hgeo.
      + inversion Hgeo; subst. constructor.
      + inversion Hgeo as [|? qs ? kd' (Hq & Hq') Hgeo']; subst. cbn.
        apply Forall2_app; [|by apply IH]. by apply (b_positions _ _ _ _ _ HBi d).
  Qed.
End refine.


Ltac in_list := repeat (apply elem_of_cons; first [left; reflexivity|right]).
(* the midnodes of a cell, one after the other *)
Ltac midnode_step pick Hpick blk debug c K HP Hfit a b :=
  let w1 := fresh "w" in let n1 := fresh "m" in let E := fresh "Em" in
  let Hx := fresh "Hx" in let Hn := fresh "Hn" in let Hv := fresh "Hv" in let Hg := fresh "Hg" in
  let HP' := fresh "HPre" in let Hfit' := fresh "Hfits" in
  destruct (midnode_ok pick Hpick blk debug c K ltac:(lia) a b _ _ _ _ HP Hfit ltac:(in_list) ltac:(in_list))
    as (w1 & n1 & E & HP' & Hx & Hn & Hv & Hfit' & Hg);
    clear HP Hfit; rename HP' into HP, Hfit' into Hfit; rewrite E; cbn [rbind fst snd].

(* carry the positions over to the world after a midnode *)
Ltac carry Hx :=
  repeat match type of Hx with
  | ext ?w ?w' =>
      match goal with H : pos ?c w ?n ?p |- _ => apply (pos_ext c w w' n p Hx) in H end
  end.
Ltac mid_step Hg Hx d pa pb :=
  let Hp := fresh "Hp" in let Ho := fresh "Ho" in
  destruct (Hg d pa pb) as [Hp Ho]; [assumption..|carry Hx].
Ltac list_inv :=
  repeat match goal with
  | H : poss _ _ (_ :: _) _ |- _ => apply Forall2_cons_inv_l in H as (? & ? & ? & H & ->)
  | H : Forall2 (pos _ _) (_ :: _) _ |- _ => apply Forall2_cons_inv_l in H as (? & ? & ? & H & ->)
  | H : Forall2 (pos _ _) [] _ |- _ => apply Forall2_nil_inv_l in H as ->
  | H : Forall (on _ _) (_ :: _) |- _ => apply Forall_cons in H as [? H]
  end.

Lemma ext_next w w' : ext w w' → wnext w <= wnext w'.
Proof. by intros (_ & _ & _ & ?). Qed.
Ltac nexts :=
  repeat match goal with
  | H : ext ?w ?w' |- _ =>
      lazymatch goal with
      | _ : wnext w <= wnext w' |- _ => fail
      | _ => pose proof (ext_next w w' H)
      end
  end.
Ltac ext_chain :=
  first [eassumption | eapply ext_trans; [eassumption|ext_chain]].
Lemma ext_hasF w w' v : ext w w' → ¬ hasF (wtop w') 0 v → ¬ hasF (wtop w) 0 v.
Proof. intros (_ & H & _) Hn Hv. apply Hn. by apply H. Qed.
Ltac new_vertex :=
  first [assumption|match goal with H : ext ?w ?w' |- ¬ hasF (wtop ?w) 0 _ => apply (ext_hasF w w' _ H); new_vertex end].
Ltac children_ok Hfit :=
  let child := fresh "child" in let Hin := fresh "Hin" in let nd := fresh "nd" in let Hnd := fresh "Hnd" in
  nexts; intros child Hin;
  repeat (apply elem_of_cons in Hin as [->|Hin]); [..|by apply elem_of_nil in Hin];
  (split_and!;
   [done|refine (fit_sub _ _ _ _ Hfit); solve_submseteq
   |intros nd Hnd; repeat (apply elem_of_cons in Hnd as [->|Hnd]);
    first [left; solve [in_list]|right; split; [lia|new_vertex]|by apply elem_of_nil in Hnd]
   |match goal with
    | H : ¬ hasF _ 0 (fst ?m) |- _ => exists m; split; [solve [in_list]|new_vertex]
    end]).
(* children on different vertices *)
Ltac not_in := rewrite ?not_elem_of_cons; split_and!; first [assumption|apply not_eq_sym; assumption|apply not_elem_of_nil].
Ltac missing H l l' :=
  lazymatch l with
  | ?x :: ?t =>
      first [let N := fresh in assert (N : x ∉ l') by not_in; apply N; rewrite <- H; solve [in_list]
            |missing H t l']
  end.
Ltac differ Hfit :=
  let F := fresh "F" in pose proof (proj1 Hfit) as F; rewrite ?fmap_cons, ?fmap_nil in F;
  repeat match goal with
  | H : NoDup (_ :: _) |- _ => apply NoDup_cons in H as [? H]
  end;
  repeat match goal with
  | H : _ ∉ _ :: _ |- _ => apply not_elem_of_cons in H as [? H]
  end;
  repeat match goal with
  | |- ForallOrdPairs _ _ => constructor
  | |- List.Forall _ _ => constructor
  end;
  let Hp := fresh "Hp" in intros Hp; rewrite ?fmap_cons, ?fmap_nil in Hp;
  lazymatch type of Hp with ?l ≡ₚ ?l' => missing Hp l l' end.

Section subdivide.
  Context (pick : M_Topology.alloc) (Hpick : good_alloc pick) (blk : nat → nat)
    (Hblk : ∀ i j, blk i = blk j → i = j) (debug : bool) (c : chart).

  Definition refine_cell (N n : nat) (ns : list node) : world * mesh → res (world * mesh) :=
    match n with
    | 0 => insert_nodes pick blk debug N ns
    | _ => subdivide pick blk debug c N n ns
    end.

  Lemma refine_segment_does n ns : length ns = 2 → does pick blk debug c 0 (refine_cell 1 n ns) n ns.
  Proof.
    revert ns. induction n as [|n IH]; intros ns Hlen.
    { by apply (insert_nodes_does pick Hpick blk Hblk debug c 0 ltac:(lia)). }
    apply (split_does pick Hpick blk debug c 0 ltac:(lia) _ (refine_cell 1 n)); [exact IH|].
    intros w m es HP Hfit. destruct ns as [|a [|b [|]]]; try done.
    cbn [refine_cell subdivide subdivide_segment fst snd].
    midnode_step pick Hpick blk debug c 0 HP Hfit a b.
    eexists _, [[a; m0]; [m0; b]].
    split; [by destruct n|]. split_and!; [done|done|done|children_ok Hfit|differ Hfit|].
    intros d ps Hps Hon. assert (El := Forall2_length _ _ _ Hps). destruct ps as [|p0 [|p1 [|]]]; try done.
    repeat (apply Forall2_cons in Hps as [? Hps]). list_inv.
    mid_step Hg Hx d p0 p1.
    unfold kids. repeat (constructor; try assumption).
  Qed.

  Lemma refine_triangle_does n ns : length ns = 3 → does pick blk debug c 1 (refine_cell 2 n ns) n ns.
  Proof.
    revert ns. induction n as [|n IH]; intros ns Hlen.
    { by apply (insert_nodes_does pick Hpick blk Hblk debug c 1 ltac:(lia)). }
    apply (split_does pick Hpick blk debug c 1 ltac:(lia) _ (refine_cell 2 n)); [exact IH|].
    intros w m es HP Hfit. destruct ns as [|a [|b [|e [|]]]]; try done.
    cbn [refine_cell subdivide subdivide_triangle fst snd].
    midnode_step pick Hpick blk debug c 1 HP Hfit a b.
    midnode_step pick Hpick blk debug c 1 HP Hfit b e.
    midnode_step pick Hpick blk debug c 1 HP Hfit e a.
    eexists _, [[a; m0; m2]; [m0; b; m1]; [m1; e; m2]; [m2; m0; m1]].
    split; [by destruct n|]. split_and!; [done|ext_chain|done|children_ok Hfit|differ Hfit|].
    intros d ps Hps Hon. assert (El := Forall2_length _ _ _ Hps). destruct ps as [|p0 [|p1 [|p2 [|]]]]; try done.
    repeat (apply Forall2_cons in Hps as [? Hps]). list_inv.
    mid_step Hg Hx d p0 p1. mid_step Hg0 Hx0 d p1 p2. mid_step Hg1 Hx1 d p2 p0.
    unfold kids. repeat (constructor; try assumption).
  Qed.

  Lemma refine_tetrahedron_does n ns : length ns = 4 → does pick blk debug c 2 (refine_cell 3 n ns) n ns.
  Proof.
    revert ns. induction n as [|n IH]; intros ns Hlen.
    { by apply (insert_nodes_does pick Hpick blk Hblk debug c 2 ltac:(lia)). }
    apply (split_does pick Hpick blk debug c 2 ltac:(lia) _ (refine_cell 3 n)); [exact IH|].
    intros w m es HP Hfit. destruct ns as [|a [|b [|e [|f [|]]]]]; try done.
    cbn [refine_cell subdivide subdivide_tetrahedron fst snd].
    midnode_step pick Hpick blk debug c 2 HP Hfit a b.
    midnode_step pick Hpick blk debug c 2 HP Hfit a e.
    midnode_step pick Hpick blk debug c 2 HP Hfit a f.
    midnode_step pick Hpick blk debug c 2 HP Hfit b e.
    midnode_step pick Hpick blk debug c 2 HP Hfit b f.
    midnode_step pick Hpick blk debug c 2 HP Hfit e f.
    assert (Hgeo : ∀ d p0 p1 p2 p3, poss c w [a; b; e; f] [p0; p1; p2; p3] → Forall (on c d) [p0; p1; p2; p3] →
      poss c w5 [a; b; e; f; m0; m1; m2; m3; m4; m5]
        [p0; p1; p2; p3; avg p0 p1; avg p0 p2; avg p0 p3; avg p1 p2; avg p1 p3; avg p2 p3] ∧
      Forall (on c d)
        [p0; p1; p2; p3; avg p0 p1; avg p0 p2; avg p0 p3; avg p1 p2; avg p1 p3; avg p2 p3]).
    { intros d p0 p1 p2 p3 Hps Hon. repeat (apply Forall2_cons in Hps as [? Hps]). list_inv.
      mid_step Hg Hx d p0 p1. mid_step Hg0 Hx0 d p0 p2. mid_step Hg1 Hx1 d p0 p3.
      mid_step Hg2 Hx2 d p1 p2. mid_step Hg3 Hx3 d p1 p3. mid_step Hg4 Hx4 d p2 p3.
      split; repeat (constructor; try assumption). }
    assert (Hlist : ∀ ps, poss c w [a; b; e; f] ps → ∃ p0 p1 p2 p3, ps = [p0; p1; p2; p3]).
    { intros ps Hps%Forall2_length. destruct ps as [|? [|? [|? [|? [|]]]]]; try done. eauto. }
    destruct n as [|n].
    - eexists _, [[a; m0; m1; m2]; [b; m0; m4; m3]; [e; m1; m3; m5]; [f; m4; m2; m5];
                  [m1; m0; m4; m2]; [m1; m2; m4; m5]; [m1; m4; m0; m3]; [m1; m5; m4; m3]].
      split; [done|]. split_and!; [done|ext_chain|done|children_ok Hfit|differ Hfit|].
      intros d ps Hps Hon. destruct (Hlist ps Hps) as (p0 & p1 & p2 & p3 & ->).
      destruct (Hgeo d _ _ _ _ Hps Hon) as [Hq Ho].
      clear Hps Hon. repeat (apply Forall2_cons in Hq as [? Hq]). list_inv.
      unfold kids. cbn [Nat.eqb]. repeat (constructor; try assumption).
    - eexists _, [[a; m0; m1; m2]; [b; m0; m4; m3]; [e; m1; m3; m5]; [m2; f; m4; m5];
                  [m1; m0; m4; m2]; [m1; m2; m4; m5]; [m0; m1; m4; m3]; [m1; m5; m4; m3]].
      split; [done|]. split_and!; [done|ext_chain|done|children_ok Hfit|differ Hfit|].
      intros d ps Hps Hon. destruct (Hlist ps Hps) as (p0 & p1 & p2 & p3 & ->).
      destruct (Hgeo d _ _ _ _ Hps Hon) as [Hq Ho].
      clear Hps Hon. repeat (apply Forall2_cons in Hq as [? Hq]). list_inv.
      unfold kids. cbn [Nat.eqb]. repeat (constructor; try assumption).
  Qed.

  Lemma refine_cell_does K n ns :
    S K <= 3 → length ns = S (S K) → does pick blk debug c K (refine_cell (S K) n ns) n ns.
  Proof.
    intros HK. destruct K as [|[|[|]]]; [..|lia];
      [apply refine_segment_does|apply refine_triangle_does|apply refine_tetrahedron_does].
  Qed.

  Lemma tetra_ok K n m l w :
    S K <= 3 → sound_world pick debug w → mesh_cells m = Ok l →
    (∀ x, x ∈ l → length x.2.2 = S (S K) ∧ fit w x.2.2) →
    ∃ w' m' es' gcss, tetra pick blk debug c (S K) n m w = Ok (w', m') ∧ Pre pick blk debug K w' m' es' ∧
      ext w w' ∧ (cells_listed es').*2 = concat gcss ∧
      Forall2 (λ x gcs, Block c K w w' n x.2.2 gcs) l gcss ∧
      (∀ i j gi gj nd, i < j → gcss !! i = Some gi → gcss !! j = Some gj →
         nd ∈ concat (gi.*2) → nd ∈ concat (gj.*2) → nd.2 < wnext w) ∧
      (∀ i j gi gj nd nd', i < j → gcss !! i = Some gi → gcss !! j = Some gj →
         nd ∈ concat (gi.*2) → nd' ∈ concat (gj.*2) → nd.1 = nd'.1 → hasF (wtop w) 0 nd.1).
  Proof.
    intros HK [Hr Hn] Hl Hfit.
    assert (HP : Pre pick blk debug K w mesh0 []).
    { constructor; [done| |constructor; by eapply listed_reach|done|done].
      eapply (MInv_core pick blk debug K), MInv_init. by eapply listed_reach. }
    destruct (does_list pick Hpick blk debug c K HK n (refine_cell (S K) n) ((λ x, x.2.2) <$> l))
      with (w := w) (m := mesh0) (es := [] : list (vevent (V:=gcell)))
      as (w' & m' & es' & gcss & E & HP' & Hx & Hc & HB & Hd & Hv).
    { intros ns (x & -> & Hx)%elem_of_list_fmap. apply refine_cell_does; [done|]. by apply Hfit. }
    { done. }
    { intros ns (x & -> & Hx)%elem_of_list_fmap. by apply Hfit. }
    exists w', m', es', gcss. split_and!; [|done|done| | |done|done].
    - unfold tetra. rewrite Hl. cbn [rbind]. rewrite <- E. clear.
      rewrite <- (rfold_map (λ s ns, refine_cell (S K) n ns s) (λ x : addr * gcell, x.2.2)). by destruct n.
    - rewrite Hc. by destruct gcss.
    - apply (Forall2_fmap_l (λ x : addr * gcell, x.2.2) (Block c K w w' n)) in HB. exact HB.
  Qed.
End subdivide.
