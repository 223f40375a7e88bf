(* C85: the integral computed by a job of several processes. *)
From stdpp Require Import base gmap list sorting.
From Coq Require Import Reals Lra.
From Verif Require Import M_Tensor M_Geometry S_Geometry P_Volume M_Functions P_Functions M_Quadrature S_Quadrature P_Quadrature P_Integrator Properties_Integrator.
From Verif Require Import Base M_SegAlloc S_SegAlloc P_SegAlloc M_Topology S_Topology P_Topology
  P_TopologyApi Properties_Topology M_Mesh S_Mesh P_Mesh
  Properties_Mesh M_Tetra S_Tetra P_Tetra Properties_Tetra M_Partition S_Partition P_Partition Properties_Partition.
From Verif Require Import M_Parallel S_Parallel P_Parallel.
Local Open Scope nat_scope.

Local Lemma collected {A B} (g : A → res B) (l : list A) : ∀ acc r,
  rfold (λ acc x, let! v := g x in Ok (acc ++ [v])) acc l = Ok r ↔ ∃ vs, Forall2 (λ x v, g x = Ok v) l vs ∧ r = acc ++ vs.
Proof.
  induction l as [|x l IH]; intros acc r; cbn [rfold].
  - split.
    + intros [= <-]. exists []. by rewrite app_nil_r.
    + intros (vs & H & ->). inversion H. by rewrite app_nil_r.
  - destruct (g x) as [v| |] eqn:E; cbn [rbind].
    + rewrite IH. split.
      * intros (vs & H & ->). exists (v :: vs). split; [by constructor|]. by rewrite <- (assoc_L (++)).
      * intros (vs & H & ->). inversion H as [|? v' ? vs' Hv H']; subst. rewrite E in Hv. injection Hv as <-.
        exists vs'. split; [done|]. by rewrite <- (assoc_L (++)).
    + split; [discriminate|]. intros (vs & H & _). inversion H as [|? v' ? vs' Hv H']; subst. congruence.
    + split; [discriminate|]. intros (vs & H & _). inversion H as [|? v' ? vs' Hv H']; subst. congruence.
Qed.

Local Lemma forall2_choose {A B} (R : A → B → Prop) (l : list A) : (∀ x, x ∈ l → ∃ y, R x y) → ∃ k, Forall2 R l k.
Proof.
  induction l as [|x l IH]; intros H; [exists []; constructor|]. destruct (H x ltac:(left)) as [y Hy].
  destruct IH as [k Hk]; [intros; apply H; by right|]. exists (y :: k). by constructor.
Qed.

Local Lemma contexts_lookup n i : i < n → contexts n !! i = Some (Context (Z.of_nat i) (Z.of_nat n)).
Proof. intros Hi. unfold contexts. by rewrite list_lookup_fmap, lookup_seq_lt. Qed.

Section C85.
  Context (debug : bool) (metis : metis_args → list Z) (Hmetis : paints metis).
  Context (N : nat) (c : chart) (w : vec → option val) (q : rule) (f : vec → R).
  Context (order : list R → list R) (Horder : ∀ l, order l ≡ₚ l).
  (* the mesh that all the processes have *)
  Context (cells : list (list nat)) (X : nat → vec).
  Definition ready (p : process) (l : list (addr * gcell)) (adr : nat → nat) : Prop :=
    good_alloc (p_pick p) ∧ (∀ i j, p_blk p i = p_blk p j → i = j) ∧
    partitionable (p_pick p) (p_blk p) debug N (p_world p) (p_mesh p) l ∧ has_mesh p l cells X adr ∧ in_order cells adr.
  Context (job : list process) (Hjob : job ≠ []) (Hready : ∀ p, p ∈ job → ∃ l adr, ready p l adr).

  (* one painting of the cells for all the processes *)
  Local Lemma one_painting : ∃ pa, length pa = length cells ∧ Forall (λ r, 0 <= r < Z.of_nat (length job))%Z pa ∧
    ∀ i p l adr, job !! i = Some p → ready p l adr → ∃ w' m' l',
      partition (p_pick p) (p_blk p) debug metis N (p_mesh p) (Z.of_nat (length job)) (Z.of_nat i) (p_world p) = Ok (w', m') ∧
      mesh_cells m' = Ok l' ∧ wsys w' = wsys (p_world p) ∧ l'.*2 = painted pa (Z.of_nat i) l.*2.
  Proof using Hmetis Hjob.
    clear Hready.
    assert (Hn : 0 < length job) by (destruct job; [done|cbn; lia]). set (P := Z.of_nat (length job)).
    destruct (decide (P = 1%Z)) as [HP|HP].
    - exists (replicate (length cells) 0%Z). split_and!; [by rewrite replicate_length|apply Forall_replicate; lia|].
      intros i p l adr Hi (Hpick & Hblk & Hp & Hm & Hord).
      assert (i = 0) as -> by (apply lookup_lt_Some in Hi; lia).
      destruct (C33_parts (p_pick p) Hpick (p_blk p) Hblk debug metis N (p_world p) (p_mesh p) l P 0 Hp Hmetis ltac:(lia))
        as (w' & m' & l' & pa & E & Hp' & _ & H1 & _).
      exists w', m', l'. split_and!; [done|apply Hp'|by eapply partition_wsys|]. rewrite (H1 HP).
      destruct Hm as (_ & _ & HF). assert (L := Forall2_length _ _ _ HF). rewrite <- L. clear. induction l as [|x l IH]; [done|].
      cbn [length replicate]. rewrite fmap_cons, painted_cons, decide_True by done. by f_equal.
    - destruct (sorted_exists (concat cells)) as (ids & Hs & Hids).
      destruct (Hmetis (given N cells ids P)) as [Hlen Hcol]; [unfold given; cbn [a_partitions]; lia|]. unfold given in Hlen at 2, Hcol at 1. cbn [a_elements a_partitions] in *.
      exists (metis (given N cells ids P)). split_and!; [done|done|].
      intros i p l adr Hi (Hpick & Hblk & Hp & Hm & Hord).
      destruct (C33_parts (p_pick p) Hpick (p_blk p) Hblk debug metis N (p_world p) (p_mesh p) l P (Z.of_nat i) Hp Hmetis ltac:(lia))
        as (w' & m' & l' & pa & E & Hp' & _ & _ & H1). destruct (H1 HP) as ((args & Ea & ->) & _ & El).
      rewrite (input_given debug p Hpick Hblk N l cells X adr Hp Hm Hord ids P Hs Hids) in Ea. injection Ea as <-.
      exists w', m', l'. split_and!; [done|apply Hp'|by eapply partition_wsys|done].
  Qed.

  (* Every cell of the mesh is in the partition of exactly one process. *)
  Theorem C85_cover_partial : ∃ parts : list (list (list nat)),
    Forall2 (λ (kp : context * process) part, ∃ w' m' l' l adr,
      partition (p_pick kp.2) (p_blk kp.2) debug metis N (p_mesh kp.2) (n_tasks kp.1) (task_id kp.1) (p_world kp.2) = Ok (w', m') ∧
      mesh_cells m' = Ok l' ∧ has_mesh kp.2 l cells X adr ∧ Forall2 (stands_for adr) l'.*2 part)
      (zip (contexts (length job)) job) parts ∧
    concat parts ≡ₚ cells.
  Proof using Hmetis Hjob Hready.
    destruct one_painting as (pa & Hlen & Hcol & Hpa). exists ((λ r, painted pa r cells) <$> seqZ 0 (Z.of_nat (length job))). split.
    - apply Forall2_same_length_lookup. split.
      { rewrite zip_with_length, fmap_length, seqZ_length. unfold contexts. rewrite fmap_length, seq_length. lia. }
      intros i [k p] part Hi Hp. apply lookup_zip_with_Some in Hi as (k' & p' & [= <- <-] & Hk & Hi). pose proof (lookup_lt_Some _ _ _ Hi) as L.
      rewrite contexts_lookup in Hk by done. injection Hk as <-. cbn [fst snd n_tasks task_id].
      rewrite list_lookup_fmap, lookup_seqZ_lt in Hp by lia. cbn in Hp. injection Hp as <-.
      destruct (Hready p ltac:(by eapply elem_of_list_lookup_2)) as (l & adr & Hr).
      destruct (Hpa i p l adr Hi Hr) as (w' & m' & l' & E & El & _ & Hl'). destruct Hr as (_ & _ & _ & Hm & _).
      exists w', m', l', l, adr. split_and!; [done..|]. rewrite Hl'. apply painted_Forall2. rewrite Forall2_fmap_l.
      destruct Hm as (_ & _ & HF). eapply Forall2_impl; [exact HF|]. intros x cell Hx. unfold stands_for. cbn.
      clear -Hx. induction Hx as [|n v ns cell [Hn _] _ IH]; [done|]. by rewrite !fmap_cons, IH, Hn.
    - apply painted_cover; [done|apply NoDup_seqZ|]. eapply Forall_impl; [exact Hcol|]. intros r Hr. apply elem_of_seqZ. cbn in Hr. lia.
  Qed.

  (* the contribution of a cell *)
  Local Definition at_cell (cell : list nat) (d : list (vec * R)) : Prop :=
    ∃ cs s nodes, placed cs nodes (X <$> cell) ∧ contributes c w cs q (s, nodes) d.

  Local Lemma mesh_value cs (l' : list (addr * gcell)) part I : NoDup l'.*2.*1 →
    Forall2 (λ (gc : gcell) cell, placed cs gc.2.*2 (X <$> cell)) l'.*2 part →
    integrate debug c w cs q (map (λ x : addr * gcell, (x.2.1, map snd x.2.2)) l') f = Ok I ↔
    ∃ datas, Forall2 at_cell part datas ∧ I = weighted f (concat datas).
  Proof.
    intros Hnd HF. rewrite integrate_iff.
    2:{ apply NoDup_ListNoDup in Hnd. rewrite map_map. cbn [fst]. rewrite <- list_fmap_compose in Hnd. exact Hnd. }
    split; intros (datas & Hd & ->); exists datas; (split; [|done]).
    - clear Hnd. revert part HF. remember (map _ l') as els eqn:El. revert l' El. induction Hd as [|cl d els datas Hcl _ IH]; intros [|x l'] El part HF; try discriminate El; inversion HF as [|? cell ? part' Hx HF']; subst.
      + constructor.
      + injection El as -> ->. constructor; [|by eapply IH]. exists cs, x.2.1, (map snd x.2.2). split; [exact Hx|exact Hcl].
    - clear Hnd. revert datas Hd. remember (l'.*2) as gcs eqn:El. revert l' El. induction HF as [|gc cell gcs part Hx _ IH]; intros [|x l'] El datas Hd; try discriminate El; inversion Hd as [|? d ? datas' Hc Hd']; subst.
      + constructor.
      + injection El as -> ->. cbn [map]. constructor; [|by apply IH]. destruct Hc as (cs' & s & nodes & Hp & Hc).
        eapply contributes_placed; [exact Hp|exact Hx|exact Hc].
  Qed.

  Local Lemma mesh_placed p l adr : has_mesh p l cells X adr →
    Forall2 (λ (gc : gcell) cell, placed (wsys (p_world p)) gc.2.*2 (X <$> cell)) l.*2 cells.
  Proof.
    intros (_ & _ & HF). rewrite Forall2_fmap_l. eapply Forall2_impl; [exact HF|]. intros x cell Hx. cbn. unfold placed.
    clear -Hx. induction Hx as [|n v ns cell [_ Hn] _ IH]; [constructor|]. rewrite !fmap_cons. by constructor.
  Qed.

  (* The sum of what the processes compute is what one process computes for the whole mesh. *)
  Theorem C85_integral_partial p I : p ∈ job →
    global_result debug metis N c w q f order job = Ok I ↔ integrate_mesh debug c w q f (wsys (p_world p)) (p_mesh p) = Ok I.
  Proof using Hmetis Hjob Hready Horder.
    intros Hp. destruct one_painting as (pa & Hlen & Hcol & Hpa).
    (* the local results *)
    assert (Hlocal : ∀ i p v, job !! i = Some p →
      local_result debug metis N c w q f (Context (Z.of_nat i) (Z.of_nat (length job))) p = Ok v ↔
      ∃ datas, Forall2 at_cell (painted pa (Z.of_nat i) cells) datas ∧ v = weighted f (concat datas)).
    { intros i p' v Hi. destruct (Hready p' ltac:(by eapply elem_of_list_lookup_2)) as (l & adr & Hr).
      destruct (Hpa i p' l adr Hi Hr) as (w' & m' & l' & E & El & Ew & Hl'). destruct Hr as (_ & _ & _ & Hm & _).
      unfold local_result. cbn [n_tasks task_id]. rewrite E. cbn [rbind]. unfold integrate_mesh. rewrite El. cbn [rbind]. rewrite Ew.
      apply mesh_value.
      - rewrite Hl', <- painted_fmap. apply painted_NoDup, Hm.
      - rewrite Hl'. apply painted_Forall2. by eapply mesh_placed. }
    (* the integral on the whole mesh *)
    assert (Hwhole : ∀ I, integrate_mesh debug c w q f (wsys (p_world p)) (p_mesh p) = Ok I ↔ ∃ datas, Forall2 at_cell cells datas ∧ I = weighted f (concat datas)).
    { intros I'. destruct (Hready p Hp) as (l & adr & (_ & _ & _ & Hm & _)). unfold integrate_mesh. rewrite (proj1 Hm). cbn [rbind].
      apply mesh_value; [apply Hm|by eapply mesh_placed]. }
    assert (Hglobal : ∀ I, global_result debug metis N c w q f order job = Ok I ↔
      ∃ vs, Forall2 (λ kp v, local_result debug metis N c w q f kp.1 kp.2 = Ok v) (zip (contexts (length job)) job) vs ∧ I = S_Geometry.total vs).
    { intros I'. unfold global_result. destruct (rfold _ [] _) as [vs0| |] eqn:E; cbn [rbind].
      - apply collected in E as (vs' & HF & ->). cbn. rewrite fold_total, (total_perm _ _ (Horder vs')). split.
        + intros [= <-]. exists vs'. split; [done|]. ring.
        + intros (vs & HF' & ->). assert (vs = vs') as ->; [|f_equal; ring]. clear -HF HF'. revert vs HF'. induction HF; intros vs HF'; inversion HF'; subst; [done|]. f_equal; [congruence|by auto].
      - split; [discriminate|]. intros (vs & HF & _). pose proof (proj2 (collected _ _ [] ([] ++ vs)) (ex_intro _ vs (conj HF eq_refl))) as X'. pose proof (eq_trans (eq_sym E) X') as X''. discriminate X''.
      - split; [discriminate|]. intros (vs & HF & _). pose proof (proj2 (collected _ _ [] ([] ++ vs)) (ex_intro _ vs (conj HF eq_refl))) as X'. pose proof (eq_trans (eq_sym E) X') as X''. discriminate X''. }
    assert (Hsum : ∀ datas, Forall2 at_cell cells datas → global_result debug metis N c w q f order job = Ok (weighted f (concat datas))).
    { intros datas Hd. apply Hglobal. exists ((λ r, weighted f (concat (painted pa r datas))) <$> seqZ 0 (Z.of_nat (length job))). split.
      - apply Forall2_same_length_lookup. split.
        { rewrite zip_with_length, fmap_length, seqZ_length. unfold contexts. rewrite fmap_length, seq_length. lia. }
        intros i [k p'] v Hi Hv. apply lookup_zip_with_Some in Hi as (k' & p'' & [= <- <-] & Hk & Hi). pose proof (lookup_lt_Some _ _ _ Hi) as L.
        rewrite contexts_lookup in Hk by done. injection Hk as <-. rewrite list_lookup_fmap, lookup_seqZ_lt in Hv by lia. cbn in Hv. injection Hv as <-.
        cbn [fst snd]. apply (Hlocal i p' _ Hi). eexists. split; [|done]. by apply painted_Forall2.
      - rewrite weighted_concat. transitivity (S_Geometry.total (map (weighted f) (concat ((λ r, painted pa r datas) <$> seqZ 0 (Z.of_nat (length job)))))).
        + apply total_perm, Permutation_map. symmetry. apply painted_cover; [by rewrite <- (Forall2_length _ _ _ Hd)|apply NoDup_seqZ|].
          eapply Forall_impl; [exact Hcol|]. intros r Hr. apply elem_of_seqZ. cbn in Hr. lia.
        + clear. induction (seqZ 0 (Z.of_nat (length job))) as [|r rs IH]; [done|]. rewrite !fmap_cons. cbn [concat]. rewrite map_app, total_app2, IH.
          rewrite weighted_concat. done. }
    rewrite Hwhole. split.
    - intros HI. pose proof (proj1 (Hglobal I) HI) as (vs & HF & _).
      destruct (forall2_choose at_cell cells) as (datas & Hd).
      { intros cell (e & He)%elem_of_list_lookup. assert (is_Some (pa !! e)) as [r Hr] by (apply lookup_lt_is_Some; rewrite Hlen; by apply lookup_lt_Some in He).
        assert (Hr' := proj1 (Forall_lookup _ _) Hcol e r Hr). cbn in Hr'.
        destruct (lookup_lt_is_Some_2 job (Z.to_nat r)) as [p' Hi]; [lia|].
        destruct (Forall2_lookup_l _ _ _ (Z.to_nat r) (Context (Z.of_nat (Z.to_nat r)) (Z.of_nat (length job)), p') HF) as (v & _ & Hv).
        { apply lookup_zip_with_Some. eexists _, _. split_and!; [done| |done]. apply contexts_lookup. by apply lookup_lt_Some in Hi. }
        cbn [fst snd] in Hv. apply (Hlocal _ _ _ Hi) in Hv as (datas & Hd & _).
        assert (Hc : cell ∈ painted pa (Z.of_nat (Z.to_nat r)) cells).
        { rewrite Z2Nat.id by lia. clear -He Hr. revert e pa He Hr. induction cells as [|a cs IH]; intros [|e] [|b pa] He Hr; try discriminate; cbn in He, Hr; rewrite painted_cons.
          - injection He as ->. injection Hr as ->. rewrite decide_True by done. left.
          - case_decide; [right|]; eauto. }
        apply elem_of_list_lookup in Hc as [j Hj]. destruct (Forall2_lookup_l _ _ _ _ _ Hd Hj) as (d & _ & Hdd). by exists d. }
      exists datas. split; [done|]. rewrite (Hsum datas Hd) in HI. by injection HI as <-.
    - intros (datas & Hd & ->). by apply Hsum.
  Qed.
End C85.
Print Assumptions C85_cover_partial.
Print Assumptions C85_integral_partial.
