(* Proofs about the processes of a job: what METIS is given, and the sum of the local results. *)
From stdpp Require Import base gmap list sorting.
From Coq Require Import Reals Lra FunctionalExtensionality.
From Verif Require Import M_Tensor M_Geometry S_Geometry P_Volume M_Functions P_Functions M_Quadrature S_Quadrature P_Quadrature P_Integrator.
From Verif Require Import Base M_SegAlloc S_SegAlloc P_SegAlloc M_Topology S_Topology P_Topology
  P_TopologyErase P_TopologyValid P_TopologyOrder P_TopologyVertices P_TopologyCanonical
  P_TopologyApi Properties_Topology M_Mesh S_Mesh P_Mesh
  P_MeshBuild Properties_Mesh M_Tetra S_Tetra P_Tetra Properties_Tetra M_Partition S_Partition P_Partition Properties_Partition.
From Verif Require Import M_Parallel S_Parallel.
Local Open Scope nat_scope.

(* ---- the numbering of the vertices ---- *)

Lemma sorted_unique (l k : list nat) : StronglySorted lt l → StronglySorted lt k → (∀ v, v ∈ l ↔ v ∈ k) → l = k.
Proof.
  revert k. induction l as [|a l IH]; intros [|b k] Hl Hk H.
  - done.
  - exfalso. by apply (elem_of_nil b), H; left.
  - exfalso. by apply (elem_of_nil a), H; left.
  - inversion Hl as [|? ? Hl' Fl]; subst. inversion Hk as [|? ? Hk' Fk]; subst. rewrite Forall_forall in Fl, Fk.
    assert (a = b) as ->.
    { destruct (proj1 (elem_of_cons _ _ _) (proj1 (H a) ltac:(left))) as [|Ha]; [done|].
      destruct (proj1 (elem_of_cons _ _ _) (proj2 (H b) ltac:(left))) as [|Hb]; [done|]. specialize (Fl b Hb). specialize (Fk a Ha). lia. }
    f_equal. apply IH; [done..|]. intros v. split; intros Hv.
    + destruct (proj1 (elem_of_cons _ _ _) (proj1 (H v) ltac:(by right))) as [-> |]; [|done]. specialize (Fl b Hv). lia.
    + destruct (proj1 (elem_of_cons _ _ _) (proj2 (H v) ltac:(by right))) as [-> |]; [|done]. specialize (Fk b Hv). lia.
Qed.
Lemma sorted_exists (l : list nat) : ∃ ids, StronglySorted lt ids ∧ ∀ v, v ∈ ids ↔ v ∈ l.
Proof.
  induction l as [|a l (ids & Hs & Hv)]; [exists []; split; [constructor|done]|].
  exists (set_insert a ids). split; [by apply set_insert_sorted|]. intros v. rewrite set_insert_in, elem_of_cons. by rewrite Hv.
Qed.
Lemma sorted_fmap (adr : nat → nat) ids : StronglySorted lt ids → (∀ u v, u ∈ ids → v ∈ ids → u < v → adr u < adr v) → StronglySorted lt (adr <$> ids).
Proof.
  induction 1 as [|a ids Hs IH Ha]; intros Hm; [constructor|]. rewrite fmap_cons. constructor.
  - apply IH. intros. apply Hm; [by right..|done].
  - rewrite Forall_forall in Ha |- *. intros y (v & -> & Hv)%elem_of_list_fmap. apply Hm; [left|by right|by apply Ha].
Qed.
Lemma position_fmap (adr : nat → nat) v ids : (∀ u, u ∈ ids → adr u = adr v → u = v) → position_of (adr v) (adr <$> ids) = position_of v ids.
Proof.
  induction ids as [|a ids IH]; intros Hi; [done|]. rewrite fmap_cons. cbn [position_of].
  rewrite IH by (intros; apply Hi; [by right|done]). destruct (decide (v = a)) as [-> |Hva]; [by rewrite decide_True by done|].
  rewrite decide_False; [done|]. intros E. apply Hva. symmetry. apply Hi; [left|done].
Qed.

(* what METIS is given for the cells [cells] *)
Definition given (N : nat) (cells : list (list nat)) (ids : list nat) (P : Z) : metis_args :=
  Args (length cells) (length ids) (element_index (S N) (S (length cells)) 0)
    (concat ((λ c : list nat, base.omap (M:=list) (λ v : nat, position_of v ids) c) <$> cells)) N P.

Section process.
  Context (debug : bool) (p : process) (Hpick : good_alloc (p_pick p)) (Hblk : ∀ i j, p_blk p i = p_blk p j → i = j).
  Context (N : nat) (l : list (addr * gcell)) (cells : list (list nat)) (X : nat → vec) (adr : nat → nat).
  Context (Hp : partitionable (p_pick p) (p_blk p) debug N (p_world p) (p_mesh p) l).
  Context (Hm : has_mesh p l cells X adr) (Hord : in_order cells adr).

  Lemma adr_inj u v : u ∈ concat cells → v ∈ concat cells → adr u = adr v → u = v.
  Proof using Hord.
    intros Hu Hv E. destruct (decide (u < v)) as [L|]; [specialize (Hord u v Hu Hv L); lia|].
    destruct (decide (v < u)) as [L|]; [specialize (Hord v u Hv Hu L); lia|]. lia.
  Qed.

  Lemma node_vertices x : x ∈ l → ∃ c, c ∈ cells ∧ x.2.2.*1 = adr <$> c.
  Proof using Hm.
    intros (i & Hi)%elem_of_list_lookup. destruct Hm as (_ & _ & HF). destruct (Forall2_lookup_l _ _ _ _ _ HF Hi) as (c & Hc & HFc).
    exists c. split; [by eapply elem_of_list_lookup_2|]. clear -HFc. induction HFc as [|n v ns c [Hn _] _ IH]; [done|]. by rewrite !fmap_cons, IH, Hn.
  Qed.

  Lemma input_given ids P : StronglySorted lt ids → (∀ v, v ∈ ids ↔ v ∈ concat cells) →
    metis_input N (wtop (p_world p)) (p_mesh p) P = Ok (given N cells ids P).
  Proof using Hpick Hblk Hp Hm Hord.
    intros Hs Hids. pose proof Hp as [Href Hv]. pose proof Href as (HN & [Hsw _] & _ & Hl & Hfit).
    destruct (listed_fine (p_pick p) Hpick debug _ Hsw) as [HI HC].
    destruct (vertices_map_ok debug N (p_world p) (p_mesh p) l HN HI HC Hl) as (ids' & Ei & Hnd & Hs' & Hids').
    { intros x Hx. split; [|by apply Hv]. by apply (Properties_Partition.cells_known (p_pick p) Hpick (p_blk p) Hblk debug N _ _ _ x Hp Hx). }
    assert (HF := proj2 (proj2 Hm)).
    assert (Hsub : ∀ c v, c ∈ cells → v ∈ c → v ∈ concat cells) by (intros c v Hc Hvc; apply P_Mesh.elem_of_concat; by exists c).
    assert (ids' = adr <$> ids) as ->.
    { apply sorted_unique; [done|apply sorted_fmap; [done|]|].
      - intros u v Hu%Hids Hvv%Hids. by apply Hord.
      - intros a. rewrite Hids', elem_of_list_fmap. split.
        + intros (x & n & Hx & Hn & <-). destruct (node_vertices x Hx) as (c & Hc & Ec).
          apply (elem_of_list_fmap_1 fst) in Hn. rewrite Ec in Hn. apply elem_of_list_fmap in Hn as (v & -> & Hvc).
          exists v. split; [done|]. apply Hids. by eapply Hsub.
        + intros (v & -> & Hvi%Hids). apply P_Mesh.elem_of_concat in Hvi as (c & Hvc & Hc).
          apply elem_of_list_lookup in Hc as [i Hi]. destruct (Forall2_lookup_r _ _ _ _ _ HF Hi) as (x & Hx & HFx).
          apply elem_of_list_lookup in Hvc as [j Hj]. destruct (Forall2_lookup_r _ _ _ _ _ HFx Hj) as (n & Hn & En & _).
          exists x, n. split_and!; [by eapply elem_of_list_lookup_2..|done]. }
    unfold metis_input. rewrite Ei, Hl. cbn [rbind]. rewrite (connectivity_ok (adr <$> ids) N l).
    2:{ intros x Hx. split; [by apply Hfit|]. apply Forall_forall. intros n Hn. apply Hids'. eauto. }
    cbn [rbind]. unfold given. rewrite fmap_length, (Forall2_length _ _ _ HF). do 2 f_equal.
    assert (Hin : ∀ c, c ∈ cells → ∀ v, v ∈ c → ∀ u, u ∈ ids → adr u = adr v → u = v).
    { intros c Hc v Hvc u Hu E. apply adr_inj; [by apply Hids|by eapply Hsub|done]. }
    clear -HF Hin. induction HF as [|x c l cells HFx _ IH]; [done|]. rewrite !fmap_cons. cbn [concat]. f_equal; [|apply IH; intros c' Hc'; apply Hin; by right].
    assert (Hc := Hin c ltac:(left)). clear -HFx Hc. unfold row. induction HFx as [|n v ns c [En _] _ IH]; [done|]. cbn [base.omap list_omap].
    rewrite En, position_fmap by (apply Hc; left). destruct (position_of v ids); [f_equal|]; apply IH; intros v' Hv'; apply Hc; by right.
  Qed.
End process.

(* ---- the system of coordinates ---- *)

Lemma create_wsys blk debug N cells painting r w w' m' :
  create_partitioned_mesh blk debug N cells painting r w = Ok (w', m') → wsys w' = wsys w.
Proof.
  unfold create_partitioned_mesh. intros H.
  match type of H with rbind ?X _ = _ => destruct X as [[[w1 m1] e1]| |] eqn:E; cbn in H; try discriminate H end. injection H as <- <-.
  revert E. generalize mesh0, 0. revert w. induction cells as [|x cells IH]; intros w m e E; cbn [rfold] in E; [by injection E as <- <- _|].
  destruct (painting !! e) as [c|]; cbn [deref rbind] in E; [|discriminate E]. case_decide.
  - destruct (mesh_insert blk debug N x.2 true (wtop w) m) as [[[st m2] a]| |]; cbn [rbind] in E; try discriminate E. apply IH in E. exact E.
  - cbn [rbind] in E. by apply IH in E.
Qed.
Lemma partition_wsys pick blk debug metis N m P r w w' m' :
  partition pick blk debug metis N m P r w = Ok (w', m') → wsys w' = wsys w.
Proof.
  unfold partition. case_decide.
  - destruct (mesh_cells m) as [l| |]; cbn [rbind]; try discriminate. generalize mesh0. revert w.
    induction l as [|x l IH]; intros w m0 E; cbn [rfold] in E; [by injection E as <- <-|].
    unfold insert_nodes at 1 in E. cbn [fst snd] in E.
    destruct (simplex_of_vertices pick debug N (x.2.2).*1 (wtop w)) as [o st|st|]; cbn [rbind] in E; try discriminate E.
    destruct (mesh_insert blk debug N (o, x.2.2) true st m0) as [[[st2 m2] a]| |]; cbn [rbind] in E; try discriminate E. apply IH in E. exact E.
  - destruct (metis_input N (wtop w) m P) as [args| |]; cbn [rbind]; try discriminate.
    destruct (mesh_cells m) as [l| |]; cbn [rbind]; try discriminate. apply create_wsys.
Qed.

(* ---- the contributions of the cells ---- *)

Lemma directors_placed c cs cs' nodes nodes' xs : placed cs nodes xs → placed cs' nodes' xs → directors c cs nodes = directors c cs' nodes'.
Proof.
  intros H H'. inversion H as [|p x ps xs0 Hx Hr]; subst; inversion H' as [|p' x' ps' xs0' Hx' Hr']; subst; [done|].
  unfold directors, coordinates. rewrite Hx, Hx'. cbn. by rewrite (P_Volume.all_coordinates_ok _ _ _ Hr), (P_Volume.all_coordinates_ok _ _ _ Hr').
Qed.
Lemma contributes_placed c w cs cs' q s s' nodes nodes' xs d : placed cs nodes xs → placed cs' nodes' xs →
  contributes c w cs q (s, nodes) d → contributes c w cs' q (s', nodes') d.
Proof.
  intros H H' (F & HF & Hd). cbn [snd] in *.
  assert (∃ F', parametrization c cs' nodes' = Ok F') as (F' & HF').
  { unfold parametrization in *. rewrite (P_Volume.all_coordinates_ok _ _ _ H) in HF. rewrite (P_Volume.all_coordinates_ok _ _ _ H').
    cbn [rbind] in *. destruct xs; [discriminate HF|]. destruct (divides_by_zero c origin); [discriminate HF|]. by eexists. }
  exists F'. cbn [snd]. split; [done|]. destruct Hd as [?|(v & Hv & ->)]; [by left|]. right. exists v. split.
  - rewrite <- Hv. unfold cell_volume. by rewrite (directors_placed c cs cs' nodes nodes' xs).
  - apply map_ext. intros [pt wt]. cbn [fst snd]. f_equal. apply functional_extensionality. intros i.
    rewrite (eval_parametrization c cs nodes xs F H HF), (eval_parametrization c cs' nodes' xs F' H' HF').
    by rewrite (placed_length _ _ _ H), (placed_length _ _ _ H').
Qed.

(* ---- sums ---- *)

Lemma total_perm l k : l ≡ₚ k → S_Geometry.total l = S_Geometry.total k.
Proof. induction 1; unfold S_Geometry.total in *; cbn [fold_right]; lra. Qed.
Lemma fold_total l : ∀ a, fold_left Rplus l a = (a + S_Geometry.total l)%R.
Proof. induction l as [|x l IH]; intros a; unfold S_Geometry.total in *; cbn; [lra|]. rewrite IH. lra. Qed.
Lemma total_app2 l k : S_Geometry.total (l ++ k) = (S_Geometry.total l + S_Geometry.total k)%R.
Proof. induction l as [|x l IH]; unfold S_Geometry.total in *; cbn; [lra|]. rewrite IH. lra. Qed.
Lemma weighted_concat f (ds : list (list (vec * R))) : weighted f (concat ds) = S_Geometry.total (map (weighted f) ds).
Proof.
  induction ds as [|d ds IH]; [done|]. cbn [concat map]. unfold weighted in *. rewrite map_app, total_app2, IH. done.
Qed.

Lemma painted_Forall2 {A B} (R : A → B → Prop) p r l k : Forall2 R l k → Forall2 R (painted p r l) (painted p r k).
Proof.
  intros H. revert p. induction H as [|a b l k Hab _ IH]; intros [|c p]; rewrite ?painted_nil; try constructor.
  rewrite !painted_cons. case_decide; [constructor|]; auto.
Qed.
Lemma painted_NoDup {A} p r (l : list A) : NoDup l → NoDup (painted p r l).
Proof.
  intros H. revert p. induction H as [|x l Hx _ IH]; intros [|q p]; rewrite ?painted_nil; try constructor.
  rewrite painted_cons. case_decide; [|done]. constructor; [|done]. intros ?%painted_sub. done.
Qed.
