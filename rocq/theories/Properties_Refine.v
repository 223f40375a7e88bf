(* C80-C82: what the refinement of a mesh does to the integrals on the mesh, and to the sizes of its
   cells. *)
From stdpp Require Import base gmap list.
From Coq Require Import Reals Lra FunctionalExtensionality.
From Verif Require Import M_Tensor M_Geometry S_Geometry P_Volume Properties_Geometry M_Functions P_Functions.
From Verif Require Import M_Quadrature S_Quadrature P_Quadrature P_Gauss P_Integrator P_Stokes Properties_Quadrature Properties_Integrator.
From Verif Require Import Base M_SegAlloc S_SegAlloc P_SegAlloc M_Topology S_Topology P_Topology
  P_TopologyErase P_TopologyValid P_TopologyOrder P_TopologyVertices P_TopologyCanonical
  P_TopologyApi Properties_Topology M_Mesh S_Mesh P_Mesh P_MeshBoundary P_MeshBuild Properties_Mesh
  M_Tetra S_Tetra P_TetraGeometry P_TetraTiling P_Tetra Properties_Tetra.
From Verif Require Import S_Stokes S_Refine P_Refine P_Bernstein P_Converge.
Local Notation total := S_Geometry.total.

Local Open Scope nat_scope.

(* ---- corners that have the same coordinates ---- *)

Lemma same_sym D u v : same D u v → same D v u.
Proof. intros H i Hi. by rewrite H. Qed.

Lemma lin_same D xs ys : Forall2 (same D) xs ys → ∀ l, same D (lin xs l) (lin ys l).
Proof.
  induction 1 as [|x y xs ys H _ IH]; intros l i Hi; cbn [lin]; [done|]. by rewrite (H i Hi), (IH _ i Hi).
Qed.

Lemma barycentric_same D N xs ys x : length xs = S N → Forall2 (same D) xs ys →
  same D (barycentric N xs x) (barycentric N ys x).
Proof.
  intros L H. rewrite !barycentric_lin; [by apply lin_same|by rewrite <- (Forall2_length _ _ _ H)|done].
Qed.

Lemma inside_same D xs y z : inside D xs y → same D y z → inside D xs z.
Proof. intros (ws & L & Hw & Ht & Hy) H. exists ws. split_and!; [done..|]. intros i Hi. rewrite <- (H i Hi). by apply Hy. Qed.

Lemma continuous_same D xs f y z : continuous_on D xs f → inside D xs y → same D y z → f y = f z.
Proof.
  intros Hc Hy H. apply (close_eq _ _ 1). intros eps He. destruct (Hc eps He) as (delta & Hd & Hf).
  rewrite Rmult_1_l. apply Hf; [done|by eapply inside_same|]. intros m Hm. rewrite (H m Hm).
  unfold Rminus. rewrite Rplus_opp_r, Rabs_R0. lra.
Qed.

Lemma inside_corners D xs ys y : Forall2 (same D) xs ys → inside D xs y → inside D ys y.
Proof.
  intros H (l & Hl & Hy)%inside_weights. apply inside_weights. exists l. rewrite <- (Forall2_length _ _ _ H).
  split; [done|]. intros m Hm. rewrite (Hy m Hm). by apply (lin_same D xs ys).
Qed.

Lemma corners_sym D xs ys : Forall2 (same D) xs ys → Forall2 (same D) ys xs.
Proof. induction 1; constructor; [by apply same_sym|done]. Qed.

Lemma cell_integral_same D N xs ys f v : length ys = S N → N = D → 1 <= D <= 3 → Forall2 (same D) xs ys →
  continuous_on D ys f → cell_integral N ys f v → cell_integral N xs f v.
Proof.
  intros L -> HD H Hc (u & Hu & ->).
  assert (Lx : length xs = S D) by (by rewrite (Forall2_length _ _ _ H)).
  assert (Hcx : continuous_on D xs f) by (eapply continuous_sub; [|exact Hc]; intros; by eapply inside_corners).
  destruct (continuous_integral D D xs f Lx Hcx) as (u' & Hu').
  exists u'. split; [done|]. rewrite (simplex_volume_same D xs ys) by done.
  replace u' with u; [done|].
  assert (Hb : (Rabs (u - u') <= 0 * (1 ^ D / INR (fact D)))%R).
  { eapply (is_integral_bound D 1 _ _ u u' 0 Rle_0_1 Hu Hu'). intros x Hx.
    rewrite (continuous_same D ys f (barycentric D ys x) (barycentric D xs x)); [|done| |].
    - unfold Rminus. rewrite Rplus_opp_r, Rabs_R0. lra.
    - by apply barycentric_inside.
    - apply barycentric_same; [done|by apply corners_sym]. }
  rewrite Rmult_0_l in Hb. pose proof (Rabs_pos (u - u')). destruct (Req_dec u u') as [?|Hne]; [done|].
  assert (0 < Rabs (u - u'))%R by (apply Rabs_pos_lt; lra). lra.
Qed.

(* what the table gives on a cell *)
Definition on_cell (D : nat) (q : rule) (f : vec → R) (xs : list vec) : R :=
  (simplex_volume xs * total (map (λ pw, snd pw * f (barycentric D xs (fst pw))) q))%R.

Lemma on_cell_same D q f xs ys : length ys = S D → 1 <= D <= 3 → proper_rule D q → Forall2 (same D) xs ys →
  continuous_on D ys f → on_cell D q f xs = on_cell D q f ys.
Proof.
  intros L HD Hq H Hc. assert (Lx : length xs = S D) by (by rewrite (Forall2_length _ _ _ H)).
  unfold on_cell. rewrite (simplex_volume_same D xs ys) by done. f_equal. f_equal. apply map_ext_in. intros pw Hpw.
  f_equal. symmetry. apply (continuous_same D ys); [done| |].
  - apply barycentric_inside; [done|]. by apply Hq.
  - apply barycentric_same; [done|by apply corners_sym].
Qed.

Lemma table_proper D r q : quadrature_table D r = Some q → proper_rule D q.
Proof.
  intros H pw Hpw. destruct (table_interior D r q pw H Hpw) as [H0 H1]. split; [|split; [intros; apply Rlt_le; by apply H0|lra]].
  clear H0 H1. destruct pw as [x w]. cbn [snd].
  destruct D as [|[|[|[|D]]]]; destruct r as [|[|[|[|[|r]]]]]; try discriminate H; injection H as <-; cbn in Hpw;
    repeat match type of Hpw with
    | _ ∨ _ => destruct Hpw as [Hpw|Hpw]
    | False => destruct Hpw
    | (_, _) = (_, _) => injection Hpw as _ <-
    end; lra.
Qed.

Section refine.
  Context (pick : M_Topology.alloc) (Hpick : good_alloc pick) (blk : nat → nat)
    (Hblk : ∀ i j, blk i = blk j → i = j) (debug : bool).

  (* the refined mesh and the corners of its cells *)
  Local Lemma refined_corners D n w m l corners :
    refinable pick blk debug D w m l → 0 < n → described D (wsys w) (elements l) corners →
    ∃ w' m' l' corners', tetra pick blk debug (Cartesian D) D n m w = Ok (w', m') ∧ mesh_cells m' = Ok l' ∧
      described D (wsys w') (elements l') corners' ∧
      Forall2 (Forall2 (same D)) corners' (concat (map (refine D n) corners)).
  Proof using Hpick Hblk.
    intros Href Hn [_ HF].
    destruct (C30_distinct pick Hpick blk Hblk debug (Cartesian D) D n w m l Href Hn) as (w0 & m0 & l0 & E0 & El0 & _ & Hnd).
    destruct (Properties_Tetra.refined pick Hpick blk Hblk debug (Cartesian D) D n w m l Href)
      as (K & w' & m' & es' & l' & gcss & -> & E & HP & Hx & El & Ec & HB & _).
    rewrite E in E0. injection E0 as <- <-. rewrite El in El0. injection El0 as <-.
    exists w', m', l'.
    assert (∃ corners', Forall2 (λ (gc : gcell) xs, placed (wsys w') gc.2.*2 xs ∧ length xs = S (S K)) (concat gcss) corners' ∧
      Forall2 (Forall2 (same (S K))) corners' (concat (map (refine (S K) n) corners))) as (corners' & H1 & H2).
    { unfold elements in HF. clear -HF HB.
      revert corners HF. induction HB as [|x gcs l gcss HB _ IH]; intros corners HF; cbn [map] in HF.
      - inversion HF; subst. exists []. split; constructor.
      - inversion HF as [|? ps ? corners0 [Hpl L] HF0]; subst. cbn [snd] in Hpl.
        destruct (IH corners0 HF0) as (cs' & I1 & I2). cbn [concat map].
        assert (Hps : poss (Cartesian (S K)) w x.2.2 ps).
        { clear -Hpl. unfold poss, placed in *. revert ps Hpl. induction (x.2.2) as [|nd ns IH]; intros ps Hpl; cbn in Hpl;
            inversion Hpl; subst; constructor; [|by apply IH]. eexists. split; [done|]. split; [done|]. intros i Hi. done. }
        pose proof (b_positions _ _ _ _ _ _ _ HB vzero ps Hps ltac:(apply List.Forall_forall; intros; exact I)) as HQ.
        assert (∃ c0, Forall2 (λ (gc : gcell) xs, placed (wsys w') gc.2.*2 xs ∧ length xs = S (S K)) gcs c0 ∧
          Forall2 (Forall2 (same (S K))) c0 (refine (S K) n ps)) as (c0 & J1 & J2).
        { assert (Hlen : ∀ gc, gc ∈ gcs → length gc.2 = S (S K)) by (intros; by apply HB).
          clear -HQ Hlen. induction HQ as [|gc qs gcs qss Hq _ IH]; [exists []; split; constructor|].
          destruct IH as (c0 & J1 & J2); [intros; apply Hlen; by right|].
          assert (∃ xs, placed (wsys w') gc.2.*2 xs ∧ Forall2 (same (S K)) xs qs) as (xs & P1 & P2).
          { clear -Hq. unfold placed. induction Hq as [|nd p ns ps (x & X1 & _ & X2) _ (xs & P1 & P2)]; [exists []; split; constructor|].
            exists (x :: xs). split; cbn; constructor; done. }
          exists (xs :: c0). split; constructor; try done. split; [done|].
          rewrite <- (Forall2_length _ _ _ P1), fmap_length. apply Hlen. left. }
        exists (c0 ++ cs'). split; by apply Forall2_app. }
    exists corners'. split_and!; [done|done| |done]. split.
    - unfold elements. rewrite map_map. cbn [fst]. apply NoDup_ListNoDup. exact Hnd.
    - rewrite <- Ec in H1. clear -H1. unfold elements. revert corners' H1.
      induction l' as [|x l' IH]; intros corners' H1; cbn in H1 |- *; inversion H1; subst; constructor; [done|by apply IH].
  Qed.

  Local Lemma refined_sum (g : list vec → R) D n corners corners' :
    Forall2 (Forall2 (same D)) corners' (concat (map (refine D n) corners)) →
    (∀ xs qs, qs ∈ concat (map (refine D n) corners) → Forall2 (same D) xs qs → g xs = g qs) →
    total (map g corners') = total (map (λ ps, total (map g (refine D n ps))) corners).
  Proof.
    intros H Hg. transitivity (total (map g (concat (map (refine D n) corners)))).
    - f_equal. induction H as [|xs qs l l' Hs _ IH]; [done|]. cbn [map]. f_equal; [apply Hg; [left|done]|].
      apply IH. intros. apply Hg; [by right|done].
    - by rewrite concat_map, total_concat, !map_map.
  Qed.

  Lemma total_cons x xs : total (x :: xs) = (x + total xs)%R.
  Proof. done. Qed.

  (* ---- C80 ---- *)

  (* Refinement does not change integrals: the integrals of a continuous function on the cells exist,
     and their sum on the refined mesh is their sum on the mesh. *)
  Theorem C80_integrals D n w m l corners f :
    refinable pick blk debug D w m l → 0 < n → described D (wsys w) (elements l) corners →
    (∀ xs, xs ∈ corners → continuous_on D xs f) →
    ∃ w' m' l' corners' vs vs', tetra pick blk debug (Cartesian D) D n m w = Ok (w', m') ∧ mesh_cells m' = Ok l' ∧
      described D (wsys w') (elements l') corners' ∧
      Forall2 (λ xs v, cell_integral D xs f v) corners vs ∧
      Forall2 (λ xs v, cell_integral D xs f v) corners' vs' ∧
      total vs' = total vs.
  Proof using Hpick Hblk.
    intros Href Hn Hd Hc. destruct (refined_corners D n w m l corners Href Hn Hd) as (w' & m' & l' & corners' & E & El & Hd' & Hs).
    exists w', m', l', corners'.
    assert (HD : 1 <= D <= 3) by apply Href.
    assert (HL : ∀ xs, xs ∈ corners → length xs = S D).
    { intros xs (i & Hi)%elem_of_list_lookup. destruct Hd as [_ Hd].
      by destruct (Forall2_lookup_r _ _ _ _ _ Hd Hi) as (y & _ & _ & ?). }
    assert (∃ vs us, Forall2 (λ xs v, cell_integral D xs f v) corners vs ∧
      Forall2 (λ xs v, cell_integral D xs f v) (concat (map (refine D n) corners)) us ∧ total us = total vs) as (vs & us & H1 & H2 & H3).
    { clear -Hc HL HD. induction corners as [|xs corners IH]; [exists [], []; split_and!; constructor|].
      destruct IH as (vs & us & H1 & H2 & H3); [intros; apply Hc; by right|intros; apply HL; by right|].
      destruct (cell_integral_exists D D xs f) as (v & Hv); [apply HL; left|apply Hc; left|].
      destruct (refine_cell_integral D D n xs f v HD) as (us0 & J1 & J2); [apply HL; left|apply Hc; left|done|].
      exists (v :: vs), (us0 ++ us). split_and!; [by constructor|cbn; by apply Forall2_app|].
      by rewrite total_app, total_cons, J2, H3. }
    exists vs, us. split_and!; try done.
    assert (Hin : ∀ qs, qs ∈ concat (map (refine D n) corners) → length qs = S D ∧ continuous_on D qs f).
    { intros qs Hq. apply P_Mesh.elem_of_concat in Hq as (qss & Hq & (ps & <- & Hps)%elem_In%in_map_iff). apply elem_In in Hq. apply elem_In in Hps.
      split; [eapply refine_in_length|eapply refine_continuous]; try done; first [by apply HL|by apply Hc]. }
    clear -Hs H2 Hin HD. revert corners' Hs. induction H2 as [|qs v l us Hv _ IH]; intros corners' Hs.
    - inversion Hs. constructor.
    - inversion Hs as [|xs ? corners0 ? Hsx Hs0]; subst. constructor; [|apply IH; [intros; apply Hin; by right|done]].
      destruct (Hin qs ltac:(left)) as [Lq Hcq]. by apply (cell_integral_same D D xs qs).
  Qed.

  (* What the integrator computes for a polynomial of the degree of its rule is the same number on the
     mesh and on the refined mesh. *)
  Theorem C80_polynomials D r q n w m l corners p :
    quadrature_table D r = Some q → (D, r) ∈ [(1, 1); (2, 1); (2, 2); (3, 1)] → of_degree D r p →
    refinable pick blk debug D w m l → 0 < n → described D (wsys w) (elements l) corners →
    ∃ w' m' l' v, tetra pick blk debug (Cartesian D) D n m w = Ok (w', m') ∧ mesh_cells m' = Ok l' ∧
      integrate debug (Cartesian D) (volume_form (Cartesian D)) (wsys w) q (elements l) (poly p) = Ok v ∧
      integrate debug (Cartesian D) (volume_form (Cartesian D)) (wsys w') q (elements l') (poly p) = Ok v.
  Proof using Hpick Hblk.
    intros Hq Hr Hp Href Hn Hd. destruct (refined_corners D n w m l corners Href Hn Hd) as (w' & m' & l' & corners' & E & El & Hd' & Hs).
    assert (HD : 1 <= D <= 3) by apply Href.
    assert (HL : ∀ xs, xs ∈ corners → length xs = S D).
    { intros xs (i & Hi)%elem_of_list_lookup. destruct Hd as [_ Hdd].
      by destruct (Forall2_lookup_r _ _ _ _ _ Hdd Hi) as (y & _ & _ & ?). }
    assert (HA : accurate D r q 0).
    { pose proof (table_accurate D r q Hq) as A. apply elem_In in Hr.
      destruct Hr as [X|[X|[X|[X|[]]]]]; injection X as <- <-; exact A. }
    exists w', m', l', (total (map (on_cell D q (poly p)) corners)). split_and!; [done..| |].
    { exact (cartesian_value debug D (wsys w) q (elements l) corners (poly p) HD Hd). }
    rewrite (cartesian_value debug D (wsys w') q (elements l') corners' (poly p) HD Hd'). f_equal.
    change (total (map (on_cell D q (poly p)) corners') = total (map (on_cell D q (poly p)) corners)).
    assert (Hpoly : ∀ x y, same D x y → poly p x = poly p y).
    { intros x y Hxy. unfold poly. f_equal. apply map_ext_in. intros t Ht. f_equal. apply monomial_ext. intros i Hi.
      apply Hxy. unfold of_degree in Hp. rewrite List.Forall_forall in Hp. by destruct (Hp t Ht) as [<- _]. }
    rewrite (refined_sum _ D n corners corners' Hs).
    - f_equal. apply map_ext_in. intros ps Hps. apply elem_In, HL in Hps.
      assert (Hval : ∀ xs, length xs = S D → on_cell D q (poly p) xs = (simplex_volume xs / area D * Fl p xs)%R).
      { intros xs Lx. eapply (cell_integral_unique D xs (poly p)); [exact (cell_exact D r q xs p HA Hp)|].
        exists (Fl p xs). split; [by eapply Fl_integral|done]. }
      rewrite (map_ext_in _ (λ qs, simplex_volume ps / 2 ^ (D * n) / area D * Fl p qs)%R).
      2:{ intros qs Hqs. rewrite Hval by (by eapply refine_in_length). by rewrite (refine_volume D n HD ps qs Hps Hqs). }
      rewrite total_map_scal, (refine_Fl D r p D n Hp HD ps Hps), (Hval ps Hps).
      assert (2 ^ (D * n) ≠ 0)%R by (apply pow_nonzero; lra).
      assert (area D ≠ 0)%R by (unfold area; destruct D as [|[|[|[|]]]]; try lia; cbn; lra). by field.
    - intros xs qs Hqs Hx.
      apply P_Mesh.elem_of_concat in Hqs as (qss & Hqs & (ps & <- & Hps)%elem_In%in_map_iff). apply elem_In in Hqs. apply elem_In, HL in Hps.
      pose proof (refine_in_length D n ps qs HD Hps Hqs) as Lq.
      assert (Lx : length xs = S D) by (by rewrite (Forall2_length _ _ _ Hx)).
      unfold on_cell. rewrite (simplex_volume_same D xs qs) by done. f_equal. f_equal. apply map_ext. intros pw. f_equal.
      by apply Hpoly, barycentric_same.
  Qed.

  (* ---- C81 ---- *)

  Local Lemma refined_positions (c : chart) N n w m l :
    refinable pick blk debug N w m l →
    ∃ w' m' l' gcss, tetra pick blk debug c N n m w = Ok (w', m') ∧ mesh_cells m' = Ok l' ∧ l'.*2 = concat gcss ∧
      Forall2 (λ (x : addr * gcell) gcs, ∀ ps, poss c w x.2.2 ps → clear_of_axis c ps →
        length ps = S N ∧ Forall2 (λ (gc : gcell) qs, poss c w' gc.2 qs) gcs (refine N n ps)) l gcss.
  Proof using Hpick Hblk.
    intros Href. destruct (Properties_Tetra.refined pick Hpick blk Hblk debug c N n w m l Href)
      as (K & w' & m' & es' & l' & gcss & -> & E & HP & Hx & El & Ec & HB & _).
    exists w', m', l', gcss. split_and!; [done..|]. destruct Href as (_ & _ & _ & _ & Hfit).
    apply Forall2_same_length_lookup. split; [by eapply Forall2_length|]. intros i x gcs Hi Hg ps Hps (d & Hd).
    split; [|by eapply (b_positions _ _ _ _ _ _ _ (Forall2_lookup_lr _ _ _ _ _ _ HB Hi Hg))].
    unfold poss in Hps. rewrite <- (Forall2_length _ _ _ Hps). apply Hfit. by eapply elem_of_list_lookup_2.
  Qed.

  (* Segments and triangles keep their shape: every cell made from a cell is similar to it, and 2^n
     times smaller. *)
  Theorem C81_similar (c : chart) N n w m l :
    N <= 2 → refinable pick blk debug N w m l →
    ∃ w' m' l' gcss, tetra pick blk debug c N n m w = Ok (w', m') ∧ mesh_cells m' = Ok l' ∧ l'.*2 = concat gcss ∧
      Forall2 (λ (x : addr * gcell) gcs, ∀ ps, poss c w x.2.2 ps → clear_of_axis c ps →
        ∃ qss, Forall2 (λ (gc : gcell) qs, poss c w' gc.2 qs) gcs qss ∧
          ∀ qs, qs ∈ qss → similar (2 ^ n) qs ps) l gcss.
  Proof using Hpick Hblk.
    intros HN Href. destruct (refined_positions c N n w m l Href) as (w' & m' & l' & gcss & E & El & Ec & HB).
    exists w', m', l', gcss. split_and!; [done..|]. eapply Forall2_impl; [exact HB|]. cbn. intros x gcs H ps Hps Hcl.
    destruct (H ps Hps Hcl) as [L HF]. exists (refine N n ps). split; [done|]. intros qs Hq%elem_In.
    assert (1 <= N) by apply Href. by apply (refine_similar N n).
  Qed.

  (* Cells of any order, tetrahedra too, become small: the components of the edges of the cells made
     from a cell tend to zero, their squares are at most 2^-n times the sum of the squares of those of
     the cell. *)
  Theorem C81_small (c : chart) N n w m l :
    refinable pick blk debug N w m l →
    ∃ w' m' l' gcss, tetra pick blk debug c N n m w = Ok (w', m') ∧ mesh_cells m' = Ok l' ∧ l'.*2 = concat gcss ∧
      Forall2 (λ (x : addr * gcell) gcs, ∀ ps, poss c w x.2.2 ps → clear_of_axis c ps →
        ∃ qss, Forall2 (λ (gc : gcell) qs, poss c w' gc.2 qs) gcs qss ∧
          ∀ qs y z k, qs ∈ qss → y ∈ qs → z ∈ qs → (2 ^ n * sq (y k - z k) <= spread k ps)%R) l gcss.
  Proof using Hpick Hblk.
    intros Href. destruct (refined_positions c N n w m l Href) as (w' & m' & l' & gcss & E & El & Ec & HB).
    exists w', m', l', gcss. split_and!; [done..|]. eapply Forall2_impl; [exact HB|]. cbn. intros x gcs H ps Hps Hcl.
    destruct (H ps Hps Hcl) as [L HF]. exists (refine N n ps). split; [done|]. intros qs y z k Hq%elem_In Hy%elem_In Hz%elem_In.
    eapply refine_edge; try done. apply Href.
  Qed.

  (* But tetrahedra do not keep their shape, in any mesh: as a mesh is refined it has cells whose volume
     is arbitrarily small for the length of an edge. *)
  Theorem C81_shapes_refuted (c : chart) w m l x ps :
    dim c = 3 → refinable pick blk debug 3 w m l → x ∈ l → poss c w x.2.2 ps → clear_of_axis c ps → simplex_volume ps ≠ 0%R →
    ∀ C, ∃ n w' m' l' y qs k, tetra pick blk debug c 3 n m w = Ok (w', m') ∧ mesh_cells m' = Ok l' ∧
      y ∈ l' ∧ poss c w' y.2.2 qs ∧ k < 3 ∧
      (0 < Rabs (simplex_volume qs))%R ∧
      (C * Rabs (simplex_volume qs) < Rabs (nth 1 qs vzero k - nth 0 qs vzero k) ^ 3)%R.
  Proof using Hpick Hblk.
    intros Hc Href Hx Hps Hcl HV C.
    assert (L : length ps = 4).
    { unfold poss in Hps. rewrite <- (Forall2_length _ _ _ Hps). by apply Href. }
    destruct ps as [|p0 [|p1 [|p2 [|p3 [|]]]]]; try discriminate L.
    assert (∃ k, k < 3 ∧ p2 k ≠ p3 k) as (k & Hk & Hne).
    { destruct (Req_dec (p2 0) (p3 0)) as [E0|?]; [|by exists 0; split; [lia|]].
      destruct (Req_dec (p2 1) (p3 1)) as [E1'|?]; [|by exists 1; split; [lia|]].
      destruct (Req_dec (p2 2) (p3 2)) as [E2|?]; [|by exists 2; split; [lia|]].
      exfalso. apply HV. unfold simplex_volume, det_vecs. cbn. unfold vsub. rewrite E0, E1', E2. field. }
    set (V := Rabs (simplex_volume [p0; p1; p2; p3])). assert (HVp : (0 < V)%R) by (by apply Rabs_pos_lt).
    destruct (tetrahedron_stretched p0 p1 p2 p3 k (Rabs C * V + 1) Hne) as (n & Hn & q0 & q1 & q2 & q3 & Hin & Hlen).
    destruct (refined_positions c 3 n w m l Href) as (w' & m' & l' & gcss & E & El & Ec & HB).
    apply elem_of_list_lookup in Hx as (i & Hi). destruct (Forall2_lookup_l _ _ _ _ _ HB Hi) as (gcs & Hg & H).
    destruct (H _ Hps Hcl) as [_ HF]. apply elem_In, elem_of_list_lookup in Hin as (j & Hj).
    destruct (Forall2_lookup_r _ _ _ _ _ HF Hj) as (gc & Hgc & Hq).
    assert (gc ∈ l'.*2) as (y & -> & Hy)%elem_of_list_fmap.
    { rewrite Ec. apply P_Mesh.elem_of_concat. exists gcs. split; by eapply elem_of_list_lookup_2. }
    exists n, w', m', l', y, [q0; q1; q2; q3], k. split_and!; [done..| |].
    - rewrite (refine_volume 3 n ltac:(lia) [p0; p1; p2; p3]) by (try done; by eapply elem_In, elem_of_list_lookup_2).
      apply Rabs_pos_lt. unfold Rdiv. apply Rmult_integral_contrapositive_currified; [done|].
      apply Rinv_neq_0_compat, pow_nonzero. lra.
    - rewrite (refine_volume 3 n ltac:(lia) [p0; p1; p2; p3]) by (try done; by eapply elem_In, elem_of_list_lookup_2).
      cbn [nth]. set (e := Rabs (q1 k - q0 k)) in *. assert (HP : (0 < 2 ^ n)%R) by (apply pow_lt; lra).
      unfold Rdiv. rewrite Rabs_mult. fold V. rewrite (Rabs_pos_eq (/ 2 ^ (3 * n))) by (left; apply Rinv_0_lt_compat, pow_lt; lra).
      replace (2 ^ (3 * n))%R with ((2 ^ n) ^ 3)%R by (rewrite <- pow_mult; f_equal; lia).
      set (P := (2 ^ n)%R) in *. set (A := (Rabs C * V + 1)%R) in *.
      assert (HA : (1 <= A)%R).
      { unfold A. assert (0 <= Rabs C * V)%R by (apply Rmult_le_pos; [apply Rabs_pos|lra]). lra. }
      assert (HCA : (C * V < A)%R).
      { unfold A. pose proof (Rle_abs C). assert (C * V <= Rabs C * V)%R by (apply Rmult_le_compat_r; lra). lra. }
      assert (H3 : (A < (P * e) ^ 3)%R).
      { apply Rle_lt_trans with (A ^ 3)%R.
        - assert (1 * 1 <= A * A)%R by (apply Rmult_le_compat; lra).
          replace (A ^ 3)%R with (A * (A * A))%R by ring.
          apply Rle_trans with (A * (1 * 1))%R; [lra|]. apply Rmult_le_compat_l; lra.
        - assert (Hpos : (0 <= A)%R) by lra. cbn [pow]. rewrite !Rmult_1_r.
          apply Rmult_le_0_lt_compat; [lra|nra|done|]. apply Rmult_le_0_lt_compat; lra. }
      rewrite Rpow_mult_distr in H3.
      assert (HP3 : (0 < P ^ 3)%R) by (by apply pow_lt).
      apply (Rmult_lt_reg_l (P ^ 3)); [done|].
      replace (P ^ 3 * (C * (V * / P ^ 3)))%R with (C * V)%R by (field; lra). lra.
  Qed.

  (* ---- C82 ---- *)

  (* For every continuous function, every rule and every mesh: the values that the integrator computes
     on the refined meshes tend to the integral (times the sum of the weights of the rule). *)
  Theorem C82_converges D r q w m l corners f :
    quadrature_table D r = Some q → refinable pick blk debug D w m l →
    described D (wsys w) (elements l) corners → (∀ xs, xs ∈ corners → continuous_on D xs f) →
    ∃ vs, Forall2 (λ xs v, cell_integral D xs f v) corners vs ∧
      ∀ eps, (0 < eps)%R → ∃ n0, ∀ n, n0 < n →
        ∃ w' m' l' u, tetra pick blk debug (Cartesian D) D n m w = Ok (w', m') ∧ mesh_cells m' = Ok l' ∧
          integrate debug (Cartesian D) (volume_form (Cartesian D)) (wsys w') q (elements l') f = Ok u ∧
          (Rabs (u - weight q * total vs) <= eps)%R.
  Proof using Hpick Hblk.
    intros Hq Href Hd Hc. assert (HD : 1 <= D <= 3) by apply Href.
    pose proof (table_proper D r q Hq) as Hpr.
    assert (HL : ∀ xs, xs ∈ corners → length xs = S D).
    { intros xs (i & Hi)%elem_of_list_lookup. destruct Hd as [_ Hdd].
      by destruct (Forall2_lookup_r _ _ _ _ _ Hdd Hi) as (y & _ & _ & ?). }
    assert (∃ vs, Forall2 (λ xs v, cell_integral D xs f v) corners vs ∧ ∀ eps, (0 < eps)%R → ∃ n0, ∀ n, n0 <= n →
      (Rabs (total (map (λ ps, total (map (on_cell D q f) (refine D n ps))) corners) - weight q * total vs) <= eps)%R) as (vs & H1 & H2).
    { clear -Hc HL HD Hpr. induction corners as [|xs corners IH].
      - exists []. split; [constructor|]. intros eps He. exists 0. intros n _. cbn. rewrite Rmult_0_r, Rminus_0_r, Rabs_R0. lra.
      - destruct IH as (vs & H1 & H2); [intros; apply Hc; by right|intros; apply HL; by right|].
        destruct (cell_integral_exists D D xs f) as (v & Hv); [apply HL; left|apply Hc; left|].
        exists (v :: vs). split; [by constructor|]. intros eps He.
        destruct (H2 (eps / 2)%R ltac:(lra)) as (n1 & Hn1).
        destruct (refine_cell_converges D D xs f q v (eps / 2) HD) as (n2 & Hn2); [apply HL; left|apply Hc; left|done|done|lra|].
        exists (Nat.max n1 n2). intros n Hn. specialize (Hn1 n ltac:(lia)). specialize (Hn2 n ltac:(lia)).
        cbn [map]. rewrite !total_cons.
        change (Rabs (total (map (on_cell D q f) (refine D n xs)) - weight q * v) <= eps / 2)%R in Hn2.
        match goal with |- (Rabs (?a + ?b - ?k * (?c + ?d)) <= _)%R =>
          replace (a + b - k * (c + d))%R with ((a - k * c) + (b - k * d))%R by ring end.
        eapply Rle_trans; [apply Rabs_triang|]. lra. }
    exists vs. split; [done|]. intros eps He. destruct (H2 eps He) as (n0 & Hn0). exists n0. intros n Hn.
    destruct (refined_corners D n w m l corners Href ltac:(lia) Hd) as (w' & m' & l' & corners' & E & El & Hd' & Hs).
    exists w', m', l', (total (map (on_cell D q f) corners')). split_and!; [done|done| |].
    { exact (cartesian_value debug D (wsys w') q (elements l') corners' f HD Hd'). }
    rewrite (refined_sum _ D n corners corners' Hs); [apply Hn0; lia|].
    intros xs qs Hqs Hx.
    apply P_Mesh.elem_of_concat in Hqs as (qss & Hqs & (ps & <- & Hps)%elem_In%in_map_iff). apply elem_In in Hqs. apply elem_In in Hps.
    apply on_cell_same; [|done..|]; [eapply refine_in_length|eapply refine_continuous]; try done; first [by apply HL|by apply Hc].
  Qed.

End refine.

(* The weights sum to one: exactly, except in two of the rules for triangles. *)
Theorem C82_weights D r q : quadrature_table D r = Some q →
  ((D, r) ∉ [(2, 3); (2, 4)] → weight q = 1%R) ∧
  ((D, r) ∈ [(2, 3); (2, 4)] → weight q ≠ 1%R ∧ (Rabs (weight q - 1) <= 1 / 10 ^ 23)%R).
Proof.
  intros H. unfold weight.
  destruct D as [|[|[|[|D]]]]; destruct r as [|[|[|[|[|r]]]]]; try discriminate H; injection H as <-;
    (split; [intros Hn|intros Hi]); try (exfalso; apply Hn; set_solver); try (exfalso; set_solver);
    unfold S_Geometry.total; cbn; try lra; (split; [lra|apply Rabs_le; lra]).
Qed.

Print Assumptions C80_integrals.
Print Assumptions C80_polynomials.
Print Assumptions C81_similar.
Print Assumptions C81_small.
Print Assumptions C81_shapes_refuted.
Print Assumptions C82_converges.
Print Assumptions C82_weights.
