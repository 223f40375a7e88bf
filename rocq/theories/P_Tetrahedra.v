(* C64: four triangles that close are the faces of a tetrahedron. *)
From stdpp Require Import base gmap list.
From Verif Require Import Base M_Perm S_Perm P_Perm M_Topology S_Topology P_Topology P_TopologyErase
  P_TopologyValid P_TopologyOrder P_TopologyVertices P_TopologyCanonical P_TopologyApi P_TopologyApi2
  Properties_Topology Properties_TopologyCases.

Local Ltac splits := cbv zeta; repeat match goal with |- _ ∧ _ => split end.

Lemma corners_rot st t a b c : corners st t a b c → corners st t b c a.
Proof.
  intros (Hn & f & s & d & x & y & z & Ho & Hf & Hd & H1 & H2 & H3). split.
  - by rewrite (Permutation_app_comm [b; c] [a] : [b; c; a] ≡ₚ [a; b; c]).
  - exists f, s, d, y, z, x. splits; try done. rewrite Hd. apply (Permutation_app_comm [x] [y; z]).
Qed.
Lemma corners_swap st t a b c : corners st t a b c → corners st t b a c.
Proof.
  intros (Hn & f & s & d & x & y & z & Ho & Hf & Hd & H1 & H2 & H3). split.
  - by rewrite perm_swap.
  - exists f, s, d, x, z, y. splits; try done; [|by apply ends_sym..]. rewrite Hd. apply perm_skip, perm_swap.
Qed.

(* the two ends of a segment are determined *)
Lemma ends_det st e a b u v : ends st e a b → ends st e u v → (u = a ∧ v = b) ∨ (u = b ∧ v = a).
Proof.
  intros (f & s & p & q & sp & sq & Ho & Hp & Hq & Hf) (f' & s' & p' & q' & sp' & sq' & Ho' & Hp' & Hq' & Hf').
  rewrite Ho in Ho'. injection Ho' as <- <-.
  destruct Hf as [Hf|Hf], Hf' as [Hf'|Hf']; rewrite Hf in Hf'; injection Hf' as <- <-;
    rewrite Hp in *; rewrite Hq in *; repeat match goal with H : Some _ = Some _ |- _ => injection H as <- <- end; auto.
Qed.

Section faces.
  Context (al : alloc) (Hal : good_alloc al) (debug : bool) (st : topo) (Hr : reach al debug st).
  Local Lemma HI : Inv st.
  Proof. by eapply reach_Inv. Qed.

  Definition on (t v : nat) : Prop := ∃ f s d x u, ors st !! (2, t) = Some (f, s) ∧ fps st !! (2, f) = Some d ∧ x ∈ d ∧ ends st x v u.

  Lemma corners_on t a b c v : corners st t a b c → on t v ↔ v = a ∨ v = b ∨ v = c.
  Proof.
    intros (Hn & f & s & d & x & y & z & Ho & Hf & Hd & H1 & H2 & H3). split.
    - intros (f' & s' & d' & e & u & Ho' & Hf' & He & Hu). rewrite Ho in Ho'. injection Ho' as <- <-.
      rewrite Hf in Hf'. injection Hf' as <-. rewrite Hd in He. rewrite !elem_of_cons, elem_of_nil in He.
      destruct He as [-> | [-> | [-> | []]]]; [destruct (ends_det st _ _ _ _ _ H1 Hu)|destruct (ends_det st _ _ _ _ _ H2 Hu)|destruct (ends_det st _ _ _ _ _ H3 Hu)]; naive_solver.
    - intros [-> | [-> | ->]].
      + exists f, s, d, x, b. splits; try done. rewrite Hd. left.
      + exists f, s, d, y, c. splits; try done. rewrite Hd. right. left.
      + exists f, s, d, z, a. splits; try done. rewrite Hd. right. right. left.
  Qed.

  (* one footprint per pair of vertices *)
  Lemma ends_footprint e e' a b f s f' s' :
    ends st e a b → ends st e' a b → ors st !! (1, e) = Some (f, s) → ors st !! (1, e') = Some (f', s') → f = f'.
  Proof.
    intros (g & s1 & p & q & sp & sq & Ho & Hp & Hq & Hf) (g' & s2 & p' & q' & sp' & sq' & Ho' & Hp' & Hq' & Hf') He He'.
    rewrite Ho in He. injection He as -> ->. rewrite Ho' in He'. injection He' as -> ->.
    assert (H : ∀ p q a b sp sq, ors st !! (0, p) = Some (a, sp) → ors st !! (0, q) = Some (b, sq) → footprints_are st 0 [p; q] [a; b]).
    { clear. intros. repeat constructor; eauto. }
    destruct Hf as [Hf|Hf], Hf' as [Hf'|Hf'];
      (eapply (footprint_unique st 0); [apply HI|exact Hf|exact Hf'|eapply H; eassumption..|]); try done; apply perm_swap.
  Qed.

  Lemma segment_footprint e a b : ends st e a b → ∃ f s, ors st !! (1, e) = Some (f, s).
  Proof. intros (f & s & ? & ? & ? & ? & Ho & _). eauto. Qed.

  (* one footprint per triple of vertices *)
  Lemma corners_footprint t t' a b c f s f' s' :
    corners st t a b c → corners st t' a b c → ors st !! (2, t) = Some (f, s) → ors st !! (2, t') = Some (f', s') → f = f'.
  Proof.
    intros (_ & g & s1 & d & x & y & z & Ho & Hf & Hd & H1 & H2 & H3) (_ & g' & s2 & d' & x' & y' & z' & Ho' & Hf' & Hd' & H1' & H2' & H3') He He'.
    rewrite Ho in He. injection He as -> ->. rewrite Ho' in He'. injection He' as -> ->.
    destruct (segment_footprint _ _ _ H1) as (fx & sx & Hx). destruct (segment_footprint _ _ _ H2) as (fy & sy & Hy).
    destruct (segment_footprint _ _ _ H3) as (fz & sz & Hz).
    destruct (segment_footprint _ _ _ H1') as (fx' & sx' & Hx'). destruct (segment_footprint _ _ _ H2') as (fy' & sy' & Hy').
    destruct (segment_footprint _ _ _ H3') as (fz' & sz' & Hz').
    assert (fx' = fx) as -> by (eapply ends_footprint; [exact H1'|exact H1|eassumption..]).
    assert (fy' = fy) as -> by (eapply ends_footprint; [exact H2'|exact H2|eassumption..]).
    assert (fz' = fz) as -> by (eapply ends_footprint; [exact H3'|exact H3|eassumption..]).
    assert (Hl : footprints_are st 1 [x; y; z] [fx; fy; fz]) by (repeat constructor; eauto).
    assert (Hl' : footprints_are st 1 [x'; y'; z'] [fx; fy; fz]) by (repeat constructor; eauto).
    symmetry in Hd, Hd'.
    destruct (Permutation_Forall2 Hd Hl) as (l & Hp & H). destruct (Permutation_Forall2 Hd' Hl') as (l' & Hp' & H').
    eapply (footprint_unique st 1); [apply HI|exact Hf|exact Hf'|exact H|exact H'|]. by rewrite <- Hp, <- Hp'.
  Qed.

  (* the keys of the entries of a triangle are the footprints of its segments *)
  Lemma member_keys t f s d l : ors st !! (2, t) = Some (f, s) → fps st !! (2, f) = Some d → footprints_are st 1 d l →
    (member_entries st 1 t).*1 ≡ₚ l.
  Proof.
    intros Ho Hf Hl. unfold member_entries. rewrite Ho, Hf.
    transitivity ((sub_entry st 1 s <$> d).*1).
    { do 2 f_equiv. case_decide; [apply swap01_perm|done]. }
    clear Ho Hf. induction Hl as [|o g d l [s' Hs'] _ IH]; [done|]. cbn [fmap list_fmap].
    rewrite IH. unfold sub_entry. by rewrite Hs'.
  Qed.

  Lemma ends_same e e' f s s' a b : ends st e a b → ors st !! (1, e) = Some (f, s) → ors st !! (1, e') = Some (f, s') → ends st e' a b.
  Proof.
    intros (g & s1 & p & q & sp & sq & Ho & Hp & Hq & Hf) He He'. rewrite Ho in He. injection He as -> ->.
    exists f, s', p, q, sp, sq. splits; done.
  Qed.

  (* in a closed list of triangles, an edge of one belongs to another *)
  Lemma other t rest u v w :
    (∀ g, zsum g (comp_entries st 1 (t :: rest)) = 0%Z) → corners st t u v w →
    (∀ t', t' ∈ rest → ∃ a b c, corners st t' a b c) → ∃ t' w', t' ∈ rest ∧ corners st t' u v w'.
  Proof.
    intros Hz Ht Hrest.
    assert (Hreg : ∀ o, o ∈ t :: rest → is_Some (ors st !! (2, o))).
    { intros o [-> | Ho]%elem_of_cons; [destruct Ht as (_ & f & s & ? & ? & ? & ? & H & _); by exists (f, s)|].
      destruct (Hrest o Ho) as (? & ? & ? & _ & f & s & ? & ? & ? & ? & H & _). by exists (f, s). }
    destruct Ht as (Hn & f & s & d & x & y & z & Ho & Hf & Hd & H1 & H2 & H3).
    destruct (segment_footprint _ _ _ H1) as (fx & sx & Hx). destruct (segment_footprint _ _ _ H2) as (fy & sy & Hy).
    destruct (segment_footprint _ _ _ H3) as (fz & sz & Hz').
    assert (Hl : footprints_are st 1 [x; y; z] [fx; fy; fz]) by (repeat constructor; eauto).
    symmetry in Hd. destruct (Permutation_Forall2 Hd Hl) as (l & Hp & H).
    pose proof (member_keys t f s d l Ho Hf H) as Hk. rewrite <- Hp in Hk.
    assert (fx ≠ fy ∧ fx ≠ fz) as [Hxy Hxz].
    { rewrite !NoDup_cons, !elem_of_cons, elem_of_nil in Hn.
      split; intros E; subst; [pose proof (ends_same _ _ _ _ _ _ _ H1 Hx Hy) as E; destruct (ends_det st _ _ _ _ _ H2 E)|
        pose proof (ends_same _ _ _ _ _ _ _ H1 Hx Hz') as E; destruct (ends_det st _ _ _ _ _ H3 E)]; naive_solver. }
    pose proof (zsum_parity fx _ (comp_entries_signed st 1 _ HI Hreg)) as Hpar. rewrite Hz in Hpar.
    change (comp_entries st 1 (t :: rest)) with (member_entries st 1 t ++ comp_entries st 1 rest) in Hpar.
    unfold kcount in Hpar. rewrite fmap_app, count_app, (count_perm _ _ _ Hk), !count_cons in Hpar.
    rewrite decide_True, !decide_False in Hpar by done. replace (count fx []) with 0 in Hpar by done.
    assert (Hin : fx ∈ (comp_entries st 1 rest).*1).
    { destruct (decide (fx ∈ (comp_entries st 1 rest).*1)) as [|Hni]; [done|]. apply count_0 in Hni. by rewrite Hni in Hpar. }
    apply elem_of_list_fmap in Hin as ([k zk] & E & Hin). cbn [fst] in E. subst k.
    unfold comp_entries in Hin. rewrite elem_of_list_In, in_concat in Hin. destruct Hin as (m & Hm & Hin).
    rewrite <- elem_of_list_In in Hm. rewrite <- elem_of_list_In in Hin. apply elem_of_list_fmap in Hm as (t' & -> & Ht').
    destruct (Hrest t' Ht') as (a & b & c & Hc). exists t'.
    pose proof Hc as (Hn' & f' & s' & d' & x' & y' & z' & Ho' & Hf' & Hd' & H1' & H2' & H3').
    assert (∃ e se, e ∈ d' ∧ ors st !! (1, e) = Some (fx, se)) as (e & se & He & Hse).
    { unfold member_entries in Hin. rewrite Ho', Hf' in Hin. apply elem_of_list_fmap in Hin as (e & E & He).
      assert (Hed : e ∈ d') by (revert He; case_decide; [by rewrite swap01_perm|done]).
      destruct (proj2 (i_fS _ HI _ _ _ Hf') e Hed) as [[ge te] Hge]. unfold sub_entry in E. rewrite Hge in E.
      injection E as -> _. eauto. }
    pose proof (ends_same _ _ _ _ _ _ _ H1 Hx Hse) as Hends. rewrite Hd' in He. rewrite !elem_of_cons, elem_of_nil in He.
    destruct He as [-> | [-> | [-> | []]]].
    - exists c. split; [done|]. destruct (ends_det st _ _ _ _ _ H1' Hends) as [[-> ->] | [-> ->]]; [done|by apply corners_swap].
    - exists a. split; [done|]. apply corners_rot in Hc. destruct (ends_det st _ _ _ _ _ H2' Hends) as [[-> ->] | [-> ->]]; [done|by apply corners_swap].
    - exists b. split; [done|]. do 2 apply corners_rot in Hc. destruct (ends_det st _ _ _ _ _ H3' Hends) as [[-> ->] | [-> ->]]; [done|by apply corners_swap].
  Qed.

  (* a triangle has its three corners *)
  Lemma triangle_corners t : is_Some (ors st !! (2, t)) → ∃ a b c, corners st t a b c.
  Proof.
    intros [[f s] Ho]. destruct (i_or _ HI _ _ _ _ Ho) as ([d Hd] & _ & _).
    destruct (i_fS _ HI _ _ _ Hd) as [Hlen Hreg]. pose proof (reach_valid al Hal debug st Hr _ _ _ Hd) as Hv.
    destruct d as [|x [|y [|z [|]]]]; try done.
    destruct (valid_triangle al Hal debug st x y z Hr Hreg Hv) as (a & b & c & H1 & H2 & H3 & E1 & E2 & E3).
    exists a, b, c. split.
    - repeat apply NoDup_cons_2; [..|apply NoDup_nil_2]; rewrite ?elem_of_cons, ?elem_of_nil; naive_solver.
    - exists f, s, [x; y; z], x, y, z. splits; done.
  Qed.
End faces.
