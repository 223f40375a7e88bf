(* C64, C65: compositions of triangles that are accepted as tetrahedra. *)
From stdpp Require Import base gmap list.
From Verif Require Import Base M_Perm S_Perm P_Perm M_Topology S_Topology P_Topology P_TopologyErase
  P_TopologyValid P_TopologyOrder P_TopologyVertices P_TopologyCanonical P_TopologyApi P_TopologyApi2
  Properties_Topology Properties_TopologyCases P_Tetrahedra.

Local Ltac splits := cbv zeta; repeat match goal with |- _ ∧ _ => split end.

Local Lemma nodup3 (a b c : nat) : NoDup [a; b; c] ↔ a ≠ b ∧ b ≠ c ∧ c ≠ a.
Proof.
  split.
  - intros H. apply NoDup_cons in H as [H1 H]. apply NoDup_cons in H as [H2 _].
    rewrite !elem_of_cons in H1. rewrite elem_of_cons in H2. splits; intros ->; auto.
  - intros (H1 & H2 & H3). repeat apply NoDup_cons_2; [..|apply NoDup_nil_2]; rewrite ?elem_of_cons, ?elem_of_nil; naive_solver.
Qed.

Section tetrahedra.
  Context (al : alloc) (Hal : good_alloc al) (debug : bool).

  (* C64, order 3, in every build: four triangles on different footprints that are accepted as a tetrahedron
     are the four faces of four different vertices. What is missing: that their footprints differ (see
     C64_accepted_tetrahedron_refuted). *)
  Theorem C64_accepted_tetrahedron_partial st ts fs :
    reach al debug st → legal st (OComposition 3 ts) → is_valid debug st 3 ts = Ok true →
    footprints_are st 2 ts fs → NoDup fs →
    ∃ w x y z a b c d, ts ≡ₚ [w; x; y; z] ∧ NoDup [a; b; c; d] ∧
      corners st w a b c ∧ corners st x a b d ∧ corners st y b c d ∧ corners st z c a d.
  Proof.
    intros Hr (_ & Hlen & Hc) Hv Hfs Hnd. pose proof (reach_Inv al Hal debug _ Hr) as HI.
    rewrite Forall_forall in Hc. cbn [pred] in Hc.
    assert (Hreg : ∀ o, o ∈ ts → is_Some (ors st !! (2, o))) by (intros o Ho; by apply (i_hO _ HI), Hc).
    apply (is_valid_true debug st 1 ts HI Hreg) in Hv as [_ Hz].
    assert (Hcor : ∀ t, t ∈ ts → ∃ a b c, corners st t a b c) by (intros t Ht; by apply (triangle_corners al Hal debug st Hr), Hreg).
    (* two triangles of the composition with the same corners are the same *)
    assert (Hsame : ∀ t t' a b c, t ∈ ts → t' ∈ ts → corners st t a b c → corners st t' a b c → t = t').
    { intros t t' a b c Ht Ht' H H'.
      apply elem_of_list_lookup in Ht as [i Hi]. apply elem_of_list_lookup in Ht' as [j Hj].
      destruct (Forall2_lookup_l _ _ _ _ _ Hfs Hi) as (f & Hf & s & Ho).
      destruct (Forall2_lookup_l _ _ _ _ _ Hfs Hj) as (f' & Hf' & s' & Ho').
      assert (f = f') as <- by (by eapply (corners_footprint al Hal debug st Hr t t')).
      assert (i = j) as <- by (by eapply NoDup_lookup). congruence. }
    assert (Hts : NoDup ts).
    { apply NoDup_alt. intros i j t Hi Hj.
      destruct (Forall2_lookup_l _ _ _ _ _ Hfs Hi) as (f & Hf & s & Ho).
      destruct (Forall2_lookup_l _ _ _ _ _ Hfs Hj) as (f' & Hf' & s' & Ho').
      assert (f = f') as <- by congruence. by eapply NoDup_lookup. }
    assert (Hclosed : ∀ t rest u v w, ts ≡ₚ t :: rest → corners st t u v w → ∃ t' w', t' ∈ rest ∧ corners st t' u v w').
    { intros t rest u v w Hp Ht. eapply (other al Hal debug st Hr t rest u v w); [|done|].
      - intros g. rewrite <- (zsum_perm g _ _ (comp_entries_perm st 1 _ _ Hp)). apply Hz.
      - intros t' Ht'. apply Hcor. rewrite Hp. by right. }
    assert (∃ t rest, ts = t :: rest) as (t & rest & Ets) by (destruct ts; [done|eauto]).
    destruct (Hcor t) as (a & b & c & Ht); [rewrite Ets; left|].
    assert (Htr : t ∉ rest) by (rewrite Ets in Hts; by apply NoDup_cons in Hts as [? _]).
    assert (Hin : ∀ x, x ∈ rest → x ∈ ts) by (intros x Hx; rewrite Ets; by right).
    assert (Hit : t ∈ ts) by (rewrite Ets; left).
    destruct (Hclosed t rest a b c) as (x & d & Hx & Hxc); [by rewrite Ets|done|].
    destruct (Hclosed t rest b c a) as (y & e & Hy & Hyc); [by rewrite Ets|by apply corners_rot|].
    destruct (Hclosed t rest c a b) as (z & g & Hz' & Hzc); [by rewrite Ets|by do 2 apply corners_rot|].
    pose proof (λ v, corners_on st t a b c v Ht) as Ot.
    pose proof (λ v, corners_on st x a b d v Hxc) as Ox.
    pose proof (λ v, corners_on st y b c e v Hyc) as Oy.
    pose proof (λ v, corners_on st z c a g v Hzc) as Oz.
    pose proof Ht as [Nt _]. pose proof Hxc as [Nx _]. pose proof Hyc as [Ny _]. pose proof Hzc as [Nz _].
    apply nodup3 in Nt as (Hab & Hbc & Hca). apply nodup3 in Nx as (_ & Hbd & Hda).
    apply nodup3 in Ny as (_ & Hce & Heb). apply nodup3 in Nz as (_ & Hag & Hgc).
    assert (Hdc : d ≠ c) by (intros ->; rewrite (Hsame t x a b c) in Htr; auto).
    assert (Hea : e ≠ a).
    { intros ->. assert (t = y) as -> by (apply (Hsame t y a b c); [done|by apply Hin|done|by do 2 apply corners_rot]). done. }
    assert (Hgb : g ≠ b).
    { intros ->. assert (t = z) as -> by (apply (Hsame t z a b c); [done|by apply Hin|done|by apply corners_rot]). done. }
    assert (Hxy : x ≠ y).
    { intros ->. assert (on st y c) by (apply Oy; auto). apply Ox in H as [H|[H|H]]; congruence. }
    assert (Hyz : y ≠ z).
    { intros ->. assert (on st z a) by (apply Oz; auto). apply Oy in H as [H|[H|H]]; congruence. }
    assert (Hxz : x ≠ z).
    { intros ->. assert (on st z c) by (apply Oz; auto). apply Ox in H as [H|[H|H]]; congruence. }
    assert (Hp : ts ≡ₚ [t; x; y; z]).
    { rewrite Ets. apply perm_skip. symmetry. apply submseteq_Permutation_length_eq.
      - rewrite Ets in Hlen. by injection Hlen.
      - apply NoDup_submseteq.
        + by apply nodup3.
        + intros k. rewrite !elem_of_cons, elem_of_nil. intros [-> | [-> | [-> | []]]]; done. }
    (* the edges at the fourth vertex *)
    assert (g = d) as ->.
    { destruct (Hclosed x [t; y; z] a d b) as (k & w & Hk & Hkc); [rewrite Hp; apply perm_swap|apply corners_rot; by apply corners_swap|].
      pose proof (λ v, corners_on st k a d w v Hkc) as Ok'.
      assert (Ka : on st k a) by (apply Ok'; auto). assert (Kd : on st k d) by (apply Ok'; auto).
      rewrite !elem_of_cons, elem_of_nil in Hk. destruct Hk as [-> | [-> | [-> | []]]].
      - apply Ot in Kd as [H|[H|H]]; congruence.
      - apply Oy in Ka as [H|[H|H]]; congruence.
      - apply Oz in Kd as [H|[H|H]]; congruence. }
    assert (e = d) as ->.
    { destruct (Hclosed x [t; y; z] b d a) as (k & w & Hk & Hkc); [rewrite Hp; apply perm_swap|by apply corners_rot|].
      pose proof (λ v, corners_on st k b d w v Hkc) as Ok'.
      assert (Kb : on st k b) by (apply Ok'; auto). assert (Kd : on st k d) by (apply Ok'; auto).
      rewrite !elem_of_cons, elem_of_nil in Hk. destruct Hk as [-> | [-> | [-> | []]]].
      - apply Ot in Kd as [H|[H|H]]; congruence.
      - apply Oy in Kd as [H|[H|H]]; congruence.
      - apply Oz in Kb as [H|[H|H]]; congruence. }
    exists t, x, y, z, a, b, c, d. splits; try done.
    apply NoDup_cons_2; [|by apply nodup3]. rewrite !elem_of_cons, elem_of_nil. intros [H|[H|[H|[]]]]; congruence.
  Qed.
End tetrahedra.

(* four triangles that close, in a state built by a client *)
Definition faces := run true [OVertex; OVertex; OVertex; OVertex; OTriangle 1 3 2; OTriangle 1 2 4; OTriangle 2 3 4; OTriangle 1 4 3] topo0.
Example C64_tetrahedron_case : reach al0 true faces ∧ legal faces (OComposition 3 [16; 24; 10; 20]) ∧
  is_valid true faces 3 [16; 24; 10; 20] = Ok true ∧ footprints_are faces 2 [16; 24; 10; 20] [11; 14; 8; 13] ∧ NoDup [11; 14; 8; 13].
Proof.
  assert (legal faces (OComposition 3 [16; 24; 10; 20])) as Hl
    by (split; [lia|]; split; [done|]; repeat constructor; unfold has; vm_compute; lia).
  splits; [apply run_reach; constructor|exact Hl|vm_compute; reflexivity| |].
  - repeat constructor; eexists; vm_compute; reflexivity.
  - repeat constructor; rewrite ?elem_of_cons, elem_of_nil; lia.
Qed.
(* C65: a composition for which a triangle exists, and one for which none does *)
Example C65_case :
  let st := run true [OVertex; OVertex; OVertex; OSegment 1 2; OSegment 2 3; OSegment 3 1] topo0 in
  reach al0 true st ∧ legal st (OComposition 2 [6; 3; 9]) ∧
  answer_of (step al0 true (OComposition 2 [6; 3; 9]) st) = Some (AOriented 2 10) ∧
  footprints_are st 1 [6; 3; 9] [5; 4; 6] ∧ composition (after (step al0 true (OComposition 2 [6; 3; 9]) st)) 2 10 = Ok [6; 3; 9].
Proof.
  splits; [apply run_reach; constructor|split; [lia|]; split; [done|]; repeat constructor; unfold has; vm_compute; lia|vm_compute; reflexivity| |vm_compute; reflexivity].
  repeat constructor; eexists; vm_compute; reflexivity.
Qed.

Print Assumptions C64_accepted_tetrahedron_partial.
