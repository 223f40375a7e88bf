(* C14, C21: the number of simplices that the topology reports. *)
From stdpp Require Import base gmap list.
From Verif Require Import Base M_Perm S_Perm P_Perm M_Topology S_Topology P_Topology P_TopologyErase
  P_TopologyApi P_TopologyApi2 Properties_Topology Properties_TopologyCases.

Local Ltac splits := repeat match goal with |- _ ∧ _ => split end.

(* the registered oriented simplices of order [N] *)
Local Definition objects (st : topo) (N : nat) : list nat :=
  (λ x : (nat * nat) * (nat * Z), x.1.2) <$> filter (λ '((d, _), _), d = N) (map_to_list (ors st)).

Local Lemma objects_elem st N o : o ∈ objects st N ↔ is_oriented st N o.
Proof.
  unfold objects, is_oriented. rewrite elem_of_list_fmap. split.
  - intros ([[d p] y] & -> & H). apply elem_of_list_filter in H as [Hd H]. cbn in *. subst d.
    apply elem_of_map_to_list in H. by eexists.
  - intros [y Hy]. exists ((N, o), y). split; [done|]. apply elem_of_list_filter. split; [done|].
    by apply elem_of_map_to_list.
Qed.

Local Lemma objects_nodup st N : NoDup (objects st N).
Proof.
  unfold objects. apply NoDup_fmap_2_strong.
  - intros [[d p] y] [[d' p'] y'] H H' E. apply elem_of_list_filter in H as [Hd H].
    apply elem_of_list_filter in H' as [Hd' H']. cbn in *. subst d d' p'.
    apply elem_of_map_to_list in H. apply elem_of_map_to_list in H'. congruence.
  - apply NoDup_filter, NoDup_map_to_list.
Qed.

Local Lemma objects_number st N : n_simplices st N = length (objects st N).
Proof. unfold n_simplices, objects. by rewrite fmap_length. Qed.

(* C14: the number reported for an order is the number of registered simplices of this order, listed
   once each in any way *)
Theorem C14_number st N l :
  NoDup l → (∀ o, o ∈ l ↔ is_oriented st N o) → n_simplices st N = length l.
Proof.
  intros Hnd Hl. rewrite objects_number. apply Permutation_length, NoDup_Permutation;
    [apply objects_nodup|done|].
  intros o. by rewrite objects_elem, Hl.
Qed.
(* C14: and there is such a list *)
Theorem C14_number_list st N : ∃ l, NoDup l ∧ ∀ o, o ∈ l ↔ is_oriented st N o.
Proof. exists (objects st N). split; [apply objects_nodup|apply objects_elem]. Qed.

(* C14: a request for a simplex from its composition raises the number of its order by one when
   exists() said that there was none, by zero when it said that there was one, and does not change the
   number of another order *)
Theorem C14_number_request al debug st N c a st' b :
  good_alloc al → reach al debug st → legal st (OComposition (S N) c) →
  step al debug (OComposition (S N) c) st = Ret a st' →
  exists_composition debug st (S N) c = Ok b →
  n_simplices st' (S N) = n_simplices st (S N) + (if b then 0 else 1) ∧
  ∀ k, k ≠ S N → n_simplices st' k = n_simplices st k.
Proof.
  intros Hal Hr (_ & Hlen & Hc) E Hb. pose proof (reach_Inv al Hal debug _ Hr) as HI.
  rewrite Forall_forall in Hc. cbn [pred] in Hc.
  assert (Hreg : ∀ o, o ∈ c → is_Some (ors st !! (N, o))) by (intros o Ho; by apply (i_hO _ HI), Hc).
  cbn [step] in E. apply keepO_ret in E as (o & st0 & E & -> & ->).
  pose proof E as E0. eapply wp_ret in E; [|by apply (wp_simplex al Hal debug st N c)].
  destruct E as (Hv & HI' & Hg & f & s & c' & r & Ho & Hs & Hf & _ & _ & _ & Hfound & Hnew & Hors).
  pose proof (exists_composition_request al Hal debug st N c HI Hlen Hreg Hv) as Hex.
  assert (Hnum : ∀ k, n_simplices (holdO (S N) o st0) k = n_simplices st0 k) by done.
  setoid_rewrite Hnum. clear Hnum.
  assert (Hsame : ors st0 = ors st → b = true).
  { intros Hsm. rewrite Hsm in Ho. destruct (i_or _ HI _ _ _ _ Ho) as ([d Hd] & Hom & _).
    destruct (representative_ok st (S N) c Hreg) as (l & Hl & Hrep).
    assert (st0 = st) as ->.
    { destruct (find_simplex st (S N) c) as [[g|]| |] eqn:Hfs.
      - destruct (Hfound g eq_refl) as (_ & _ & _ & Hp). by destruct (Hp o Hom).
      - destruct (Hnew eq_refl) as [_ Hno]. congruence.
      - unfold find_simplex in Hfs. rewrite Hrep in Hfs. done.
      - unfold find_simplex in Hfs. rewrite Hrep in Hfs. done. }
    assert (exists_composition debug st (S N) c = Ok true); [|congruence].
    apply Hex. by exists o, st. }
  destruct Hors as [Hsm|[Hins Hno]].
  - rewrite (Hsame Hsm). unfold n_simplices. rewrite Hsm. split; [lia|done].
  - assert (b = false) as ->.
    { destruct b; [|done]. apply Hex in Hb as (o' & st2 & E2 & _ & Hso & _).
      rewrite E0 in E2. injection E2 as <- <-. rewrite Hins in Hso.
      assert (ors st !! (S N, o) = Some (f, s)) by (rewrite <- Hso; apply lookup_insert). congruence. }
    split.
    + rewrite (objects_number st). replace (length (objects st (S N)) + 1)
        with (length (o :: objects st (S N))) by (cbn; lia).
      apply C14_number.
      * constructor; [|apply objects_nodup]. rewrite objects_elem. intros [y Hy]. congruence.
      * intros p. rewrite elem_of_cons, objects_elem. unfold is_oriented. rewrite Hins.
        destruct (decide (p = o)) as [->|Hne].
        -- rewrite lookup_insert. split; [by eexists|by left].
        -- rewrite lookup_insert_ne by congruence. split; [by intros [?|?]|by right].
    + intros k Hk. rewrite (objects_number st). apply C14_number; [apply objects_nodup|].
      intros p. rewrite objects_elem. unfold is_oriented. rewrite Hins.
      by rewrite lookup_insert_ne by congruence.
Qed.

(* C21: erasing in a debug build lowers the number of each order by the number of simplices of this
   order that go, and by nothing when the simplex is used elsewhere *)
Theorem C21_number al st N o :
  good_alloc al → reach al true st → has st N o →
  ∃ st', step al true (OErase N o) st = Ret ANone st' ∧
    (used_elsewhere st N o → ∀ k, n_simplices st' k = n_simplices st k) ∧
    (¬ used_elsewhere st N o → ∀ k l,
       NoDup l → (∀ p, p ∈ l ↔ is_oriented st k p ∧ goneO st N o k p) →
       n_simplices st k = n_simplices st' k + length l).
Proof.
  intros Hal Hr Hh. destruct (C21_erase_exact al st N o Hal Hr Hh) as [Hu Hn].
  destruct (step al true (OErase N o) st) as [a st'|st'|] eqn:E.
  2: { exfalso. assert (Hnu : ¬ used_elsewhere st N o) by (by intros (? & ? & _)%Hu).
       by destruct (Hn Hnu) as (? & ? & _). }
  2: { exfalso. assert (Hnu : ¬ used_elsewhere st N o) by (by intros (? & ? & _)%Hu).
       by destruct (Hn Hnu) as (? & ? & _). }
  assert (a = ANone) as ->.
  { destruct a; [reflexivity|..].
    all: exfalso; assert (Hnu : ¬ used_elsewhere st N o) by (by intros (? & [=] & _)%Hu);
      by destruct (Hn Hnu) as (? & [=] & _). }
  exists st'. splits; [done| |].
  - intros Hus k. destruct (Hu Hus) as (st2 & [= <-] & _ & Ho & _). unfold n_simplices. by rewrite Ho.
  - intros Hnu k l Hnd Hl. destruct (Hn Hnu) as (st2 & [= <-] & Hors & _ & Hno & _).
    rewrite (objects_number st'). rewrite Nat.add_comm, <- app_length. apply C14_number.
    + apply NoDup_app. splits; [done| |apply objects_nodup].
      intros p Hp Hp'. apply Hl in Hp as [Hp Hg]. apply objects_elem in Hp' as [y Hy].
      destruct (Hors _ _ Hp) as [Hgone _]. rewrite (Hgone Hg) in Hy. done.
    + intros p. rewrite elem_of_app, objects_elem. split.
      * intros [Hp|Hp]; [by apply Hl in Hp as [? _]|].
        unfold is_oriented. destruct (ors st !! (k, p)) eqn:Ek; [by eexists|].
        exfalso. apply (Hno k p); [|done]. intros [? ?]. congruence.
      * intros Hp. destruct (decide (p ∈ l)) as [|Hpl]; [by left|right].
        destruct (Hors _ _ Hp) as [_ Hkeep]. unfold is_oriented. rewrite Hkeep; [done|].
        intros Hg. apply Hpl, Hl. done.
Qed.

(* A triangle, its flip and the tetrahedron on it: 1 of order 3; of order 2 the triangle
   and the 4 faces, one of which is the flip. Erasing the tetrahedron removes it and its faces. A
   first triangle raises the number of triangles from 0 to 1. *)
Local Ltac decided :=
  match goal with |- ?P => refine (@by_decision P _ _) end; vm_compute; reflexivity.
#[local] Typeclasses Opaque has hasF sign legal run st1 step.
Example C14_case_number :
  (n_simplices st1 3, n_simplices st1 2) = (1, 5) ∧
  (let st := after (step al0 true (OErase 3 26) st1) in (n_simplices st 3, n_simplices st 2)) = (0, 1).
Proof. split; vm_compute; reflexivity. Qed.
Example C14_case_request :
  let st := run true [OVertex; OVertex; OVertex; OSegment 1 2; OSegment 2 3; OSegment 3 1] topo0 in
  legal st (OComposition 2 [3; 6; 9]) ∧ exists_composition true st 2 [3; 6; 9] = Ok false ∧
  n_simplices st 2 = 0 ∧ n_simplices (after (step al0 true (OComposition 2 [3; 6; 9]) st)) 2 = 1.
Proof. cbv zeta. splits; [decided|vm_compute; reflexivity..]. Qed.

Print Assumptions C14_number.
Print Assumptions C14_number_list.
Print Assumptions C14_number_request.
Print Assumptions C21_number.
