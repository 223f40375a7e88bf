(* C57: flipping the diagonal of a quadrilateral. *)
From stdpp Require Import base gmap list.
From Verif Require Import Base S_Perm M_Perm P_Perm M_Topology S_Topology P_Topology P_TopologyErase P_TopologyValid
  P_TopologyOrder P_TopologyVertices P_TopologyCanonical P_TopologyApi M_Flip S_Flip P_Flip Properties_TopologyCases.

Section flip.
  Context (al : alloc) (Hal : good_alloc al) (debug : bool).

  Lemma triangle_with_spans st t a b c :
    Inv st → Can st → triangle_with debug st t [a; b; c] → spans st 2 t [a; b; c].
  Proof.
    intros HI HC [Ho (us & Hus & Hre)]. eapply spans_even; [by apply (Can_spans debug st 2 t us HI HC); [lia|..]|].
    by apply even_reord.
  Qed.
  Lemma spans_triangle_with st t vs : spans st 2 t vs → triangle_with debug st t vs.
  Proof.
    intros Hs. split; [destruct Hs as (f & b & ws & Ho & _); by eexists|].
    destruct (vertices_spans debug st 2 t vs Hs) as (us & Hus & Hre). exists us. split; [done|by apply even_reord].
  Qed.

  Lemma upright_fspans st t a b c : orientation_is st t 1 → spans st 2 t [a; b; c] → fspans st t a b c.
  Proof. intros [f Hf] Hs. by exists f, true. Qed.
  Lemma reversed_fspans st t a b c : orientation_is st t (-1) → spans st 2 t [a; b; c] → fspans st t b a c.
  Proof. intros [f Hf] Hs. by exists f, false. Qed.
  Lemma fspans_rotate st t a b c : fspans st t a b c → fspans st t b c a.
  Proof.
    intros (f & s & Ho & Hs). exists f, s. split; [done|]. eapply spans_even; [exact Hs|].
    destruct s.
    - apply (reord_trans false false _ [b; a; c]); [apply (reord_swap [] a [] b [c])|apply (reord_swap [b] a [] c [])].
    - apply (reord_trans false false _ [c; a; b]); [apply (reord_swap [] b [a] c [])|apply (reord_swap [c] a [] b [])].
  Qed.
  Lemma spans_rotate st t a b c : spans st 2 t [a; b; c] → spans st 2 t [b; c; a].
  Proof.
    intros Hs. eapply spans_even; [exact Hs|].
    apply (reord_trans false false _ [b; a; c]); [apply (reord_swap [] a [] b [c])|apply (reord_swap [b] a [] c [])].
  Qed.

  Lemma no_such_no_triangle st vs : no_such_triangle debug st vs → no_triangle st vs.
  Proof.
    intros Hn f ws Hord Hp. destruct (fvertex_list_order debug st 2 f ws Hord) as (us & Hus & Hre).
    apply (Hn f us); [|done|by rewrite (reord_perm _ _ _ Hre)].
    apply order_SS in Hord as (_ & _ & _ & c & Hc & _). by eexists.
  Qed.

  (* C57: the triangles ACD and BDC are replaced by ABD and BAC, when both have the orientation of
     their footprints. Of the five sides, the outer four AC, DA, BD, CB are kept with their
     directions and CD is replaced by AB. Nothing registered is changed. *)
  Theorem C57_flip_partial st t0 t1 a b c d :
    reach_listed al debug st →
    triangle_with debug st t0 [a; c; d] → triangle_with debug st t1 [b; d; c] → a ≠ b →
    orientation_is st t0 1 → orientation_is st t1 1 →
    ∃ n0 n1 st', flip_diagonal al debug t0 t1 st = Ret (n0, n1) st' ∧ extends st st' ∧
      (triangle_with debug st' n0 [a; b; d] ∧ triangle_with debug st' n1 [b; a; c] ∨
       triangle_with debug st' n0 [b; a; c] ∧ triangle_with debug st' n1 [a; b; d]).
  Proof.
    intros Hr H0 H1 Hab Hu0 Hu1. destruct (listed_fine al Hal debug st Hr) as [HI HC].
    apply triangle_with_spans in H0, H1; [|done..].
    pose proof (wp_flip_diagonal al Hal debug st t0 t1 a b c d HI HC (upright_fspans _ _ _ _ _ Hu0 H0) (upright_fspans _ _ _ _ _ Hu1 H1) Hab) as Hw.
    unfold wp in Hw. destruct (flip_diagonal al debug t0 t1 st) as [[n0 n1] st'|st'|]; [|done..].
    destruct Hw as (HI' & HC' & Hg & Hs & _). exists n0, n1, st'. split_and!; [done|exact (grows_extends _ _ _ Hg)|].
    cbn [fst snd] in Hs. destruct Hs as [[? ?]|[? ?]]; [left|right]; split; by apply spans_triangle_with.
  Qed.

  (* What happens otherwise. When both triangles are opposite to their footprints, the result has the
     opposite orientation: the outer sides are run through in the other direction. *)
  Theorem C57_flip_both_reversed st t0 t1 a b c d :
    reach_listed al debug st →
    triangle_with debug st t0 [a; c; d] → triangle_with debug st t1 [b; d; c] → a ≠ b →
    orientation_is st t0 (-1) → orientation_is st t1 (-1) →
    ∃ n0 n1 st', flip_diagonal al debug t0 t1 st = Ret (n0, n1) st' ∧ extends st st' ∧
      (triangle_with debug st' n0 [b; a; d] ∧ triangle_with debug st' n1 [a; b; c] ∨
       triangle_with debug st' n0 [a; b; c] ∧ triangle_with debug st' n1 [b; a; d]).
  Proof.
    intros Hr H0 H1 Hab Hu0 Hu1. destruct (listed_fine al Hal debug st Hr) as [HI HC].
    apply triangle_with_spans in H0, H1; [|done..].
    pose proof (wp_flip_diagonal al Hal debug st t0 t1 a b d c HI HC (fspans_rotate _ _ _ _ _ (reversed_fspans _ _ _ _ _ Hu0 H0))
      (fspans_rotate _ _ _ _ _ (reversed_fspans _ _ _ _ _ Hu1 H1)) Hab) as Hw.
    unfold wp in Hw. destruct (flip_diagonal al debug t0 t1 st) as [[n0 n1] st'|st'|]; [|done..].
    destruct Hw as (HI' & HC' & Hg & Hs & _). exists n0, n1, st'. split_and!; [done|exact (grows_extends _ _ _ Hg)|].
    cbn [fst snd] in Hs. destruct Hs as [[? ?]|[? ?]]; [right|left]; split; by apply spans_triangle_with.
  Qed.

  (* When exactly one is, nothing is returned: an assertion fails in a debug build, and a null
     pointer is used in a release build. *)
  Theorem C57_flip_one_reversed st t0 t1 a b c d s :
    reach_listed al debug st →
    triangle_with debug st t0 [a; c; d] → triangle_with debug st t1 [b; d; c] → a ≠ b →
    s = 1%Z ∨ s = (-1)%Z → orientation_is st t0 s → orientation_is st t1 (- s) →
    if debug then ∃ st', flip_diagonal al debug t0 t1 st = Throw st' else flip_diagonal al debug t0 t1 st = Undef.
  Proof.
    intros Hr H0 H1 Hab Hs Hu0 Hu1. destruct (listed_fine al Hal debug st Hr) as [HI HC].
    apply triangle_with_spans in H0, H1; [|done..].
    assert (Hw : match flip_diagonal al debug t0 t1 st with Ret _ _ => False | Throw _ => debug = true | Undef => debug = false end).
    { destruct Hs as [-> | ->].
      - exact (flip_diagonal_mixed al Hal debug st t0 t1 a b c d HI HC (upright_fspans _ _ _ _ _ Hu0 H0)
          (fspans_rotate _ _ _ _ _ (reversed_fspans _ _ _ _ _ Hu1 H1)) Hab).
      - exact (flip_diagonal_mixed al Hal debug st t0 t1 a b d c HI HC (fspans_rotate _ _ _ _ _ (reversed_fspans _ _ _ _ _ Hu0 H0))
          (upright_fspans _ _ _ _ _ Hu1 H1) Hab). }
    destruct (flip_diagonal al debug t0 t1 st) as [|st'|]; [done| |]; rewrite Hw; [by eexists|done].
  Qed.

  (* C57: flipping twice gives the two triangles back, when the triangles of the first flip are new *)
  Theorem C57_twice_partial st t0 t1 a b c d n0 n1 st' :
    reach_listed al debug st →
    triangle_with debug st t0 [a; c; d] → triangle_with debug st t1 [b; d; c] → a ≠ b →
    orientation_is st t0 1 → orientation_is st t1 1 →
    no_such_triangle debug st [a; b; d] → no_such_triangle debug st [b; a; c] →
    flip_diagonal al debug t0 t1 st = Ret (n0, n1) st' →
    ∃ m st'', flip_diagonal al debug n0 n1 st' = Ret m st'' ∧ extends st' st'' ∧ same_pair m (t0, t1).
  Proof.
    intros Hr H0 H1 Hab Hu0 Hu1 Hno0 Hno1 E. destruct (listed_fine al Hal debug st Hr) as [HI HC].
    apply triangle_with_spans in H0, H1; [|done..].
    pose proof (wp_flip_diagonal al Hal debug st t0 t1 a b c d HI HC (upright_fspans _ _ _ _ _ Hu0 H0) (upright_fspans _ _ _ _ _ Hu1 H1) Hab) as Hw.
    unfold wp in Hw. rewrite E in Hw. clear E. destruct Hw as (HI' & HC' & Hg & Hs & Hup).
    destruct (Hup (no_such_no_triangle _ _ Hno0) (no_such_no_triangle _ _ Hno1)) as [Hn0 Hn1]. cbn [fst snd] in Hs, Hn0, Hn1.
    assert (Hcd : c ≠ d).
    { destruct H0 as (f & s & ws & _ & Hord & Hre). apply order_shape in Hord as (_ & Hnd & _).
      rewrite (reord_perm _ _ _ Hre) in Hnd. rewrite !NoDup_cons in Hnd. set_solver. }
    assert (Hw : wp (flip_diagonal al debug n0 n1) st' (λ ns st', Inv st' ∧ growsd debug st' st' ∧
      (spans st' 2 ns.1 [a; c; d] ∧ spans st' 2 ns.2 [b; d; c] ∨ spans st' 2 ns.1 [b; d; c] ∧ spans st' 2 ns.2 [a; c; d])) (λ _, False) ∧
      wlp (flip_diagonal al debug n0 n1) st' (λ _ st'', growsd debug st' st'')).
    { destruct Hs as [[Hs0 Hs1]|[Hs0 Hs1]].
      - pose proof (wp_flip_diagonal al Hal debug st' n0 n1 d c a b HI' HC'
          (fspans_rotate _ _ _ _ _ (fspans_rotate _ _ _ _ _ (upright_fspans _ _ _ _ _ Hn0 Hs0)))
          (fspans_rotate _ _ _ _ _ (fspans_rotate _ _ _ _ _ (upright_fspans _ _ _ _ _ Hn1 Hs1))) (not_eq_sym Hcd)) as Hw.
        split.
        + eapply wp_mono; [exact Hw| |done]. intros [m0 m1] st2 (HI2 & _ & _ & Hm & _). cbn [fst snd] in *.
          split_and!; [done|apply grows_refl|]. destruct Hm as [[Hm0 Hm1]|[Hm0 Hm1]].
          * right. split; [by do 2 apply spans_rotate|by do 2 apply spans_rotate].
          * left. split; by do 2 apply spans_rotate.
        + eapply wlp_mono; [by eapply wlp_wp|]. by intros m st2 (_ & _ & ? & _).
      - pose proof (wp_flip_diagonal al Hal debug st' n0 n1 c d b a HI' HC'
          (fspans_rotate _ _ _ _ _ (fspans_rotate _ _ _ _ _ (upright_fspans _ _ _ _ _ Hn0 Hs0)))
          (fspans_rotate _ _ _ _ _ (fspans_rotate _ _ _ _ _ (upright_fspans _ _ _ _ _ Hn1 Hs1))) Hcd) as Hw.
        split.
        + eapply wp_mono; [exact Hw| |done]. intros [m0 m1] st2 (HI2 & _ & _ & Hm & _). cbn [fst snd] in *.
          split_and!; [done|apply grows_refl|]. destruct Hm as [[Hm0 Hm1]|[Hm0 Hm1]].
          * left. split; by do 2 apply spans_rotate.
          * right. split; by do 2 apply spans_rotate.
        + eapply wlp_mono; [by eapply wlp_wp|]. by intros m st2 (_ & _ & ? & _). }
    destruct Hw as [Hw Hw']. unfold wp, wlp in Hw, Hw'. destruct (flip_diagonal al debug n0 n1 st') as [[m0 m1] st2|st2|]; [|done..].
    destruct Hw as (HI2 & _ & Hm). cbn [fst snd] in Hm. exists (m0, m1), st2. split_and!; [done|exact (grows_extends _ _ _ Hw')|].
    assert (Hg2 : growsd debug st st2) by (by eapply grows_trans).
    pose proof (spans_grows debug _ _ _ _ _ HI HI2 Hg2 H0) as H0'. pose proof (spans_grows debug _ _ _ _ _ HI HI2 Hg2 H1) as H1'.
    assert (Heq : ∀ o o' vs, spans st2 2 o vs → spans st2 2 o' vs → o = o').
    { intros o o' vs Ho Ho'. destruct (spans_unique st2 2 o o' true vs vs HI2 Ho Ho' (reord_refl vs)) as (_ & _ & _ & _ & Heq). by apply Heq. }
    unfold same_pair. cbn [fst snd]. destruct Hm as [[Hm0 Hm1]|[Hm0 Hm1]].
    - left. f_equal; by eapply Heq.
    - right. f_equal; by eapply Heq.
  Qed.
End flip.

Print Assumptions C57_flip_partial.
Print Assumptions C57_flip_both_reversed.
Print Assumptions C57_flip_one_reversed.
Print Assumptions C57_twice_partial.

(* ---- cases ---- *)

Local Ltac decided :=
  match goal with |- ?P => refine (@by_decision P _ _) end; vm_compute; reflexivity.

(* two triangles on the sides of the segment from 2 to 3, with both orientations of each *)
Definition quad (debug : bool) : topo :=
  run debug [OVertex; OVertex; OVertex; OVertex; OTriangle 1 2 3; OTriangle 4 3 2; OTriangle 2 1 3; OTriangle 3 4 2] topo0.
#[local] Typeclasses Opaque quad.
Lemma quad_listed debug : reach_listed al0 debug (quad debug).
Proof. apply run_listed; [done|constructor]. Qed.

Lemma triangle_with_case debug st t vs us n :
  is_oriented st 2 t → vertices debug st 2 t = Ok us → exchanges n us vs → Nat.Even n → triangle_with debug st t vs.
Proof. intros Ho Hus Hn He. split; [done|]. exists us. split; [done|by exists n]. Qed.

Example C57_flip_case :
  triangle_with true (quad true) 10 [1; 2; 3] ∧ triangle_with true (quad true) 16 [4; 3; 2] ∧
  orientation_is (quad true) 10 1 ∧ orientation_is (quad true) 16 1 ∧
  no_such_triangle true (quad true) [1; 4; 3] ∧ no_such_triangle true (quad true) [4; 1; 2] ∧
  answer_of (flip_diagonal al0 true 10 16 (quad true)) = Some (25, 26).
Proof.
  assert (Hno : ∀ vs, ¬ vs ≡ₚ [1; 2; 3] → ¬ vs ≡ₚ [4; 3; 2] → no_such_triangle true (quad true) vs).
  { intros vs H1 H2 f us [c Hc] Hus.
    assert (Hf : map_Forall (λ k (_ : list nat), k.1 = 2 → k.2 = 8 ∨ k.2 = 11) (fps (quad true))) by decided.
    assert (H8 : fvertex_list true (quad true) 2 8 [] = Ok [1; 2; 3]) by (vm_compute; reflexivity).
    assert (H11 : fvertex_list true (quad true) 2 11 [] = Ok [4; 3; 2]) by (vm_compute; reflexivity).
    specialize (Hf _ _ Hc eq_refl). cbn [snd] in Hf. destruct Hf as [Hf|Hf]; rewrite Hf in Hus.
    - rewrite H8 in Hus. injection Hus as <-. intros Hp. apply H1. symmetry. exact Hp.
    - rewrite H11 in Hus. injection Hus as <-. intros Hp. apply H2. symmetry. exact Hp. }
  split_and!.
  - apply (triangle_with_case _ _ _ _ [1; 2; 3] 0); [unfold is_oriented; decided|vm_compute; reflexivity|constructor|by exists 0].
  - apply (triangle_with_case _ _ _ _ [4; 3; 2] 0); [unfold is_oriented; decided|vm_compute; reflexivity|constructor|by exists 0].
  - exists 8. vm_compute. reflexivity.
  - exists 11. vm_compute. reflexivity.
  - apply Hno; decided.
  - apply Hno; decided.
  - vm_compute. reflexivity.
Qed.
Example C57_one_reversed_case :
  triangle_with false (quad false) 10 [1; 2; 3] ∧ triangle_with false (quad false) 16 [4; 3; 2] ∧
  orientation_is (quad false) 19 (-1) ∧ orientation_is (quad false) 22 (-1) ∧
  vertices false (quad false) 2 19 = Ok [2; 1; 3] ∧ vertices false (quad false) 2 22 = Ok [3; 4; 2].
Proof.
  split_and!.
  - apply (triangle_with_case _ _ _ _ [1; 2; 3] 0); [unfold is_oriented; decided|vm_compute; reflexivity|constructor|by exists 0].
  - apply (triangle_with_case _ _ _ _ [4; 3; 2] 0); [unfold is_oriented; decided|vm_compute; reflexivity|constructor|by exists 0].
  - exists 8. vm_compute. reflexivity.
  - exists 11. vm_compute. reflexivity.
  - vm_compute. reflexivity.
  - vm_compute. reflexivity.
Qed.
