(* C14-C24, C64, C65: accepted compositions, cases that meet the hypotheses of the theorems of
   Properties_Topology.v, and counterexamples to the properties the code does not have. *)
From stdpp Require Import base gmap list.
From Verif Require Import Base M_Perm S_Perm P_Perm M_Topology S_Topology P_Topology P_TopologyErase
  P_TopologyValid P_TopologyOrder P_TopologyVertices P_TopologyCanonical P_TopologyApi P_TopologyApi2
  Properties_Topology.

Local Ltac splits := cbv zeta; repeat match goal with |- _ ∧ _ => split end.

(* ---- C64: the compositions accepted are simplices ---- *)

Lemma segment_entries debug st m :
  Inv st → all_valid debug st → is_Some (ors st !! (1, m)) →
  ∃ p q, p ≠ q ∧ member_entries st 0 m ≡ₚ [(p, 1%Z); (q, (-1)%Z)] ∧ ends st m p q.
Proof.
  intros HI Hall [[f s] Hm]. destruct (i_or _ HI _ _ _ _ Hm) as ([d Hd] & _ & Hs).
  destruct (i_fS _ HI _ _ _ Hd) as [Hlen Hreg]. pose proof (Hall _ _ _ Hd) as Hv.
  destruct d as [|a [|b [|]]]; try done.
  destruct (Hreg a) as [[ga ta] Ha]; [left|]. destruct (Hreg b) as [[gb tb] Hb]; [right; left|].
  destruct (i_or _ HI _ _ _ _ Ha) as (_ & _ & Hta). destruct (i_or _ HI _ _ _ _ Hb) as (_ & _ & Htb).
  unfold is_valid, entry in Hv. cbn [lookup list_lookup deref rbind] in Hv. unfold oriented in Hv.
  rewrite Ha, Hb in Hv. cbn [deref rbind] in Hv. injection Hv as Hv.
  apply andb_true_iff in Hv as [Hv1 Hv2]. apply negb_true_iff, bool_decide_eq_false in Hv1, Hv2.
  assert (Hp : member_entries st 0 m ≡ₚ [(ga, (ta * s)%Z); (gb, (tb * s)%Z)]).
  { unfold member_entries. rewrite Hm, Hd.
    transitivity (sub_entry st 0 s <$> [a; b]).
    - f_equiv. case_decide; [apply swap01_perm|done].
    - cbn [fmap list_fmap].
      replace (sub_entry st 0 s a) with (ga, (ta * s)%Z) by (unfold sub_entry; by rewrite Ha).
      by replace (sub_entry st 0 s b) with (gb, (tb * s)%Z) by (unfold sub_entry; by rewrite Hb). }
  assert (ends st m ga gb ∧ ends st m gb ga) as [E1 E2].
  { split; [exists f, s, a, b, ta, tb|exists f, s, b, a, tb, ta]; splits; auto. }
  assert ((ta * s = 1 ∧ tb * s = -1)%Z ∨ (ta * s = -1 ∧ tb * s = 1)%Z) as [[E E']|[E E']].
  { destruct Hs as [-> | ->], Hta as [-> | ->], Htb as [-> | ->]; try done; lia. }
  - exists ga, gb. splits; [done| |done]. by rewrite Hp, E, E'.
  - exists gb, ga. splits; [done| |done]. rewrite Hp, E, E'. apply perm_swap.
Qed.

Lemma ends_sym st e a b : ends st e a b → ends st e b a.
Proof.
  intros (f & s & p & q & sp & sq & H1 & H2 & H3 & H4). exists f, s, q, p, sq, sp. splits; try done. tauto.
Qed.

Section accepted.
  Context (al : alloc) (Hal : good_alloc al) (debug : bool).

  (* C64, order 1: two oriented vertices are accepted exactly when the vertices differ and one is
     the tail, the other the head *)
  Theorem C64_segment_accepted_iff st p q a b s t :
    ors st !! (0, p) = Some (a, s) → ors st !! (0, q) = Some (b, t) →
    is_valid debug st 1 [p; q] = Ok true ↔ a ≠ b ∧ s ≠ t.
  Proof.
    intros Hp Hq. unfold is_valid, entry, oriented. cbn [lookup list_lookup deref rbind].
    rewrite Hp, Hq. cbn [deref rbind]. rewrite <- (bool_decide_eq_false (a = b)), <- (bool_decide_eq_false (s = t)).
    destruct (bool_decide (a = b)), (bool_decide (s = t)); cbn; naive_solver.
  Qed.

  Lemma valid_triangle st x y z :
    reach al debug st → (∀ o, o ∈ [x; y; z] → is_Some (ors st !! (1, o))) →
    is_valid debug st 2 [x; y; z] = Ok true →
    ∃ a b c, a ≠ b ∧ b ≠ c ∧ c ≠ a ∧ ends st x a b ∧ ends st y b c ∧ ends st z c a.
  Proof.
    intros Hr Hreg Hv. pose proof (reach_Inv al Hal debug _ Hr) as HI.
    pose proof (reach_valid al Hal debug st Hr) as Hall.
    destruct (segment_entries debug st x HI Hall) as (p1 & q1 & N1 & E1 & D1); [apply Hreg; left|].
    destruct (segment_entries debug st y HI Hall) as (p2 & q2 & N2 & E2 & D2); [apply Hreg; right; left|].
    destruct (segment_entries debug st z HI Hall) as (p3 & q3 & N3 & E3 & D3); [apply Hreg; right; right; left|].
    apply (is_valid_true debug st 0 [x; y; z] HI Hreg) in Hv as [_ Hz].
    assert (H : ∀ g, (((if decide (p1 = g) then 1 else 0) - (if decide (q1 = g) then 1 else 0)) +
      ((if decide (p2 = g) then 1 else 0) - (if decide (q2 = g) then 1 else 0)) +
      ((if decide (p3 = g) then 1 else 0) - (if decide (q3 = g) then 1 else 0)) = 0)%Z).
    { intros g. specialize (Hz g). rewrite !comp_entries_cons, !zsum_app in Hz.
      rewrite (zsum_perm g _ _ E1), (zsum_perm g _ _ E2), (zsum_perm g _ _ E3) in Hz.
      cbn [zsum foldr fst snd comp_entries fmap list_fmap concat] in Hz.
      destruct (decide (p1 = g)), (decide (q1 = g)), (decide (p2 = g)), (decide (q2 = g)),
        (decide (p3 = g)), (decide (q3 = g)); cbn in Hz |- *; lia. }
    clear Hz. pose proof (H p1) as A1. pose proof (H p2) as A2. pose proof (H p3) as A3.
    rewrite decide_True in A1 by done. rewrite (decide_False (P := q1 = p1)) in A1 by done.
    rewrite (decide_True (P := p2 = p2)) in A2 by done. rewrite (decide_False (P := q2 = p2)) in A2 by done.
    rewrite (decide_True (P := p3 = p3)) in A3 by done. rewrite (decide_False (P := q3 = p3)) in A3 by done.
    assert (p1 ≠ p2 ∧ p2 ≠ p3 ∧ p3 ≠ p1) as (M1 & M2 & M3).
    { splits; intros ->; repeat case_decide; subst; try done; lia. }
    rewrite (decide_False (P := p2 = p1)), (decide_False (P := p3 = p1)) in A1 by done.
    rewrite (decide_False (P := p1 = p2)), (decide_False (P := p3 = p2)) in A2 by done.
    rewrite (decide_False (P := p1 = p3)), (decide_False (P := p2 = p3)) in A3 by done.
    destruct (decide (q2 = p1)) as [E|E].
    - destruct (decide (q1 = p3)) as [F|F]; [|repeat case_decide; subst; try done; lia].
      destruct (decide (q3 = p2)) as [G|G]; [|repeat case_decide; subst; try done; lia]. subst.
      exists p3, p1, p2. splits; try done; by apply ends_sym.
    - destruct (decide (q3 = p1)) as [E'|E']; [|repeat case_decide; subst; try done; lia].
      destruct (decide (q1 = p2)) as [F|F]; [|repeat case_decide; subst; try done; lia].
      destruct (decide (q2 = p3)) as [G|G]; [|repeat case_decide; subst; try done; lia]. subst.
      exists p1, p2, p3. splits; try done.
  Qed.

  (* C64, order 2: three segments that are accepted are the three sides of a triangle *)
  Theorem C64_accepted_triangle st x y z :
    reach al debug st → legal st (OComposition 2 [x; y; z]) →
    is_valid debug st 2 [x; y; z] = Ok true →
    ∃ a b c, a ≠ b ∧ b ≠ c ∧ c ≠ a ∧ ends st x a b ∧ ends st y b c ∧ ends st z c a.
  Proof.
    intros Hr (_ & _ & Hc) Hv. pose proof (reach_Inv al Hal debug _ Hr) as HI.
    rewrite Forall_forall in Hc. cbn [pred] in Hc. apply valid_triangle; [done| |done].
    intros o Ho. by apply (i_hO _ HI), Hc.
  Qed.
End accepted.

(* ---- cases ---- *)

(* ids are taken in increasing order *)
Definition al0 : alloc := Alloc
  (λ st N, S (max_list ((λ k, k.1.2) <$> map_to_list (fps st))))
  (λ st N, S (max_list ((λ k, k.1.2) <$> map_to_list (ors st)))).

Lemma fresh_id {A} (m : gmap (nat * nat) A) N :
  m !! (N, S (max_list ((λ k, k.1.2) <$> map_to_list m))) = None.
Proof.
  destruct (m !! _) as [x|] eqn:E; [|done]. exfalso. apply elem_of_map_to_list in E.
  assert (Hin : S (max_list ((λ k, k.1.2) <$> map_to_list m)) ∈ (λ k, k.1.2) <$> map_to_list m).
  { apply elem_of_list_fmap. by eexists (_, _, _). }
  apply max_list_elem_of_le in Hin. lia.
Qed.
Lemma al0_good : good_alloc al0.
Proof. intros st N. split; apply fresh_id. Qed.

Global Instance has_dec st N o : Decision (has st N o).
Proof. unfold has. apply _. Defined.
Global Instance hasF_dec st N o : Decision (hasF st N o).
Proof. unfold hasF. apply _. Defined.
Global Instance sign_dec s : Decision (sign s).
Proof. unfold sign. apply _. Defined.
Global Instance legal_dec st x : Decision (legal st x).
Proof. destruct x; cbn [legal]; apply _. Defined.

(* the operations in turn, those that are not legal skipped *)
Fixpoint run (debug : bool) (l : list op) (st : topo) : topo :=
  match l with
  | [] => st
  | x :: l =>
      run debug l
        (if decide (legal st x) then
           match step al0 debug x st with Ret _ st => st | Throw st => st | Undef => st end
         else st)
  end.

Lemma run_reach debug l st : reach al0 debug st → reach al0 debug (run debug l st).
Proof.
  revert st. induction l as [|x l IH]; intros st Hr; cbn [run]; [done|]. apply IH.
  destruct (decide (legal st x)) as [Hl|]; [|done]. destruct (step al0 debug x st) eqn:E; [| |done].
  - by eapply reach_ret.
  - by eapply reach_throw.
Qed.
Definition no_composition (x : op) : bool := match x with OComposition _ _ => false | _ => true end.
Lemma run_listed debug l st :
  forallb no_composition l = true → reach_listed al0 debug st → reach_listed al0 debug (run debug l st).
Proof.
  revert st. induction l as [|x l IH]; intros st Hf Hr; cbn [run]; [done|].
  cbn [forallb] in Hf. apply andb_true_iff in Hf as [Hx Hf]. apply IH; [done|].
  assert (Hw : well_listed debug st x) by (by destruct x).
  destruct (decide (legal st x)) as [Hl|]; [|done]. destruct (step al0 debug x st) eqn:E; [| |done].
  - by eapply listed_ret.
  - by eapply listed_throw.
Qed.

Definition decides (P : Prop) {d : Decision P} : bool := bool_decide P.
Lemma by_decision (P : Prop) {d : Decision P} : decides P = true → P.
Proof. apply bool_decide_eq_true. Qed.
Local Ltac decided :=
  match goal with |- ?P => refine (@by_decision P _ _) end; vm_compute; reflexivity.

(* a triangle, its flip and the tetrahedron on it *)
Definition hist1 := [OVertex; OVertex; OVertex; OVertex; OTriangle 1 2 3; OTetrahedron 2 1 3 4].
Definition st1 := run true hist1 topo0.
#[local] Typeclasses Opaque has hasF sign legal run st1 step.
Lemma st1_reach : reach al0 true st1.
Proof. apply run_reach. constructor. Qed.
Lemma st1_listed : reach_listed al0 true st1.
Proof. apply run_listed; [done|constructor]. Qed.

Definition answer_of {A} (x : out A) : option A := match x with Ret a _ => Some a | _ => None end.
Definition after {A} (x : out A) : topo := match x with Ret _ st => st | Throw st => st | Undef => topo0 end.
Definition throws {A} (x : out A) : bool := match x with Throw _ => true | _ => false end.
Lemma answer_ret {A} (x : out A) a : answer_of x = Some a → x = Ret a (after x).
Proof. destruct x; cbn; congruence. Qed.
Lemma throws_spec {A} (x : out A) : throws x = true → ∃ st, x = Throw st.
Proof. destruct x; cbn; try done. eauto. Qed.

(* C14, C15, C17, C18: asking for an even reordering gives the registered object; an odd one gives
   its flip *)
Example C14_case : legal st1 (OTriangle 1 2 3) ∧ is_request (OTriangle 1 2 3) ∧
  answer_of (step al0 true (OTriangle 1 2 3) st1) = Some (AOriented 2 10).
Proof. splits; [decided|exact I|vm_compute; reflexivity]. Qed.
Example C15_case :
  let st := run true [OVertex; OVertex; OVertex; OSegment 1 2; OSegment 2 3; OSegment 3 1] topo0 in
  legal st (OComposition 2 [3; 6; 9]) ∧ legal st (OComposition 2 [6; 9; 3]) ∧
  answer_of (step al0 true (OComposition 2 [3; 6; 9]) st) = Some (AOriented 2 10) ∧
  answer_of (step al0 true (OComposition 2 [6; 9; 3]) (after (step al0 true (OComposition 2 [3; 6; 9]) st)))
    = Some (AOriented 2 10) ∧
  answer_of (step al0 true (OComposition 2 [6; 3; 9]) (after (step al0 true (OComposition 2 [3; 6; 9]) st)))
    = Some (AOriented 2 11).
Proof. splits; [decided|decided|vm_compute; reflexivity..]. Qed.
Example C16_case : legal st1 (OFlip 3 26) ∧
  answer_of (step al0 true (OFlip 3 26) st1) = Some (AOriented 3 27) ∧
  vertices true (after (step al0 true (OFlip 3 26) st1)) 3 26 = Ok [2; 1; 3; 4] ∧
  vertices true (after (step al0 true (OFlip 3 26) st1)) 3 27 = Ok [1; 2; 3; 4].
Proof. splits; [decided|vm_compute; reflexivity..]. Qed.
Example C17_case : legal st1 (OTetrahedron 4 3 2 1) ∧ NoDup [4; 3; 2; 1] ∧
  answer_of (step al0 true (OTetrahedron 4 3 2 1) st1) = Some (AOriented 3 30) ∧
  vertices true (after (step al0 true (OTetrahedron 4 3 2 1) st1)) 3 30 = Ok [1; 2; 3; 4].
Proof. splits; [decided|decided|vm_compute; reflexivity..]. Qed.
Example C17_repeated_case : legal st1 (OTriangle 1 2 1) ∧ ¬ NoDup [1; 2; 1] ∧
  answer_of (step al0 true (OTriangle 1 2 1) st1) = None.
Proof. splits; [decided|decided|vm_compute; reflexivity]. Qed.
(* C19 *)
Example C19_case : exists_segment true st1 1 4 = Ok true ∧ exists_segment true st1 4 1 = Ok true ∧
  exists_segment true topo0 1 2 = Ok false.
Proof. splits; vm_compute; reflexivity. Qed.
(* C20, C21: the tetrahedron is erased, with the three triangles only it used; the triangle the
   client holds stays *)
Example C21_case :
  has st1 3 26 ∧ ¬ used_elsewhere st1 3 26 ∧
  let st := after (step al0 true (OErase 3 26) st1) in
  is_oriented st 2 10 ∧ ¬ is_oriented st 3 26 ∧ ¬ is_oriented st 2 14 ∧ ¬ is_oriented st 2 19 ∧
  ¬ is_oriented st 1 16 ∧ is_oriented st 1 3.
Proof.
  splits; [decided| |unfold is_oriented; decided..].
  intros [(f & c & Hf & Hc)|H]; [|revert H; decided].
  assert (Hno : map_Forall (λ k (_ : list nat), k.1 ≠ 4) (fps st1)) by decided.
  by apply (Hno _ _ Hf).
Qed.
Example C21_used_case : has (after (step al0 true (OMember 3 26 1) st1)) 2 19 ∧
  used_elsewhere (after (step al0 true (OMember 3 26 1) st1)) 2 19.
Proof.
  split; [decided|]. left. exists 15, [14; 19; 22; 25]. split; [vm_compute; reflexivity|decided].
Qed.
(* C22 *)
Example C22_case :
  let st := run true [OVertex; OVertex; OVertex; OSegment 1 2; OSegment 2 3; OSegment 3 1; OSegment 3 2] topo0 in
  legal st (OComposition 2 [3; 6; 9]) ∧ is_valid true st 2 [3; 6; 9] = Ok true ∧
  ors st !! (1, 6) = Some (5, 1%Z) ∧ ors st !! (1, 10) = Some (5, (-1)%Z) ∧
  is_valid true st 2 [3; 10; 9] = Ok false.
Proof. splits; [decided|vm_compute; reflexivity..]. Qed.
(* C23 *)
Example C23_case : legal st1 (OSegment 2 1) ∧
  answer_of (step al0 true (OSegment 2 1) st1) = Some (AOriented 1 11) ∧
  composition st1 2 10 = Ok [3; 6; 9] ∧ ors st1 !! (2, 10) = Some (8, 1%Z).
Proof. splits; [decided|vm_compute; reflexivity..]. Qed.
(* C64 *)
Example C64_case :
  let st := run true [OVertex; OVertex; OVertex; OSegment 1 2; OSegment 1 3; OSegment 2 3; OFlip 1 5] topo0 in
  legal st (OComposition 2 [3; 8; 7]) ∧ is_valid true st 2 [3; 8; 7] = Ok true.
Proof. split; [decided|vm_compute; reflexivity]. Qed.

(* ---- counterexamples ---- *)

(* C17, C18: after a triangle was composed from its segments listed in another order than around its
   boundary, the triangle asked for by its vertices is the flip: a debug build stops on its own
   assertion, a release build returns a triangle of the wrong orientation *)
Theorem C17_vertices_refuted :
  ∃ st, reach al0 false st ∧ legal st (OTriangle 1 2 3) ∧
    ∃ o st', step al0 false (OTriangle 1 2 3) st = Ret (AOriented 2 o) st' ∧
      vertices false st' 2 o = Ok [2; 1; 3].
Proof.
  exists (run false [OVertex; OVertex; OVertex; OSegment 1 2; OSegment 3 1; OSegment 2 3;
    OComposition 2 [3; 6; 9]] topo0).
  splits; [apply run_reach; constructor|decided|]. exists 11. eexists. split; [apply answer_ret|]; vm_compute; reflexivity.
Qed.
Theorem C17_vertices_debug_refuted :
  ∃ st, reach al0 true st ∧ legal st (OTriangle 1 2 3) ∧
    ∃ st', step al0 true (OTriangle 1 2 3) st = Throw st'.
Proof.
  exists (run true [OVertex; OVertex; OVertex; OSegment 1 2; OSegment 3 1; OSegment 2 3;
    OComposition 2 [3; 6; 9]] topo0).
  splits; [apply run_reach; constructor|decided|]. apply throws_spec. vm_compute; reflexivity.
Qed.
(* C18: rebuilding that triangle from its own vertices() does not return it *)
Theorem C18_rebuild_refuted :
  ∃ st, reach al0 false st ∧ has st 2 10 ∧ vertices false st 2 10 = Ok [1; 2; 3] ∧
    answer_of (step al0 false (OTriangle 1 2 3) st) = Some (AOriented 2 11).
Proof.
  exists (run false [OVertex; OVertex; OVertex; OSegment 1 2; OSegment 3 1; OSegment 2 3;
    OComposition 2 [3; 6; 9]] topo0).
  splits; [apply run_reach; constructor|decided|vm_compute; reflexivity..].
Qed.
(* C17: a segment composed of its head and its tail has them exchanged, and a triangle on its
   vertices is refused in every build *)
Theorem C23_composed_segment_refuted debug :
  ∃ st, reach al0 debug st ∧ has st 1 3 ∧
    ors st !! (0, 1) = Some (1, (-1)%Z) ∧ ors st !! (0, 2) = Some (2, 1%Z) ∧
    composition st 1 3 = Ok [2; 1] ∧ tail st 3 = Ok 2 ∧ head st 3 = Ok 1 ∧
    legal st (OTriangle 1 2 3) ∧ ∃ st', step al0 debug (OTriangle 1 2 3) st = Throw st'.
Proof.
  exists (run debug [OVertex; OVertex; OVertex; OOriented 0 1 (-1); OOriented 0 2 1;
    OComposition 1 [2; 1]] topo0).
  destruct debug; (splits; [apply run_reach; constructor|decided|vm_compute; reflexivity..|decided|];
    apply throws_spec; vm_compute; reflexivity).
Qed.
(* C20: in a release build vertices() of an accepted tetrahedron writes past the end of an array *)
Theorem C20_vertices_release_refuted :
  ∃ st, reach al0 false st ∧ has st 3 23 ∧ vertices false st 3 23 = Ub.
Proof.
  exists (run false [OVertex; OVertex; OVertex; OVertex; OVertex; OVertex; OTriangle 1 2 3;
    OTriangle 4 5 6; OFlip 2 10; OFlip 2 20; OComposition 3 [10; 20; 21; 22]] topo0).
  splits; [apply run_reach; constructor|decided|vm_compute; reflexivity].
Qed.
(* C21: in a release build, erasing a simplex whose composition lists a member twice leaves that
   member registered for ever: nothing and nobody uses it *)
Theorem C21_erase_release_refuted :
  ∃ st, reach al0 false st ∧ has st 3 12 ∧ ¬ used_elsewhere st 3 12 ∧ goneO st 3 12 2 10 ∧
    is_oriented (after (step al0 false (OErase 3 12) st)) 2 10.
Proof.
  exists (run false [OVertex; OVertex; OVertex; OTriangle 1 2 3; OFlip 2 10;
    OComposition 3 [10; 10; 11; 11]; ODrop 2 10; ODrop 2 11] topo0).
  set (st := run _ _ _).
  assert (Hno : map_Forall (λ k (_ : list nat), k.1 ≠ 4) (fps st)) by decided.
  assert (Hu : ¬ used_elsewhere st 3 12).
  { intros [(f & c & Hf & Hc)|H]; [|revert H; decided]. by apply (Hno _ _ Hf). }
  assert (H3 : map_Forall (λ k (_ : list nat), k.1 = 3 → k.2 = 8) (fps st)) by decided.
  assert (Ho : map_Forall (λ k (x : nat * Z), k.1 = 3 → k.2 = 12) (ors st)) by decided.
  assert (Hg : goneO st 3 12 3 12) by constructor.
  assert (HgF : goneF st 3 12 3 8).
  { apply (gone_footprint st 3 12 3 8 12 1%Z); [done|vm_compute; reflexivity|vm_compute; reflexivity|].
    intros o' s' H. pose proof (Ho _ _ H eq_refl) as E. cbn in E. by subst. }
  splits; [apply run_reach; constructor|decided|done| |unfold is_oriented; decided].
  eapply (gone_member st 3 12 2 8 [10; 10; 11; 11] 10); [done|vm_compute; reflexivity|left|vm_compute; reflexivity|].
  intros f' c' H _. pose proof (H3 _ _ H eq_refl) as E. cbn in E. by subst.
Qed.
(* C23: the composition of a triangle whose orientation is opposite to that of its footprint is not
   head-tail connected in cyclic order *)
Theorem C23_triangle_head_tail_refuted :
  ∃ st, reach_listed al0 true st ∧ has st 2 14 ∧ vertices true st 2 14 = Ok [2; 1; 3] ∧
    composition st 2 14 = Ok [6; 3; 9] ∧ head_tail_connected st 6 3 = Ok false.
Proof.
  exists (run true [OVertex; OVertex; OVertex; OTriangle 1 2 3; OTriangle 2 1 3] topo0).
  splits; [apply run_listed; [done|constructor]|decided|vm_compute; reflexivity..].
Qed.
(* C24: edges() of a tetrahedron built from its vertices lists each of the six edges twice, once in
   each direction *)
Theorem C24_number_of_edges_refuted :
  ∃ st es, reach_listed al0 true st ∧ has st 3 25 ∧ edges st 3 25 = Ok es ∧ length es = 12.
Proof.
  exists (run true [OVertex; OVertex; OVertex; OVertex; OTetrahedron 1 2 3 4] topo0). eexists.
  splits; [apply run_listed; [done|constructor]|decided|vm_compute; reflexivity..].
Qed.
(* C64: a composition of four triangles that is not a tetrahedron is accepted in every build; the
   result does not pass its own sanity check *)
Theorem C64_accepted_tetrahedron_refuted debug :
  ∃ st c o st', reach al0 debug st ∧ legal st (OComposition 3 c) ∧ is_valid debug st 3 c = Ok true ∧
    step al0 debug (OComposition 3 c) st = Ret (AOriented 3 o) st' ∧ sanity_check st' 3 o = Ok false.
Proof.
  exists (run debug [OVertex; OVertex; OVertex; OVertex; OVertex; OVertex; OTriangle 1 2 3;
    OTriangle 4 5 6; OFlip 2 10; OFlip 2 20] topo0), [10; 20; 21; 22], 23. eexists.
  destruct debug; (splits; [apply run_reach; constructor|decided|vm_compute; reflexivity|apply answer_ret|];
    vm_compute; reflexivity).
Qed.
(* C65: the simplex returned for a composition need not have these members: the segments of the
   boundary of a triangle, all flipped, in the same order, give the same triangle *)
Theorem C65_members_refuted :
  ∃ st, reach_listed al0 true st ∧ legal st (OComposition 2 [11; 12; 13]) ∧
    is_valid true st 2 [11; 12; 13] = Ok true ∧ has st 2 10 ∧ composition st 2 10 = Ok [3; 6; 9] ∧
    ∃ st', step al0 true (OComposition 2 [11; 12; 13]) st = Ret (AOriented 2 10) st'.
Proof.
  exists (run true [OVertex; OVertex; OVertex; OTriangle 1 2 3; OSegment 2 1; OSegment 3 2;
    OSegment 1 3] topo0).
  splits; [apply run_listed; [done|constructor]|decided|vm_compute; reflexivity|decided|vm_compute; reflexivity|].
  eexists. apply answer_ret. vm_compute; reflexivity.
Qed.

Print Assumptions C64_segment_accepted_iff.
Print Assumptions C64_accepted_triangle.
Print Assumptions C17_vertices_refuted.
Print Assumptions C17_vertices_debug_refuted.
Print Assumptions C18_rebuild_refuted.
Print Assumptions C23_composed_segment_refuted.
Print Assumptions C20_vertices_release_refuted.
Print Assumptions C21_erase_release_refuted.
Print Assumptions C23_triangle_head_tail_refuted.
Print Assumptions C24_number_of_edges_refuted.
Print Assumptions C64_accepted_tetrahedron_refuted.
Print Assumptions C65_members_refuted.
