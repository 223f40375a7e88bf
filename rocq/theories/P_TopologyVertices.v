(* vertices() and the validity check for footprints registered in canonical order. *)
From stdpp Require Import base gmap list.
From Verif Require Import Base M_Perm S_Perm P_Perm M_Topology S_Topology P_Topology P_TopologyErase
  P_TopologyValid P_TopologyOrder.

Local Ltac splits := repeat match goal with |- _ ∧ _ => split end.

(* ---- vertices ---- *)
Lemma elem_of_set_insert x y l : x ∈ set_insert y l ↔ x = y ∨ x ∈ l.
Proof.
  induction l as [|z l IH]; cbn [set_insert].
  - rewrite elem_of_list_singleton. split; [auto|]. intros [->|H]; [done|inversion H].
  - destruct (y <? z); [by rewrite elem_of_cons|].
    destruct (Nat.eqb_spec y z) as [->|Hne].
    + split; [auto|]. intros [->|H]; [left|done].
    + rewrite !elem_of_cons, IH. tauto.
Qed.

Lemma faces_cover N ws x :
  length ws = S N → 2 ≤ N ≤ 3 → x ∈ ws ↔ ∃ fv, fv ∈ faces N ws ∧ x ∈ fv.
Proof.
  intros Hlen HN. destruct N as [|[|[|[|]]]]; try lia.
  - destruct ws as [|a [|b [|c [|]]]]; try done. cbn [faces].
    split; [intros [->|[->|[->|H]%elem_of_cons]%elem_of_cons]%elem_of_cons|].
    + exists [a; b]. set_solver.
    + exists [a; b]. set_solver.
    + exists [b; c]. set_solver.
    + inversion H.
    + intros (fv & [->|[->|[->|H]%elem_of_cons]%elem_of_cons]%elem_of_cons & Hx);
        [set_solver..|inversion H].
  - destruct ws as [|a [|b [|c [|d [|]]]]]; try done. cbn [faces].
    split; [intros [->|[->|[->|[->|H]%elem_of_cons]%elem_of_cons]%elem_of_cons]%elem_of_cons|].
    + exists [a; b; c]. set_solver.
    + exists [a; b; c]. set_solver.
    + exists [a; b; c]. set_solver.
    + exists [b; d; c]. set_solver.
    + inversion H.
    + intros (fv & [->|[->|[->|[->|H]%elem_of_cons]%elem_of_cons]%elem_of_cons]%elem_of_cons & Hx);
        [set_solver..|inversion H].
Qed.

Lemma fvertex_set_order st N f ws vs :
  order st N f ws →
  ∃ r, fvertex_set st N f vs = Ok r ∧ ∀ x, x ∈ r ↔ x ∈ vs ∨ x ∈ ws.
Proof.
  revert f ws vs. induction N as [|N IH]; intros f ws vs Hord; [done|]. destruct N as [|N].
  - destruct Hord as (p & q & a & b & -> & Hab & Hf & Hp & Hq).
    cbn [fvertex_set]. unfold fcomposition. rewrite Hf. cbn [deref rbind rfold].
    unfold footprint, oriented. rewrite Hp, Hq. cbn [deref rbind fst].
    eexists. split; [done|]. intros x. rewrite !elem_of_set_insert. set_solver.
  - destruct (order_shape _ _ _ _ Hord) as (Hlen & _ & HN).
    rewrite order_SS in Hord. destruct Hord as (_ & _ & _ & c & Hf & HF).
    rewrite fvertex_set_SS. unfold fcomposition. rewrite Hf. cbn [deref rbind].
    assert (∃ r, rfold (λ vs o, let! g := footprint st (S N) o in fvertex_set st (S N) g vs) vs c =
              Ok r ∧ ∀ x, x ∈ r ↔ x ∈ vs ∨ ∃ fv, fv ∈ faces (S (S N)) ws ∧ x ∈ fv) as (r & Hr & Hx).
    { clear -HF IH. revert vs. induction HF as [|o fv c fs (g & b & us & Ho & Hg & Hr) _ IHF]; intros vs.
      - exists vs. split; [done|]. intros x. split; [auto|]. intros [?|(fv & H & _)]; [done|inversion H].
      - cbn [rfold]. unfold footprint at 1, oriented. rewrite Ho. cbn [deref rbind fst].
        destruct (IH g us vs Hg) as (r1 & -> & H1). cbn [rbind].
        destruct (IHF r1) as (r & -> & H2). exists r. split; [done|]. intros x.
        rewrite H2, H1. apply reord_perm in Hr. rewrite Hr. setoid_rewrite elem_of_cons.
        naive_solver. }
    exists r. split; [done|]. intros x. rewrite Hx. rewrite <- faces_cover; [done|done|lia].
Qed.

Lemma append_new_one vs l d :
  (∀ x, x ∈ l → x ∈ vs ∨ x = d) → d ∈ l → d ∉ vs → append_new vs l = vs ++ [d].
Proof.
  intros Hl Hd Hn. unfold append_new.
  assert (Hrest : ∀ l, (∀ x, x ∈ l → x ∈ vs ∨ x = d) →
    fold_left (λ vs v, if decide (v ∈ vs) then vs else vs ++ [v]) l (vs ++ [d]) = vs ++ [d]).
  { clear. induction l as [|y l IH]; intros Hl; [done|]. cbn [fold_left].
    rewrite decide_True; [apply IH; intros; apply Hl; by right|].
    rewrite elem_of_app, elem_of_list_singleton. apply Hl. left. }
  induction l as [|y l IH]; [inversion Hd|]. cbn [fold_left].
  destruct (decide (y ∈ vs)) as [Hy|Hy].
  - apply IH; [intros; apply Hl; by right|]. apply elem_of_cons in Hd as [->|]; done.
  - destruct (Hl y) as [Hin|Heq]; [left|done|subst y]. apply Hrest. intros. apply Hl. by right.
Qed.

Lemma reord_app_r b l l' k : reord b l l' → reord b (l ++ k) (l' ++ k).
Proof.
  intros (n & Hn & H). exists n. split; [done|]. clear Hn.
  induction H as [l|n l l1 l2 He _ IH]; [constructor|]. econstructor; [|exact IH].
  destruct He as (u & a & m & x & v & -> & ->). exists u, a, m, x, (v ++ k).
  split; by rewrite <- app_assoc; cbn [app]; rewrite <- app_assoc.
Qed.
Lemma reord_nodup b l l' : reord b l l' → NoDup l' → NoDup l.
Proof. intros ->%reord_perm. done. Qed.

(* the first two faces *)
Lemma faces_first N ws :
  length ws = S N → 2 ≤ N ≤ 3 → NoDup ws →
  ∃ f0 f1 d rest, faces N ws = f0 :: f1 :: rest ∧ ws = f0 ++ [d] ∧ d ∈ f1 ∧ d ∉ f0 ∧
    ∀ x, x ∈ f1 → x ∈ f0 ∨ x = d.
Proof.
  intros Hlen HN Hnd. destruct N as [|[|[|[|]]]]; try lia.
  - destruct ws as [|a [|b [|c [|]]]]; try done. cbn [faces].
    exists [a; b], [b; c], c. eexists. splits; [done..|set_solver| |set_solver].
    rewrite !NoDup_cons in Hnd. set_solver.
  - destruct ws as [|a [|b [|c [|d [|]]]]]; try done. cbn [faces].
    exists [a; b; c], [b; d; c], d. eexists. splits; [done..|set_solver| |set_solver].
    rewrite !NoDup_cons in Hnd. set_solver.
Qed.

Lemma decide_zs {A} b (x y : A) :
  (if decide (zs b = (-1)%Z) then x else y) = if b then y else x.
Proof. by destruct b. Qed.

Lemma fvertex_list_order debug st N f ws :
  order st N f ws → ∃ us, fvertex_list debug st N f [] = Ok us ∧ reord true us ws.
Proof.
  revert f ws. induction N as [|N IH]; intros f ws Hord; [done|]. destruct N as [|N].
  - destruct Hord as (p & q & a & b & -> & Hab & Hf & Hp & Hq). exists [a; b].
    split; [|apply reord_refl]. cbn [fvertex_list]. unfold fcomposition. rewrite Hf.
    cbn [deref rbind entry lookup list_lookup]. unfold entry, footprint, oriented.
    cbn [lookup list_lookup deref rbind]. rewrite Hp. cbn [deref rbind]. rewrite Hq. done.
  - destruct (order_shape _ _ _ _ Hord) as (Hlen & Hnd & HN).
    rewrite order_SS in Hord. destruct Hord as (_ & _ & _ & c & Hf & HF).
    destruct (faces_first (S (S N)) ws Hlen ltac:(lia) Hnd) as (f0 & f1 & d & rest & Hfs & Hws & Hd1 & Hd0 & Hin).
    rewrite Hfs in HF. inversion HF as [|o0 ? c' ? Ho0 HF']; subst c.
    inversion HF' as [|o1 ? c'' ? Ho1 _]; subst c'.
    destruct Ho0 as (g0 & b0 & us0 & Ho0 & Hg0 & Hr0). destruct Ho1 as (g1 & b1 & us1 & Ho1 & Hg1 & Hr1).
    rewrite fvertex_list_SS. unfold fcomposition. rewrite Hf.
    cbn [deref rbind]. unfold entry. cbn [lookup list_lookup deref rbind].
    unfold footprint, oriented. rewrite Ho0. cbn [deref rbind].
    destruct (IH g0 us0 Hg0) as (ls & -> & Hls). cbn [rbind]. rewrite decide_zs.
    set (ls' := if b0 then ls else swap01 ls).
    destruct (order_shape _ _ _ _ Hg0) as (Hlen0 & _ & _).
    assert (Hlls : length ls = S (S N)) by (rewrite (Permutation_length (reord_perm _ _ _ Hls)); done).
    assert (Hls' : reord true ls' f0).
    { unfold ls'. destruct b0.
      - apply (reord_trans true true _ us0); done.
      - apply (reord_trans false false _ us0); [|done].
        apply (reord_trans false true _ ls); [|done]. apply swap01_reord. lia. }
    assert (length ls' = S (S N)) as ->.
    { rewrite (Permutation_length (reord_perm _ _ _ Hls')).
      rewrite Hws, app_length in Hlen. cbn in Hlen. lia. }
    rewrite Nat.eqb_refl. unfold assert_. cbn [negb]. rewrite andb_false_r. cbn [rbind].
    rewrite Ho1. cbn [deref rbind fst].
    destruct (fvertex_set_order st (S N) g1 us1 [] Hg1) as (r & -> & Hr). cbn [rbind].
    exists (ls' ++ [d]).
    assert (Hr' : ∀ x, x ∈ r ↔ x ∈ f1).
    { intros x. rewrite Hr, (reord_perm _ _ _ Hr1). split; [|auto]. intros [H|H]; [inversion H|done]. }
    assert (Hmem : ∀ x, x ∈ ls' ↔ x ∈ f0) by (intros x; by rewrite (reord_perm _ _ _ Hls')).
    split.
    + f_equal. apply append_new_one.
      * intros x. rewrite Hr', Hmem. apply Hin.
      * by rewrite Hr'.
      * by rewrite Hmem.
    + rewrite Hws. by apply reord_app_r.
Qed.

Lemma vertices_spans debug st N o vs :
  spans st N o vs → ∃ us, vertices debug st N o = Ok us ∧ reord true us vs.
Proof.
  intros (f & b & ws & Ho & Hord & Hr). destruct (order_shape _ _ _ _ Hord) as (Hlen & Hnd & HN).
  unfold vertices, oriented. rewrite Ho. cbn [deref rbind].
  destruct (fvertex_list_order debug st N f ws Hord) as (ls & -> & Hls). cbn [rbind].
  rewrite decide_zs. set (ls' := if b then ls else swap01 ls).
  assert (Hlls : length ls = S N) by (by rewrite (Permutation_length (reord_perm _ _ _ Hls))).
  assert (Hls' : reord true ls' vs).
  { unfold ls'. destruct b.
    - apply (reord_trans true true _ ws); done.
    - apply (reord_trans false false _ ws); [|done].
      apply (reord_trans false true _ ls); [|done]. apply swap01_reord. lia. }
  assert (length ls' = S N) as ->.
  { rewrite (Permutation_length (reord_perm _ _ _ Hls')).
    by rewrite <- (Permutation_length (reord_perm _ _ _ Hr)). }
  rewrite Nat.eqb_refl. unfold assert_. cbn [negb]. rewrite andb_false_r. cbn [rbind].
  rewrite Nat.ltb_irrefl. by exists ls'.
Qed.

(* a segment's vertices are its tail and its head *)
Lemma tail_head_spans st o a b :
  Inv st → spans st 1 o [a; b] → tail st o = Ok a ∧ head st o = Ok b.
Proof.
  intros HI (f & t & ws & Ho & (p & q & x & y & -> & Hxy & Hf & Hp & Hq) & Hr).
  unfold tail, head, composition, oriented. rewrite Ho. cbn [deref rbind].
  unfold fcomposition. rewrite Hf. cbn [deref rbind]. rewrite decide_zs.
  apply reord2 in Hr as [[-> [= -> ->]]|[-> [= -> ->]]]; [| |done];
    unfold entry; cbn [swap01 lookup list_lookup deref rbind];
    unfold footprint, oriented; rewrite Hp, Hq; done.
Qed.

(* sanity check *)
Lemma set_insert_nodup_length (vs l : list nat) :
  NoDup l → (∀ x, x ∈ vs ↔ x ∈ l) → NoDup vs → length vs = length l.
Proof. intros Hnd Hx Hnd'. apply Permutation_length. by apply NoDup_Permutation. Qed.

(* strictly sorted lists stay so *)
Inductive sorted_ : list nat → Prop :=
  | sorted_nil : sorted_ []
  | sorted_cons x l : (∀ y, y ∈ l → x < y) → sorted_ l → sorted_ (x :: l).
Lemma sorted_nodup l : sorted_ l → NoDup l.
Proof.
  induction 1 as [|x l Hx _ IH]; [constructor|]. apply NoDup_cons. split; [|done].
  intros H. specialize (Hx x H). lia.
Qed.
Lemma set_insert_sorted x l : sorted_ l → sorted_ (set_insert x l).
Proof.
  induction 1 as [|y l Hy Hl IH]; cbn [set_insert].
  - constructor; [|constructor]. intros z Hz. inversion Hz.
  - destruct (Nat.ltb_spec x y) as [Hlt|Hge].
    + constructor; [|by constructor]. intros z [->|Hz]%elem_of_cons; [done|].
      specialize (Hy z Hz). lia.
    + destruct (Nat.eqb_spec x y) as [->|Hne]; [by constructor|].
      constructor; [|done]. intros z [->|Hz]%elem_of_set_insert; [lia|by apply Hy].
Qed.
Lemma fvertex_set_sorted st N f vs r :
  sorted_ vs → fvertex_set st N f vs = Ok r → sorted_ r.
Proof.
  revert f vs r. induction N as [|N IH]; intros f vs r Hs; [done|].
  assert (Hfold : ∀ (step : list nat → nat → res (list nat)) c vs r, sorted_ vs →
    (∀ vs o r, sorted_ vs → step vs o = Ok r → sorted_ r) → rfold step vs c = Ok r → sorted_ r).
  { clear. intros step c. induction c as [|o c IH]; intros vs r Hs Hstep; cbn [rfold]; [by intros [= <-]|].
    intros (r1 & H1 & H)%rbind_ok. eapply (IH r1); eauto. }
  destruct N as [|N]; [cbn [fvertex_set]|rewrite fvertex_set_SS]; intros (c & _ & H)%rbind_ok;
    (eapply Hfold; [exact Hs| |exact H]); clear vs r Hs H; intros vs o r Hs (g & _ & H)%rbind_ok.
  - injection H as <-. by apply set_insert_sorted.
  - by eapply IH.
Qed.

Lemma fsanity_order st N f ws : order st N f ws → fsanity st N f = Ok true.
Proof.
  revert f ws. induction N as [|N IH]; intros f ws Hord; [done|].
  assert (Hset : ∃ r, fvertex_set st (S N) f [] = Ok r ∧ length r = S (S N)).
  { destruct (fvertex_set_order st (S N) f ws [] Hord) as (r & Hr & Hx). exists r. split; [done|].
    destruct (order_shape _ _ _ _ Hord) as (<- & Hnd & _). apply set_insert_nodup_length; [done| |].
    - intros x. rewrite Hx. split; [|auto]. intros [H|H]; [inversion H|done].
    - apply sorted_nodup. eapply fvertex_set_sorted; [|exact Hr]. constructor. }
  destruct Hset as (r & Hr & Hlen).
  assert (∃ c, fps st !! (S N, f) = Some c ∧
    rfold (λ ok o, if ok : bool then let! g := footprint st N o in fsanity st N g else Ok false)
      true c = Ok true) as (c & Hc & Hfold).
  { destruct N as [|N].
    - destruct Hord as (p & q & a & b & -> & Hab & Hf & Hp & Hq). eexists. split; [exact Hf|].
      cbn [rfold]. unfold footprint, oriented. rewrite Hp, Hq. done.
    - rewrite order_SS in Hord. destruct Hord as (_ & _ & _ & c & Hf & HF). exists c. split; [done|].
      clear -HF IH. induction HF as [|o fv c fs (g & b & us & Ho & Hg & Hr) _ IHF]; [done|].
      cbn [rfold]. unfold footprint at 1, oriented. rewrite Ho. cbn [deref rbind fst].
      rewrite (IH g us Hg). cbn [rbind]. apply IHF. }
  change (fsanity st (S N) f) with
    (let! c := fcomposition st (S N) f in
     let! ok := rfold (λ ok o, if ok : bool then let! g := footprint st N o in fsanity st N g
                               else Ok false) true c in
     if ok then let! vs := fvertex_set st (S N) f [] in Ok (length vs =? S (S N)) else Ok false).
  unfold fcomposition. rewrite Hc. cbn [deref rbind]. rewrite Hfold. cbn [rbind].
  rewrite Hr. cbn [rbind]. by rewrite Hlen, Nat.eqb_refl.
Qed.

(* ---- the validity check ---- *)

(* the signed edge from [a] to [b] *)
Definition sedge (st : topo) (a b : nat) (e : nat * Z) : Prop :=
  ∃ ws t, order st 1 e.1 ws ∧ reord t ws [a; b] ∧ e.2 = zs t.

Lemma sedge_det st a b e e' : Inv st → sedge st a b e → sedge st a b e' → e = e'.
Proof.
  destruct e as [g z], e' as [g' z']. intros HI (ws & t & Ho & Hr & Hz) (ws' & t' & Ho' & Hr' & Hz').
  cbn [fst snd] in *. assert (g = g') as <-.
  { eapply (order_unique st 1 HI); [exact Ho|exact Ho'|].
    by rewrite (reord_perm _ _ _ Hr), (reord_perm _ _ _ Hr'). }
  pose proof (order_eq _ _ _ _ _ HI Ho Ho') as <-. f_equal. subst. f_equal.
  eapply reord_det; [|exact Hr|exact Hr']. by destruct (order_shape _ _ _ _ Ho) as (_ & ? & _).
Qed.
Lemma sedge_flip st a b g z : sedge st a b (g, z) → sedge st b a (g, (- z)%Z).
Proof.
  intros (ws & t & Ho & Hr & Hz). cbn [fst snd] in *. exists ws, (negb t). cbn [fst snd].
  splits; [done| |subst; by destruct t].
  replace (negb t) with (eqb t false) by (by destruct t). eapply reord_trans; [exact Hr|].
  apply (reord_swap [] a [] b []).
Qed.
Lemma sedge_same st a b c d g z z' :
  Inv st → sedge st a b (g, z) → sedge st c d (g, z') → [a; b] ≡ₚ [c; d].
Proof.
  intros HI (ws & t & Ho & Hr & Hz) (ws' & t' & Ho' & Hr' & Hz'). cbn [fst] in *.
  rewrite <- (reord_perm _ _ _ Hr), <- (reord_perm _ _ _ Hr').
  by apply (proj1 (order_unique st 1 HI) g).
Qed.

Lemma entries_edge st o a b :
  spans st 1 o [a; b] → member_entries st 0 o = [(a, (-1)%Z); (b, 1%Z)].
Proof.
  intros (f & t & ws & Ho & (p & q & x & y & -> & Hxy & Hf & Hp & Hq) & Hr).
  unfold member_entries. rewrite Ho, Hf, decide_zs.
  apply reord2 in Hr as [[-> [= -> ->]]|[-> [= -> ->]]]; [| |done];
    cbn [swap01 fmap list_fmap]; unfold sub_entry; by rewrite Hp, Hq.
Qed.

Lemma elem_of_3 (u x y z : nat) : u ∈ [x; y; z] → u = x ∨ u = y ∨ u = z.
Proof. rewrite !elem_of_cons, elem_of_nil. tauto. Qed.
Lemma reord3 t x y z a b c :
  NoDup [x; y; z] → reord t [x; y; z] [a; b; c] →
  if t then (a = x ∧ b = y ∧ c = z) ∨ (a = y ∧ b = z ∧ c = x) ∨ (a = z ∧ b = x ∧ c = y)
  else (a = y ∧ b = x ∧ c = z) ∨ (a = x ∧ b = z ∧ c = y) ∨ (a = z ∧ b = y ∧ c = x).
Proof.
  intros Hnd Hr.
  assert (H : ∀ t', reord t' [x; y; z] [a; b; c] → t = t') by (intros t'; by apply reord_det).
  assert (Heven : reord true [x; y; z] [y; z; x] ∧ reord true [x; y; z] [z; x; y]).
  { split.
    - apply (reord_trans false false _ [y; x; z]).
      + apply (reord_swap [] x [] y [z]).
      + apply (reord_swap [y] x [] z []).
    - apply (reord_trans false false _ [z; y; x]).
      + apply (reord_swap [] x [y] z []).
      + apply (reord_swap [z] y [] x []). }
  assert (Hodd : reord false [x; y; z] [y; x; z] ∧ reord false [x; y; z] [x; z; y] ∧
                 reord false [x; y; z] [z; y; x]).
  { splits; [apply (reord_swap [] x [] y [z])|apply (reord_swap [x] y [] z [])|
             apply (reord_swap [] x [y] z [])]. }
  destruct Heven as [He1 He2], Hodd as (Ho1 & Ho2 & Ho3).
  pose proof (reord_perm _ _ _ Hr) as Hp. pose proof (Permutation_length Hp).
  rewrite !NoDup_cons in Hnd.
  assert (x ≠ y ∧ x ≠ z ∧ y ≠ z) as (? & ? & ?) by set_solver.
  assert (Hm : ∀ u, u ∈ [a; b; c] → u ∈ [x; y; z]) by (intros u; by rewrite Hp).
  assert (Hnd' : NoDup [a; b; c]) by (rewrite <- Hp; rewrite !NoDup_cons; done).
  rewrite !NoDup_cons in Hnd'.
  assert (a ≠ b ∧ a ≠ c ∧ b ≠ c) as (? & ? & ?) by set_solver.
  pose proof (elem_of_3 _ _ _ _ (Hm a ltac:(left))) as Ha1.
  pose proof (elem_of_3 _ _ _ _ (Hm b ltac:(right; left))) as Hb1.
  pose proof (elem_of_3 _ _ _ _ (Hm c ltac:(right; right; left))) as Hc1.
  clear Hm Hnd Hnd' Hp.
  destruct Ha1 as [-> | [-> | ->]], Hb1 as [-> | [-> | ->]]; try done; destruct Hc1 as [-> | [-> | ->]]; try done;
    first [ rewrite (H true) by (first [done|apply reord_refl]); tauto
          | rewrite (H false) by done; tauto ].
Qed.

Lemma spans_sedge st o a b f s :
  spans st 1 o [a; b] → ors st !! (1, o) = Some (f, s) → sedge st a b (f, s).
Proof.
  intros (f' & t & ws & Ho & Hord & Hr) Ho'. rewrite Ho in Ho'. injection Ho' as <- <-.
  by exists ws, t.
Qed.

Lemma entries_face st o a b c :
  spans st 2 o [a; b; c] →
  ∃ e1 e2 e3, member_entries st 1 o ≡ₚ [e1; e2; e3] ∧
    sedge st a b e1 ∧ sedge st b c e2 ∧ sedge st c a e3.
Proof.
  intros (f & t & ws & Ho & Hord & Hr).
  destruct (order_shape _ _ _ _ Hord) as (Hlen & Hnd & _).
  rewrite order_SS in Hord. destruct Hord as (_ & _ & _ & d & Hf & HF).
  destruct ws as [|x [|y [|z [|]]]]; try done. cbn [faces] in HF.
  inversion HF as [|o1 ? ? ? H1 HF1]; subst. inversion HF1 as [|o2 ? ? ? H2 HF2]; subst.
  inversion HF2 as [|o3 ? ? ? H3 HF3]; subst. inversion HF3; subst. clear HF HF1 HF2 HF3.
  assert (∃ f1 s1, ors st !! (1, o1) = Some (f1, s1)) as (f1 & s1 & Ho1)
    by (destruct H1 as (? & ? & ? & ? & _); eauto).
  assert (∃ f2 s2, ors st !! (1, o2) = Some (f2, s2)) as (f2 & s2 & Ho2)
    by (destruct H2 as (? & ? & ? & ? & _); eauto).
  assert (∃ f3 s3, ors st !! (1, o3) = Some (f3, s3)) as (f3 & s3 & Ho3)
    by (destruct H3 as (? & ? & ? & ? & _); eauto).
  pose proof (spans_sedge _ _ _ _ _ _ H1 Ho1) as E1.
  pose proof (spans_sedge _ _ _ _ _ _ H2 Ho2) as E2.
  pose proof (spans_sedge _ _ _ _ _ _ H3 Ho3) as E3.
  assert (Hent : member_entries st 1 o ≡ₚ
    [(f1, (s1 * zs t)%Z); (f2, (s2 * zs t)%Z); (f3, (s3 * zs t)%Z)]).
  { unfold member_entries. rewrite Ho, Hf, decide_zs.
    destruct t; cbn [swap01 fmap list_fmap]; unfold sub_entry; rewrite Ho1, Ho2, Ho3; [done|].
    apply perm_swap. }
  pose proof (reord3 _ _ _ _ _ _ _ Hnd Hr) as Hc. destruct t; cbn [zs] in Hent.
  - rewrite !Z.mul_1_r in Hent.
    destruct Hc as [(-> & -> & ->)|[(-> & -> & ->)|(-> & -> & ->)]].
    + by exists (f1, s1), (f2, s2), (f3, s3).
    + exists (f2, s2), (f3, s3), (f1, s1). splits; try done. rewrite Hent. solve_Permutation.
    + exists (f3, s3), (f1, s1), (f2, s2). splits; try done. rewrite Hent. solve_Permutation.
  - replace (s1 * -1)%Z with (- s1)%Z in Hent by lia. replace (s2 * -1)%Z with (- s2)%Z in Hent by lia.
    replace (s3 * -1)%Z with (- s3)%Z in Hent by lia.
    apply sedge_flip in E1, E2, E3.
    destruct Hc as [(-> & -> & ->)|[(-> & -> & ->)|(-> & -> & ->)]].
    + exists (f1, (- s1)%Z), (f3, (- s3)%Z), (f2, (- s2)%Z). splits; try done. rewrite Hent. solve_Permutation.
    + exists (f3, (- s3)%Z), (f2, (- s2)%Z), (f1, (- s1)%Z). splits; try done. rewrite Hent. solve_Permutation.
    + exists (f2, (- s2)%Z), (f1, (- s1)%Z), (f3, (- s3)%Z). splits; try done. rewrite Hent. solve_Permutation.
Qed.

Lemma keys_are L ks : NoDup ks → (∀ g, g ∈ L.*1 ↔ g ∈ ks) → length (keys L) = length ks.
Proof.
  intros Hnd Hk. apply Permutation_length, NoDup_Permutation; [apply NoDup_remove_dups|done|].
  intros g. unfold keys. by rewrite elem_of_remove_dups.
Qed.

Lemma spans_registered st N c fs :
  Forall2 (spans st N) c fs → ∀ o, o ∈ c → is_Some (ors st !! (N, o)).
Proof.
  intros HF o Ho. apply elem_of_list_lookup in Ho as (i & Hi).
  destruct (Forall2_lookup_l _ _ _ _ _ HF Hi) as (fv & _ & f & b & ws & Ho & _). eauto.
Qed.

Lemma valid2 debug st c vs :
  Inv st → length vs = 3 → NoDup vs → Forall2 (spans st 1) c (faces 2 vs) →
  is_valid debug st 2 c = Ok true.
Proof.
  intros HI Hlen Hnd HF. pose proof (spans_registered _ _ _ _ HF) as Hreg.
  apply is_valid_true; [done|done|].
  destruct vs as [|v0 [|v1 [|v2 [|]]]]; try done. cbn [faces] in HF.
  inversion HF as [|o1 ? ? ? H1 HF1]; subst. inversion HF1 as [|o2 ? ? ? H2 HF2]; subst.
  inversion HF2 as [|o3 ? ? ? H3 HF3]; subst. inversion HF3; subst. clear HF HF1 HF2 HF3.
  unfold comp_entries. cbn [fmap list_fmap concat].
  rewrite (entries_edge _ _ _ _ H1), (entries_edge _ _ _ _ H2), (entries_edge _ _ _ _ H3).
  cbn [app]. split.
  - intros _. rewrite (keys_are _ [v0; v1; v2]); [done|done|]. cbn [fmap list_fmap fst]. set_solver.
  - intros g. rewrite !zsum_cons. cbn [fst snd zsum foldr]. repeat case_decide; lia.
Qed.

Lemma valid3 debug st c vs :
  Inv st → length vs = 4 → NoDup vs → Forall2 (spans st 2) c (faces 3 vs) →
  is_valid debug st 3 c = Ok true.
Proof.
  intros HI Hlen Hnd HF. pose proof (spans_registered _ _ _ _ HF) as Hreg.
  apply is_valid_true; [done|done|].
  destruct vs as [|v0 [|v1 [|v2 [|v3 [|]]]]]; try done. cbn [faces] in HF.
  inversion HF as [|o1 ? ? ? H1 HF1]; subst. inversion HF1 as [|o2 ? ? ? H2 HF2]; subst.
  inversion HF2 as [|o3 ? ? ? H3 HF3]; subst. inversion HF3 as [|o4 ? ? ? H4 HF4]; subst.
  inversion HF4; subst. clear HF HF1 HF2 HF3 HF4.
  destruct (entries_face _ _ _ _ _ H1) as ([g01 z01] & [g12 z12] & [g20 z20] & Hp1 & E01 & E12 & E20).
  destruct (entries_face _ _ _ _ _ H2) as ([g13 z13] & [g32 z32] & e21 & Hp2 & E13 & E32 & E21).
  destruct (entries_face _ _ _ _ _ H3) as (e31 & e10 & [g03 z03] & Hp3 & E31 & E10 & E03).
  destruct (entries_face _ _ _ _ _ H4) as (e30 & e02 & e23 & Hp4 & E30 & E02 & E23).
  pose proof (sedge_det _ _ _ _ _ HI E21 (sedge_flip _ _ _ _ _ E12)) as ->.
  pose proof (sedge_det _ _ _ _ _ HI E31 (sedge_flip _ _ _ _ _ E13)) as ->.
  pose proof (sedge_det _ _ _ _ _ HI E10 (sedge_flip _ _ _ _ _ E01)) as ->.
  pose proof (sedge_det _ _ _ _ _ HI E30 (sedge_flip _ _ _ _ _ E03)) as ->.
  pose proof (sedge_det _ _ _ _ _ HI E02 (sedge_flip _ _ _ _ _ E20)) as ->.
  pose proof (sedge_det _ _ _ _ _ HI E23 (sedge_flip _ _ _ _ _ E32)) as ->.
  clear E21 E31 E10 E30 E02 E23.
  assert (Hgs : NoDup [g01; g12; g20; g13; g32; g03]).
  { rewrite !NoDup_cons in Hnd.
    assert (v0 ≠ v1 ∧ v0 ≠ v2 ∧ v0 ≠ v3 ∧ v1 ≠ v2 ∧ v1 ≠ v3 ∧ v2 ≠ v3) as (? & ? & ? & ? & ? & ?)
      by set_solver.
    rewrite !NoDup_cons, !elem_of_cons. splits; try apply NoDup_nil; try done;
      intros Hor; repeat match type of Hor with _ ∨ _ => destruct Hor as [Hor|Hor] end;
      try (by inversion Hor); subst;
      match goal with
      | E : sedge _ ?a ?b (?g, _), E' : sedge _ ?c ?d (?g, _) |- _ =>
          pose proof (sedge_same _ _ _ _ _ _ _ _ HI E E') as Hpp;
          apply Permutation_length_2_inv in Hpp as [Hpp|Hpp]; congruence
      end. }
  set (L := comp_entries st 1 [o1; o2; o3; o4]).
  assert (HL : L ≡ₚ [(g01, z01); (g12, z12); (g20, z20); (g13, z13); (g32, z32); (g12, (- z12)%Z);
                     (g13, (- z13)%Z); (g01, (- z01)%Z); (g03, z03); (g03, (- z03)%Z);
                     (g20, (- z20)%Z); (g32, (- z32)%Z)]).
  { unfold L, comp_entries. cbn [fmap list_fmap concat]. rewrite Hp1, Hp2, Hp3, Hp4. done. }
  split.
  - intros _. rewrite (keys_are _ [g01; g12; g20; g13; g32; g03]); [done|done|].
    intros g. rewrite HL. cbn [fmap list_fmap fst]. set_solver.
  - intros g. rewrite (zsum_perm g _ _ HL), !zsum_cons. cbn [fst snd zsum foldr].
    repeat case_decide; lia.
Qed.
