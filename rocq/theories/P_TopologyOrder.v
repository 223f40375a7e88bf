(* Canonical histories: the footprints registered for vertices, and the orientations relative to
   them. *)
From stdpp Require Import base gmap list.
From Verif Require Import Base M_Perm S_Perm P_Perm M_Topology S_Topology P_Topology P_TopologyErase
  P_TopologyValid.

Local Ltac splits := repeat match goal with |- _ ∧ _ => split end.

(* ---- reorderings with a parity ---- *)
Definition reord (b : bool) (l l' : list nat) : Prop := ∃ n, Nat.even n = b ∧ exchanges n l l'.
Definition zs (b : bool) : Z := if b then 1%Z else (-1)%Z.

Lemma reord_refl l : reord true l l.
Proof. exists 0. split; [done|constructor]. Qed.
Lemma reord_sym b l l' : reord b l l' → reord b l' l.
Proof. intros (n & Hn & H). exists n. split; [done|by apply exchanges_sym]. Qed.
Lemma reord_trans b b' l l' l'' : reord b l l' → reord b' l' l'' → reord (eqb b b') l l''.
Proof.
  intros (n & Hn & H) (m & Hm & H'). exists (n + m). split; [|by eapply exchanges_app].
  rewrite Nat.even_add. by rewrite Hn, Hm.
Qed.
Lemma reord_perm b l l' : reord b l l' → l ≡ₚ l'.
Proof. intros (n & _ & H). by eapply exchanges_perm. Qed.
Lemma perm_reord l l' : l ≡ₚ l' → ∃ b, reord b l l'.
Proof. intros (n & H)%perm_exchanges. by exists (Nat.even n), n. Qed.
Lemma reord_det b b' l l' : NoDup l → reord b l l' → reord b' l l' → b = b'.
Proof. intros Hnd (n & <- & Hn) (m & <- & Hm). by apply (exchanges_parity n m l l'). Qed.
Lemma reord_sign debug b l l' :
  l ≠ [] → NoDup l → reord b l l' → permutation_sign Nat.leb debug l l' = Ok (zs b).
Proof.
  intros Hne Hnd (n & <- & Hn). by apply (permutation_sign_exchanges _ nat_total).
Qed.
Lemma even_reord l l' : even_reordering l l' ↔ reord true l l'.
Proof.
  unfold even_reordering, reord. split; intros (n & Hn & H); exists n; (split; [|done]);
    by apply Nat.even_spec.
Qed.
Lemma odd_reord l l' : odd_reordering l l' ↔ reord false l l'.
Proof.
  unfold odd_reordering, reord. split; intros (n & Hn & H); exists n; (split; [|done]).
  - rewrite <- Nat.negb_odd. apply Nat.odd_spec in Hn. by rewrite Hn.
  - apply Nat.odd_spec. rewrite <- Nat.negb_even. by rewrite Hn.
Qed.
Lemma reord_swap l1 a m b l2 : reord false (l1 ++ a :: m ++ b :: l2) (l1 ++ b :: m ++ a :: l2).
Proof. exists 1. split; [done|]. apply exchanges_one. by exists l1, a, m, b, l2. Qed.

Lemma zs_inj b b' : zs b = zs b' → b = b'.
Proof. by destruct b, b'. Qed.
Lemma sign_zs s : sign s → ∃ b, s = zs b.
Proof. intros [-> | ->]; [by exists true|by exists false]. Qed.

(* exchanging two entries *)
Lemma swap01_reord l : 2 ≤ length l → reord false (swap01 l) l.
Proof.
  destruct l as [|a [|b l]]; cbn [length swap01]; [lia..|]. intros _. apply (reord_swap [] b [] a l).
Qed.

Lemma reord2 b x y l : reord b [x; y] l → x ≠ y →
  (b = true ∧ l = [x; y]) ∨ (b = false ∧ l = [y; x]).
Proof.
  intros Hr Hne. pose proof (reord_perm _ _ _ Hr) as Hp.
  assert (Hnd : NoDup [x; y]).
  { apply NoDup_cons. split; [|apply NoDup_singleton]. by intros ->%elem_of_list_singleton. }
  apply Permutation_length_2_inv in Hp as [-> | ->].
  - left. split; [|done]. eapply reord_det; [exact Hnd|exact Hr|apply reord_refl].
  - right. split; [|done]. eapply reord_det; [exact Hnd|exact Hr|].
    apply (reord_swap [] x [] y []).
Qed.

(* ---- canonical orders ---- *)

(* the vertices of the members of a footprint of order N with vertices [ws], in the order in which
   the topology lists them *)
Definition faces (N : nat) (ws : list nat) : list (list nat) :=
  match N, ws with
  | 2, [a; b; c] => [[a; b]; [b; c]; [c; a]]
  | 3, [a; b; c; d] => [[a; b; c]; [b; d; c]; [d; b; a]; [d; a; c]]
  | _, _ => []
  end.
(* the vertex which each of them misses *)
Definition missing (N : nat) (ws : list nat) : list nat :=
  match N, ws with
  | 2, [a; b; c] => [c; a; b]
  | 3, [a; b; c; d] => [d; a; c; b]
  | _, _ => []
  end.

Definition spans_ (ord : nat → list nat → Prop) (st : topo) (N o : nat) (vs : list nat) : Prop :=
  ∃ f b ws, ors st !! (N, o) = Some (f, zs b) ∧ ord f ws ∧ reord b ws vs.

Fixpoint order (st : topo) (N f : nat) (ws : list nat) : Prop :=
  match N with
  | 0 => False
  | S N' =>
      match N' with
      | 0 => ∃ p q a b, ws = [a; b] ∧ a ≠ b ∧ fps st !! (1, f) = Some [p; q] ∧
               ors st !! (0, p) = Some (a, (-1)%Z) ∧ ors st !! (0, q) = Some (b, 1%Z)
      | _ => N ≤ 3 ∧ length ws = S N ∧ NoDup ws ∧
             ∃ c, fps st !! (N, f) = Some c ∧
               Forall2 (λ o fv, spans_ (order st N') st N' o fv) c (faces N ws)
      end
  end.
Definition spans (st : topo) (N o : nat) (vs : list nat) : Prop := spans_ (order st N) st N o vs.

Lemma order_1 st f ws :
  order st 1 f ws ↔
  ∃ p q a b, ws = [a; b] ∧ a ≠ b ∧ fps st !! (1, f) = Some [p; q] ∧
    ors st !! (0, p) = Some (a, (-1)%Z) ∧ ors st !! (0, q) = Some (b, 1%Z).
Proof. done. Qed.
Lemma order_SS st N f ws :
  order st (S (S N)) f ws ↔
  S (S N) ≤ 3 ∧ length ws = S (S (S N)) ∧ NoDup ws ∧
  ∃ c, fps st !! (S (S N), f) = Some c ∧ Forall2 (spans st (S N)) c (faces (S (S N)) ws).
Proof. done. Qed.

Lemma order_shape st N f ws : order st N f ws → length ws = S N ∧ NoDup ws ∧ 1 ≤ N ≤ 3.
Proof.
  destruct N as [|[|N]]; [done| |].
  - intros (p & q & a & b & -> & Hab & _). splits; [done| |lia..].
    apply NoDup_cons. split; [|apply NoDup_singleton]. by intros ->%elem_of_list_singleton.
  - rewrite order_SS. intros (? & ? & ? & _). splits; try done; lia.
Qed.

Lemma missing_faces N ws :
  length ws = S N → 2 ≤ N ≤ 3 → Forall2 (λ x fv, x :: fv ≡ₚ ws) (missing N ws) (faces N ws).
Proof.
  intros Hlen HN. destruct N as [|[|[|[|]]]]; try lia.
  - destruct ws as [|a [|b [|c [|]]]]; try done. cbn [missing faces].
    repeat constructor; solve_Permutation.
  - destruct ws as [|a [|b [|c [|d [|]]]]]; try done. cbn [missing faces].
    repeat constructor; solve_Permutation.
Qed.

(* always the same parity *)
Lemma missing_reord N : 2 ≤ N ≤ 3 →
  ∃ e, ∀ ws, length ws = S N → reord e ws (missing N ws).
Proof.
  intros HN. destruct N as [|[|[|[|]]]]; try lia.
  - exists true. intros ws Hlen. destruct ws as [|a [|b [|c [|]]]]; try done. cbn [missing].
    apply (reord_trans false false _ [c; b; a]).
    + apply (reord_swap [] a [b] c []).
    + apply (reord_swap [c] b [] a []).
  - exists true. intros ws Hlen. destruct ws as [|a [|b [|c [|d [|]]]]]; try done. cbn [missing].
    apply (reord_trans false false _ [d; b; c; a]).
    + apply (reord_swap [] a [b; c] d []).
    + apply (reord_swap [d] b [c] a []).
Qed.
Lemma missing_reord2 N b vs ws :
  2 ≤ N ≤ 3 → length vs = S N → length ws = S N → reord b vs ws →
  reord b (missing N vs) (missing N ws).
Proof.
  intros HN Hv Hw Hr. destruct (missing_reord N HN) as (e & He).
  pose proof (reord_sym _ _ _ (He vs Hv)) as H1. pose proof (He ws Hw) as H2.
  pose proof (reord_trans _ _ _ _ _ (reord_trans _ _ _ _ _ H1 Hr) H2) as H.
  by destruct e, b.
Qed.
Lemma missing_perm N ws : 2 ≤ N ≤ 3 → length ws = S N → missing N ws ≡ₚ ws.
Proof.
  intros HN Hlen. destruct (missing_reord N HN) as (e & He). symmetry. by eapply reord_perm, He.
Qed.

(* ---- the vertices determine the footprint and the oriented simplex, and conversely ---- *)

(* stability *)
Lemma order_agree st st' N :
  Inv st → Inv st' → agree st st' →
  (∀ f ws, order st N f ws → is_Some (fps st' !! (N, f)) → order st' N f ws) ∧
  (∀ o vs, spans st N o vs → is_Some (ors st' !! (N, o)) → spans st' N o vs).
Proof.
  intros HI HI' Hag. induction N as [|N [IHf IHo]].
  - split; [done|]. intros o vs (f & b & ws & _ & [] & _).
  - assert (Hf : ∀ f ws, order st (S N) f ws → is_Some (fps st' !! (S N, f)) → order st' (S N) f ws).
    { intros f ws Hord [c' Hc']. destruct N as [|N].
      - destruct Hord as (p & q & a & b & -> & Hab & Hc & Hp & Hq).
        pose proof (proj2 Hag _ _ _ Hc Hc') as <-.
        destruct (i_fS _ HI' _ _ _ Hc') as [_ Hm].
        destruct (Hm p) as [y Hy]; [left|]. destruct (Hm q) as [z Hz]; [right; left|].
        pose proof (proj1 Hag _ _ _ Hp Hy) as <-. pose proof (proj1 Hag _ _ _ Hq Hz) as <-.
        by exists p, q, a, b.
      - rewrite order_SS in Hord |- *. destruct Hord as (HN & Hlen & Hnd & c & Hc & HF).
        pose proof (proj2 Hag _ _ _ Hc Hc') as <-. splits; try done. exists c. split; [done|].
        destruct (i_fS _ HI' _ _ _ Hc') as [_ Hm].
        clear -HF Hm IHo. induction HF as [|o fv c l Ho HF IH]; [done|].
        constructor; [|apply IH; intros; apply Hm; by right]. apply IHo; [done|]. apply Hm. left. }
    split; [done|]. intros o vs (f & b & ws & Ho & Hord & Hr) [x Hx].
    pose proof (proj1 Hag _ _ _ Ho Hx) as <-. exists f, b, ws. splits; try done.
    apply Hf; [done|]. by destruct (i_or _ HI' _ _ _ _ Hx).
Qed.

Lemma spans_grows debug st st' N o vs :
  Inv st → Inv st' → growsd debug st st' → spans st N o vs → spans st' N o vs.
Proof.
  intros HI HI' Hg Hs. apply (order_agree st st' N); [done|done| |done|].
  - apply agree_sym, agree_sub; apply Hg.
  - destruct Hs as (f & b & ws & Ho & _). eapply grows_or_some; [exact Hg|eauto].
Qed.

(* representatives *)
Definition fp_of (st : topo) (N o f : nat) : Prop := ∃ s, ors st !! (N, o) = Some (f, s).

Lemma same_footprint st N f f' c c' l l' :
  Inv st → fps st !! (S N, f) = Some c → fps st !! (S N, f') = Some c' →
  footprints_are st N c l → footprints_are st N c' l' → l ≡ₚ l' → f = f'.
Proof.
  intros HI Hf Hf' Hl Hl' Hp.
  destruct (i_cm _ HI _ _ _ Hf) as (r & Hr & Hm). destruct (i_cm _ HI _ _ _ Hf') as (r' & Hr' & Hm').
  apply footprints_spec in Hl, Hl'. unfold representative in Hr, Hr'.
  rewrite Hl in Hr. rewrite Hl' in Hr'. cbn [rbind] in Hr, Hr'. injection Hr as <-.
  injection Hr' as <-. rewrite <- (proj2 (sort_eq_iff _ nat_total l l') Hp) in Hm'. congruence.
Qed.

(* [g] is the footprint (of order N) of the face of [vs] missing the vertex [x] *)
Definition face_missing (st : topo) (N : nat) (vs : list nat) (x g : nat) : Prop :=
  ∃ ws, order st N g ws ∧ x :: ws ≡ₚ vs.

Lemma spans_footprints st N c vs :
  2 ≤ S N ≤ 3 → length vs = S (S N) → Forall2 (spans st N) c (faces (S N) vs) →
  ∃ l, footprints_are st N c l ∧ Forall2 (face_missing st N vs) (missing (S N) vs) l.
Proof.
  intros HN Hlen Hc. pose proof (missing_faces (S N) vs Hlen HN) as Hm. revert Hm.
  generalize (missing (S N) vs) as ms. generalize dependent (faces (S N) vs).
  intros fs Hc. induction Hc as [|o fv c fs (f & b & ws & Ho & Hord & Hr) _ IH]; intros ms Hm.
  - inversion Hm. exists []. split; constructor.
  - inversion Hm as [|x ? ms' ? Hx Hms]; subst. destruct (IH _ Hms) as (l & Hl & Hl').
    exists (f :: l). split; constructor; [by eexists|done| |done].
    exists ws. split; [done|]. by rewrite (reord_perm _ _ _ Hr).
Qed.

Lemma order_members st N f ws :
  order st (S (S N)) f ws → ∃ c l, fps st !! (S (S N), f) = Some c ∧
    footprints_are st (S N) c l ∧ Forall2 (face_missing st (S N) ws) (missing (S (S N)) ws) l.
Proof.
  rewrite order_SS. intros (HN & Hlen & Hnd & c & Hc & HF).
  destruct (spans_footprints st (S N) c ws) as (l & Hl & Hl'); [lia|done|done|].
  by exists c, l.
Qed.

(* the lists of footprints of two reordered lists of missing vertices are reordered in the same way *)
Lemma Forall2_exchange (R : nat → nat → Prop) l l' gs :
  exchange l l' → Forall2 R l gs → ∃ gs', exchange gs gs' ∧ Forall2 R l' gs'.
Proof.
  intros (l1 & a & m & b & l2 & -> & ->) HF.
  apply Forall2_app_inv_l in HF as (g1 & g2 & H1 & HF & ->).
  inversion HF as [|? ga ? gr Ha HF']; subst.
  apply Forall2_app_inv_l in HF' as (gm & g3 & Hm & HF' & ->).
  inversion HF' as [|? gb ? g4 Hb H4]; subst.
  exists (g1 ++ gb :: gm ++ ga :: g4). split; [by exists g1, ga, gm, gb, g4|].
  apply Forall2_app; [done|]. constructor; [done|]. apply Forall2_app; [done|]. by constructor.
Qed.
Lemma Forall2_reord (R : nat → nat → Prop) b l l' gs hs :
  (∀ x g h, R x g → R x h → g = h) →
  reord b l l' → Forall2 R l gs → Forall2 R l' hs → reord b gs hs.
Proof.
  intros Hdet (n & <- & Hn). revert gs. induction Hn as [l|n l l1 l2 He _ IH]; intros gs Hgs Hhs.
  - assert (gs = hs) as ->; [|apply reord_refl]. clear -Hdet Hgs Hhs. revert hs Hhs.
    induction Hgs as [|x g l gs Hx _ IH]; intros hs Hhs; inversion Hhs; subst; [done|].
    f_equal; eauto.
  - destruct (Forall2_exchange R l l1 gs He Hgs) as (gs' & He' & Hgs').
    destruct (IH gs' Hgs' Hhs) as (m & Hm & Hx). exists (S m). split; [|by econstructor].
    rewrite !Nat.even_succ, <- !Nat.negb_even. by rewrite Hm.
Qed.
Lemma Forall2_nodup (R : nat → nat → Prop) l gs :
  (∀ x y g, R x g → R y g → x = y) → NoDup l → Forall2 R l gs → NoDup gs.
Proof.
  intros Hinj Hnd HF. induction HF as [|x g l gs Hx HF IH]; [constructor|].
  apply NoDup_cons in Hnd as [Hn Hnd]. apply NoDup_cons. split; [|by apply IH].
  intros Hg. apply elem_of_list_lookup in Hg as (i & Hi).
  destruct (Forall2_lookup_r _ _ _ _ _ HF Hi) as (y & Hy & HR).
  apply Hn. rewrite (Hinj _ _ _ Hx HR). by eapply elem_of_list_lookup_2.
Qed.

(* the vertices of a footprint are determined, and they determine the footprint *)
Lemma order_unique st N :
  Inv st →
  (∀ f ws ws', order st N f ws → order st N f ws' → ws ≡ₚ ws' ) ∧
  (∀ f f' ws ws', order st N f ws → order st N f' ws' → ws ≡ₚ ws' → f = f').
Proof.
  intros HI. induction N as [|N [IH1 IH2]]; [done|]. destruct N as [|N].
  - split.
    + intros f ws ws' (p & q & a & b & -> & Hab & Hf & Hp & Hq)
        (p' & q' & a' & b' & -> & Hab' & Hf' & Hp' & Hq').
      rewrite Hf in Hf'. injection Hf' as <- <-. by simplify_eq.
    + intros f f' ws ws' (p & q & a & b & -> & Hab & Hf & Hp & Hq)
        (p' & q' & a' & b' & -> & Hab' & Hf' & Hp' & Hq') Hperm.
      eapply (same_footprint st 0 f f' [p; q] [p'; q'] [a; b] [a'; b']); try done;
        repeat constructor; eauto.
  - assert (H1 : ∀ f ws ws', order st (S (S N)) f ws → order st (S (S N)) f ws' → ws ≡ₚ ws').
    { intros f ws ws' Ho Ho'. destruct (order_shape _ _ _ _ Ho) as (Hlen & Hnd & HN).
      destruct (order_shape _ _ _ _ Ho') as (Hlen' & Hnd' & _).
      destruct (order_members _ _ _ _ Ho) as (c & l & Hc & Hl & HF).
      destruct (order_members _ _ _ _ Ho') as (c' & l' & Hc' & Hl' & HF').
      rewrite Hc in Hc'. injection Hc' as <-.
      assert (l = l') as <-.
      { apply footprints_spec in Hl, Hl'. congruence. }
      (* every vertex of [ws'] is on a face, hence in [ws] *)
      assert (Hsub : ∀ u, u ∈ ws' → u ∈ ws).
      { intros u Hu.
        assert (∃ i y, missing (S (S N)) ws' !! i = Some y ∧ y ≠ u) as (i & y & Hi & Hyu).
        { pose proof (missing_perm (S (S N)) ws' ltac:(lia) Hlen') as Hp.
          assert (NoDup (missing (S (S N)) ws')) as Hndm by (by rewrite Hp).
          destruct (missing (S (S N)) ws') as [|y0 [|y1 rest]].
          - apply Permutation_length in Hp. cbn in Hp. lia.
          - apply Permutation_length in Hp. cbn in Hp. lia.
          - destruct (decide (y0 = u)) as [->|]; [|by exists 0, y0].
            exists 1, y1. split; [done|]. intros ->. apply NoDup_cons in Hndm as [Hnn _].
            apply Hnn. left. }
        destruct (Forall2_lookup_l _ _ _ _ _ HF' Hi) as (g & Hg & vs' & Hgo' & Hp').
        destruct (Forall2_lookup_r _ _ _ _ _ HF Hg) as (x & Hx & vs & Hgo & Hp).
        pose proof (IH1 _ _ _ Hgo Hgo') as Hpp.
        rewrite <- Hp. right. rewrite Hpp. rewrite <- Hp' in Hu.
        apply elem_of_cons in Hu as [->|Hu]; done. }
      symmetry. apply NoDup_Permutation_bis; [by apply NoDup_ListNoDup|lia|].
      intros u. rewrite <- !elem_of_list_In. apply Hsub. }
    split; [done|].
    intros f f' ws ws' Ho Ho' Hperm.
    destruct (order_shape _ _ _ _ Ho) as (Hlen & Hnd & HN).
    destruct (order_shape _ _ _ _ Ho') as (Hlen' & Hnd' & _).
    destruct (order_members _ _ _ _ Ho) as (c & l & Hc & Hl & HF).
    destruct (order_members _ _ _ _ Ho') as (c' & l' & Hc' & Hl' & HF').
    destruct (perm_reord _ _ Hperm) as (b & Hr).
    eapply (same_footprint st (S N) f f' c c' l l'); try done.
    eapply (reord_perm b). eapply (Forall2_reord (face_missing st (S N) ws)).
    + intros x g h (vs & Hg & Hvs) (vs' & Hh & Hvs'). eapply IH2; [exact Hg|exact Hh|].
      rewrite <- Hvs' in Hvs. by apply Permutation_cons_inv in Hvs.
    + apply missing_reord2; [| |exact Hlen'|exact Hr]; [lia|done].
    + done.
    + eapply Forall2_impl; [exact HF'|]. intros x g (vs & Hg & Hvs). exists vs. split; [done|].
      by rewrite Hvs.
Qed.

Lemma face_missing_det st N vs x g h :
  Inv st → face_missing st N vs x g → face_missing st N vs x h → g = h.
Proof.
  intros HI (us & Hg & Hus) (us' & Hh & Hus'). eapply (order_unique st N HI); [exact Hg|exact Hh|].
  rewrite <- Hus' in Hus. by apply Permutation_cons_inv in Hus.
Qed.
Lemma face_missing_inj st N vs x y g :
  NoDup vs → Inv st → face_missing st N vs x g → face_missing st N vs y g → x = y.
Proof.
  intros Hnd HI (us & Hg & Hus) (us' & Hh & Hus').
  pose proof (proj1 (order_unique st N HI) _ _ _ Hg Hh) as Hp.
  rewrite <- Hus', Hp in Hus.
  assert (x ∈ y :: us') as Hx by (rewrite <- Hus; left).
  apply elem_of_cons in Hx as [->|Hx]; [done|].
  rewrite <- Hus', <- Hus in Hnd. apply NoDup_cons in Hnd as [Hn _]. done.
Qed.

(* the order of a footprint is determined *)
Lemma order_eq st N f ws ws' : Inv st → order st N f ws → order st N f ws' → ws = ws'.
Proof.
  intros HI Ho Ho'. destruct N as [|[|N]]; [done| |].
  - destruct Ho as (p & q & a & b & -> & Hab & Hf & Hp & Hq).
    destruct Ho' as (p' & q' & a' & b' & -> & Hab' & Hf' & Hp' & Hq').
    rewrite Hf in Hf'. injection Hf' as <- <-. by simplify_eq.
  - pose proof (proj1 (order_unique st (S (S N)) HI) _ _ _ Ho Ho') as Hperm.
    destruct (order_shape _ _ _ _ Ho) as (Hlen & Hnd & HN).
    destruct (order_shape _ _ _ _ Ho') as (Hlen' & Hnd' & _).
    destruct (order_members _ _ _ _ Ho) as (c & l & Hc & Hl & HF).
    destruct (order_members _ _ _ _ Ho') as (c' & l' & Hc' & Hl' & HF').
    rewrite Hc in Hc'. injection Hc' as <-.
    assert (l = l') as <- by (apply footprints_spec in Hl, Hl'; congruence).
    assert (missing (S (S N)) ws = missing (S (S N)) ws') as Hm.
    { clear -HF HF' HI Hperm Hnd. revert HF'.
      generalize (missing (S (S N)) ws'). generalize dependent (missing (S (S N)) ws).
      intros m HF. induction HF as [|x g m l Hx _ IH]; intros m' HF'; inversion HF' as [|y ? ? ? Hy]; subst;
        [done|]. f_equal; [|by apply IH].
      eapply (face_missing_inj st (S N) ws _ _ g); try done.
      destruct Hy as (us & Hg & Hus). exists us. split; [done|]. by rewrite Hus. }
    destruct N as [|[|N]]; [| |lia].
    + destruct ws as [|a [|b [|c0 [|]]]]; try done. destruct ws' as [|a' [|b' [|c0' [|]]]]; try done.
      cbn [missing] in Hm. congruence.
    + destruct ws as [|a [|b [|c0 [|d [|]]]]]; try done.
      destruct ws' as [|a' [|b' [|c0' [|d' [|]]]]]; try done. cbn [missing] in Hm. congruence.
Qed.

Lemma spans_unique st N o o' b vs vs' :
  Inv st → spans st N o vs → spans st N o' vs' → reord b vs vs' →
  ∃ f s, ors st !! (N, o) = Some (f, s) ∧ ors st !! (N, o') = Some (f, if b then s else (- s)%Z) ∧
         (b = true → o = o').
Proof.
  intros HI (f & t & ws & Ho & Hord & Hr) (f' & t' & ws' & Ho' & Hord' & Hr') Hb.
  assert (f = f') as <-.
  { eapply (order_unique st N HI); [exact Hord|exact Hord'|].
    rewrite (reord_perm _ _ _ Hr), (reord_perm _ _ _ Hr'). by eapply reord_perm. }
  pose proof (order_eq st N f ws ws' HI Hord Hord') as <-.
  destruct (order_shape _ _ _ _ Hord) as (_ & Hnd & _).
  assert (t' = eqb t b) as ->.
  { eapply reord_det; [exact Hnd|exact Hr'|]. by eapply reord_trans. }
  exists f, (zs t). splits; [done| |].
  - rewrite Ho'. by destruct t, b.
  - intros ->. assert (eqb t true = t) as Ht by (by destruct t). rewrite Ht in Ho'.
    destruct (i_or _ HI _ _ _ _ Ho) as (_ & Hm & _). destruct (i_or _ HI _ _ _ _ Ho') as (_ & Hm' & _).
    congruence.
Qed.
