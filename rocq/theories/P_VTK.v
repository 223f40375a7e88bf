(* Discrete fields, and the numbering of the vtk writers. *)
From stdpp Require Import base gmap list sorting.
From Coq Require Import Reals.
From Verif Require Import M_Tensor M_Geometry S_Geometry.
From Verif Require Import Base M_SegAlloc M_Topology S_Topology P_Topology M_Mesh P_Mesh M_Tetra S_Summit P_Summit
  M_Discrete S_Discrete M_VTK.
Open Scope nat_scope.

Lemma rfold_concat {A B} (f : A → B → res A) s (ls : list (list B)) :
  rfold (λ s l, rfold f s l) s ls = rfold f s (concat ls).
Proof.
  revert s. induction ls as [|l ls IH]; intros s; [done|]. cbn [rfold concat].
  assert (Happ : ∀ s l l', rfold f s (l ++ l') = let! s := rfold f s l in rfold f s l').
  { clear. intros s l. revert s. induction l as [|x l IH]; intros s l'; [done|]. cbn.
    destruct (f s x); [apply IH|done..]. }
  rewrite Happ. destruct (rfold f s l); [apply IH|done..].
Qed.

Lemma rfold_snoc {A B} (f : A → B → res A) s l x : rfold f s (l ++ [x]) = let! s := rfold f s l in f s x.
Proof.
  revert s. induction l as [|y l IH]; intros s; cbn; [by destruct (f s x)|].
  destruct (f s y); [apply IH|done..].
Qed.

Lemma assert_true debug b : b = true → assert_ debug b = Ok tt.
Proof. intros ->. by destruct debug. Qed.

(* ---- fields ---- *)

Section field.
  Context {K V : Type} `{Countable K} (debug : bool).
  Implicit Types (f : gmap K V) (h : list (fop K V)).

  Lemma latest_unique h k v v' : latest h k v → latest h k v' → v = v'.
  Proof.
    assert (Hlast : ∀ (P : fop K V → Prop) (h1 h2 h1' h2' : list (fop K V)) o o', P o → P o' →
              h1 ++ o :: h2 = h1' ++ o' :: h2' → Forall (λ o, ¬ P o) h1 → Forall (λ o, ¬ P o) h1' → o = o').
    { clear. intros P h1. induction h1 as [|x h1 IH]; intros h2 [|y h1'] h2' o o' Ho Ho' E F F'.
      - by injection E. - injection E as <- _. by apply Forall_cons in F' as [? _].
      - injection E as <- _. by apply Forall_cons in F as [? _].
      - injection E as <- E. apply Forall_cons in F as [_ F]. apply Forall_cons in F' as [_ F']. eapply IH; eauto. }
    intros [(h1 & h2 & E & F)|(F & h1 & h2 & E & F1)] [(h1' & h2' & E' & F')|(F' & h1' & h2' & E' & F1')].
    - assert (Assign k v = Assign k v') as [= ->]; [|done].
      apply (f_equal reverse) in E. apply (f_equal reverse) in E'. rewrite reverse_app, reverse_cons, <- app_assoc in E, E'.
      eapply (Hlast (assigns k) (reverse h2) (reverse h1) (reverse h2') (reverse h1'));
        [by eexists|by eexists|exact (eq_trans (eq_sym E) E')|by apply Forall_reverse..].
    - exfalso. rewrite E in F'. apply Forall_app in F' as [_ [F' _]%Forall_cons]. exact (F' (ex_intro _ v eq_refl)).
    - exfalso. rewrite E' in F. apply Forall_app in F as [_ [F _]%Forall_cons]. exact (F (ex_intro _ v' eq_refl)).
    - assert (Insert k v = Insert k v') as [= ->]; [|done].
      eapply (Hlast (inserts k) h1 h2 h1' h2'); [by eexists|by eexists|exact (eq_trans (eq_sym E) E')|exact F1|exact F1'].
  Qed.

  Lemma history_ok h f :
    rfold (fstep debug) ∅ h = Ok f →
    ∀ k, (∀ v, f !! k = Some v → latest h k v) ∧ (f !! k = None → Forall (λ o, ¬ inserts k o ∧ ¬ assigns k o) h).
  Proof.
    revert f. induction h as [|o h IH] using rev_ind; intros f E k.
    { injection E as <-. rewrite lookup_empty. split; [done|]. constructor. }
    rewrite rfold_snoc in E. destruct (rfold (fstep debug) ∅ h) as [f0| |]; [|discriminate..].
    destruct (IH f0 eq_refl k) as [IH1 IH2]. cbn [rbind] in E.
    assert (Happ : ∀ v, latest h k v → ¬ assigns k o → latest (h ++ [o]) k v).
    { intros v [(h1 & h2 & -> & F)|(F & h1 & h2 & -> & F1)] Ho.
      - left. exists h1, (h2 ++ [o]). split; [by rewrite <- app_assoc|].
        apply Forall_app. split; [done|]. by repeat constructor.
      - right. split; [apply Forall_app; split; [done|by repeat constructor]|].
        exists h1, (h2 ++ [o]). by rewrite <- app_assoc. }
    destruct o as [k' v'|k' v']; cbn in E.
    - unfold insert in E. destruct (assert_ debug _); [|discriminate..]. cbn in E.
      destruct (f0 !! k') as [v0|] eqn:Ek'.
      + injection E as <-. split.
        * intros v Hv. apply Happ; [by apply IH1|]. by intros [? ?].
        * intros Hn. assert (k ≠ k') by congruence. apply Forall_app. split; [by apply IH2|].
          repeat constructor; intros [? [= ]]; done.
      + injection E as <-. destruct (decide (k = k')) as [<-|Hne].
        * rewrite lookup_insert. split; [|done]. intros v [= <-]. right.
          specialize (IH2 Ek'). split.
          -- apply Forall_app. split; [eapply Forall_impl; [exact IH2|by intros ? []]|].
             repeat constructor. by intros [? ?].
          -- exists h, []. split; [done|]. eapply Forall_impl; [exact IH2|]. by intros ? [].
        * rewrite lookup_insert_ne by done. split.
          -- intros v Hv. apply Happ; [by apply IH1|]. by intros [? ?].
          -- intros Hn. apply Forall_app. split; [by apply IH2|]. repeat constructor; intros [? [= ]]; done.
    - unfold assign in E. destruct (f0 !! k') as [v0|] eqn:Ek'; [|discriminate]. injection E as <-.
      destruct (decide (k = k')) as [<-|Hne].
      + rewrite lookup_insert. split; [|done]. intros v [= <-]. left. by exists h, [].
      + rewrite lookup_insert_ne by done. split.
        * intros v Hv. apply Happ; [by apply IH1|]. by intros [? [= ]].
        * intros Hn. apply Forall_app. split; [by apply IH2|]. repeat constructor; intros [? [= ]]; done.
  Qed.

  Lemma history_domain h f :
    rfold (fstep debug) ∅ h = Ok f → ∀ k, f !! k = None ↔ Forall (λ o, ¬ inserts k o) h.
  Proof.
    revert f. induction h as [|o h IH] using rev_ind; intros f E k.
    { injection E as <-. rewrite lookup_empty. split; [constructor|done]. }
    rewrite rfold_snoc in E. destruct (rfold (fstep debug) ∅ h) as [f0| |]; [|discriminate..].
    specialize (IH f0 eq_refl k). cbn [rbind] in E. rewrite Forall_app, Forall_singleton, <- IH.
    destruct o as [k' v'|k' v']; cbn in E.
    - unfold insert in E. destruct (assert_ debug _); [|discriminate..]. cbn in E.
      assert (Hi : inserts k (Insert k' v') ↔ k = k').
      { split; [by intros [? [= ->]]|]. intros ->. by exists v'. }
      rewrite Hi. destruct (f0 !! k') as [v0|] eqn:Ek'; injection E as <-.
      + split; [|by intros [? _]]. intros Hn. split; [done|]. congruence.
      + rewrite lookup_insert_None. naive_solver.
    - unfold assign in E. destruct (f0 !! k') as [v0|] eqn:Ek'; [|discriminate]. injection E as <-.
      assert (Hi : ¬ inserts k (Assign k' v')) by (by intros [? ?]).
      rewrite lookup_insert_None. split; [naive_solver|]. intros [Hn _]. split; [done|]. congruence.
  Qed.

  (* the histories that do not stop *)
  Lemma history_defined h :
    (∃ f, rfold (fstep debug) ∅ h = Ok f) ↔
    ∀ h1 o h2, h = h1 ++ o :: h2 →
      match o with
      | Assign k _ => ¬ Forall (λ o, ¬ inserts k o) h1
      | Insert k _ => debug = true → Forall (λ o, ¬ inserts k o) h1
      end.
  Proof.
    induction h as [|o h IH] using rev_ind.
    { split; [|by exists ∅]. intros _ h1 o h2 E. by destruct h1. }
    split.
    - intros (f & E) h1 o' h2 Eh. rewrite rfold_snoc in E.
      destruct (rfold (fstep debug) ∅ h) as [f0| |] eqn:E0; [|discriminate..]. cbn [rbind] in E.
      destruct h2 as [|x h2 _] using rev_ind.
      + apply app_inj_tail in Eh as [<- <-]. destruct o as [k v|k v]; cbn in E.
        * intros Hd. unfold insert in E. rewrite Hd in E. apply (history_domain h f0 E0 k).
          destruct (f0 !! k); [discriminate|done].
        * unfold assign in E. rewrite <- (history_domain h f0 E0 k). by destruct (f0 !! k).
      + rewrite app_comm_cons, app_assoc in Eh. apply app_inj_tail in Eh as [-> _].
        apply (proj1 IH) with (h2 := h2); [by exists f0|done].
    - intros Hs. destruct (proj2 IH) as (f0 & E0).
      { intros h1 o' h2 ->. apply (Hs h1 o' (h2 ++ [o])). by rewrite <- app_assoc. }
      rewrite rfold_snoc, E0. cbn [rbind]. specialize (Hs h o [] eq_refl).
      destruct o as [k v|k v]; cbn.
      + unfold insert. destruct debug eqn:Ed; [|by eexists]. rewrite <- Ed in E0.
        apply (history_domain h f0 E0) in Hs; [|done]. rewrite Hs. cbn. by eexists.
      + rewrite <- (history_domain h f0 E0 k) in Hs. unfold assign. destruct (f0 !! k); [by eexists|done].
  Qed.

  Lemma from_keys_ok (v0 : V) (keys : list K) :
    NoDup keys → from_keys debug v0 keys = Ok (list_to_map ((λ k, (k, v0)) <$> keys)).
  Proof.
    intros Hnd. unfold from_keys.
    assert (Hg : ∀ (keys : list K) (f : gmap K V), NoDup keys → (∀ k, k ∈ keys → f !! k = None) →
      rfold (λ f key, insert debug key v0 f) f keys = Ok (list_to_map ((λ k, (k, v0)) <$> keys) ∪ f)).
    { clear keys Hnd. induction keys as [|k keys IH]; intros f Hnd Hf.
      - cbn. by rewrite (left_id_L ∅ (∪)).
      - cbn [rfold]. unfold insert at 1. rewrite (Hf k) by left. rewrite assert_true by done. cbn [rbind].
        apply NoDup_cons in Hnd as [Hk Hnd]. rewrite IH; [|done|].
        + f_equal. cbn. rewrite <- insert_union_r; [by rewrite insert_union_l|].
          apply not_elem_of_list_to_map_1. by rewrite <- list_fmap_compose, list_fmap_id.
        + intros k' Hk'. rewrite lookup_insert_ne by (by intros ->). apply Hf. by right. }
    rewrite Hg; [by rewrite (right_id_L ∅ (∪))|done|]. intros k _. apply lookup_empty.
  Qed.
End field.

Lemma get_nodes_ok l s n : n ∈ get_nodes l s ↔ n ∈ s ∨ ∃ x : addr * gcell, x ∈ l ∧ n ∈ x.2.2.
Proof.
  unfold get_nodes. revert s. induction l as [|x l IH]; intros s; cbn [foldl].
  - split; [by left|]. intros [?|(x & Hx & _)]; [done|by apply elem_of_nil in Hx].
  - rewrite IH.
    assert (Hx : n ∈ foldl (λ (nodes : gset node) n, {[n]} ∪ nodes) s x.2.2 ↔ n ∈ s ∨ n ∈ x.2.2).
    { clear. revert s. induction x.2.2 as [|n' ns IH]; intros s; cbn.
      - split; [by left|]. intros [?|Hn]; [done|by apply elem_of_nil in Hn].
      - rewrite IH, elem_of_union, elem_of_singleton, elem_of_cons. tauto. }
    rewrite Hx. setoid_rewrite elem_of_cons. naive_solver.
Qed.

(* ---- the writers ---- *)

Lemma vtk_point_ok c x : in_space c → ∃ p, vtk_point c x = Ok p ∧ located c x p.
Proof.
  unfold in_space. intros Hc. destruct c as [[|[|[|[|D]]]]| |]; cbn in Hc; try lia; (eexists; split; [reflexivity|]); split; cbn.
  all: intros i Hi; try intros Hi'; destruct i as [|[|[|i]]]; try lia; reflexivity.
Qed.

Section number.
  Context {A : Type} `{Countable A}.
  Context (c : chart) (cs : csys) (key : node → res A) (k : node → A) (pt : node → vec).

  Definition ids_of (ks : list A) (m : gmap A nat) : Prop :=
    ∀ a i, m !! a = Some i ↔ ks !! i = Some a.

  Lemma vtk_number_ok cells :
    (∀ n, n ∈ concat cells → key n = Ok (k n)) →
    (∀ n, n ∈ concat cells → ∃ x, find_point n.2 cs = Some x ∧ vtk_point c x = Ok (pt n)) →
    ∃ ids pts, vtk_number c cs key cells = Ok (ids, length pts, pts) ∧
      ids_of (first_seen (k <$> concat cells)) ids ∧
      Forall2 (λ a p, ∃ n, n ∈ concat cells ∧ k n = a ∧ p = pt n) (first_seen (k <$> concat cells)) pts.
  Proof.
    unfold vtk_number. rewrite rfold_concat. generalize (concat cells) as ns. clear cells.
    induction ns as [|n ns IH] using rev_ind; intros Hk Hp.
    - exists ∅, []. split; [done|]. split; [|constructor]. intros a i. cbn. by rewrite lookup_empty.
    - destruct IH as (ids & pts & E & Hids & Hpts).
      { intros m Hm. apply Hk, elem_of_app. by left. } { intros m Hm. apply Hp, elem_of_app. by left. }
      rewrite rfold_snoc, E. cbn [rbind]. rewrite (Hk n) by (apply elem_of_app; right; left). cbn [rbind].
      rewrite fmap_app. cbn [fmap list_fmap]. rewrite first_seen_snoc.
      set (ks := first_seen (k <$> ns)) in *.
      assert (Hks : NoDup ks) by apply first_seen_NoDup.
      assert (Hmono : Forall2 (λ a p, ∃ n0, n0 ∈ ns ++ [n] ∧ k n0 = a ∧ p = pt n0) ks pts).
      { eapply Forall2_impl; [exact Hpts|]. intros a p (m & Hm & ? & ?). exists m. split_and!; [|done..].
        apply elem_of_app. by left. }
      destruct (decide (k n ∈ k <$> ns)) as [Hin|Hin].
      + apply elem_of_first_seen in Hin. fold ks in Hin. apply elem_of_list_lookup in Hin as (i & Hi%Hids).
        rewrite Hi. exists ids, pts. done.
      + destruct (ids !! k n) as [i|] eqn:Ei.
        { exfalso. apply Hin. apply elem_of_first_seen. fold ks. apply Hids in Ei. by eapply elem_of_list_lookup_2. }
        destruct (Hp n) as (x & Hx & Ex); [apply elem_of_app; right; left|].
        unfold coordinates. rewrite Hx. cbn [at_or_throw rbind]. rewrite Ex. cbn [rbind].
        eexists _, _. split; [f_equal; f_equal; f_equal; rewrite app_length; cbn; lia|].
        assert (Hlen : length pts = length ks) by (symmetry; by eapply Forall2_length).
        split.
        * intros a i. destruct (decide (a = k n)) as [->|Ha].
          -- rewrite lookup_insert, Hlen. split.
             ++ intros [= <-]. by apply list_lookup_middle.
             ++ intros Hi. f_equal. assert (NoDup (ks ++ [k n])) as Hnd.
                { apply NoDup_app. split_and!; [done| |apply NoDup_singleton].
                  intros b Hb ->%elem_of_list_singleton. apply Hin. by apply elem_of_first_seen. }
                eapply NoDup_lookup; [exact Hnd|by apply list_lookup_middle|done].
          -- rewrite lookup_insert_ne by done. transitivity (ks !! i = Some a); [apply Hids|]. split.
             ++ intros Hi. by apply lookup_app_l_Some.
             ++ intros [Hi|[Hle Hi]]%lookup_app_Some; [done|].
                destruct (i - length ks) as [|j]; [|by destruct j].
                cbn in Hi. congruence.
        * apply Forall2_app; [done|]. repeat constructor. exists n. split_and!; [|done..].
          apply elem_of_app. right. left.
  Qed.

  Lemma vtk_cells_ok debug cells ids ks :
    (∀ n, n ∈ concat cells → key n = Ok (k n)) → ids_of ks ids → (∀ n, n ∈ concat cells → k n ∈ ks) →
    ∃ rows, rmap (vtk_cell debug key ids) cells = Ok rows ∧
      Forall2 (λ ns row, Forall2 (λ n i, ks !! i = Some (k n)) ns row) cells rows.
  Proof.
    intros Hk Hids Hin. induction cells as [|ns cells IH]; [by exists []|].
    destruct IH as (rows & E & HF).
    { intros n Hn. apply Hk. cbn. apply elem_of_app. by right. }
    { intros n Hn. apply Hin. cbn. apply elem_of_app. by right. }
    assert (∃ row, vtk_cell debug key ids ns = Ok row ∧ Forall2 (λ n i, ks !! i = Some (k n)) ns row) as (row & Er & Hr).
    { assert (Hk' : ∀ n, n ∈ ns → key n = Ok (k n) ∧ k n ∈ ks).
      { intros n Hn. split; [apply Hk|apply Hin]; cbn; apply elem_of_app; by left. }
      clear -Hk' Hids. unfold vtk_cell. induction ns as [|n ns IH]; [by exists []|].
      destruct IH as (row & E & HF). { intros m Hm. apply Hk'. by right. }
      destruct (Hk' n) as [Ek (i & Hi)%elem_of_list_lookup]; [left|].
      exists (i :: row). cbn [rmap]. rewrite Ek. cbn [rbind]. pose proof Hi as Hi'. apply Hids in Hi'. rewrite Hi'.
      rewrite assert_true by (by apply bool_decide_true). cbn [rbind at_or_throw]. rewrite E. cbn [rbind].
      split; [done|]. by constructor. }
    exists (row :: rows). cbn [rmap]. rewrite Er. cbn [rbind]. rewrite E. split; [done|]. by constructor.
  Qed.

  Lemma attach_ok {Y} (visit : gmap A nat → list (A * nat)) ids ks g (field : gmap A Y) :
    visits visit → NoDup ks → ids_of ks ids → length (g_points g) = length ks →
    ((∀ a, a ∈ ks → is_Some (field !! a)) →
       ∃ ys, attach_nodal_field visit ids g field = Ok (Some <$> ys) ∧
         Forall2 (λ a y, field !! a = Some y) ks ys) ∧
    (∀ a, a ∈ ks → field !! a = None → attach_nodal_field visit ids g field = Abort).
  Proof.
    intros Hv Hnd Hids Hlen. unfold attach_nodal_field. rewrite Hlen.
    assert (Hes : ∀ a i, (a, i) ∈ visit ids ↔ ks !! i = Some a).
    { intros a i. rewrite (Hv ids), elem_of_map_to_list. apply Hids. }
    split.
    - intros Hf.
      assert (H1 : ∀ es arr, length arr = length ks → (∀ a i, (a, i) ∈ es → ks !! i = Some a) →
        ∃ arr', rfold (λ arr '(k, index),
            let! y := read field k in
            if index <? length arr then Ok (<[index := Some y]> arr) else Ub) arr es = Ok arr' ∧
          length arr' = length ks ∧
          ∀ i a y, ks !! i = Some a → field !! a = Some y →
            (arr !! i = Some (Some y) ∨ (a, i) ∈ es) → arr' !! i = Some (Some y)).
      { induction es as [|[a i] es IH]; intros arr Harr Hin.
        - exists arr. split_and!; [done|done|]. intros ? ? ? ? ? [?|Hn]; [done|by apply elem_of_nil in Hn].
        - cbn [rfold]. pose proof (Hin a i ltac:(left)) as Ha. pose proof (lookup_lt_Some _ _ _ Ha) as Hlt.
          destruct (Hf a) as [y Hy]; [by eapply elem_of_list_lookup_2|].
          unfold read at 1. rewrite Hy. cbn [at_or_throw rbind].
          assert ((i <? length arr) = true) as -> by (apply Nat.ltb_lt; lia). cbn [rbind].
          destruct (IH (<[i:=Some y]> arr)) as (arr' & E & Hl & Hr).
          { by rewrite insert_length. } { intros. apply Hin. by right. }
          exists arr'. split_and!; [done|done|]. intros j b z Hj Hz Hor. apply (Hr j b z Hj Hz).
          destruct (decide (i = j)) as [->|Hne].
          + left. rewrite list_lookup_insert by lia. congruence.
          + rewrite list_lookup_insert_ne by done. destruct Hor as [?|[[= -> ->]|?]%elem_of_cons]; [by left|done|by right]. }
      destruct (H1 (visit ids) (replicate (length ks) None)) as (arr & E & Hl & Hr).
      { by rewrite replicate_length. } { intros a i. by rewrite Hes. }
      assert (∃ ys, Forall2 (λ a y, field !! a = Some y) ks ys) as (ys & Hys).
      { clear -Hf. induction ks as [|a ks IH]; [by exists []|]. destruct IH as (ys & ?); [intros; apply Hf; by right|].
        destruct (Hf a) as [y ?]; [left|]. exists (y :: ys). by constructor. }
      exists ys. split; [|done]. rewrite E. f_equal.
      apply list_eq_same_length with (n := length ks); [by rewrite fmap_length, (Forall2_length _ _ _ Hys)|done|].
      intros i u v Hi Hu Hv'. rewrite list_lookup_fmap in Hv'. destruct (ys !! i) as [y|] eqn:Ey; [|done].
      injection Hv' as <-. destruct (Forall2_lookup_r _ _ _ _ _ Hys Ey) as (a & Ha & Hy).
      rewrite (Hr i a y) in Hu; [congruence|done|done|]. right. by apply Hes.
    - intros a (i & Hi)%elem_of_list_lookup Hn. apply Hes in Hi.
      assert (H1 : ∀ es arr, length arr = length ks → (∀ a i, (a, i) ∈ es → ks !! i = Some a) → (a, i) ∈ es →
        rfold (λ arr '(k, index),
            let! y := read field k in
            if index <? length arr then Ok (<[index := Some y]> arr) else Ub) arr es = Abort).
      { induction es as [|[b j] es IH]; intros arr Harr Hin Ha; [by apply elem_of_nil in Ha|].
        cbn [rfold]. pose proof (Hin b j ltac:(left)) as Hb. pose proof (lookup_lt_Some _ _ _ Hb) as Hlt.
        unfold read at 1. destruct (field !! b) as [y|] eqn:Ey; [|done]. cbn [at_or_throw rbind].
        assert ((j <? length arr) = true) as -> by (apply Nat.ltb_lt; lia). cbn [rbind].
        apply IH; [by rewrite insert_length|intros; apply Hin; by right|].
        apply elem_of_cons in Ha as [[= -> ->]|?]; [congruence|done]. }
      apply H1; [by rewrite replicate_length|intros ? ?; by rewrite Hes|done].
  Qed.
End number.

Lemma cloud_points l (s : gset nat) p : p ∈ foldl (λ points p, {[p]} ∪ points) s l ↔ p ∈ s ∨ p ∈ l.
Proof.
  revert s. induction l as [|q l IH]; intros s; cbn.
  - split; [by left|]. intros [?|Hn]; [done|by apply elem_of_nil in Hn].
  - rewrite IH, elem_of_union, elem_of_singleton, elem_of_cons. tauto.
Qed.

Lemma attach_point_ok {Y} (field : gmap nat Y) ps :
  ∀ pre, ((∀ p, p ∈ ps → is_Some (field !! p)) →
    ∃ ys, rfold (λ '(arr, index) p,
      let! y := read field p in
      if index <? length arr then Ok (<[index := Some y]> arr, S index) else Ub)
      ((Some <$> pre) ++ replicate (length ps) None, length pre) ps = Ok (Some <$> (pre ++ ys), length pre + length ps) ∧
      Forall2 (λ p y, field !! p = Some y) ps ys).
Proof.
  induction ps as [|p ps IH]; intros pre Hf.
  - exists []. cbn. rewrite !app_nil_r, Nat.add_0_r. done.
  - destruct (Hf p) as [y Hy]; [left|]. cbn [rfold length replicate]. unfold read at 1. rewrite Hy. cbn [at_or_throw rbind].
    assert ((length pre <? length ((Some <$> pre) ++ None :: replicate (length ps) None)) = true) as ->.
    { apply Nat.ltb_lt. rewrite app_length, fmap_length. cbn. lia. }
    cbn [rbind].
    assert (<[length pre:=Some y]> ((Some <$> pre) ++ None :: replicate (length ps) None) =
              (Some <$> (pre ++ [y])) ++ replicate (length ps) None) as ->.
    { rewrite <- (Nat.add_0_r (length pre)) at 1. rewrite <- (fmap_length Some pre), insert_app_r, fmap_app, <- app_assoc. done. }
    destruct (IH (pre ++ [y])) as (ys & E & HF). { intros. apply Hf. by right. }
    exists (y :: ys). rewrite app_length in E. cbn [length] in E. rewrite Nat.add_1_r in E. rewrite E.
    rewrite <- app_assoc. split; [|by constructor]. cbn. do 2 f_equal. lia.
Qed.
