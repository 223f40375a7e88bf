(* Invariants of the topology model. *)
From stdpp Require Import base gmap list.
From Verif Require Import Base M_Perm S_Perm P_Perm M_Topology S_Topology.

Local Ltac splits := repeat match goal with |- _ ∧ _ => split end.

Lemma nat_total : total_order Nat.leb.
Proof. constructor; intros *; rewrite ?Nat.leb_le; lia. Qed.

(* ---- weakest preconditions ---- *)
Definition wp {A} (m : act A) (st : topo) (Q : A → topo → Prop) (E : topo → Prop) : Prop :=
  match m st with
  | Ret a st' => Q a st'
  | Throw st' => E st'
  | Undef => False
  end.

Lemma wp_bind {A B} (m : act A) (k : A → act B) st Q E :
  wp m st (λ a st', wp (k a) st' Q E) E → wp (abind m k) st Q E.
Proof. unfold wp, abind. by destruct (m st). Qed.

Lemma wp_mono {A} (m : act A) st (Q Q' : A → topo → Prop) (E E' : topo → Prop) :
  wp m st Q E → (∀ a st', Q a st' → Q' a st') → (∀ st', E st' → E' st') → wp m st Q' E'.
Proof. unfold wp. destruct (m st); eauto. Qed.

Lemma wp_read {A} (f : topo → res A) st (Q : A → topo → Prop) (E : topo → Prop) :
  (∀ a, f st = Ok a → Q a st) → (f st = Abort → E st) → f st ≠ Ub → wp (aread f) st Q E.
Proof. unfold wp, aread. destruct (f st); eauto. Qed.

(* ---- lists ---- *)
Lemma rmap_Forall2 {A B} (f : A → res B) l l' :
  rmap f l = Ok l' ↔ Forall2 (λ a b, f a = Ok b) l l'.
Proof.
  split.
  - revert l'. induction l as [|a l IH]; intros l' H; cbn [rmap] in H.
    + injection H as <-. constructor.
    + apply rbind_ok in H as (b & Hb & H). apply rbind_ok in H as (bs & Hbs & H).
      injection H as <-. constructor; auto.
  - induction 1 as [|a b l l' Hab _ IH]; cbn [rmap]; [done|]. by rewrite Hab; cbn [rbind]; rewrite IH.
Qed.

Lemma count_0 x l : count x l = 0 ↔ x ∉ l.
Proof.
  unfold count. rewrite length_zero_iff_nil. split.
  - intros H Hx. assert (x ∈ filter (x =.) l) as H' by (by apply elem_of_list_filter).
    rewrite H in H'. inversion H'.
  - intros Hx. destruct (filter (x =.) l) as [|y m] eqn:E; [done|].
    assert (y ∈ filter (x =.) l) as H' by (rewrite E; left).
    apply elem_of_list_filter in H' as [<- H']. done.
Qed.

Lemma sum_list_with_0 {A} (f : A → nat) l : sum_list_with f l = 0 ↔ ∀ x, x ∈ l → f x = 0.
Proof.
  induction l as [|a l IH]; cbn [sum_list_with].
  - split; [|done]. intros _ x Hx. inversion Hx.
  - split.
    + intros H x [->|Hx]%elem_of_cons; [lia|]. apply IH; [lia|done].
    + intros H. rewrite (H a), (proj2 IH); [done| |left]. intros. apply H. by right.
Qed.

Lemma refsO_listed st N o :
  refsO st N o = held (hO st) (N, o) ↔ ∀ f c, fps st !! (S N, f) = Some c → o ∉ c.
Proof.
  unfold refsO.
  transitivity (sum_list_with (λ '((d, _), c), if decide (d = S N) then count o c else 0)
                  (map_to_list (fps st)) = 0); [lia|].
  rewrite sum_list_with_0. split.
  - intros H f c Hf. specialize (H ((S N, f), c)). rewrite elem_of_map_to_list in H.
    specialize (H Hf). cbn in H. rewrite decide_True in H by done. by apply count_0.
  - intros H [[d f] c] Hx. apply elem_of_map_to_list in Hx. case_decide; [|done].
    subst. apply count_0. eauto.
Qed.

Lemma refsF_ridden st N f :
  refsF st N f = held (hF st) (N, f) ↔ ∀ o s, ors st !! (N, o) ≠ Some (f, s).
Proof.
  unfold refsF.
  transitivity (sum_list_with (λ '((d, _), (g, _)), if decide (d = N ∧ g = f) then 1 else 0)
                  (map_to_list (ors st)) = 0); [lia|].
  rewrite sum_list_with_0. split.
  - intros H o s Ho. specialize (H ((N, o), (f, s))). rewrite elem_of_map_to_list in H.
    specialize (H Ho). cbn in H. rewrite decide_True in H by done. done.
  - intros H [[d o] [g s]] Hx. apply elem_of_map_to_list in Hx. case_decide as Hd; [|done].
    destruct Hd as [-> ->]. by apply H in Hx.
Qed.

Lemma refsO_ge st N o : held (hO st) (N, o) ≤ refsO st N o.
Proof. unfold refsO. lia. Qed.
Lemma refsF_ge st N f : held (hF st) (N, f) ≤ refsF st N f.
Proof. unfold refsF. lia. Qed.

(* ---- the invariant ---- *)
Record Inv (st : topo) : Prop := {
  i_or : ∀ N o f s, ors st !! (N, o) = Some (f, s) →
           is_Some (fps st !! (N, f)) ∧ omap st !! (N, f, s) = Some o ∧ sign s;
  i_om : ∀ N f s o, omap st !! (N, f, s) = Some o → ors st !! (N, o) = Some (f, s);
  i_f0 : ∀ f c, fps st !! (0, f) = Some c → c = [];
  i_fS : ∀ N f c, fps st !! (S N, f) = Some c →
           length c = S (S N) ∧ ∀ o, o ∈ c → is_Some (ors st !! (N, o));
  i_cm : ∀ N f c, fps st !! (S N, f) = Some c →
           ∃ r, representative st (S N) c = Ok r ∧ cmap st !! (S N, r) = Some f;
  i_mc : ∀ N r f, cmap st !! (N, r) = Some f →
           ∃ N' c, N = S N' ∧ fps st !! (N, f) = Some c ∧ representative st N c = Ok r;
  i_hO : ∀ N o, has st N o → is_Some (ors st !! (N, o));
  i_hF : ∀ N f, hasF st N f → is_Some (fps st !! (N, f))
}.

Lemma Inv0 : Inv topo0.
Proof.
  constructor; cbn; try (intros; rewrite lookup_empty in *; discriminate).
  - intros N o H. unfold has, held, topo0 in H. cbn [hO] in H. rewrite lookup_empty in H.
    cbn in H. lia.
  - intros N o H. unfold hasF, held, topo0 in H. cbn [hF] in H. rewrite lookup_empty in H.
    cbn in H. lia.
Qed.

(* [footprints] only looks at the members *)
Lemma footprints_ext st st' N c :
  (∀ o, o ∈ c → ors st' !! (pred N, o) = ors st !! (pred N, o)) →
  footprints st' N c = footprints st N c.
Proof.
  unfold footprints. induction c as [|o c IH]; intros H; [done|]. cbn [rmap].
  unfold footprint at 1 3, oriented. rewrite H by left.
  rewrite IH; [done|]. intros. apply H. by right.
Qed.
Lemma representative_ext st st' N c :
  (∀ o, o ∈ c → ors st' !! (pred N, o) = ors st !! (pred N, o)) →
  representative st' N c = representative st N c.
Proof. intros. unfold representative. by rewrite (footprints_ext st st'). Qed.

Lemma footprints_ok st N c :
  (∀ o, o ∈ c → is_Some (ors st !! (pred N, o))) → ∃ l, footprints st N c = Ok l.
Proof.
  unfold footprints. induction c as [|o c IH]; intros H; [by eexists|]. cbn [rmap].
  destruct (H o) as [[f s] Ho]; [left|]. unfold footprint at 1, oriented. rewrite Ho.
  cbn [deref rbind fst]. destruct IH as [l ->]; [intros; apply H; by right|]. by eexists.
Qed.
Lemma representative_ok st N c :
  (∀ o, o ∈ c → is_Some (ors st !! (pred N, o))) →
  ∃ l, footprints st N c = Ok l ∧ representative st N c = Ok (sort Nat.leb l).
Proof.
  intros H. destruct (footprints_ok st N c H) as [l Hl]. exists l. split; [done|].
  unfold representative. by rewrite Hl.
Qed.

Lemma footprint_ok st N o f : footprint st N o = Ok f ↔ ∃ s, ors st !! (N, o) = Some (f, s).
Proof.
  unfold footprint, oriented. destruct (ors st !! (N, o)) as [[g t]|]; cbn [deref rbind fst].
  - split; [intros [= ->]; eauto|intros [s [= -> ->]]; done].
  - split; [discriminate|intros [s Hs]; discriminate].
Qed.
Lemma footprints_spec st N c l : footprints st (S N) c = Ok l ↔ footprints_are st N c l.
Proof.
  unfold footprints, footprints_are. rewrite rmap_Forall2. cbn [pred].
  split; intros H; (eapply Forall2_impl; [exact H|]); intros; cbn; by apply footprint_ok.
Qed.
Lemma representative_perm st N c c' r :
  representative st N c = Ok r → representative st N c' = Ok r →
  ∃ l l', footprints st N c = Ok l ∧ footprints st N c' = Ok l' ∧ l ≡ₚ l'.
Proof.
  unfold representative. intros (l & Hl & H)%rbind_ok (l' & Hl' & H')%rbind_ok.
  injection H as <-. injection H' as H'. exists l, l'. splits; [done..|].
  symmetry. by apply (sort_eq_iff _ nat_total).
Qed.

(* ---- growing ---- *)

(* The elementary changes that creations make: a new vertex, a new oriented simplex on a registered
   footprint, a new footprint for an accepted composition. *)
Inductive atom (debug : bool) (st st' : topo) : Prop :=
  | atom_vertex f :
      fps st !! (0, f) = None → fps st' = <[(0, f) := []]> (fps st) → ors st' = ors st →
      atom debug st st'
  | atom_oriented N o f s :
      is_Some (fps st !! (N, f)) → sign s → omap st !! (N, f, s) = None →
      ors st !! (N, o) = None → ors st' = <[(N, o) := (f, s)]> (ors st) → fps st' = fps st →
      atom debug st st'
  | atom_simplex N f c :
      length c = S (S N) → (∀ o, o ∈ c → is_Some (ors st !! (N, o))) →
      is_valid debug st (S N) c = Ok true → find_simplex st (S N) c = Ok None →
      fps st !! (S N, f) = None → fps st' = <[(S N, f) := c]> (fps st) → ors st' = ors st →
      atom debug st st'.

Inductive atoms (debug : bool) : topo → topo → Prop :=
  | atoms_refl st : atoms debug st st
  | atoms_step st st1 st' :
      Inv st → Inv st1 → atom debug st st1 → atoms debug st1 st' → atoms debug st st'.
Lemma atoms_trans debug st1 st2 st3 :
  atoms debug st1 st2 → atoms debug st2 st3 → atoms debug st1 st3.
Proof. induction 1 as [|st st1 st' ? ? Ha _ IH]; [done|]. intros H'. eapply atoms_step; eauto. Qed.

Definition growsd (debug : bool) (st st' : topo) : Prop :=
  fps st ⊆ fps st' ∧ ors st ⊆ ors st' ∧ cmap st ⊆ cmap st' ∧ omap st ⊆ omap st' ∧
  hO st' = hO st ∧ hF st' = hF st ∧ atoms debug st st'.

Lemma grows_refl debug st : growsd debug st st.
Proof. unfold growsd. splits; try done. constructor. Qed.
Lemma grows_trans debug st1 st2 st3 :
  growsd debug st1 st2 → growsd debug st2 st3 → growsd debug st1 st3.
Proof.
  intros (?&?&?&?&?&?&?) (?&?&?&?&?&?&?). unfold growsd. splits; try (by etrans); [congruence..|].
  by eapply atoms_trans.
Qed.
Lemma grows_fp debug st st' k c : growsd debug st st' → fps st !! k = Some c → fps st' !! k = Some c.
Proof. intros (H&_) Hk. by eapply lookup_weaken. Qed.
Lemma grows_or debug st st' k c : growsd debug st st' → ors st !! k = Some c → ors st' !! k = Some c.
Proof. intros (_&H&_) Hk. by eapply lookup_weaken. Qed.
Lemma grows_fp_some debug st st' k :
  growsd debug st st' → is_Some (fps st !! k) → is_Some (fps st' !! k).
Proof. intros H [c Hc]. exists c. by eapply grows_fp. Qed.
Lemma grows_or_some debug st st' k :
  growsd debug st st' → is_Some (ors st !! k) → is_Some (ors st' !! k).
Proof. intros H [c Hc]. exists c. by eapply grows_or. Qed.

Section creation.
  Context (al : alloc) (Hal : good_alloc al) (debug : bool).
  Local Notation grows := (growsd debug).

  Lemma wp_vertex st E :
    Inv st →
    wp (vertex_f al) st (λ f st', Inv st' ∧ grows st st' ∧ fps st' !! (0, f) = Some [] ∧
                                  fps st !! (0, f) = None ∧ ors st' = ors st ∧
                                  fps st' = <[(0, f) := []]> (fps st)) E.
  Proof.
    intros HI. unfold wp, vertex_f, emplace_footprint.
    destruct (Hal st 0) as [Hf _]. set (f := pickF al st 0) in *.
    assert (Inv (Topo (<[(0, f) := []]> (fps st)) (ors st) (cmap st) (omap st) (hO st) (hF st)
                   (S (clk st)))) as HI'.
    { destruct HI. constructor; cbn; try done.
      + intros N o g s Ho. destruct (i_or0 _ _ _ _ Ho) as (Hg & ? & ?). splits; try done.
        destruct (decide ((N, g) = (0, f))) as [->|Hne].
        * rewrite lookup_insert. eauto.
        * by rewrite lookup_insert_ne.
      + intros g c [[[= <-] <-]|[Hne H]]%lookup_insert_Some; eauto.
      + intros N g c [[H _]|[Hne H]]%lookup_insert_Some; [discriminate|]. eauto.
      + intros N g c [[H _]|[Hne H]]%lookup_insert_Some; [discriminate|].
        apply i_cm0 in H as (r & Hr & ?). exists r. split; [|done].
        by rewrite <- Hr.
      + intros N r g Hg. apply i_mc0 in Hg as (N' & c & -> & Hc & Hr). exists N', c.
        splits; [done|by rewrite lookup_insert_ne|by rewrite <- Hr].
      + intros N g Hg. destruct (decide ((N, g) = (0, f))) as [->|Hne].
        * rewrite lookup_insert. eauto.
        * rewrite lookup_insert_ne by done. by apply i_hF0. }
    splits; cbn; [done| |by rewrite lookup_insert|done|done|done].
    unfold growsd; cbn. splits; try done; [by apply insert_subseteq|].
    eapply atoms_step; [exact HI|exact HI'| |constructor]. by apply (atom_vertex _ _ _ f).
  Qed.

  Lemma wp_simplex_f st N c E :
    Inv st → length c = S (S N) → (∀ o, o ∈ c → is_Some (ors st !! (N, o))) →
    is_valid debug st (S N) c = Ok true →
    wp (simplex_f al (S N) c) st
      (λ f st', Inv st' ∧ grows st st' ∧ ors st' = ors st ∧ omap st' = omap st ∧
         (∃ c' r, fps st' !! (S N, f) = Some c' ∧ representative st' (S N) c' = Ok r ∧
                  representative st' (S N) c = Ok r) ∧
         (∀ g, find_simplex st (S N) c = Ok (Some g) → g = f ∧ st' = st) ∧
         (find_simplex st (S N) c = Ok None →
            fps st' = <[(S N, f) := c]> (fps st) ∧ fps st !! (S N, f) = None)) E.
  Proof.
    intros HI Hlen Hc Hv. unfold simplex_f. apply wp_bind.
    destruct (representative_ok st (S N) c Hc) as (l & Hl & Hr).
    apply wp_read; [|rewrite Hr; discriminate..].
    intros r Hr'. rewrite Hr in Hr'. injection Hr' as <-. set (r := sort Nat.leb l) in *.
    apply wp_bind. apply wp_read; [|discriminate..]. intros found [= <-].
    destruct (cmap st !! (S N, r)) as [f|] eqn:Hf.
    - cbn. unfold wp, aret. destruct (i_mc _ HI _ _ _ Hf) as (N' & c' & [= <-] & Hc' & Hr').
      splits; try done; [apply grows_refl|..].
      + exists c', r. done.
      + unfold find_simplex. rewrite Hr. cbn [rbind]. rewrite Hf. by intros g [= ->].
      + unfold find_simplex. rewrite Hr. cbn [rbind]. rewrite Hf. done.
    - unfold wp, abind, emplace_footprint, insert_cmap, aret; cbn. rewrite Hf.
      destruct (Hal st (S N)) as [Hfresh _]. set (f := pickF al st (S N)) in *.
      assert (∀ h c, fps st !! (S N, h) = Some c → (S N, h) ≠ (S N, f)) as Hne0.
      { intros h c' Hh [= ->]. congruence. }
      assert (Inv (Topo (<[(S N, f) := c]> (fps st)) (ors st) (<[(S N, r) := f]> (cmap st))
                     (omap st) (hO st) (hF st) (S (clk st)))) as HI'.
      { destruct HI. constructor; cbn; try done.
        * intros M o g s Ho. destruct (i_or0 _ _ _ _ Ho) as (Hg & ? & ?). splits; try done.
          destruct (decide ((M, g) = (S N, f))) as [->|Hne].
          -- rewrite lookup_insert. eauto.
          -- by rewrite lookup_insert_ne.
        * intros g c' [[H _]|[Hne H]]%lookup_insert_Some; [discriminate|]. eauto.
        * intros M g c' [[[= <- <-] <-]|[Hne H]]%lookup_insert_Some; [|eauto]. done.
        * intros M g c' [[[= <- <-] <-]|[Hne H]]%lookup_insert_Some.
          -- exists r. split; [exact Hr|]. by rewrite lookup_insert.
          -- apply i_cm0 in H as (r' & Hr' & H). exists r'. split; [exact Hr'|].
             rewrite lookup_insert_ne; [done|]. intros [= <- <-]. congruence.
        * intros M r' g [[[= <- <-] <-]|[Hne H]]%lookup_insert_Some.
          -- exists N, c. splits; [done|by rewrite lookup_insert|exact Hr].
          -- apply i_mc0 in H as (N' & c' & -> & Hc' & Hr'). exists N', c'.
             splits; [done| |exact Hr']. rewrite lookup_insert_ne; [done|].
             intros [= <- <-]. congruence.
        * intros M g Hg. destruct (decide ((M, g) = (S N, f))) as [->|Hne].
          -- rewrite lookup_insert. eauto.
          -- rewrite lookup_insert_ne by done. by apply i_hF0. }
      splits; try done.
      + unfold growsd; cbn. splits; try done; [by apply insert_subseteq..|].
        eapply atoms_step; [exact HI|exact HI'| |constructor].
        apply (atom_simplex _ _ _ N f c); try done.
        unfold find_simplex. rewrite Hr. cbn [rbind]. by rewrite Hf.
      + exists c, r. splits; [by rewrite lookup_insert|exact Hr|exact Hr].
      + unfold find_simplex. rewrite Hr. cbn [rbind]. rewrite Hf. intros g [=].
  Qed.

  Lemma wp_oriented st N f s E :
    Inv st → is_Some (fps st !! (N, f)) → sign s →
    wp (oriented_simplex al N f s) st
      (λ o st', Inv st' ∧ grows st st' ∧ ors st' !! (N, o) = Some (f, s) ∧
         fps st' = fps st ∧ cmap st' = cmap st ∧
         (∀ p, omap st !! (N, f, s) = Some p → p = o ∧ st' = st) ∧
         (omap st !! (N, f, s) = None →
            ors st' = <[(N, o) := (f, s)]> (ors st) ∧ ors st !! (N, o) = None)) E.
  Proof.
    intros HI Hfp Hs. unfold oriented_simplex. apply wp_bind.
    apply wp_read; [|discriminate..]. intros found [= <-]. unfold find_oriented.
    destruct (omap st !! (N, f, s)) as [o|] eqn:Ho.
    - unfold wp, aret. splits; try done; [apply grows_refl|..].
      + by apply (i_om _ HI).
      + by intros p [= ->].
    - unfold wp, abind, emplace_oriented, insert_omap, aret; cbn. rewrite Ho.
      destruct (Hal st N) as [_ Hfresh]. set (o := pickO al st N) in *.
      assert (∀ M c (f' : nat), (∀ x, x ∈ c → is_Some (ors st !! (pred M, x))) →
               ∀ r, representative st M c = Ok r →
               representative (Topo (fps st) (<[(N, o):=(f, s)]> (ors st)) (cmap st)
                  (<[(N, f, s):=o]> (omap st)) (hO st) (hF st) (S (clk st))) M c = Ok r) as Hrep.
      { intros M c f' Hc r Hr. rewrite <- Hr. apply representative_ext. intros x Hx. cbn.
        rewrite lookup_insert_ne; [done|]. intros [= HM Hox].
        destruct (Hc x Hx) as [? Hs']. rewrite <- HM, <- Hox in Hs'. congruence. }
      assert (Inv (Topo (fps st) (<[(N, o):=(f, s)]> (ors st)) (cmap st)
                  (<[(N, f, s):=o]> (omap st)) (hO st) (hF st) (S (clk st)))) as HI'.
      { destruct HI. constructor; cbn; try done.
        * intros M p g t [[[= <- <-] [= <- <-]]|[Hne H]]%lookup_insert_Some.
          -- splits; try done. by rewrite lookup_insert.
          -- destruct (i_or0 _ _ _ _ H) as (? & Hm & ?). splits; try done.
             rewrite lookup_insert_ne; [done|]. intros [= <- <- <-]. congruence.
        * intros M g t p [[[= <- <- <-] <-]|[Hne H]]%lookup_insert_Some.
          -- by rewrite lookup_insert.
          -- apply i_om0 in H. rewrite lookup_insert_ne; [done|]. intros [= <- <-]. congruence.
        * intros M g c Hg. destruct (i_fS0 _ _ _ Hg) as [? Hc]. split; [done|].
          intros x Hx. destruct (decide ((M, x) = (N, o))) as [->|Hne].
          -- rewrite lookup_insert. eauto.
          -- rewrite lookup_insert_ne by done. eauto.
        * intros M g c Hg. destruct (i_cm0 _ _ _ Hg) as (r & Hr & ?). exists r.
          split; [|done]. apply Hrep; [done|apply (i_fS0 _ _ _ Hg)|done].
        * intros M r g Hg. destruct (i_mc0 _ _ _ Hg) as (M' & c & -> & Hc & Hr). exists M', c.
          splits; [done..|]. apply Hrep; [done|apply (i_fS0 _ _ _ Hc)|done].
        * intros M p Hp. destruct (decide ((M, p) = (N, o))) as [->|Hne].
          -- rewrite lookup_insert. eauto.
          -- rewrite lookup_insert_ne by done. by apply i_hO0. }
      splits; try done.
      + unfold growsd; cbn. splits; try done; [by apply insert_subseteq..|].
        eapply atoms_step; [exact HI|exact HI'| |constructor].
        by apply (atom_oriented _ _ _ N o f s).
      + by rewrite lookup_insert.
  Qed.

  (* ---- reading is defined on registered objects ---- *)
  Lemma oriented_ok st N o : is_Some (ors st !! (N, o)) → ∃ f s, oriented st N o = Ok (f, s).
  Proof. intros [[f s] H]. exists f, s. unfold oriented. by rewrite H. Qed.

  Lemma swap01_perm l : swap01 l ≡ₚ l.
  Proof. destruct l as [|a [|b l]]; try done. apply perm_swap. Qed.

  Lemma composition_ok st N o :
    Inv st → is_Some (ors st !! (S N, o)) →
    ∃ f s c c', ors st !! (S N, o) = Some (f, s) ∧ fps st !! (S N, f) = Some c ∧
      composition st (S N) o = Ok c' ∧ c' ≡ₚ c ∧ (c' = if decide (s = (-1)%Z) then swap01 c else c).
  Proof.
    intros HI [[f s] Ho]. destruct (i_or _ HI _ _ _ _ Ho) as ([c Hc] & _ & _).
    eexists f, s, c, _. unfold composition, oriented, fcomposition. rewrite Ho. cbn [deref rbind].
    rewrite Hc. cbn [deref rbind]. splits; try done. case_decide; [apply swap01_perm|done].
  Qed.

  Lemma rfold_ok {A B} (g : A → B → res A) a l :
    (∀ a b, b ∈ l → ∃ a', g a b = Ok a') → ∃ a', rfold g a l = Ok a'.
  Proof.
    revert a. induction l as [|b l IH]; intros a H; cbn [rfold]; [by eexists|].
    destruct (H a b) as [a' ->]; [left|]. cbn [rbind]. apply IH. intros. apply H. by right.
  Qed.

  Lemma net_ok st M c :
    Inv st → (∀ o, o ∈ c → is_Some (ors st !! (S M, o))) → ∃ m, net_orientations st (S M) c = Ok m.
  Proof.
    intros HI Hc. unfold net_orientations. apply rfold_ok. intros m o Ho.
    destruct (oriented_ok st (S M) o) as (f & s & ->); [by apply Hc|]. cbn [rbind].
    destruct (composition_ok st M o HI) as (f' & s' & d & d' & _ & Hd & -> & Hdd & _); [by apply Hc|].
    cbn [rbind]. apply rfold_ok. intros m' p Hp. cbn [pred].
    destruct (oriented_ok st M p) as (g & t & ->).
    { apply (i_fS _ HI _ _ _ Hd). by rewrite <- Hdd. }
    cbn [rbind]. by eexists.
  Qed.

  Lemma entry_ok {A} (l : list A) i : i < length l → ∃ x, entry l i = Ok x ∧ l !! i = Some x.
  Proof. intros H. unfold entry. destruct (lookup_lt_is_Some_2 l i H) as [x ->]. by exists x. Qed.

  Lemma is_valid_not_ub st N c :
    Inv st → length c = S (S N) → (∀ o, o ∈ c → is_Some (ors st !! (N, o))) →
    is_valid debug st (S N) c ≠ Ub.
  Proof.
    intros HI Hlen Hc. unfold is_valid. destruct N as [|M].
    - destruct (entry_ok c 0) as (o0 & -> & H0); [lia|].
      destruct (entry_ok c 1) as (o1 & -> & H1); [lia|]. cbn [rbind].
      destruct (oriented_ok st 0 o0) as (f0 & s0 & ->); [by eapply Hc, elem_of_list_lookup_2|].
      destruct (oriented_ok st 0 o1) as (f1 & s1 & ->); [by eapply Hc, elem_of_list_lookup_2|].
      done.
    - destruct (net_ok st M c HI Hc) as [m ->]. cbn [rbind]. unfold assert_.
      by destruct (debug && _).
  Qed.

  Lemma sign_of_perm l l' : l ≠ [] → l ≡ₚ l' →
    ∃ s, permutation_sign Nat.leb debug l l' = Ok s ∧ sign s.
  Proof.
    intros Hne Hp. unfold permutation_sign.
    assert (same_elements Nat.leb l l' = true) as ->
      by (by apply (same_elements_spec _ nat_total)).
    unfold assert_. rewrite andb_false_r. cbn [rbind].
    destruct (swap_sort_exchanges l' l Hne Hp) as (n & -> & _). cbn [rbind].
    eexists. split; [done|]. unfold sign. destruct (Nat.even n); auto.
  Qed.

  Lemma footprints_length st N c l : footprints st N c = Ok l → length l = length c.
  Proof. unfold footprints. intros H%rmap_Forall2. symmetry. by eapply Forall2_length. Qed.

  Lemma orientation_ok st N c f c' r :
    fps st !! (S N, f) = Some c' → representative st (S N) c' = Ok r →
    representative st (S N) c = Ok r → c ≠ [] →
    ∃ s, orientation debug st (S N) c f = Ok s ∧ sign s.
  Proof.
    intros Hf Hr' Hr Hne. unfold orientation, fcomposition. rewrite Hf. cbn [deref rbind].
    destruct (representative_perm _ _ _ _ _ Hr Hr') as (l & l' & Hl & Hl' & Hp).
    rewrite Hl, Hl'. cbn [rbind]. apply sign_of_perm; [|done].
    intros ->. apply footprints_length in Hl. destruct c; done.
  Qed.

  Definition thrown (st st' : topo) : Prop := Inv st' ∧ grows st st'.

  Lemma wp_simplex st N c :
    Inv st → length c = S (S N) → (∀ o, o ∈ c → is_Some (ors st !! (N, o))) →
    wp (simplex al debug (S N) c) st
      (λ o st', is_valid debug st (S N) c = Ok true ∧ Inv st' ∧ grows st st' ∧
         ∃ f s c' r, ors st' !! (S N, o) = Some (f, s) ∧ sign s ∧ fps st' !! (S N, f) = Some c' ∧
           representative st' (S N) c' = Ok r ∧ representative st' (S N) c = Ok r ∧
           orientation debug st' (S N) c f = Ok s ∧
           (∀ g, find_simplex st (S N) c = Ok (Some g) → g = f ∧ fps st' = fps st ∧ cmap st' = cmap st ∧
              (∀ p, omap st !! (S N, f, s) = Some p → p = o ∧ st' = st)) ∧
           (find_simplex st (S N) c = Ok None →
              fps st' = <[(S N, f) := c]> (fps st) ∧ fps st !! (S N, f) = None) ∧
           (ors st' = ors st ∨
            ors st' = <[(S N, o) := (f, s)]> (ors st) ∧ ors st !! (S N, o) = None))
      (λ st', st' = st ∧ (is_valid debug st (S N) c = Abort ∨ is_valid debug st (S N) c = Ok false)).
  Proof.
    intros HI Hlen Hc. unfold simplex. apply wp_bind.
    apply wp_read; [|by auto|by apply is_valid_not_ub]. intros [|] Hv; [|by unfold wp, athrow; auto].
    apply wp_bind. eapply wp_mono; [by apply (wp_simplex_f _ _ _ (λ _, False))| |intros st' []].
    intros f st1 (HI1 & Hg1 & Hors1 & Hom1 & (c' & r & Hf1 & Hr' & Hr) & Hfound & Hnew). cbn beta.
    apply wp_bind.
    destruct (orientation_ok st1 N c f c' r) as (s & Hs & Hsign); [done..|by intros ->|].
    apply wp_read; rewrite Hs; [|done..]. intros s' [= <-].
    eapply wp_mono; [apply (wp_oriented _ _ _ _ (λ _, False)); eauto| |intros st' []].
    intros o st2 (HI2 & Hg2 & Ho2 & Hfps2 & Hcm2 & Hold & Hnew2).
    assert (Hmem : ∀ d : list nat, (∀ x, x ∈ d → is_Some (ors st1 !! (N, x))) →
      ∀ x, x ∈ d → ors st2 !! (pred (S N), x) = ors st1 !! (pred (S N), x)).
    { intros d Hd x Hx. cbn [pred]. destruct (Hd x Hx) as [y Hy]. rewrite Hy. by eapply grows_or. }
    assert (Hcs : ∀ x, x ∈ c → is_Some (ors st1 !! (N, x))) by (by rewrite Hors1).
    assert (Hcs' : ∀ x, x ∈ c' → is_Some (ors st1 !! (N, x))) by (apply (i_fS _ HI1 _ _ _ Hf1)).
    splits; try done; [by eapply grows_trans|]. exists f, s, c', r. splits; try done.
    - by rewrite Hfps2.
    - rewrite <- Hr'. apply representative_ext. by apply Hmem.
    - rewrite <- Hr. apply representative_ext. by apply Hmem.
    - rewrite <- Hs. unfold orientation, fcomposition. rewrite Hfps2, Hf1. cbn [deref rbind].
      rewrite !(footprints_ext st1 st2); [done|by apply Hmem..].
    - intros g Hgf. destruct (Hfound g Hgf) as [-> ->]. splits; try done.
    - intros Hno. destruct (Hnew Hno) as [He Hno']. by rewrite Hfps2.
    - destruct (omap st1 !! (S N, f, s)) as [p|] eqn:Hp.
      + left. destruct (Hold p eq_refl) as [-> ->]. done.
      + right. rewrite <- Hors1. by apply Hnew2.
  Qed.

  Lemma fvertex_set_SS st N f vs :
    fvertex_set st (S (S N)) f vs =
    let! c := fcomposition st (S (S N)) f in
    rfold (λ vs o, let! g := footprint st (S N) o in fvertex_set st (S N) g vs) vs c.
  Proof. done. Qed.

  Lemma fvertex_list_SS st N f vs :
    fvertex_list debug st (S (S N)) f vs =
    let! c := fcomposition st (S (S N)) f in
    let! o0 := entry c 0 in
    let! o1 := entry c 1 in
    let! (g0, s0) := oriented st (S N) o0 in
    let! vs := fvertex_list debug st (S N) g0 vs in
    let vs := if decide (s0 = (-1)%Z) then swap01 vs else vs in
    let! _ := assert_ debug (length vs =? S (S N)) in
    let! g1 := footprint st (S N) o1 in
    let! new := fvertex_set st (S N) g1 [] in
    Ok (append_new vs new).
  Proof. done. Qed.

  Lemma fvertex_set_ok st N f vs :
    Inv st → is_Some (fps st !! (S N, f)) → ∃ vs', fvertex_set st (S N) f vs = Ok vs'.
  Proof.
    intros HI. revert f vs. induction N as [|N IH]; intros f vs [c Hc];
      [cbn [fvertex_set]|rewrite fvertex_set_SS];
      unfold fcomposition; rewrite Hc; cbn [deref rbind]; apply rfold_ok; intros vs' o Ho;
      destruct (i_fS _ HI _ _ _ Hc) as [_ Hm]; destruct (Hm o Ho) as [[g s] Hg];
      unfold footprint at 1, oriented; rewrite Hg; cbn [deref rbind fst].
    - by eexists.
    - apply IH. by destruct (i_or _ HI _ _ _ _ Hg).
  Qed.

  Lemma fvertex_list_not_ub st N f vs :
    Inv st → is_Some (fps st !! (S N, f)) → fvertex_list debug st (S N) f vs ≠ Ub.
  Proof.
    intros HI. revert f vs. induction N as [|N IH]; intros f vs [c Hc];
      [cbn [fvertex_list]|rewrite fvertex_list_SS];
      unfold fcomposition; rewrite Hc; cbn [deref rbind];
      destruct (i_fS _ HI _ _ _ Hc) as [Hlen Hm];
      (destruct (entry_ok c 0) as (o0 & -> & H0); [lia|]);
      (destruct (entry_ok c 1) as (o1 & -> & H1); [lia|]); cbn [rbind];
      apply elem_of_list_lookup_2 in H0, H1;
      destruct (Hm o0 H0) as [[g0 s0] Hg0]; destruct (Hm o1 H1) as [[g1 s1] Hg1];
      unfold footprint, oriented; rewrite Hg0, ?Hg1; cbn [deref rbind fst].
    - done.
    - specialize (IH g0 vs ltac:(by destruct (i_or _ HI _ _ _ _ Hg0))).
      destruct (fvertex_list debug st (S N) g0 vs) as [vs1| |]; [|done..]. cbn [rbind].
      unfold assert_. destruct (debug && _); [done|]. cbn [rbind].
      destruct (fvertex_set_ok st N g1 [] HI) as [vs2 ->]; [|done].
      by destruct (i_or _ HI _ _ _ _ Hg1).
  Qed.

  (* in a debug build the assert guards the array *)
  Lemma vertices_not_ub st N o :
    debug = true → Inv st → is_Some (ors st !! (S N, o)) → vertices debug st (S N) o ≠ Ub.
  Proof.
    intros Hdb HI [[f s] Ho]. unfold vertices, oriented. rewrite Ho. cbn [deref rbind].
    destruct (i_or _ HI _ _ _ _ Ho) as (Hf & _ & _).
    pose proof (fvertex_list_not_ub st N f [] HI Hf) as H.
    destruct (fvertex_list debug st (S N) f []) as [vs| |]; [|done..]. cbn [rbind].
    unfold assert_. rewrite Hdb. cbn [andb].
    set (ws := if decide (s = (-1)%Z) then swap01 vs else vs).
    destruct (length ws =? S (S N)) eqn:E; cbn [negb rbind]; [|done].
    apply Nat.eqb_eq in E. rewrite E, Nat.ltb_irrefl. done.
  Qed.

  Lemma fedges_ok st N f es :
    Inv st → is_Some (fps st !! (S (S N), f)) → ∃ es', fedges st (S (S N)) f es = Ok es'.
  Proof.
    intros HI. revert f es. induction N as [|N IH]; intros f es [c Hc].
    - cbn [fedges]. unfold fcomposition. rewrite Hc. by eexists.
    - change (fedges st (S (S (S N))) f es) with
        (let! c := fcomposition st (S (S (S N))) f in
         rfold (λ es o, let! g := footprint st (S (S N)) o in fedges st (S (S N)) g es) es c).
      unfold fcomposition. rewrite Hc. cbn [deref rbind]. apply rfold_ok. intros es' o Ho.
      destruct (i_fS _ HI _ _ _ Hc) as [_ Hm]. destruct (Hm o Ho) as [[g s] Hg].
      unfold footprint at 1, oriented. rewrite Hg. cbn [deref rbind fst].
      apply IH. by destruct (i_or _ HI _ _ _ _ Hg).
  Qed.

  Lemma fsanity_ok st N f : Inv st → is_Some (fps st !! (N, f)) → ∃ b, fsanity st N f = Ok b.
  Proof.
    intros HI. revert f. induction N as [|N IH]; intros f [c Hc]; [by eexists|].
    cbn [fsanity]. unfold fcomposition. rewrite Hc. cbn [deref rbind].
    destruct (rfold_ok (λ ok o,
        if ok : bool then let! g := footprint st N o in fsanity st N g else Ok false) true c)
      as [ok ->].
    { intros [|] o Ho; [|by eexists].
      destruct (i_fS _ HI _ _ _ Hc) as [_ Hm]. destruct (Hm o Ho) as [[g s] Hg].
      unfold footprint, oriented. rewrite Hg. cbn [deref rbind fst].
      apply IH. by destruct (i_or _ HI _ _ _ _ Hg). }
    cbn [rbind]. destruct ok; [|by eexists].
    destruct (fvertex_set_ok st N f [] HI) as [vs Hvs]; [by eexists|].
    change (∃ b, (let! vs := fvertex_set st (S N) f [] in Ok (length vs =? S (S N))) = Ok b).
    rewrite Hvs. by eexists.
  Qed.

  Lemma tail_head_ok st o :
    Inv st → is_Some (ors st !! (1, o)) → ∃ t h, tail st o = Ok t ∧ head st o = Ok h.
  Proof.
    intros HI Ho. destruct (composition_ok st 0 o HI Ho) as (f & s & c & c' & _ & Hc & Hc' & Hp & _).
    unfold tail, head. rewrite Hc'. cbn [rbind].
    destruct (i_fS _ HI _ _ _ Hc) as [Hlen Hm]. rewrite <- Hp in Hlen.
    destruct (entry_ok c' 0) as (o0 & -> & H0); [lia|].
    destruct (entry_ok c' 1) as (o1 & -> & H1); [lia|]. cbn [rbind].
    apply elem_of_list_lookup_2 in H0, H1. rewrite Hp in H0, H1.
    destruct (Hm _ H0) as [[g0 s0] Hg0]. destruct (Hm _ H1) as [[g1 s1] Hg1].
    unfold footprint, oriented. rewrite Hg0, Hg1. by do 2 eexists.
  Qed.

  Lemma wp_assert_vertices st N o vs (Q : unit → topo → Prop) (E : topo → Prop) :
    Inv st → is_Some (ors st !! (S N, o)) →
    (debug = true → length vs = S (S N)) → Q tt st → E st →
    wp (assert_vertices debug (S N) o vs) st Q E.
  Proof.
    intros HI Ho Hlen HQ HE. unfold assert_vertices.
    destruct (bool_decide_reflect (debug = true)) as [Hdb|Hdb].
    - pose proof (vertices_not_ub st N o Hdb HI Ho) as Hu. specialize (Hlen Hdb).
      rewrite Hdb in *.
      apply wp_bind. apply wp_read; [|done|done]. intros ws Hws.
      apply wp_bind. apply wp_read; [|done|].
      + intros s _. case_decide; done.
      + unfold permutation_sign, assert_. cbn [andb].
        destruct (same_elements Nat.leb ws vs) eqn:Hsame; cbn [negb rbind]; [|done].
        apply (same_elements_spec _ nat_total) in Hsame.
        destruct (swap_sort_exchanges vs ws) as (n & -> & _); [|done|done].
        intros ->. apply Permutation_length in Hsame. cbn in Hsame. lia.
    - destruct debug; done.
  Qed.

  Definition created (N : nat) (st : topo) (o : nat) (st' : topo) : Prop :=
    Inv st' ∧ grows st st' ∧ is_Some (ors st' !! (N, o)).

  Lemma wp_segment_safe st v0 v1 :
    Inv st → is_Some (fps st !! (0, v0)) → is_Some (fps st !! (0, v1)) →
    wp (segment al debug v0 v1) st (created 1 st) (thrown st).
  Proof.
    intros HI H0 H1. unfold segment. apply wp_bind.
    eapply wp_mono; [apply (wp_oriented _ _ _ _ (λ _, False)); [done..|by right]| |intros st' []].
    intros t st1 (HI1 & Hg1 & Ht & _). cbn beta. apply wp_bind.
    eapply wp_mono;
      [apply (wp_oriented _ _ _ _ (λ _, False)); [done|by eapply grows_fp_some|by left]| |intros st' []].
    intros h st2 (HI2 & Hg2 & Hh & _). cbn beta. apply wp_bind.
    assert (Hg : grows st st2) by (by eapply grows_trans).
    eapply wp_mono; [apply wp_simplex; [done|done|]| |].
    - intros o [->|[->|Ho]%elem_of_cons]%elem_of_cons.
      + eapply grows_or_some; [exact Hg2|by eexists].
      + eauto.
      + inversion Ho.
    - intros o st3 (_ & HI3 & Hg3 & f & s & c' & r & Ho & _). cbn beta. apply wp_bind.
      assert (Hg' : grows st st3) by (by eapply grows_trans).
      apply wp_assert_vertices; [done|eauto|done| |].
      + unfold wp, aret. split; [done|]. split; [done|by eexists].
      + split; done.
    - intros st' [-> _]. split; done.
  Qed.

  Lemma wp_triangle_safe st v0 v1 v2 :
    Inv st → is_Some (fps st !! (0, v0)) → is_Some (fps st !! (0, v1)) →
    is_Some (fps st !! (0, v2)) →
    wp (triangle al debug v0 v1 v2) st (created 2 st) (thrown st).
  Proof.
    intros HI H0 H1 H2. unfold triangle. apply wp_bind.
    eapply wp_mono; [by apply wp_segment_safe| |done].
    intros a st1 (HI1 & Hg1 & Ha). cbn beta. apply wp_bind.
    eapply wp_mono; [apply wp_segment_safe; [done|by eapply grows_fp_some..]| |].
    2: { intros st' [? ?]. split; [done|by eapply grows_trans]. }
    intros b st2 (HI2 & Hg2 & Hb). cbn beta. apply wp_bind.
    assert (Hg12 : grows st st2) by (by eapply grows_trans).
    eapply wp_mono; [apply wp_segment_safe; [done|by eapply grows_fp_some..]| |].
    2: { intros st' [? ?]. split; [done|by eapply grows_trans]. }
    intros c st3 (HI3 & Hg3 & Hc). cbn beta. apply wp_bind.
    assert (Hg13 : grows st st3) by (by eapply grows_trans).
    eapply wp_mono; [apply wp_simplex; [done|done|]| |].
    - intros o [->|[->|[->|Ho]%elem_of_cons]%elem_of_cons]%elem_of_cons.
      + eapply grows_or_some; [|exact Ha]. by eapply grows_trans.
      + eapply grows_or_some; [|exact Hb]. done.
      + done.
      + inversion Ho.
    - intros o st4 (_ & HI4 & Hg4 & f & s & c' & r & Ho & _). cbn beta. apply wp_bind.
      assert (Hg' : grows st st4) by (by eapply grows_trans).
      apply wp_assert_vertices; [done|eauto|done| |].
      + unfold wp, aret. split; [done|]. split; [done|by eexists].
      + split; done.
    - intros st' [-> _]. split; done.
  Qed.

  Lemma wp_tetrahedron_safe st v0 v1 v2 v3 :
    Inv st → is_Some (fps st !! (0, v0)) → is_Some (fps st !! (0, v1)) →
    is_Some (fps st !! (0, v2)) → is_Some (fps st !! (0, v3)) →
    wp (tetrahedron al debug v0 v1 v2 v3) st (created 3 st) (thrown st).
  Proof.
    intros HI H0 H1 H2 H3. unfold tetrahedron. apply wp_bind.
    eapply wp_mono; [by apply wp_triangle_safe| |done].
    intros a st1 (HI1 & Hg1 & Ha). cbn beta. apply wp_bind.
    eapply wp_mono; [apply wp_triangle_safe; [done|by eapply grows_fp_some..]| |].
    2: { intros st' [? ?]. split; [done|by eapply grows_trans]. }
    intros b st2 (HI2 & Hg2 & Hb). cbn beta. apply wp_bind.
    assert (Hg12 : grows st st2) by (by eapply grows_trans).
    eapply wp_mono; [apply wp_triangle_safe; [done|by eapply grows_fp_some..]| |].
    2: { intros st' [? ?]. split; [done|by eapply grows_trans]. }
    intros c st3 (HI3 & Hg3 & Hc). cbn beta. apply wp_bind.
    assert (Hg13 : grows st st3) by (by eapply grows_trans).
    eapply wp_mono; [apply wp_triangle_safe; [done|by eapply grows_fp_some..]| |].
    2: { intros st' [? ?]. split; [done|by eapply grows_trans]. }
    intros d st4 (HI4 & Hg4 & Hd). cbn beta. apply wp_bind.
    assert (Hg14 : grows st st4) by (by eapply grows_trans).
    assert (Hg24 : grows st2 st4) by (by eapply grows_trans).
    eapply wp_mono; [apply wp_simplex; [done|done|]| |].
    - intros o [->|[->|[->|[->|Ho]%elem_of_cons]%elem_of_cons]%elem_of_cons]%elem_of_cons.
      + eapply grows_or_some; [|exact Ha]. by eapply grows_trans.
      + eapply grows_or_some; [|exact Hb]. done.
      + eapply grows_or_some; [|exact Hc]. done.
      + done.
      + inversion Ho.
    - intros o st5 (_ & HI5 & Hg5 & f & s & c' & r & Ho & _). cbn beta. apply wp_bind.
      assert (Hg' : grows st st5) by (by eapply grows_trans).
      apply wp_assert_vertices; [done|eauto|done| |].
      + unfold wp, aret. split; [done|]. split; [done|by eexists].
      + split; done.
    - intros st' [-> _]. split; done.
  Qed.

  Lemma wp_flip_safe st N o :
    Inv st → is_Some (ors st !! (N, o)) →
    wp (flip al N o) st (created N st) (thrown st).
  Proof.
    intros HI [[f s] Ho]. unfold flip. apply wp_bind.
    apply wp_read; unfold oriented; rewrite Ho; [|done..]. intros [g t] [= <- <-].
    destruct (i_or _ HI _ _ _ _ Ho) as (Hf & _ & Hs).
    eapply wp_mono; [apply (wp_oriented _ _ _ _ (λ _, False)); [done|done|]| |intros st' []].
    - unfold sign in *. lia.
    - intros p st1 (? & ? & ? & _). split; [done|]. split; [done|by eexists].
  Qed.
End creation.

(* ---- pointers held outside ---- *)
Lemma held_inc h k k' : held (inc k h) k' = if decide (k = k') then S (held h k') else held h k'.
Proof.
  unfold held at 1, inc. case_decide as Hd.
  - subst. by rewrite lookup_insert.
  - by rewrite lookup_insert_ne.
Qed.
Lemma held_dec h k k' : held (dec k h) k' = if decide (k = k') then pred (held h k') else held h k'.
Proof.
  unfold held at 1, dec. case_decide as Hd.
  - subst. by rewrite lookup_insert.
  - by rewrite lookup_insert_ne.
Qed.

Lemma Inv_holds st h h' :
  Inv st →
  (∀ N o, 0 < held h (N, o) → is_Some (ors st !! (N, o))) →
  (∀ N f, 0 < held h' (N, f) → is_Some (fps st !! (N, f))) →
  Inv (Topo (fps st) (ors st) (cmap st) (omap st) h h' (clk st)).
Proof.
  intros [] H H'. constructor; cbn; try done.
Qed.

Lemma Inv_holdO st N o : Inv st → is_Some (ors st !! (N, o)) → Inv (holdO N o st).
Proof.
  intros HI Ho. apply Inv_holds; [done| |apply (i_hF _ HI)].
  intros M p. rewrite held_inc. case_decide as Hd; [by injection Hd as <- <-|apply (i_hO _ HI)].
Qed.
Lemma Inv_holdF st N f : Inv st → is_Some (fps st !! (N, f)) → Inv (holdF N f st).
Proof.
  intros HI Ho. apply Inv_holds; [done|apply (i_hO _ HI)|].
  intros M p. rewrite held_inc. case_decide as Hd; [by injection Hd as <- <-|apply (i_hF _ HI)].
Qed.
Lemma Inv_dropO st N o : Inv st → Inv (dropO N o st).
Proof.
  intros HI. apply Inv_holds; [done| |apply (i_hF _ HI)].
  intros M p. rewrite held_dec. intros H. apply (i_hO _ HI). unfold has.
  case_decide; [lia|done].
Qed.
Lemma Inv_dropF st N f : Inv st → Inv (dropF N f st).
Proof.
  intros HI. apply Inv_holds; [done|apply (i_hO _ HI)|].
  intros M p. rewrite held_dec. intros H. apply (i_hF _ HI). unfold hasF.
  case_decide; [lia|done].
Qed.
