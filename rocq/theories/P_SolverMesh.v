(* Functions on the cells of a mesh and values at the discretization nodes. *)
From stdpp Require Import base gmap list sorting.
From Coq Require Import Reals Lra FunctionalExtensionality.
From Verif Require Import Base M_Tensor M_Geometry S_Geometry P_Volume.
From Verif Require Import M_Functions S_Functions P_Functions M_Quadrature S_Quadrature P_Quadrature P_Integrator M_Fem S_Fem P_Fem P_FemBlocks P_FemNorms Properties_Fem.
From Verif Require Import P_Mesh S_Discrete M_System S_System P_System Properties_System P_Galerkin M_Poisson S_Poisson P_Poisson M_Solver S_Solver P_Solver.
Open Scope nat_scope.

(* a function from a table without conflicts *)
Lemma tabulate (l : list (nat * R)) : (∀ p r r', (p, r) ∈ l → (p, r') ∈ l → r = r') →
  ∃ v : nat → R, (∀ p r, (p, r) ∈ l → v p = r) ∧ ∀ p, p ∉ l.*1 → v p = 0%R.
Proof.
  intros Hl. exists (λ p, match (list_to_map l : gmap nat R) !! p with Some r => r | None => 0%R end). split.
  - intros p r Hp. rewrite (elem_of_list_to_map_1' l p r); [done| |done]. intros r' Hr'. by apply (Hl p).
  - intros p Hp. by rewrite not_elem_of_list_to_map_1.
Qed.
(* choice over a list *)
Lemma choose {A B} `{EqDecision A} (P : A → B → Prop) (b0 : B) (l : list A) : (∀ a, a ∈ l → ∃ b, P a b) → ∃ F, ∀ a, a ∈ l → P a (F a).
Proof.
  induction l as [|a l IH]; intros Hl; [exists (λ _, b0); by intros ? ?%elem_of_nil|].
  destruct IH as [F HF]; [intros a' Ha'; apply Hl; by right|]. destruct (Hl a) as [b Hb]; [left|].
  exists (λ a', if decide (a' = a) then b else F a'). intros a' Ha'. destruct (decide (a' = a)) as [->|Hne]; [done|].
  apply HF. by apply elem_of_cons in Ha' as [|].
Qed.


Section places.
  Context {K : Type} (E : element_type) (x : K → vec).

  (* the places of the discretization nodes of a cell: its nodes, taken twice, and its sides *)
  Definition places (c : list K) : list (K * K) :=
    match E with Tri2 => ((λ k, (k, k)) <$> c) ++ sides c | _ => (λ k, (k, k)) <$> c end.
  Definition at_place (π : K * K) : vec := middle (x π.1) (x π.2).

  Lemma at_same π π' : same_side π π' → at_place π = at_place π'.
  Proof.
    intros [-> | ->]; [done|]. unfold at_place, middle. apply functional_extensionality. intros i. cbn. lra.
  Qed.
  Lemma at_twice k : at_place (k, k) = x k.
  Proof. unfold at_place, middle. apply functional_extensionality. intros i. cbn. lra. Qed.
  Lemma places_length c : length c = S (edim E) → length (places c) = n_nodes E.
  Proof. unfold places. destruct E; cbn [edim n_nodes]; intros H; rewrite ?app_length, ?fmap_length, H; try done. destruct c as [|? [|? [|? [|]]]]; done. Qed.
  Lemma node_place c a : length c = S (edim E) → a < n_nodes E → ∃ π, places c !! a = Some π ∧ node E (x <$> c) a = at_place π.
  Proof.
    intros L Ha. unfold places. destruct E; cbn [edim n_nodes] in *.
    - destruct c as [|k0 [|k1 [|]]]; try discriminate L. destruct a as [|[|a]]; [| |lia]; cbn; eexists; (split; [reflexivity|]); by rewrite at_twice.
    - destruct c as [|k0 [|k1 [|k2 [|]]]]; try discriminate L. destruct a as [|[|[|a]]]; [| | |lia]; cbn; eexists; (split; [reflexivity|]); by rewrite at_twice.
    - destruct c as [|k0 [|k1 [|k2 [|]]]]; try discriminate L. do 6 (try destruct a as [|a]); try lia; cbn; eexists; (split; [reflexivity|]);
        rewrite ?at_twice; done.
  Qed.
  Lemma places_in c π : π ∈ places c → π.1 ∈ c ∧ π.2 ∈ c.
  Proof.
    clear x.
    unfold places. assert (Hf : π ∈ (λ k : K, (k, k)) <$> c → π.1 ∈ c ∧ π.2 ∈ c) by (intros (k & -> & Hk)%elem_of_list_fmap; done).
    destruct E; try done. intros [?|Hs]%elem_of_app; [auto|]. destruct c as [|k0 [|k1 [|k2 [|]]]]; cbn in Hs; try (by apply elem_of_nil in Hs).
    rewrite !elem_of_cons, elem_of_nil in Hs. destruct Hs as [-> |[-> |[-> |[]]]]; cbn [fst snd]; set_solver.
  Qed.
  Lemma place_of_node c k : k ∈ c → (k, k) ∈ places c.
  Proof.
    clear x.
    intros Hk. unfold places. assert ((k, k) ∈ (λ k : K, (k, k)) <$> c) by (by apply (elem_of_list_fmap_1 (λ k : K, (k, k)))).
    destruct E; try done. apply elem_of_app. by left.
  Qed.
  Lemma place_of_pair c k l : E = Tri2 → length c = 3 → k ∈ c → l ∈ c → ∃ π, π ∈ places c ∧ same_side π (k, l).
  Proof.
    clear x. intros HE L Hk Hl. unfold places. rewrite HE. destruct c as [|k0 [|k1 [|k2 [|]]]]; try discriminate L. clear L.
    rewrite !elem_of_cons, elem_of_nil in Hk, Hl. cbn.
    assert (X : ∀ π, π ∈ [(k0, k0); (k1, k1); (k2, k2); (k0, k1); (k1, k2); (k2, k0)] → same_side π (k, l) →
      ∃ π, π ∈ [(k0, k0); (k1, k1); (k2, k2); (k0, k1); (k1, k2); (k2, k0)] ∧ same_side π (k, l)) by (intros π ??; by exists π).
    destruct Hk as [-> |[-> |[-> |[]]]]; destruct Hl as [-> |[-> |[-> |[]]]].
    - apply (X (k0, k0)); [set_solver|by left].
    - apply (X (k0, k1)); [set_solver|by left].
    - apply (X (k2, k0)); [set_solver|by right].
    - apply (X (k0, k1)); [set_solver|by right].
    - apply (X (k1, k1)); [set_solver|by left].
    - apply (X (k1, k2)); [set_solver|by left].
    - apply (X (k2, k0)); [set_solver|by left].
    - apply (X (k1, k2)); [set_solver|by right].
    - apply (X (k2, k2)); [set_solver|by left].
  Qed.
  Lemma positive_nodup c : length c = S (edim E) → (0 < simplex_volume (x <$> c))%R → NoDup c.
  Proof.
    intros L V. assert (∀ k0 k1 : K, k0 ≠ k1 → NoDup [k0; k1]) by (intros; repeat constructor; set_solver).
    destruct E; cbn [edim] in L.
    - destruct c as [|k0 [|k1 [|]]]; try discriminate L. unfold simplex_volume, det_vecs, vsub in V. cbn in V.
      apply NoDup_cons. split; [|apply NoDup_singleton]. intros ->%elem_of_list_singleton. lra.
    - destruct c as [|k0 [|k1 [|k2 [|]]]]; try discriminate L. unfold simplex_volume, det_vecs, vsub in V. cbn in V.
      apply NoDup_cons. split; [|apply NoDup_cons; split; [|apply NoDup_singleton]].
      + rewrite !elem_of_cons, elem_of_nil. intros [-> |[-> |[]]]; lra.
      + intros ->%elem_of_list_singleton. lra.
    - destruct c as [|k0 [|k1 [|k2 [|]]]]; try discriminate L. unfold simplex_volume, det_vecs, vsub in V. cbn in V.
      apply NoDup_cons. split; [|apply NoDup_cons; split; [|apply NoDup_singleton]].
      + rewrite !elem_of_cons, elem_of_nil. intros [-> |[-> |[]]]; lra.
      + intros ->%elem_of_list_singleton. lra.
  Qed.

  (* polynomials with the same values at the nodes on a segment *)
  Lemma same_on_line (p p' : polynomial) c c' k l t :
    of_degree (edim E) (degree E) p → of_degree (edim E) (degree E) p' →
    length c = S (edim E) → length c' = S (edim E) → k ∈ c → k ∈ c' → l ∈ c → l ∈ c' →
    (∀ π π', π ∈ places c → π' ∈ places c' → same_side π π' → poly p (at_place π) = poly p' (at_place π')) →
    poly p (between t (x k) (x l)) = poly p' (between t (x k) (x l)).
  Proof.
    intros Hp Hp' L L' Hk Hk' Hl Hl' Hπ. rewrite (on_line E p), (on_line E p') by done.
    assert (poly p (x k) = poly p' (x k)) as ->.
    { rewrite <- (at_twice k). apply Hπ; [by apply place_of_node|by apply place_of_node|by left]. }
    assert (poly p (x l) = poly p' (x l)) as ->.
    { rewrite <- (at_twice l). apply Hπ; [by apply place_of_node|by apply place_of_node|by left]. }
    assert (HE : E = Tri2 ∨ E ≠ Tri2) by (clear; destruct E; auto). destruct HE as [HE|HE]; [|by destruct E].
    assert (HM : poly p (middle (x k) (x l)) = poly p' (middle (x k) (x l))).
    { assert (L3 : length c = 3) by (by rewrite L, HE). assert (L3' : length c' = 3) by (by rewrite L', HE).
      destruct (place_of_pair c k l HE L3 Hk Hl) as (π & H1 & H2). destruct (place_of_pair c' k l HE L3' Hk' Hl') as (π' & H1' & H2').
      change (middle (x k) (x l)) with (at_place (k, l)).
      transitivity (poly p (at_place π)); [by rewrite (at_same π (k, l))|].
      transitivity (poly p' (at_place π')); [|by rewrite (at_same π' (k, l))].
      apply Hπ; [done|done|]. unfold same_side in *. destruct H2 as [-> | ->], H2' as [-> | ->]; cbn; auto. }
    by destruct E; rewrite ?HM.
  Qed.
  Lemma place_on_line (p : polynomial) π :
    poly p (at_place π) = poly p (between (1 / 2) (x π.1) (x π.2)).
  Proof. f_equal. apply functional_extensionality. intros i. unfold at_place, middle, between. lra. Qed.
End places.

Section layout.
  Context {K : Type} `{Countable K} (E : element_type) (x : K → vec) (cells domain : list (list K)).

  (* the names of the discretization nodes of a function space *)
  Record layout (fs : function_space K) (name : K * K → nat) : Prop := {
    l_elements : fs_elements fs = (λ c : list K, (c, name <$> places E c)) <$> cells;
    l_names : ∀ c c' π π', c ∈ cells → c' ∈ cells → π ∈ places E c → π' ∈ places E c' → name π = name π' ↔ same_side π π';
    l_map : ∀ k p, fs_node_map fs !! k = Some p ↔ k ∈ concat cells ∧ p = name (k, k);
    l_constrained : ∀ c π, c ∈ cells → π ∈ places E c → name π ∈ fs_constrained fs ↔ ∃ b, b ∈ domain ∧ π.1 ∈ b ∧ π.2 ∈ b;
  }.

  Context (Hcells : good_cells E x cells) (fs : function_space K) (name : K * K → nat) (HL : layout fs name).
  Context (es : list (element E)).
  Context (Hes : Forall2 (λ c e, made e (x <$> c) ∧ ∀ a, a < n_nodes E → (name <$> places E c) !! a = Some (connectivity e a)) cells es).
  Definition the_mesh : list (element E * list vec) := zip es ((λ c : list K, x <$> c) <$> cells).
  Local Notation place_x := (at_place x).

  Lemma mesh_fst : the_mesh.*1 = es.
  Proof. unfold the_mesh. apply fst_zip. rewrite fmap_length. by rewrite (Forall2_length _ _ _ Hes). Qed.
  Lemma mesh_elem e corners : (e, corners) ∈ the_mesh → ∃ c, c ∈ cells ∧ corners = x <$> c ∧ made e (x <$> c) ∧
    ∀ a, a < n_nodes E → (name <$> places E c) !! a = Some (connectivity e a).
  Proof.
    unfold the_mesh. clear HL Hcells. induction Hes as [|c e' cells' es' [Hm Hc] Hrest IH]; cbn; [by intros ?%elem_of_nil|].
    intros [[= -> ->]|Hin]%elem_of_cons; [exists c; split_and!; [left|done..]|]. destruct (IH Hrest Hin) as (c' & ? & ?). exists c'. split; [by right|done].
  Qed.
  Lemma cell_elem c : c ∈ cells → ∃ e, e ∈ es ∧ made e (x <$> c) ∧ ∀ a, a < n_nodes E → (name <$> places E c) !! a = Some (connectivity e a).
  Proof.
    clear HL Hcells. induction Hes as [|c' e' cells' es' [Hm Hc] Hrest IH]; [by intros ?%elem_of_nil|].
    intros [->|Hin]%elem_of_cons; [exists e'; split_and!; [left|done..]|]. destruct (IH Hrest Hin) as (e & ? & ?). exists e. split; [by right|done].
  Qed.
  Lemma elem_cell e : e ∈ es → ∃ c, c ∈ cells ∧ made e (x <$> c) ∧ ∀ a, a < n_nodes E → (name <$> places E c) !! a = Some (connectivity e a).
  Proof.
    clear HL Hcells. induction Hes as [|c' e' cells' es' [Hm Hc] Hrest IH]; [by intros ?%elem_of_nil|].
    intros [->|Hin]%elem_of_cons; [exists c'; split_and!; [left|done..]|]. destruct (IH Hrest Hin) as (c & ? & ?). exists c. split; [by right|done].
  Qed.
  Lemma mesh_good : good_mesh the_mesh.
  Proof.
    intros e corners He. apply elem_of_list_In in He. destruct (mesh_elem e corners He) as (c & Hc & -> & Hm & _).
    split; [done|]. by apply Hcells.
  Qed.
  Lemma at_node_place c (e : element E) a : c ∈ cells → (∀ a, a < n_nodes E → (name <$> places E c) !! a = Some (connectivity e a)) → a < n_nodes E →
    ∃ π, π ∈ places E c ∧ connectivity e a = name π ∧ node E (x <$> c) a = place_x π.
  Proof.
    intros Hc Ha Hlt. destruct (Hcells c Hc) as [L _]. destruct (node_place E x c a L Hlt) as (π & Hπ & Hn). exists π.
    specialize (Ha a Hlt). rewrite list_lookup_fmap, Hπ in Ha. injection Ha as Ha. split; [by eapply elem_of_list_lookup_2|done].
  Qed.
  Lemma node_iff p : node_of (system es) p ↔ ∃ c π, c ∈ cells ∧ π ∈ places E c ∧ p = name π.
  Proof.
    rewrite node_of_system. split.
    - intros (e & a & He & Ha & ->). destruct (elem_cell e He) as (c & Hc & _ & Hn). destruct (at_node_place c e a Hc Hn Ha) as (π & ? & ? & _). by exists c, π.
    - intros (c & π & Hc & Hπ & ->). destruct (cell_elem c Hc) as (e & He & _ & Hn). apply elem_of_list_lookup_1 in Hπ as [a Ha].
      assert (Hlt : a < n_nodes E). { rewrite <- (places_length E c) by (by apply Hcells). by apply lookup_lt_Some in Ha. }
      exists e, a. split_and!; [done|done|]. specialize (Hn a Hlt). rewrite list_lookup_fmap, Ha in Hn. by injection Hn.
  Qed.

  Definition represents (F : list K → polynomial) (v : nat → R) : Prop :=
    ∀ c π, c ∈ cells → π ∈ places E c → poly (F c) (place_x π) = v (name π).

  Lemma represents_node F v c (e : element E) a : represents F v → c ∈ cells →
    (∀ a, a < n_nodes E → (name <$> places E c) !! a = Some (connectivity e a)) → a < n_nodes E →
    v (connectivity e a) = poly (F c) (node E (x <$> c) a).
  Proof. intros HF Hc Hn Ha. destruct (at_node_place c e a Hc Hn Ha) as (π & Hπ & -> & ->). symmetry. by apply HF. Qed.

  Lemma down F : piecewise E x cells domain F → ∃ v, represents F v ∧ ∀ p, p ∈ fs_constrained fs → v p = 0%R.
  Proof.
    intros (Hd & Hc & Hz).
    set (l := cells ≫= λ c, (λ π, (name π, poly (F c) (place_x π))) <$> places E c).
    assert (Hl : ∀ p r, (p, r) ∈ l ↔ ∃ c π, c ∈ cells ∧ π ∈ places E c ∧ p = name π ∧ r = poly (F c) (place_x π)).
    { intros p r. unfold l. rewrite elem_of_list_bind. split.
      - intros (c & Hin & Hcc). apply elem_of_list_fmap in Hin as (π & [= -> ->] & Hπ). by exists c, π.
      - intros (c & π & Hcc & Hπ & -> & ->). exists c. split; [|done]. apply elem_of_list_fmap. by exists π. }
    destruct (tabulate l) as (v & Hv & Hv0).
    { intros p r r' (c & π & Hcc & Hπ & -> & ->)%Hl (c' & π' & Hcc' & Hπ' & Hn & ->)%Hl.
      apply (l_names _ _ HL c c') in Hn; try done. rewrite (at_same x π π' Hn).
      destruct (places_in E c π Hπ) as [Hk Hk2], (places_in E c' π' Hπ') as [Hk' Hk2'].
      rewrite !place_on_line. destruct Hn as [-> | ->]; cbn [fst snd] in *; by apply Hc. }
    exists v. split.
    - intros c π Hcc Hπ. symmetry. apply Hv, Hl. by exists c, π.
    - intros p Hp. destruct (decide (p ∈ l.*1)) as [Hin|Hin]; [|by apply Hv0].
      apply elem_of_list_fmap in Hin as ([p' r] & -> & Hin). cbn [fst] in *. rewrite (Hv p' r Hin).
      apply Hl in Hin as (c & π & Hcc & Hπ & -> & ->). apply (l_constrained _ _ HL c) in Hp as (b & Hb & H1 & H2); [|done|done].
      rewrite place_on_line. destruct (places_in E c π Hπ). by apply (Hz c b).
  Qed.

  Lemma up v : good_domain E cells domain → (∀ p, p ∈ fs_constrained fs → v p = 0%R) → ∃ F, piecewise E x cells domain F ∧ represents F v.
  Proof.
    intros Hdom Hv.
    destruct (choose (λ (c : list K) (F : polynomial), of_degree (edim E) (degree E) F ∧ ∀ π, π ∈ places E c → poly F (place_x π) = v (name π)) [] cells) as [F HF].
    { intros c Hc. destruct (Hcells c Hc) as [L V]. destruct (cell_elem c Hc) as (e & He & Hm & Hn).
      destruct (lagrange E (x <$> c) (λ a, v (connectivity e a))) as (r & Hr & Er); [by rewrite fmap_length|lra|].
      exists r. split; [done|]. intros π Hπ. apply elem_of_list_lookup_1 in Hπ as [a Ha].
      assert (Hlt : a < n_nodes E). { rewrite <- (places_length E c L). by apply lookup_lt_Some in Ha. }
      destruct (node_place E x c a L Hlt) as (π' & Hπ' & Hn'). rewrite Ha in Hπ'. injection Hπ' as <-. rewrite <- Hn', Er by done.
      specialize (Hn a Hlt). rewrite list_lookup_fmap, Ha in Hn. injection Hn as ->. done. }
    assert (Hrep : represents F v) by (intros c π Hc Hπ; by apply HF). exists F. split; [|done]. split_and!.
    - intros c Hc. by apply HF.
    - intros c c' k l t Hc Hc' Hk Hk' Hl Hl'. destruct (Hcells c Hc) as [L _], (Hcells c' Hc') as [L' _].
      apply (same_on_line E x _ _ c c'); try done; [by apply HF..|]. intros π π' Hπ Hπ' Hs. rewrite !Hrep by done. f_equal.
      by apply (l_names _ _ HL c c').
    - intros c b k l t Hc Hb Hk Hkb Hl Hlb. destruct (Hcells c Hc) as [L _].
      assert (Hzero : ∀ π, π ∈ places E c → π.1 ∈ b → π.2 ∈ b → poly (F c) (place_x π) = 0%R).
      { intros π Hπ H1 H2. rewrite Hrep by done. apply Hv. apply (l_constrained _ _ HL c); [done|done|]. by exists b. }
      rewrite (on_line E) by (by apply HF). rewrite <- (at_twice x k), <- (at_twice x l).
      rewrite (Hzero (k, k)), (Hzero (l, l)) by (done || by apply place_of_node).
      assert (HE : E = Tri2 ∨ E ≠ Tri2) by (clear; destruct E; auto). destruct HE as [HE|HE].
      + assert (HM : poly (F c) (middle (place_x (k, k)) (place_x (l, l))) = 0%R).
        { rewrite !at_twice. change (middle (x k) (x l)) with (place_x (k, l)).
          destruct (place_of_pair E c k l HE) as (π & Hπ & Hs); [by rewrite L, HE|done|done|]. rewrite <- (at_same x π (k, l) Hs).
          apply Hzero; [done| |]; destruct Hs as [-> | ->]; done. }
        rewrite HM. destruct E; lra.
      + destruct E; try done; lra.
  Qed.

  (* integrals *)
  Lemma integral_mesh q g h :
    (∀ c e p, c ∈ cells → e ∈ es → made e (x <$> c) → (∀ a, a < n_nodes E → (name <$> places E c) !! a = Some (connectivity e a)) →
      g e p = h c (position E (x <$> c) p)) →
    integral q the_mesh g = mesh_integral E x cells q h.
  Proof.
    unfold integral, mesh_integral, the_mesh. clear HL Hcells. induction Hes as [|c e cells' es' [Hm Hn] Hrest IH]; intros Hg; [done|].
    cbn [fmap list_fmap zip zip_with map fst snd].
    change (S_Geometry.total (?a :: ?l)) with (a + S_Geometry.total l)%R. cbn [fst snd]. f_equal.
    - f_equal. apply total_map_ext. intros pw _. f_equal. apply Hg; [left|left|done|done].
    - apply (IH Hrest). intros c' e' p Hc' He'. apply Hg; by right.
  Qed.
  Lemma stiffness_mesh q U V u v GU GV : represents U u → represents V v →
    (∀ c, c ∈ cells → of_degree (edim E) (degree E) (U c)) → (∀ c, c ∈ cells → of_degree (edim E) (degree E) (V c)) →
    (∀ c, c ∈ cells → has_gradient (edim E) (poly (U c)) (GU c)) → (∀ c, c ∈ cells → has_gradient (edim E) (poly (V c)) (GV c)) →
    stiffness q the_mesh u v = mesh_integral E x cells q (λ c y, dot (edim E) (GU c y) (GV c y)).
  Proof.
    intros HU HV HdU HdV HgU HgV. apply integral_mesh. intros c e p Hc He Hm Hn. destruct (Hcells c Hc) as [_ Vo].
    rewrite <- (image_position e (x <$> c) p Hm). unfold dot. apply rsum_ext. intros j Hj.
    rewrite (gradient_at e (x <$> c) (U c) (GU c) u p j), (gradient_at e (x <$> c) (V c) (GV c) v p j); try done; auto; try lra.
    - intros a Ha. by apply represents_node.
    - intros a Ha. by apply represents_node.
  Qed.
  Lemma load_mesh q f V v : represents V v → (∀ c, c ∈ cells → of_degree (edim E) (degree E) (V c)) →
    load q the_mesh f v = mesh_integral E x cells q (λ c y, (f y * poly (V c) y)%R).
  Proof.
    intros HV HdV. apply integral_mesh. intros c e p Hc He Hm Hn. rewrite <- (image_position e (x <$> c) p Hm). f_equal.
    rewrite <- (C49_interpolant e (x <$> c) (V c) p Hm (HdV c Hc)). unfold value_of, interpolant. apply rsum_ext. intros a Ha. f_equal.
    by apply represents_node.
  Qed.

  Lemma held_mesh : good_domain E cells domain → anchored cells domain → held (system es) (fs_constrained fs).
  Proof.
    intros Hdom Ha p (c & π & Hc & Hπ & ->)%node_iff. destruct (places_in E c π Hπ) as [Hk _].
    assert (Hnb : ∀ c π π', c ∈ cells → π ∈ places E c → π' ∈ places E c → neighbours (system es) (name π) (name π')).
    { clear c π Hc Hπ Hk. intros c π π' Hc Hπ Hπ'. destruct (cell_elem c Hc) as (e & He & _ & Hn).
      apply neighbours_system. apply elem_of_list_lookup_1 in Hπ as [a Ha0], Hπ' as [a' Ha1].
      assert (Hp : ∀ a π, places E c !! a = Some π → a < n_nodes E ∧ name π = connectivity e a).
      { intros b π0 Hb. assert (Hlt : b < n_nodes E). { rewrite <- (places_length E c) by (by apply Hcells). by apply lookup_lt_Some in Hb. }
        split; [done|]. specialize (Hn b Hlt). rewrite list_lookup_fmap, Hb in Hn. by injection Hn. }
      destruct (Hp a π Ha0), (Hp a' π' Ha1). by exists e, a, a'. }
    assert (Hk' : π.1 ∈ concat cells) by (apply elem_of_concat; by exists c).
    destruct (Ha π.1 Hk') as (l & Hl & Hr).
    assert (Hl' : l ∈ concat cells).
    { clear -Hr Hk'. induction Hr as [|k k' l Hkk _ IH]; [done|]. apply IH. destruct Hkk as (c & Hc & _ & Hk2). apply elem_of_concat. by exists c. }
    exists (name (l, l)). split.
    - apply elem_of_concat in Hl' as (c' & Hl' & Hc'). apply elem_of_concat in Hl as (b & Hl & Hb).
      apply (l_constrained _ _ HL c'); [done|by apply place_of_node|]. by exists b.
    - apply rtc_l with (name (π.1, π.1)); [apply (Hnb c); [done|done|by apply place_of_node]|].
      clear -Hr Hnb. induction Hr as [|k k' l (c & Hc & H1 & H2) _ IH]; [constructor|].
      apply rtc_l with (name (k', k')); [|done]. apply (Hnb c); [done|by apply place_of_node|by apply place_of_node].
  Qed.
End layout.
