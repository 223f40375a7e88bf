(* C52-C55, C68: function spaces and discrete systems. The vocabulary is in S_System.v. *)
From stdpp Require Import base gmap list sorting.
From Coq Require Import Reals Lra.
From Verif Require Import Base M_Perm M_Topology M_Discrete S_Discrete P_VTK M_System S_System P_System.
Open Scope nat_scope.

(* ---- C55 ---- *)

Section C55.
  Context {K : Type} `{Countable K} (fresh : gset nat → nat) (Hfresh : fresh_ok fresh) (alive : gset nat).

  (* what makes a function space of first order: one discretization node for each node of the mesh,
     not in use before; the elements have those of their nodes; the constrained ones are those of the
     nodes of the domain of the constraints *)
  Definition first_order (cells : list (list K)) (domain : list K) (fs : function_space K) (φ : K → nat) : Prop :=
    names φ (concat cells) ∧ (∀ k, k ∈ concat cells → φ k ∉ alive) ∧
    fs_elements fs = (λ c : list K, (c, φ <$> c)) <$> cells ∧
    (∀ k p, fs_node_map fs !! k = Some p ↔ k ∈ concat cells ∧ p = φ k) ∧
    (∀ p, p ∈ fs_constrained fs ↔ ∃ k, k ∈ domain ∧ p = φ k).

  Local Lemma P1_ok (cells : list (list K)) s es :
    Inv alive (λ _, []) cells s → Forall2 (λ nodes e, e.1 = nodes ∧ fits_P1 s nodes e.2) cells es →
    ∃ φ, names φ (concat cells) ∧ (∀ k, k ∈ concat cells → φ k ∉ alive) ∧
      es = (λ c : list K, (c, φ <$> c)) <$> cells ∧
      (∀ k p, d_map s !! k = Some p ↔ k ∈ concat cells ∧ p = φ k).
  Proof.
    intros [HG Hm _] HF. set (φ := λ k, match d_map s !! k with Some n => n | None => 0 end).
    assert (Hφ : ∀ k, k ∈ concat cells → d_map s !! k = Some (φ k)).
    { intros k [n Hk]%Hm. unfold φ. by rewrite Hk. }
    exists φ. split_and!.
    - intros a b Ha Hb E. apply Hφ in Ha, Hb. rewrite <- E in Hb. by eapply g_map_inj.
    - intros k Hk%Hφ. by eapply g_map.
    - clear Hm Hφ HG. induction HF as [|c [c' conn] cells es [<- Hc] _ ->]; [done|]. cbn. f_equal. f_equal.
      cbn in Hc. clear -Hc. induction Hc as [|k n c conn Hk _ ->]; [done|]. cbn. f_equal. unfold φ. by rewrite Hk.
    - intros k p. split.
      + intros Hk. assert (k ∈ concat cells) by (apply Hm; by exists p). split; [done|]. unfold φ. by rewrite Hk.
      + intros [Hk ->]. by apply Hφ.
  Qed.

  Theorem C55_segments (cells : list (list K)) (domain : list K) :
    Forall (λ c, length c = 2) cells → (∀ k, k ∈ domain → k ∈ concat cells) →
    ∃ fs φ, discretize_seg1 fresh alive cells domain = Ok fs ∧ first_order cells domain fs φ.
  Proof.
    intros Hl Hd. destruct (elements_P1_ok fresh Hfresh alive 2 cells Hl) as (s & es & E & HI & HF).
    destruct (P1_ok cells s es HI HF) as (φ & H1 & H2 & H3 & H4).
    destruct (constrain_nodes_ok (d_map s) φ domain ∅) as (c & Ec & Hc).
    { intros k Hk. apply H4. split; [by apply Hd|done]. }
    exists (FunctionSpace es (d_map s) c), φ. unfold discretize_seg1. rewrite E. cbn [rbind]. rewrite Ec. cbn [rbind].
    split; [done|]. split_and!; try done. intros p. cbn. rewrite Hc. set_solver.
  Qed.

  (* a constraint on a node that is not in the mesh is not refused: its effect is undefined *)
  Theorem C55_segments_foreign (cells : list (list K)) (domain : list K) (k : K) :
    Forall (λ c, length c = 2) cells → k ∈ domain → k ∉ concat cells →
    discretize_seg1 fresh alive cells domain = Ub.
  Proof.
    intros Hl Hd Hk. destruct (elements_P1_ok fresh Hfresh alive 2 cells Hl) as (s & es & E & HI & HF).
    unfold discretize_seg1. rewrite E. cbn [rbind].
    rewrite (constrain_nodes_ub (d_map s) domain ∅ k); [done|done|].
    destruct (d_map s !! k) eqn:Ek; [|done]. exfalso. apply Hk, HI. by eexists.
  Qed.

  Theorem C55_triangles (cells domain : list (list K)) :
    Forall (λ c, length c = 3) cells → (∀ k, k ∈ concat domain → k ∈ concat cells) →
    ∃ fs φ, discretize_tri1 fresh alive cells domain = Ok fs ∧ first_order cells (concat domain) fs φ.
  Proof.
    intros Hl Hd. destruct (elements_P1_ok fresh Hfresh alive 3 cells Hl) as (s & es & E & HI & HF).
    destruct (P1_ok cells s es HI HF) as (φ & H1 & H2 & H3 & H4).
    destruct (constrain_nodes_ok (d_map s) φ (concat domain) ∅) as (c & Ec & Hc).
    { intros k Hk. apply H4. split; [by apply Hd|done]. }
    exists (FunctionSpace es (d_map s) c), φ. unfold discretize_tri1. rewrite E. cbn [rbind].
    unfold constrain_nodes in *. rewrite rfold_concat, Ec. cbn [rbind].
    split; [done|]. split_and!; try done. intros p. cbn. rewrite Hc. set_solver.
  Qed.

  Theorem C55_triangles_foreign (cells domain : list (list K)) (k : K) :
    Forall (λ c, length c = 3) cells → k ∈ concat domain → k ∉ concat cells →
    discretize_tri1 fresh alive cells domain = Ub.
  Proof.
    intros Hl Hd Hk. destruct (elements_P1_ok fresh Hfresh alive 3 cells Hl) as (s & es & E & HI & HF).
    unfold discretize_tri1. rewrite E. cbn [rbind]. unfold constrain_nodes. rewrite rfold_concat.
    pose proof (constrain_nodes_ub (d_map s) (concat domain) ∅ k) as Hu. unfold constrain_nodes in Hu.
    rewrite Hu; [done|done|].
    destruct (d_map s !! k) eqn:Ek; [|done]. exfalso. apply Hk, HI. by eexists.
  Qed.

  (* Second order: one discretization node [φ k] for each node of the mesh and one, [ψ], for each side
     of its cells, whatever the order of the ends; the constrained ones are those of the nodes and of
     the sides of the domain of the constraints. *)
  Definition second_order (cells domain : list (list K)) (fs : function_space K) (φ : K → nat) (ψ : K * K → nat) : Prop :=
    names φ (concat cells) ∧
    (∀ x y, x ∈ concat (sides <$> cells) → y ∈ concat (sides <$> cells) → ψ x = ψ y ↔ same_side x y) ∧
    (∀ k x, k ∈ concat cells → x ∈ concat (sides <$> cells) → φ k ≠ ψ x) ∧
    (∀ k, k ∈ concat cells → φ k ∉ alive) ∧ (∀ x, x ∈ concat (sides <$> cells) → ψ x ∉ alive) ∧
    fs_elements fs = (λ c : list K, (c, (φ <$> c) ++ (ψ <$> sides c))) <$> cells ∧
    (∀ k p, fs_node_map fs !! k = Some p ↔ k ∈ concat cells ∧ p = φ k) ∧
    (∀ p, p ∈ fs_constrained fs ↔ ∃ a b, [a; b] ∈ domain ∧
       (p = φ a ∨ p = φ b ∨ ∃ x, x ∈ concat (sides <$> cells) ∧ same_side x (a, b) ∧ p = ψ x)).

  Local Lemma sides_nodes (cells : list (list K)) a b :
    (a, b) ∈ concat (sides <$> cells) → a ∈ concat cells ∧ b ∈ concat cells.
  Proof.
    induction cells as [|c cells IH]; cbn; [by intros ?%elem_of_nil|]. rewrite !elem_of_app.
    intros [Hin|Hin]; [|destruct (IH Hin); tauto].
    destruct c as [|x [|y [|z [|]]]]; cbn in Hin; try (by apply elem_of_nil in Hin).
    rewrite !elem_of_cons, elem_of_nil in Hin. rewrite !elem_of_cons. naive_solver.
  Qed.

  Theorem C55_second_order (cells domain : list (list K)) :
    Forall (λ c, length c = 3) cells →
    (∀ c, c ∈ domain → ∃ a b, c = [a; b] ∧ ∃ x, x ∈ concat (sides <$> cells) ∧ same_side x (a, b)) →
    ∃ fs φ ψ, discretize_tri2 fresh alive cells domain = Ok fs ∧ second_order cells domain fs φ ψ.
  Proof.
    intros Hl Hd. destruct (elements_P2_ok fresh Hfresh alive cells Hl) as (s & es & E & [HG Hm Hs] & HF).
    set (φ := λ k, match d_map s !! k with Some n => n | None => 0 end).
    set (ψ := λ x : K * K, match d_mid s !! ordered_nodes (φ x.1) (φ x.2) with Some n => n | None => 0 end).
    assert (Hφ : ∀ k, k ∈ concat cells → d_map s !! k = Some (φ k)).
    { intros k [n Hk]%Hm. unfold φ. by rewrite Hk. }
    assert (Hψ : ∀ a b, (a, b) ∈ concat (sides <$> cells) → d_mid s !! ordered_nodes (φ a) (φ b) = Some (ψ (a, b))).
    { intros a b Hab. destruct (sides_nodes _ _ _ Hab) as [Ha Hb].
      destruct (proj2 (Hs (ordered_nodes (φ a) (φ b)))) as [n Hn].
      { exists a, b, (φ a), (φ b). split_and!; [done|by apply Hφ..|done]. }
      unfold ψ. cbn [fst snd]. by rewrite Hn. }
    assert (Hψsym : ∀ a b, ψ (a, b) = ψ (b, a)). { intros a b. unfold ψ. cbn [fst snd]. by rewrite ordered_sym. }
    assert (Hdom : ∀ a b, [a; b] ∈ domain → a ∈ concat cells ∧ b ∈ concat cells ∧
      d_mid s !! ordered_nodes (φ a) (φ b) = Some (ψ (a, b))).
    { intros a b Hab. apply Hd in Hab as (a' & b' & [= <- <-] & [x y] & Hx & Hxy).
      destruct (sides_nodes _ _ _ Hx) as [? ?]. destruct Hxy as [[= -> ->]|[= -> ->]].
      - split_and!; [done|done|by apply Hψ].
      - split_and!; [done|done|]. rewrite ordered_sym, Hψsym. by apply Hψ. }
    assert (∃ c, rfold (λ c nodes, constrain_cell_P2 s nodes c) ∅ domain = Ok c ∧
      ∀ p, p ∈ c ↔ p ∈ (∅ : gset nat) ∨ ∃ a b, [a; b] ∈ domain ∧ (p = φ a ∨ p = φ b ∨ p = ψ (a, b))) as (c & Ec & Hc).
    { assert (Hd' : ∀ c, c ∈ domain → ∃ a b, c = [a; b]). { intros c (a & b & -> & _)%Hd. by eexists _, _. }
      clear -Hdom Hd' Hφ. generalize (∅ : gset nat) as c0. induction domain as [|cell domain IH]; intros c0.
      - exists c0. split; [done|]. intros p. split; [by left|]. intros [?|(? & ? & Hn & _)]; [done|by apply elem_of_nil in Hn].
      - destruct (Hd' cell) as (a & b & ->); [left|].
        destruct (Hdom a b) as (Ha & Hb & Hab); [left|].
        cbn [rfold]. unfold constrain_cell_P2 at 1.
        destruct (constrain_nodes_ok (d_map s) φ [a; b] c0) as (c1 & E1 & Hc1).
        { intros k. rewrite !elem_of_cons, elem_of_nil. intros [->|[->|[]]]; by apply Hφ. }
        rewrite E1. cbn [lookup list_lookup deref rbind]. rewrite (Hφ a Ha). cbn [at_or_throw rbind].
        rewrite (Hφ b Hb). cbn [at_or_throw rbind]. rewrite Hab. cbn [at_or_throw rbind].
        destruct (IH) with (c0 := {[ψ (a, b)]} ∪ c1) as (c & E & Hc).
        { intros a' b' Hin. apply Hdom. by right. } { intros c Hin. apply Hd'. by right. }
        exists c. split; [done|]. intros p. rewrite Hc, elem_of_union, elem_of_singleton, Hc1.
        setoid_rewrite elem_of_cons. setoid_rewrite elem_of_cons. setoid_rewrite elem_of_nil. split.
        + intros [[ -> |[?|(k & [ -> |[ -> |[]]] & -> )]]|(a' & b' & ? & ?)]; [|by left|..].
          * right. exists a, b. split; [by left|tauto]. * right. exists a, b. split; [by left|tauto].
          * right. exists a, b. split; [by left|tauto]. * right. exists a', b'. split; [by right|done].
        + intros [?|(a' & b' & [[= -> ->]|?] & Hp)]; [tauto| |].
          * left. destruct Hp as [ -> | [ -> | -> ]]; [right; right; exists a; tauto|right; right; exists b; tauto|by left].
          * right. by exists a', b'. }
    exists (FunctionSpace es (d_map s) c), φ, ψ. unfold discretize_tri2. rewrite E. cbn [rbind]. rewrite Ec. cbn [rbind].
    split; [done|]. split_and!.
    - intros a b Ha Hb Hab. apply Hφ in Ha, Hb. rewrite <- Hab in Hb. by eapply g_map_inj.
    - intros [a b] [a' b'] Hx Hy. split.
      + intros Hxy. pose proof (Hψ _ _ Hx) as Hx'. pose proof (Hψ _ _ Hy) as Hy'. rewrite <- Hxy in Hy'.
        pose proof (g_mid_inj _ _ HG _ _ _ Hx' Hy') as Ho. apply sides_nodes in Hx as [Ha Hb], Hy as [Ha' Hb'].
        apply Hφ in Ha, Hb, Ha', Hb'. unfold same_side. cbn [fst snd].
        apply ordered_inj in Ho as [[E1 E2]|[E1 E2]]; rewrite <- E1 in *; rewrite <- E2 in *; [left|right]; f_equal; by eapply g_map_inj.
      + intros [[= -> ->]|[= -> ->]]; [done|]. apply Hψsym.
    - intros k [a b] Hk Hx Hkx. apply Hφ in Hk. apply Hψ in Hx. rewrite <- Hkx in Hx. by eapply g_apart.
    - intros k Hk%Hφ. by eapply g_map.
    - intros [a b] Hx%Hψ. by eapply g_mid.
    - cbn. clear -HF. induction HF as [|nodes [nodes' conn] cells es [<- Hf] _ ->]; [done|]. cbn. f_equal. f_equal. cbn in Hf.
      destruct Hf as (a & b & c & na & nb & nc & m0 & m1 & m2 & -> & -> & Ha & Hb & Hc & H0 & H1 & H2).
      assert (φ a = na) as Ea by (unfold φ; by rewrite Ha). assert (φ b = nb) as Eb by (unfold φ; by rewrite Hb).
      assert (φ c = nc) as Ec by (unfold φ; by rewrite Hc).
      cbn. unfold ψ. cbn [fst snd]. by rewrite Ea, Eb, Ec, H0, H1, H2.
    - intros k p. cbn. split.
      + intros Hk. assert (k ∈ concat cells) by (apply Hm; by exists p). split; [done|]. unfold φ. by rewrite Hk.
      + intros [Hk ->]. by apply Hφ.
    - intros p. cbn. rewrite Hc. split.
      + intros [He|(a & b & Hab & Hp)]; [by apply elem_of_empty in He|]. exists a, b. split; [done|].
        destruct Hp as [?|[?| ->]]; [by left|right; by left|]. right; right.
        apply Hd in Hab as (? & ? & [= <- <-] & x & Hx & Hxy). exists x. split_and!; [done|done|].
        destruct Hxy as [->| ->]; [done|]. apply Hψsym.
      + intros (a & b & Hab & Hp). right. exists a, b. split; [done|]. destruct Hp as [?|[?|(x & Hx & Hxy & ->)]]; [tauto..|].
        right; right. destruct Hxy as [->| ->]; [done|]. apply Hψsym.
  Qed.

  (* a constraint on a segment that is not a side of the mesh stops the discretizer *)
  Theorem C55_second_order_foreign (cells : list (list K)) (a b : K) :
    Forall (λ c, length c = 3) cells → a ∈ concat cells → b ∈ concat cells →
    (∀ x, x ∈ concat (sides <$> cells) → ¬ same_side x (a, b)) →
    discretize_tri2 fresh alive cells [[a; b]] = Abort.
  Proof.
    intros Hl Ha Hb Hno. destruct (elements_P2_ok fresh Hfresh alive cells Hl) as (s & es & E & [HG Hm Hs] & HF).
    unfold discretize_tri2. rewrite E. cbn [rbind rfold]. unfold constrain_cell_P2.
    apply Hm in Ha as [na Ha], Hb as [nb Hb].
    unfold constrain_nodes. cbn [rfold]. rewrite Ha. cbn [deref rbind]. rewrite Hb. cbn [deref rbind lookup list_lookup].
    rewrite Ha. cbn [deref at_or_throw rbind]. rewrite Hb. cbn [deref at_or_throw rbind].
    destruct (d_mid s !! ordered_nodes na nb) as [m|] eqn:Em; [|done]. exfalso.
    destruct (proj1 (Hs (ordered_nodes na nb))) as (x & y & nx & ny & Hin & Hx & Hy & Ho); [by exists m|].
    apply (Hno _ Hin). apply ordered_inj in Ho as [[-> ->]|[-> ->]]; [left|right]; cbn; f_equal; by eapply (g_map_inj _ _ HG).
  Qed.
End C55.
Print Assumptions C55_segments.
Print Assumptions C55_segments_foreign.
Print Assumptions C55_triangles.
Print Assumptions C55_triangles_foreign.
Print Assumptions C55_second_order.
Print Assumptions C55_second_order_foreign.

(* ---- C52 ---- *)

(* The nodes with an equation are those of the elements that are not constrained; their equations are
   0, ..., n-1, each of one node. Constrained nodes are marked -1; there are no others. *)
Theorem C52_numbering {C : Type} (es : list (C * list nat)) constrained eqs n :
  build_equation_map es constrained = (eqs, n) →
  (∀ p, node_of es p → p ∉ constrained → ∃ i, eqs !! p = Some i ∧ (0 <= i < n)%Z) ∧
  (∀ i, (0 <= i < n)%Z → ∃ p, node_of es p ∧ p ∉ constrained ∧ eqs !! p = Some i ∧ ∀ q, eqs !! q = Some i → q = p) ∧
  (∀ p, p ∈ constrained → eqs !! p = Some (-1)%Z) ∧
  (∀ p, p ∉ constrained → ¬ node_of es p → eqs !! p = None).
Proof.
  intros E. destruct (build_equation_map_ok es constrained) as (eqs' & l & E' & Hnd & Hl & He & Hc & Hn).
  rewrite E in E'. injection E' as <- ->. split_and!; [| |exact Hc|exact Hn].
  - intros p Hp Hpc. assert (Hpl : p ∈ l) by (by apply Hl). apply elem_of_list_lookup in Hpl as Hi. destruct Hi as [i Hi].
    exists (Z.of_nat i). split; [apply He; [done|]; by exists i|]. apply lookup_lt_Some in Hi. lia.
  - intros i Hi. destruct (lookup_lt_is_Some_2 l (Z.to_nat i)) as [p Hp]; [lia|].
    assert (Hpl : p ∈ l) by (by eapply elem_of_list_lookup_2). pose proof (proj1 (Hl p) Hpl) as [? ?].
    exists p. split_and!; [done|done| |].
    + apply He; [done|]. exists (Z.to_nat i). split; [lia|done].
    + intros q Hq. destruct (decide (q ∈ l)) as [Hql|Hql].
      * apply He in Hq as (k & -> & Hk); [|done]. rewrite Nat2Z.id in Hp. congruence.
      * exfalso. destruct (decide (q ∈ constrained)) as [Hqc|Hqc]; [apply Hc in Hqc; rewrite Hq in Hqc; injection Hqc; lia|].
        rewrite Hn in Hq; [done|done|]. intros ?. by apply Hql, Hl.
Qed.
Print Assumptions C52_numbering.

(* ---- C53 ---- *)

Section C53.
  Context {C : Type} (debug : bool) (n : nat) (blocks : C * list nat → (nat → nat → R) * (nat → R)).

  (* the equations of two nodes are the same exactly when the nodes are *)
  Local Lemma eq_of_iff (es : list (C * list nat)) constrained eqs N (e : C * list nat) a p i :
    build_equation_map es constrained = (eqs, N) → e ∈ es → node_of es p → p ∉ constrained → eqs !! p = Some i →
    (eq_of eqs e.2 a = i ∧ i ≠ (-1)%Z) ↔ e.2 !! a = Some p.
  Proof.
    intros E He Hp Hpc Hi. destruct (C52_numbering es constrained eqs N E) as (H1 & H2 & H3 & H4).
    destruct (H1 p Hp Hpc) as (i' & Hi' & Hr). rewrite Hi in Hi'. injection Hi' as <-.
    unfold eq_of. split.
    - intros [Ha Hi1]. destruct (e.2 !! a) as [q|] eqn:Eq; [|lia]. destruct (eqs !! q) as [z|] eqn:Ez; [|lia]. subst z.
      destruct (H2 i Hr) as (p' & _ & _ & _ & Hu). f_equal. rewrite (Hu q Ez). symmetry. by apply Hu.
    - intros ->. rewrite Hi. split; [done|lia].
  Qed.

  (* The entry of two nodes with equations is what it was plus the sum over the elements of the entries
     of their matrices at the local numbers of the two nodes; the right-hand side likewise. No entry
     out of range is touched. *)
  Theorem C53_assembly (es : list (C * list nat)) constrained eqs N s :
    build_equation_map es constrained = (eqs, N) → (∀ e, e ∈ es → length e.2 = n) → s_equations s = N →
    ∃ s', assemble debug n eqs N blocks es s = Ok s' ∧ s_equations s' = N ∧
      (∀ p q i j, node_of es p → p ∉ constrained → node_of es q → q ∉ constrained →
         eqs !! p = Some i → eqs !! q = Some j →
         s_matrix s' i j = (s_matrix s i j + global_matrix n blocks es p q)%R) ∧
      (∀ p i, node_of es p → p ∉ constrained → eqs !! p = Some i →
         s_rhs s' i = (s_rhs s i + global_vector n blocks es p)%R) ∧
      (∀ i j, ¬ ((0 <= i < N) ∧ (0 <= j < N))%Z → s_matrix s' i j = s_matrix s i j) ∧
      (∀ i, ¬ (0 <= i < N)%Z → s_rhs s' i = s_rhs s i).
  Proof.
    intros E Hlen HN. destruct (C52_numbering es constrained eqs N E) as (H1 & H2 & H3 & H4).
    assert (Hr : ∀ p, node_of es p → ∃ z, eqs !! p = Some z ∧ ((0 <= z < N)%Z ∨ z = (-1)%Z)).
    { intros p Hp. destruct (decide (p ∈ constrained)) as [Hc|Hc].
      - exists (-1)%Z. split; [by apply H3|by right].
      - destruct (H1 p Hp Hc) as (i & ? & ?). exists i. split; [done|by left]. }
    assert (HN0 : (0 <= N)%Z).
    { destruct (build_equation_map_ok es constrained) as (? & l & E' & _). rewrite E in E'. injection E' as _ ->. lia. }
    destruct (assemble_ok debug n eqs N blocks es s HN Hlen) as (s' & Es & HN' & Hm & Hv).
    { intros p (z & ? & ?)%Hr. exists z. split; [done|]. lia. }
    exists s'. split_and!; [done|congruence| | | |].
    - intros p q i j Hp Hpc Hq Hqc Hi Hj. rewrite Hm. f_equal. unfold global_matrix, element_matrix.
      apply sumR_ext. intros e He. apply sumR_ext. intros a _. apply sumR_ext. intros b _.
      pose proof (eq_of_iff es constrained eqs N e a p i E He Hp Hpc Hi) as Ha.
      pose proof (eq_of_iff es constrained eqs N e b q j E He Hq Hqc Hj) as Hb.
      destruct (decide (e.2 !! a = Some p ∧ e.2 !! b = Some q)) as [Hd|Hd]; [rewrite decide_True by tauto|rewrite decide_False by tauto]; done.
    - intros p i Hp Hpc Hi. rewrite Hv. f_equal. unfold global_vector, element_vector.
      apply sumR_ext. intros e He. apply sumR_ext. intros a _.
      pose proof (eq_of_iff es constrained eqs N e a p i E He Hp Hpc Hi) as Ha.
      destruct (decide (e.2 !! a = Some p)) as [Hd|Hd]; [rewrite decide_True by tauto|rewrite decide_False by tauto]; done.
    - assert (Heq : ∀ (e : C * list nat) a, e ∈ es → (0 <= eq_of eqs e.2 a < N)%Z ∨ eq_of eqs e.2 a = (-1)%Z).
      { intros e a He. unfold eq_of. destruct (e.2 !! a) as [q|] eqn:Eq; [|by right]. destruct (eqs !! q) as [z|] eqn:Ez; [|by right].
        destruct (Hr q) as (z' & Hz' & ?); [exists e; split; [done|by eapply elem_of_list_lookup_2]|]. congruence. }
      intros i j Hij. rewrite Hm. rewrite sumR_zero; [lra|]. intros e He. apply sumR_zero. intros a _. apply sumR_zero. intros b _.
      rewrite decide_False; [done|]. intros (Ha & Hb & ? & ?). pose proof (Heq e a He). pose proof (Heq e b He). lia.
    - assert (Heq : ∀ (e : C * list nat) a, e ∈ es → (0 <= eq_of eqs e.2 a < N)%Z ∨ eq_of eqs e.2 a = (-1)%Z).
      { intros e a He. unfold eq_of. destruct (e.2 !! a) as [q|] eqn:Eq; [|by right]. destruct (eqs !! q) as [z|] eqn:Ez; [|by right].
        destruct (Hr q) as (z' & Hz' & ?); [exists e; split; [done|by eapply elem_of_list_lookup_2]|]. congruence. }
      intros i Hi. rewrite Hv. rewrite sumR_zero; [lra|]. intros e He. apply sumR_zero. intros a _.
      rewrite decide_False; [done|]. intros (Ha & ?). pose proof (Heq e a He). lia.
  Qed.

  (* the sums do not depend on the order of the elements *)
  Theorem C53_order (es es' : list (C * list nat)) p q :
    es ≡ₚ es' → global_matrix n blocks es p q = global_matrix n blocks es' p q ∧
      global_vector n blocks es p = global_vector n blocks es' p.
  Proof. intros Hp. split; apply sumR_perm; by rewrite Hp. Qed.

  (* they are symmetric if the matrices of the elements are *)
  Theorem C53_symmetric (es : list (C * list nat)) p q :
    (∀ e a b, e ∈ es → (blocks e).1 a b = (blocks e).1 b a) →
    global_matrix n blocks es p q = global_matrix n blocks es q p.
  Proof.
    intros Hs. apply sumR_ext. intros e He. unfold element_matrix. rewrite sumR_swap.
    apply sumR_ext. intros a _. apply sumR_ext. intros b _. rewrite Hs by done.
    destruct (decide (e.2 !! a = Some q ∧ e.2 !! b = Some p)) as [Hd|Hd]; [rewrite decide_True by tauto|rewrite decide_False by tauto]; done.
  Qed.
End C53.
Print Assumptions C53_assembly.
Print Assumptions C53_order.
Print Assumptions C53_symmetric.

(* the matrix of a weakform is the sum of those of its blocks *)
Theorem C53_weakform {C : Type} (lhs : list (C * list nat → nat → nat → R)) (rhs : list (C * list nat → nat → R)) e :
  (∀ a b, (compute_blocks lhs rhs e).1 a b = sumR ((λ block, block e a b) <$> lhs)) ∧
  (∀ a, (compute_blocks lhs rhs e).2 a = sumR ((λ block, block e a) <$> rhs)).
Proof.
  unfold compute_blocks. cbn [fst snd]. split.
  - intros a b. assert (Hg : ∀ m0, foldl (λ (m : nat → nat → R) block a b, (m a b + block e a b)%R) m0 lhs a b =
      (m0 a b + sumR ((λ block, block e a b) <$> lhs))%R).
    { induction lhs as [|bl lhs IH]; intros m0; cbn [foldl]; [cbn; lra|]. rewrite IH, fmap_cons, sumR_cons. lra. }
    rewrite Hg. lra.
  - intros a. assert (Hg : ∀ v0, foldl (λ (v : nat → R) block a, (v a + block e a)%R) v0 rhs a =
      (v0 a + sumR ((λ block, block e a) <$> rhs))%R).
    { induction rhs as [|bl rhs IH]; intros v0; cbn [foldl]; [cbn; lra|]. rewrite IH, fmap_cons, sumR_cons. lra. }
    rewrite Hg. lra.
Qed.
Print Assumptions C53_weakform.

(* ---- C54 ---- *)

Section C54.
  Context {C : Type} (debug : bool) (order : gset nat → list nat) (Horder : visits_set order).

  (* the field of a discrete system before the solution is read: zero at the nodes of the elements *)
  Theorem C54_initial (es : list (C * list nat)) :
    ∃ f, fem_field debug order es = Ok f ∧ ∀ p, (node_of es p → f !! p = Some 0%R) ∧ (¬ node_of es p → f !! p = None).
  Proof.
    unfold fem_field. set (s := get_discretization_nodes es ∅).
    assert (Hnd : NoDup (order s)) by (rewrite (Horder s); apply NoDup_elements).
    rewrite from_keys_ok by done. eexists. split; [reflexivity|].
    assert (Hin : ∀ p, p ∈ order s ↔ node_of es p).
    { intros p. rewrite (Horder s), elem_of_elements. unfold s. rewrite get_discretization_nodes_ok. set_solver. }
    intros p. split.
    - intros Hp. apply elem_of_list_to_map_1.
      + by rewrite <- list_fmap_compose, list_fmap_id.
      + apply (elem_of_list_fmap_1 (λ k : nat, (k, 0%R))). by apply Hin.
    - intros Hp. apply not_elem_of_list_to_map_1. rewrite <- list_fmap_compose, list_fmap_id. by rewrite Hin.
  Qed.

  Context (visit : gmap nat Z → list (nat * Z)) (Hvisit : visits visit).

  (* After the solution is read each node with an equation has the value of its equation; the other
     nodes keep the value they had. Missing from C54: the constrained nodes are not given the
     prescribed values. *)
  Theorem C54_read_solution_partial (es : list (C * list nat)) constrained eqs N u f :
    build_equation_map es constrained = (eqs, N) → Z.of_nat (length u) = N →
    (∀ p, node_of es p → is_Some (f !! p)) →
    ∃ f', read_solution visit eqs u f = Ok f' ∧
      (∀ p, node_of es p → p ∉ constrained → ∃ i, eqs !! p = Some (Z.of_nat i) ∧ i < length u ∧ f' !! p = u !! i) ∧
      (∀ p, ¬ (node_of es p ∧ p ∉ constrained) → f' !! p = f !! p).
  Proof.
    intros E Hu Hf. destruct (C52_numbering es constrained eqs N E) as (H1 & H2 & H3 & H4).
    destruct (read_solution_ok visit eqs u f Hvisit) as (f' & Ef & Ha & Hb).
    { intros p z Hp Hz. destruct (decide (p ∈ constrained)) as [Hc|Hc].
      { apply H3 in Hc. congruence. }
      destruct (build_equation_map_ok es constrained) as (eqs' & l & E' & Hnd & Hl & He & _ & Hn).
      rewrite E in E'. injection E' as <- HN.
      destruct (decide (p ∈ l)) as [Hpl|Hpl].
      - pose proof (proj1 (Hl p) Hpl) as [Hp1 Hp2]. destruct (H1 p Hp1 Hp2) as (i & Hi & ?). rewrite Hp in Hi. injection Hi as <-.
        split; [lia|by apply Hf].
      - rewrite Hn in Hp; [done|done|]. intros ?. by apply Hpl, Hl. }
    exists f'. split_and!; [done| |].
    - intros p Hp Hc. destruct (H1 p Hp Hc) as (i & Hi & ?). exists (Z.to_nat i). rewrite Z2Nat.id by lia.
      split_and!; [done|lia|]. apply Ha. by rewrite Z2Nat.id by lia.
    - intros p Hp. apply Hb. destruct (decide (p ∈ constrained)) as [Hc|Hc]; [right; by apply H3|]. left. apply H4; [done|]. tauto.
  Qed.

  (* The claim is false: whatever the value [g] prescribed at a constrained node of the mesh, the
     field of the solution is zero there. *)
  Theorem C54_prescribed_value_refuted (es : list (C * list nat)) constrained eqs N u f (g : R) p :
    build_equation_map es constrained = (eqs, N) → Z.of_nat (length u) = N → fem_field debug order es = Ok f →
    node_of es p → p ∈ constrained → g ≠ 0%R →
    ∃ f', read_solution visit eqs u f = Ok f' ∧ f' !! p = Some 0%R ∧ f' !! p ≠ Some g.
  Proof.
    intros E Hu Ef Hp Hc Hg. destruct (C54_initial es) as (f0 & Ef0 & Hf). rewrite Ef in Ef0. injection Ef0 as <-.
    destruct (C54_read_solution_partial es constrained eqs N u f E Hu) as (f' & E' & _ & Hk).
    { intros q Hq. apply Hf in Hq. by exists 0%R. }
    exists f'. split; [done|]. rewrite Hk by tauto. rewrite (proj1 (Hf p) Hp). split; [done|]. congruence.
  Qed.
End C54.
Print Assumptions C54_initial.
Print Assumptions C54_read_solution_partial.
Print Assumptions C54_prescribed_value_refuted.

(* ---- C68 ---- *)

Section C68.
  Context {C : Type} (debug : bool) (order : gset nat → list nat) (Horder : visits_set order).
  Context (visit : gmap nat Z → list (nat * Z)) (Hvisit : visits visit).
  Context (n : nat) (blocks : C * list nat → (nat → nat → R) * (nat → R)).

  Local Lemma pick_one {A} (f : A → R) (l : list A) k :
    NoDup l → k ∈ l → (∀ j, j ∈ l → j ≠ k → f j = 0%R) → sumR (f <$> l) = f k.
  Proof.
    induction 1 as [|x l Hx Hnd IH]; [by intros ?%elem_of_nil|]. rewrite elem_of_cons. intros [->|Hk] Hf; rewrite fmap_cons, sumR_cons.
    - rewrite (sumR_zero f l); [lra|]. intros j Hj. apply Hf; [by right|]. intros ->. done.
    - rewrite IH; [|done|intros j Hj; apply Hf; by right]. rewrite (Hf x); [lra|left|]. intros ->. done.
  Qed.

  (* Assemble a system that was just created, let [u] solve it and read the solution in a new field: at
     every node with an equation, the matrices of the elements applied to the field, with the value
     zero at the constrained nodes, give the vectors of the elements. *)
  Theorem C68_galerkin (es : list (C * list nat)) constrained eqs N s u f f' :
    build_equation_map es constrained = (eqs, N) → (∀ e, e ∈ es → length e.2 = n) →
    assemble debug n eqs N blocks es (create N) = Ok s →
    Z.of_nat (length u) = N → solves (s_matrix s) (s_rhs s) u →
    fem_field debug order es = Ok f → read_solution visit eqs u f = Ok f' →
    (∀ p, node_of es p → p ∈ constrained → f' !! p = Some 0%R) ∧
    (∀ p, node_of es p → p ∉ constrained → action n blocks es f' p = global_vector n blocks es p).
  Proof.
    intros E Hlen Es Hu Hsol Ef Ef'.
    destruct (C54_initial debug order Horder es) as (f0 & E0 & Hf). rewrite Ef in E0. injection E0 as <-.
    destruct (C54_read_solution_partial visit Hvisit es constrained eqs N u f E Hu) as (f0 & E0 & Hread & Hkeep).
    { intros q Hq. apply Hf in Hq. by exists 0%R. }
    rewrite Ef' in E0. injection E0 as <-.
    destruct (C52_numbering es constrained eqs N E) as (H1 & H2 & H3 & H4).
    split. { intros p Hp Hc. rewrite Hkeep by tauto. by apply Hf. }
    intros p Hp Hpc. destruct (H1 p Hp Hpc) as (i & Hi & Hir).
    destruct (C53_assembly debug n blocks es constrained eqs N (create N) E Hlen eq_refl) as (s0 & E0 & _ & _ & Hv & _).
    rewrite Es in E0. injection E0 as <-.
    assert (Hr : ∀ q, node_of es q → ∃ z, eqs !! q = Some z ∧ ((0 <= z < N)%Z ∨ z = (-1)%Z)).
    { intros q Hq. destruct (decide (q ∈ constrained)) as [Hc|Hc].
      - exists (-1)%Z. split; [by apply H3|by right].
      - destruct (H1 q Hq Hc) as (j & ? & ?). exists j. split; [done|by left]. }
    destruct (assemble_ok debug n eqs N blocks es (create N) eq_refl Hlen) as (s0 & E0 & _ & Hm & _).
    { intros q (z & ? & ?)%Hr. exists z. split; [done|]. lia. }
    rewrite Es in E0. injection E0 as <-.
    assert (Hgoal : global_vector n blocks es p = s_rhs s i). { rewrite (Hv p i Hp Hpc Hi). cbn. lra. }
    rewrite Hgoal. replace i with (Z.of_nat (Z.to_nat i)) by lia. rewrite <- Hsol by lia. rewrite Z2Nat.id by lia.
    unfold action. symmetry.
    transitivity (sumR ((λ j : nat, sumR ((λ e, (nth j u 0 * sumR ((λ a, sumR ((λ b,
           if decide (eq_of eqs e.2 a = i ∧ eq_of eqs e.2 b = Z.of_nat j ∧ i ≠ -1 ∧ Z.of_nat j ≠ -1)%Z then (blocks e).1 a b else 0%R)
           <$> seq 0 n)) <$> seq 0 n))%R) <$> es)) <$> seq 0 (length u))).
    { apply sumR_ext. intros j _. rewrite Hm. rewrite sumR_mult_l. cbn. lra. }
    rewrite sumR_swap. apply sumR_ext. intros e He.
    transitivity (sumR ((λ j : nat, sumR ((λ a, (nth j u 0 * sumR ((λ b,
           if decide (eq_of eqs e.2 a = i ∧ eq_of eqs e.2 b = Z.of_nat j ∧ i ≠ -1 ∧ Z.of_nat j ≠ -1)%Z then (blocks e).1 a b else 0%R)
           <$> seq 0 n))%R) <$> seq 0 n)) <$> seq 0 (length u))).
    { apply sumR_ext. intros j _. by rewrite sumR_mult_l. }
    rewrite sumR_swap. apply sumR_ext. intros a _.
    pose proof (eq_of_iff es constrained eqs N e a p i E He Hp Hpc Hi) as Ha.
    destruct (decide (e.2 !! a = Some p)) as [Hd|Hd].
    - transitivity (sumR ((λ j : nat, sumR ((λ b, (nth j u 0 *
           if decide (eq_of eqs e.2 b = Z.of_nat j) then (blocks e).1 a b else 0)%R)
           <$> seq 0 n)) <$> seq 0 (length u))).
      { apply sumR_ext. intros j _. rewrite sumR_mult_l. f_equal. apply sumR_ext. intros b _.
        destruct (decide (eq_of eqs e.2 b = Z.of_nat j)) as [Hb|Hb]; [rewrite decide_True|rewrite decide_False]; try done; [|tauto].
        split_and!; [tauto|done|tauto|lia]. }
      rewrite sumR_swap. apply sumR_ext. intros b _. unfold at_local, eq_of.
      destruct (e.2 !! b) as [q|] eqn:Eq.
      2:{ rewrite sumR_zero; [lra|]. intros j _. rewrite decide_False by lia. lra. }
      assert (Hq : node_of es q) by (exists e; split; [done|by eapply elem_of_list_lookup_2]).
      destruct (decide (q ∈ constrained)) as [Hc|Hc].
      + rewrite (H3 q Hc). rewrite Hkeep by tauto. rewrite (proj1 (Hf q) Hq).
        rewrite sumR_zero; [lra|]. intros j _. rewrite decide_False by lia. lra.
      + destruct (Hread q Hq Hc) as (k & Hk & Hkl & Hfq). rewrite Hk, Hfq.
        rewrite (pick_one _ _ k).
        * rewrite decide_True by done. destruct (u !! k) as [x|] eqn:Ex; [|apply lookup_ge_None_1 in Ex; lia].
          rewrite (nth_lookup_Some u k 0%R x Ex). lra.
        * apply NoDup_seq.
        * apply elem_of_seq. lia.
        * intros j _ Hj. rewrite decide_False by lia. lra.
    - rewrite sumR_zero; [done|]. intros j _. rewrite sumR_zero; [lra|]. intros b _. rewrite decide_False by tauto. done.
  Qed.
End C68.
Print Assumptions C68_galerkin.
