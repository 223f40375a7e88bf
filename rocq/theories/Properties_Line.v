(* C73: on a line the solution of the Poisson problem with linear segments is exact at the nodes. *)
From stdpp Require Import base gmap list sorting.
From Coq Require Import Reals Lra.
From Coquelicot Require Import Hierarchy Derive.
From Verif Require Import Base M_Tensor M_Geometry S_Geometry P_Volume.
From Verif Require Import M_Functions P_Functions M_Quadrature S_Quadrature P_Quadrature P_Integrator M_Fem S_Fem P_Fem P_FemBlocks P_FemNorms Properties_Fem.
From Verif Require Import S_Discrete M_System S_System P_System Properties_System P_Galerkin M_Poisson S_Poisson P_Poisson Properties_Poisson P_Line.
Open Scope nat_scope.

(* Every node without constraint ends as many segments of the mesh as it starts. *)
Definition balanced (mesh : list (element Seg1 * list vec)) (constrained : gset nat) : Prop :=
  filter (λ p, p ∉ constrained) ((λ ec, connectivity ec.1 0) <$> mesh) ≡ₚ
  filter (λ p, p ∉ constrained) ((λ ec, connectivity ec.1 1) <$> mesh).

(* The nodes have the same position in all their elements. *)
Definition positioned (mesh : list (element Seg1 * list vec)) (position : nat → R) : Prop :=
  ∀ e corners k, (e, corners) ∈ mesh → k < 2 → position (connectivity e k) = nth k corners vzero 0.

Local Lemma filtered_sum (G : nat → R) (constrained : gset nat) l : (∀ p, p ∈ constrained → G p = 0%R) →
  sumR (G <$> l) = sumR (G <$> filter (λ p, p ∉ constrained) l).
Proof.
  intros HG. induction l as [|x l IH]; [done|]. rewrite filter_cons, fmap_cons, sumR_cons, IH.
  destruct (decide (x ∉ constrained)) as [Hx|Hx]; [by rewrite fmap_cons, sumR_cons|].
  rewrite HG; [lra|]. destruct (decide (x ∈ constrained)); tauto.
Qed.

Section C73.
  Context (debug : bool) (mesh : list (element Seg1 * list vec)) (Hmesh : good_mesh mesh).
  Context (constrained : gset nat) (eqs : gmap nat Z) (N : Z).
  Context (Heqs : build_equation_map (system mesh.*1) constrained = (eqs, N)).
  Context (order : gset nat → list nat) (Horder : visits_set order).
  Context (visit : gmap nat Z → list (nat * Z)) (Hvisit : visits visit).
  Let es := system mesh.*1.

  (* the problem - U'' = f on the line, with a polynomial source *)
  Context (po : polynomial) (d : nat) (Hpo : of_degree 1 d po) (U U' : R → R).
  Context (HU : ∀ t : R, is_derive U t (U' t)) (HU' : ∀ t : R, is_derive U' t (- poly po (vec1 t))%R).

  (* the mesh: chains of segments with constrained ends, and U is zero at the constrained nodes *)
  Context (position : nat → R) (Hpos : positioned mesh position) (Hbal : balanced mesh constrained) (Hheld : held es constrained).
  Context (Hzero : ∀ p, node_of es p → p ∈ constrained → U (position p) = 0%R).

  (* a rule exact for the products of the source and the shape functions *)
  Context (q : rule) (Hq : ∀ p w, In (p, w) q → (0 <= w)%R) (Hsees : sees_gradients Seg1 q) (Hexact : exact_to 1 (d + 1) q).

  Local Lemma exact_weak (v : nat → R) : (∀ p, p ∈ constrained → v p = 0%R) →
    stiffness q mesh (λ p, U (position p)) v = load q mesh (poly po) v.
  Proof.
    intros Hv. rewrite <- (load_form (poisson q (poly po))) by (done || apply poisson_2).
    assert (He0 : exact_to 1 0 q) by (intros p x Hp Hx; apply Hexact; [apply (of_degree_le 1 0); [lia|done]|done]).
    unfold system. rewrite <- !list_fmap_compose.
    pose (G p := (v p * U' (position p))%R).
    assert (Hel : ∀ ec, ec ∈ mesh → (eload (n_nodes Seg1) (poisson q (poly po)) v ∘ (λ e, (e, connectivity e <$> seq 0 (n_nodes Seg1))) ∘ fst) ec =
      (simplex_volume (snd ec) * S_Geometry.total (map (λ pw, snd pw * dot (edim Seg1) (gradient_of (λ p, U (position p)) ec.1 (fst pw)) (gradient_of v ec.1 (fst pw)))%R q)
        + (G (connectivity ec.1 0%nat) - G (connectivity ec.1 1%nat)))%R).
    { intros [e corners] He. destruct (in_mesh mesh e corners Hmesh He) as [Hm Hvol]. cbn [compose fst snd].
      destruct (segment_stiffness e corners q (λ p, U (position p)) v Hm Hvol He0) as [Hx Hst]. rewrite Hst.
      destruct (source_parts po d U U' Hpo HU HU' _ _ Hx e corners q Hm eq_refl eq_refl Hexact) as [H0 H1].
      unfold compose. change (e, connectivity e <$> seq 0 (n_nodes Seg1)) with (el e). unfold eload. cbn [n_nodes].
      assert (Hp0 := Hpos e corners 0 He ltac:(lia)). assert (Hp1 := Hpos e corners 1 He ltac:(lia)).
      change (seq 0 2) with [0; 1]. rewrite !fmap_cons, !sumR_cons. rewrite !loc_el by (cbn; lia). rewrite !poisson_2, H0, H1.
      unfold G. rewrite Hp0, Hp1. cbn. field. lra. }
    rewrite (sumR_ext _ _ mesh Hel), sumR_plus.
    replace (sumR ((λ x, G (connectivity x.1 0) - G (connectivity x.1 1))%R <$> mesh)) with 0%R.
    - unfold stiffness, integral. rewrite total_sumR. lra.
    - rewrite sumR_minus.
      change (λ x : element Seg1 * list vec, G (connectivity x.1 0)) with (G ∘ (λ x : element Seg1 * list vec, connectivity x.1 0)).
      change (λ x : element Seg1 * list vec, G (connectivity x.1 1)) with (G ∘ (λ x : element Seg1 * list vec, connectivity x.1 1)).
      rewrite !list_fmap_compose.
      assert (HG : ∀ p, p ∈ constrained → G p = 0%R) by (intros p Hp; unfold G; rewrite Hv by done; lra).
      rewrite (filtered_sum G constrained ((λ x : element Seg1 * list vec, connectivity x.1 0) <$> mesh) HG), (filtered_sum G constrained ((λ x : element Seg1 * list vec, connectivity x.1 1) <$> mesh) HG). unfold balanced in Hbal. rewrite (sumR_perm _ _ (fmap_Permutation G _ _ Hbal)). lra.
  Qed.

  (* The field read from the solution of the system has, at every node, the value of the solution U of the
     differential equation. *)
  Theorem C73_exact_at_nodes s u fld fld' :
    assemble debug (n_nodes Seg1) eqs N (poisson q (poly po)) es (create N) = Ok s →
    Z.of_nat (length u) = N → solves (s_matrix s) (s_rhs s) u →
    fem_field debug order es = Ok fld → read_solution visit eqs u fld = Ok fld' →
    ∀ p, node_of es p → nodal fld' p = U (position p).
  Proof.
    intros Hs Hu Hsol Hfld Hread p Hp.
    pose (g p := if decide (p ∈ constrained) then 0%R else U (position p)).
    assert (Hg : ∀ p, node_of es p → g p = U (position p)).
    { intros k Hk. unfold g. destruct (decide (k ∈ constrained)); [by rewrite Hzero|done]. }
    assert (Hgc : ∀ p, p ∈ constrained → g p = 0%R) by (intros k Hk; unfold g; by rewrite decide_True).
    rewrite <- (Hg p Hp). symmetry. revert p Hp.
    apply (C72_energy_unique debug mesh Hmesh constrained eqs N Heqs order Horder visit Hvisit (poly po) q s Hs u Hu Hsol fld fld' Hfld Hread g Hq Hsees Hheld Hgc).
    destruct (C72_weak debug mesh Hmesh constrained eqs N Heqs order Horder visit Hvisit (poly po) q s Hs u Hu Hsol fld fld' Hfld Hread) as [Hc Hw].
    (* both have the energy - a(g, g) / 2: the weak forms *)
    pose (w p := if decide (p ∈ constrained) then 0%R else nodal fld' p).
    assert (Hwn : ∀ p, node_of es p → nodal fld' p = w p).
    { intros k Hk. unfold w. destruct (decide (k ∈ constrained)); [by rewrite Hc|done]. }
    assert (Hwc : ∀ p, p ∈ constrained → w p = 0%R) by (intros k Hk; unfold w; by rewrite decide_True).
    assert (Hgw : ∀ v, (∀ p, p ∈ constrained → v p = 0%R) → stiffness q mesh g v = load q mesh (poly po) v).
    { intros v Hv. rewrite (stiffness_nodes q mesh _ _ v Hg). by apply exact_weak. }
    assert (Hww : ∀ v, (∀ p, p ∈ constrained → v p = 0%R) → stiffness q mesh w v = load q mesh (poly po) v).
    { intros v Hv. rewrite <- (stiffness_nodes q mesh _ _ v Hwn). by apply Hw. }
    unfold energy. rewrite (stiffness_nodes q mesh _ _ (nodal fld') Hwn), (stiffness_sym q mesh w), (stiffness_nodes q mesh _ _ w Hwn).
    rewrite (load_nodes q mesh (poly po) _ _ Hwn), <- (Hww w Hwc), <- (Hgw g Hgc).
    assert (stiffness q mesh g g = stiffness q mesh w w); [|lra].
    rewrite (Hgw g Hgc), <- (Hww g Hgc), stiffness_sym, (Hgw w Hwc), (Hww w Hwc). done.
  Qed.
End C73.
Print Assumptions C73_exact_at_nodes.

(* The rule of the library for segments of degree one: constant sources. *)
Theorem C73_midpoint : (∀ p w, In (p, w) segment_1 → (0 <= w)%R) ∧ sees_gradients Seg1 segment_1 ∧ exact_to 1 (0 + 1) segment_1.
Proof.
  destruct (C51_kernel_tables Seg1 1 segment_1 eq_refl ltac:(cbn; lia)) as [Hs HP]. split_and!; [|done|].
  - intros p w Hw. apply Rlt_le. by apply (HP p).
  - apply (C51_exact_tables Seg1 1 segment_1 1 eq_refl); [left; reflexivity|lia].
Qed.
Print Assumptions C73_midpoint.
