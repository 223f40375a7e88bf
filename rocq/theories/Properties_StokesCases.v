(* C78, C79: cases that meet the hypotheses of the theorems of Properties_Stokes.v, and
   counterexamples. *)
From stdpp Require Import base gmap list.
From Coq Require Import Reals Lra.
From Verif Require Import Base M_SegAlloc S_SegAlloc P_SegAlloc M_Topology S_Topology P_Topology
  Properties_Topology Properties_TopologyCases M_Mesh S_Mesh P_Mesh Properties_Mesh Properties_MeshCases.
From Verif Require Import M_Tensor M_Geometry S_Geometry P_Volume M_Functions S_Functions
  M_Quadrature S_Quadrature P_Quadrature P_Integrator.
From Verif Require Import Properties_Quadrature Properties_Integrator P_Poly S_Stokes P_Stokes Properties_Stokes.

Local Open Scope nat_scope.
Local Notation total := S_Geometry.total.
Local Ltac splits := cbv zeta; repeat match goal with |- _ ∧ _ => split end.
Local Ltac decided :=
  match goal with |- ?P => refine (@by_decision P _ _) end; vm_compute; reflexivity.
#[local] Typeclasses Opaque has hasF sign legal run step mrun.

(* ---- the test: a square of four triangles, f = x y e0 + x^2 e1 ---- *)
Definition sq_ops := [OVertex; OVertex; OVertex; OVertex; OVertex; OTriangle 1 2 4; OTriangle 2 3 4;
  OTriangle 3 5 4; OTriangle 5 1 4].
Definition SQ := mrun true 2 [MInsert (10, nds [1; 2; 4]); MInsert (16, nds [2; 3; 4]);
  MInsert (22, nds [3; 5; 4]); MInsert (26, nds [5; 1; 4])] (run true sq_ops topo0).
Definition sq_cells : list (addr * gcell) :=
  [((0, 0), (10, nds [1; 2; 4])); ((0, 1), (16, nds [2; 3; 4])); ((0, 2), (22, nds [3; 5; 4]));
   ((0, 3), (26, nds [5; 1; 4]))].
Definition sq_edges : list (addr * gcell) :=
  [((0, 0), (3, nds [1; 2])); ((0, 1), (12, nds [2; 3])); ((0, 2), (18, nds [3; 5])); ((0, 3), (23, nds [5; 1]))].
Definition sq_X (v : nat) : vec :=
  match v with
  | 1 => vec2 0 0 | 2 => vec2 1 0 | 3 => vec2 1 1 | 4 => vec2 (1 / 2) (1 / 2) | _ => vec2 0 1
  end.
Definition sq_cs : csys := [(1, sq_X 1); (2, sq_X 2); (3, sq_X 3); (4, sq_X 4); (5, sq_X 5)].
Definition sq_F (x : vec) : vec := vec2 (x 0 * x 1) (x 0 * x 0).
Definition sq_div (x : vec) : R := x 1.
Definition indicator (a b : R) : R := if Req_EM_T a b then 1%R else 0%R.
(* the normal of the test *)
Definition sq_n (x : vec) : vec :=
  vec2 (- indicator (x 0) 0 + indicator (x 0) 1) (- indicator (x 1) 0 + indicator (x 1) 1).

Lemma sq_listed : reach_listed al0 true SQ.1.1.
Proof.
  assert (E : SQ.1.1 = run true (sq_ops ++ [OCopy 2 10; OCopy 2 16; OCopy 2 22; OCopy 2 26]) topo0) by (vm_compute; reflexivity).
  rewrite E. apply run_listed; [done|constructor].
Qed.
Lemma sq_reach : mreach al0 blk0 true 2 SQ.1.1 SQ.1.2 SQ.2.
Proof. apply mrun_reach, run_reach. constructor. Qed.
Lemma sq_mesh : mesh_cells SQ.1.2 = Ok sq_cells.
Proof. vm_compute. reflexivity. Qed.
Lemma sq_fit : nodes_fit true SQ.1.1 2 sq_cells.
Proof.
  unfold sq_cells. intros x Hx. repeat (apply elem_of_cons in Hx as [->|Hx]); [..|by apply elem_of_nil in Hx];
  (split; [vm_compute; reflexivity|]); intros n Hn; revert n Hn; apply Forall_forall; decided.
Qed.
Lemma sq_created : as_created SQ.1.1 2 sq_cells.
Proof.
  unfold sq_cells. intros x Hx. repeat (apply elem_of_cons in Hx as [->|Hx]); [..|by apply elem_of_nil in Hx];
  eexists; vm_compute; reflexivity.
Qed.
Lemma sq_consistent : consistent (all_facets SQ.1.1 2 sq_cells).
Proof. apply nodup_consistent. decided. Qed.
Lemma sq_positions : positions sq_cs sq_X sq_cells.
Proof.
  unfold sq_cells, positions, nds. intros x n Hx Hn.
  repeat (apply elem_of_cons in Hx as [->|Hx]); [..|by apply elem_of_nil in Hx]; cbn [fst snd fmap list_fmap] in Hn;
  repeat (apply elem_of_cons in Hn as [->|Hn]); try (by apply elem_of_nil in Hn); reflexivity.
Qed.
Lemma sq_polynomial : polynomial_field 2 2 sq_F.
Proof.
  exists (λ i, match i with 0 => [(1%R, [1; 1])] | _ => [(1%R, [2; 0])] end).
  intros [|[|i]] Hi; [| |lia].
  - split; [repeat constructor|]. intros x. unfold sq_F, vec2, poly, total. cbn. ring.
  - split; [repeat constructor|]. intros x. unfold sq_F, vec2, poly, total. cbn. ring.
Qed.
Lemma affine_derivative (f : R → R) x a : (∀ h, f (x + h)%R = f x + a * h)%R → derivable_pt_lim f x a.
Proof.
  intros H e He. exists (mkposreal 1 Rlt_0_1). intros h Hh _. rewrite H.
  replace ((f x + a * h - f x) / h - a)%R with 0%R by (by field). by rewrite Rabs_R0.
Qed.
Lemma sq_divergence : is_divergence 2 sq_F sq_div.
Proof.
  intros y. exists (λ i, match i with 0 => y 1 | _ => 0%R end). split.
  - intros [|[|i]] Hi; [| |lia]; unfold is_partial, with_component, sq_F, vec2; cbn; apply affine_derivative; intros h; ring.
  - unfold sq_div. cbn. ring.
Qed.
Lemma boundary_cells (r : res (topo * mesh)) l :
  match r with Ok p => mesh_cells p.2 | Abort => Abort | Ub => Ub end = Ok l →
  ∃ st' m', r = Ok (st', m') ∧ mesh_cells m' = Ok l.
Proof. destruct r as [[st' m']| |]; [|done..]. intros H. by exists st', m'. Qed.
Lemma sq_boundary : ∃ st' m', boundary al0 blk0 true 2 SQ.1.1 SQ.1.2 = Ok (st', m') ∧ mesh_cells m' = Ok sq_edges.
Proof. apply boundary_cells. vm_compute. reflexivity. Qed.

Lemma indicator_same a : indicator a a = 1%R.
Proof. unfold indicator. by destruct Req_EM_T. Qed.
Lemma indicator_other a b : a ≠ b → indicator a b = 0%R.
Proof. unfold indicator. by destruct Req_EM_T. Qed.

(* the two weights of a point inside an edge *)
Lemma edge_interior D a b y : interior D [a; b] y →
  ∃ w, (0 < w < 1)%R ∧ ∀ i, i < D → y i = (w * a i + (1 - w) * b i)%R.
Proof.
  intros (ws & L & Hp & Ht & Hy). destruct ws as [|w [|w' [|]]]; try done.
  apply List.Forall_cons_iff in Hp as [H0 Hp]. apply List.Forall_cons_iff in Hp as [H1 _].
  unfold total in Ht. cbn in Ht. exists w. split; [lra|]. intros i Hi. rewrite (Hy i Hi). unfold combo. cbn.
  replace w' with (1 - w)%R by lra. ring.
Qed.

Lemma dot2 u v : dot 2 u v = (u 0%nat * v 0%nat + u 1%nat * v 1%nat)%R.
Proof. unfold dot. cbn. ring. Qed.
Lemma same2 u v : u 0 = v 0 → u 1 = v 1 → same 2 u v.
Proof. intros H0 H1 [|[|i]] Hi; [done..|lia]. Qed.
Lemma edge_normal a b nu n :
  dot 2 nu nu = 1%R → dot 2 nu (vsub b a) = 0%R →
  (∀ w, (0 < w < 1)%R → ∀ y, y 0 = (w * a 0%nat + (1 - w) * b 0%nat)%R → y 1 = (w * a 1%nat + (1 - w) * b 1%nat)%R → same 2 (n y) nu) →
  dot 2 (n a) nu = 1%R → dot 2 (n b) nu = 1%R → normal_field 2 [a; b] n.
Proof.
  intros H1 Ht Hi Ha Hb. exists nu. splits; [done| | |].
  - by intros t [<-|[]].
  - intros y (w & Hw & Hy)%edge_interior. apply (Hi w Hw); apply Hy; lia.
  - by intros x [<-|[<-|[]]].
Qed.
Local Ltac indic := repeat first [rewrite indicator_same | rewrite indicator_other by lra].
Local Ltac inplane := unfold sq_n, sq_X, vsub, vec2; cbn.
Lemma sq_normal x : x ∈ sq_edges → normal_field 2 (corners_at sq_X x) sq_n.
Proof.
  intros Hx. unfold sq_edges in Hx.
  repeat (apply elem_of_cons in Hx as [->|Hx]); [..|by apply elem_of_nil in Hx];
    unfold corners_at, nds; cbn [fst snd fmap list_fmap map].
  - apply (edge_normal _ _ (vec2 0 (-1))); [rewrite dot2; inplane; lra|rewrite dot2; inplane; lra| |rewrite dot2; inplane; indic; lra|rewrite dot2; inplane; indic; lra].
    intros w Hw y E0 E1. apply same2; inplane; rewrite ?E0, ?E1; inplane; try replace (w * 0 + (1 - w) * 0)%R with 0%R by ring; indic; lra.
  - apply (edge_normal _ _ (vec2 1 0)); [rewrite dot2; inplane; lra|rewrite dot2; inplane; lra| |rewrite dot2; inplane; indic; lra|rewrite dot2; inplane; indic; lra].
    intros w Hw y E0 E1. apply same2; inplane; rewrite ?E0, ?E1; inplane; try replace (w * 1 + (1 - w) * 1)%R with 1%R by ring; indic; lra.
  - apply (edge_normal _ _ (vec2 0 1)); [rewrite dot2; inplane; lra|rewrite dot2; inplane; lra| |rewrite dot2; inplane; indic; lra|rewrite dot2; inplane; indic; lra].
    intros w Hw y E0 E1. apply same2; inplane; rewrite ?E0, ?E1; inplane; try replace (w * 1 + (1 - w) * 1)%R with 1%R by ring; indic; lra.
  - apply (edge_normal _ _ (vec2 (-1) 0)); [rewrite dot2; inplane; lra|rewrite dot2; inplane; lra| |rewrite dot2; inplane; indic; lra|rewrite dot2; inplane; indic; lra].
    intros w Hw y E0 E1. apply same2; inplane; rewrite ?E0, ?E1; inplane; try replace (w * 0 + (1 - w) * 0)%R with 0%R by ring; indic; lra.
Qed.

(* what the theorem says of the test: the body integral is 1/2, and the boundary integral is that
   number up to 7e-15 (the table for segments is written with sixteen digits) *)
Lemma sq_described : described 2 sq_cs (elements sq_cells) (map (corners_at sq_X) sq_cells).
Proof.
  split; [apply NoDup_ListNoDup; decided|].
  unfold elements, sq_cells, corners_at, nds. cbn [map fst snd fmap list_fmap].
  repeat constructor.
Qed.
Lemma sq_body : body_terms 2 2 sq_X sq_div sq_cells
  [[((- (1 / 2))%R, [1; 0]); ((- (1 / 2))%R, [0; 1]); ((1 / 2)%R, [0; 0])];
   [((- (1 / 2))%R, [1; 0]); ((1 / 2)%R, [0; 1]); ((1 / 2)%R, [0; 0])];
   [((1 / 2)%R, [1; 0]); ((1 / 2)%R, [0; 1]); ((1 / 2)%R, [0; 0])];
   [((1 / 2)%R, [1; 0]); ((- (1 / 2))%R, [0; 1]); ((1 / 2)%R, [0; 0])]].
Proof.
  unfold body_terms, sq_cells, corners_at, nds, sq_div. cbn [map fst snd fmap list_fmap].
  repeat constructor; intros s; unfold barycentric, combo, poly, total, sq_X, vec2; cbn; field.
Qed.
Lemma sq_facets : facet_terms 2 2 sq_X sq_F sq_edges
  [[((-1)%R, [0]); ((2)%R, [1]); ((-1)%R, [2])]; [((1)%R, [0]); ((-1)%R, [1])]; [((1)%R, [2])]; []].
Proof.
  unfold facet_terms, sq_edges, corners_at, nds. cbn [map fst snd fmap list_fmap].
  repeat constructor; intros s; unfold barycentric, combo, poly, total, sq_F, sq_X, vec2, det_vecs, sides, vsub; cbn; ring.
Qed.
Example C78_test : ∃ st' m' v,
  boundary al0 blk0 true 2 SQ.1.1 SQ.1.2 = Ok (st', m') ∧ mesh_cells m' = Ok sq_edges ∧
  integrate true (Cartesian 2) (volume_form (Cartesian 2)) sq_cs triangle_2 (elements sq_cells) sq_div = Ok (1 / 2)%R ∧
  integrate true (Cartesian 2) (sub_volume_form (Cartesian 2) [sq_n] 1) sq_cs segment_2 (elements sq_edges)
    (λ y, dot 2 (sq_F y) (sq_n y)) = Ok v ∧
  (Rabs (1 / 2 - v) <= 7 / 10 ^ 15)%R.
Proof.
  destruct (C78_divergence_theorem_partial al0 al0_good blk0 blk0_inj true SQ.1.1 SQ.1.2 SQ.2 sq_cells sq_cs sq_X sq_F 2 sq_n sq_div
    2 triangle_2 2 segment_2 sq_listed sq_reach sq_mesh sq_fit sq_consistent sq_created sq_positions sq_polynomial sq_divergence eq_refl eq_refl)
    as (st' & m' & l' & E & Hl' & H).
  destruct sq_boundary as (st2 & m2 & E2 & Hl2). rewrite E in E2. injection E2 as <- <-.
  rewrite Hl2 in Hl'. injection Hl' as <-.
  destruct (H sq_normal) as (u & v & Hu & Hv & HE).
  assert (u = 1 / 2)%R as ->.
  { rewrite (cartesian_value true 2 sq_cs triangle_2 _ _ sq_div ltac:(lia) sq_described) in Hu. injection Hu as <-.
    unfold sq_cells, corners_at, nds, sq_div, triangle_2, simplex_volume, barycentric, combo, total, sq_X, vec2, vsub, det_vecs. cbn. clear. lra. }
  exists st', m', v. splits; [done..|]. eapply Rle_trans; [exact (HE _ _ sq_body sq_facets)|].
  unfold rounding. change (tolerance 2 2) with 0%R. change (tolerance (2 - 1) 2) with (1 / 10 ^ 15)%R.
  unfold total at 2, S_Quadrature.size, total. cbn [map fold_right fst].
  rewrite !Rabs_R1, (Rabs_left (-1)), (Rabs_pos_eq 2) by lra. lra.
Qed.

(* ---- C78: a triangle with positive area whose footprint was created with the other orientation. Its
   boundary is that of the other orientation, so the boundary integral has the wrong sign. All the
   hypotheses of the theorem hold, but that on how the triangle was created. ---- *)
Definition RV := mrun true 2 [MInsert (14, nds [3; 1; 2])]
  (run true [OVertex; OVertex; OVertex; OTriangle 1 3 2; OTriangle 1 2 3] topo0).
Definition rv_cells : list (addr * gcell) := [((0, 0), (14, nds [3; 1; 2]))].
Definition rv_edges : list (addr * gcell) :=
  [((0, 0), (6, nds [3; 2])); ((0, 1), (3, nds [1; 3])); ((0, 2), (9, nds [2; 1]))].
Definition rv_X (v : nat) : vec :=
  match v with
  | 1 => vec2 0 0 | 2 => vec2 4 0 | _ => vec2 0 3
  end.
Definition rv_cs : csys := [(1, rv_X 1); (2, rv_X 2); (3, rv_X 3)].
(* the outward normal; where two edges meet, a vector with the right component along both normals *)
Definition rv_n (y : vec) : vec :=
  if Req_EM_T (y 0) 0
  then if Req_EM_T (y 1) 0 then vec2 (-1) (-1) else if Req_EM_T (y 1) 3 then vec2 (-1) 2 else vec2 (-1) 0
  else if Req_EM_T (y 1) 0
       then if Req_EM_T (y 0) 4 then vec2 3 (-1) else vec2 0 (-1)
       else vec2 (3 / 5) (4 / 5).
(* x e0, with divergence 1 *)
Definition first (x : vec) : vec := λ i, match i with 0 => x 0 | _ => 0%R end.

Lemma first_polynomial2 : polynomial_field 2 1 first.
Proof.
  exists (λ i, match i with 0 => [(1%R, [1; 0])] | _ => [] end).
  intros [|[|i]] Hi; [| |lia]; (split; [repeat constructor|]); intros x; unfold first, poly, total; cbn; ring.
Qed.
Lemma first_polynomial3 : polynomial_field 3 1 first.
Proof.
  exists (λ i, match i with 0 => [(1%R, [1; 0; 0])] | _ => [] end).
  intros [|[|[|i]]] Hi; [| | |lia]; (split; [repeat constructor|]); intros x; unfold first, poly, total; cbn; ring.
Qed.
Lemma first_divergence D : 1 ≤ D → is_divergence D first (λ _, 1%R).
Proof.
  intros HD y. exists (λ i, match i with 0 => 1%R | _ => 0%R end). split.
  - intros [|i] Hi; unfold is_partial, with_component, first; cbn; apply affine_derivative; intros h; ring.
  - destruct D as [|D]; [lia|]. clear. induction D as [|D IH]; [cbn; ring|]. cbn in *. rewrite <- IH. ring.
Qed.
Local Ltac cases := repeat (case Req_EM_T; intros; try (exfalso; lra)).
Local Ltac inrv := unfold rv_n, rv_X, vsub, vec2; cbn.
Lemma rv_normal x : x ∈ rv_edges → normal_field 2 (corners_at rv_X x) rv_n.
Proof.
  intros Hx. unfold rv_edges in Hx.
  repeat (apply elem_of_cons in Hx as [->|Hx]); [..|by apply elem_of_nil in Hx];
    unfold corners_at, nds; cbn [fst snd fmap list_fmap map].
  - apply (edge_normal _ _ (vec2 (3 / 5) (4 / 5))); [rewrite dot2; inrv; lra|rewrite dot2; inrv; lra| |rewrite dot2; inrv; cases; lra|rewrite dot2; inrv; cases; lra].
    intros w Hw y E0 E1. unfold rv_X, vec2 in E0, E1; cbn in E0, E1. apply same2; inrv; cases; lra.
  - apply (edge_normal _ _ (vec2 (-1) 0)); [rewrite dot2; inrv; lra|rewrite dot2; inrv; lra| |rewrite dot2; inrv; cases; lra|rewrite dot2; inrv; cases; lra].
    intros w Hw y E0 E1. unfold rv_X, vec2 in E0, E1; cbn in E0, E1. apply same2; inrv; cases; lra.
  - apply (edge_normal _ _ (vec2 0 (-1))); [rewrite dot2; inrv; lra|rewrite dot2; inrv; lra| |rewrite dot2; inrv; cases; lra|rewrite dot2; inrv; cases; lra].
    intros w Hw y E0 E1. unfold rv_X, vec2 in E0, E1; cbn in E0, E1. apply same2; inrv; cases; lra.
Qed.

Lemma rv_described : described 2 rv_cs (elements rv_cells) (map (corners_at rv_X) rv_cells).
Proof.
  split; [apply NoDup_ListNoDup; decided|].
  unfold elements, rv_cells, corners_at, nds. cbn [map fst snd fmap list_fmap]. repeat constructor.
Qed.
Lemma rv_fit : nodes_fit true RV.1.1 2 rv_cells.
Proof.
  unfold rv_cells. intros x Hx. repeat (apply elem_of_cons in Hx as [->|Hx]); [..|by apply elem_of_nil in Hx].
  split; [vm_compute; reflexivity|]; intros n Hn; revert n Hn; apply Forall_forall; decided.
Qed.
Lemma rv_positions : positions rv_cs rv_X rv_cells.
Proof.
  unfold rv_cells, positions, nds. intros x n Hx Hn.
  repeat (apply elem_of_cons in Hx as [->|Hx]); [..|by apply elem_of_nil in Hx]; cbn [fst snd fmap list_fmap] in Hn;
  repeat (apply elem_of_cons in Hn as [->|Hn]); try (by apply elem_of_nil in Hn); reflexivity.
Qed.
Lemma rv_positive x : x ∈ rv_cells → (0 < simplex_volume (corners_at rv_X x))%R.
Proof.
  intros Hx. unfold rv_cells in Hx. repeat (apply elem_of_cons in Hx as [->|Hx]); [..|by apply elem_of_nil in Hx].
  unfold corners_at, nds, simplex_volume, rv_X, vec2, vsub, det_vecs. cbn. lra.
Qed.
Theorem C78_reversed_refuted : ∃ st m es l cs X F n g st' m' l',
  reach_listed al0 true st ∧ mreach al0 blk0 true 2 st m es ∧ mesh_cells m = Ok l ∧
  nodes_fit true st 2 l ∧ consistent (all_facets st 2 l) ∧ positions cs X l ∧
  polynomial_field 2 1 F ∧ is_divergence 2 F g ∧
  (∀ x, x ∈ l → (0 < simplex_volume (corners_at X x))%R) ∧
  boundary al0 blk0 true 2 st m = Ok (st', m') ∧ mesh_cells m' = Ok l' ∧
  (∀ x, x ∈ l' → normal_field 2 (corners_at X x) n) ∧
  integrate true (Cartesian 2) (volume_form (Cartesian 2)) cs triangle_1 (elements l) g = Ok 6%R ∧
  integrate true (Cartesian 2) (sub_volume_form (Cartesian 2) [n] 1) cs segment_1 (elements l')
    (λ y, dot 2 (F y) (n y)) = Ok (-6)%R.
Proof.
  assert (∃ st' m', boundary al0 blk0 true 2 RV.1.1 RV.1.2 = Ok (st', m') ∧ mesh_cells m' = Ok rv_edges) as (st' & m' & Eb & El).
  { apply boundary_cells. vm_compute. reflexivity. }
  exists RV.1.1, RV.1.2, RV.2, rv_cells, rv_cs, rv_X, first, rv_n, (λ _, 1%R), st', m', rv_edges. splits.
  - assert (E : RV.1.1 = run true [OVertex; OVertex; OVertex; OTriangle 1 3 2; OTriangle 1 2 3; OCopy 2 14] topo0)
      by (vm_compute; reflexivity).
    rewrite E. apply run_listed; [done|constructor].
  - apply mrun_reach, run_reach. constructor.
  - vm_compute. reflexivity.
  - exact rv_fit.
  - apply nodup_consistent. decided.
  - exact rv_positions.
  - exact first_polynomial2.
  - apply first_divergence. lia.
  - exact rv_positive.
  - exact Eb.
  - exact El.
  - exact rv_normal.
  - rewrite (cartesian_value true 2 rv_cs triangle_1 _ _ (λ _, 1%R) ltac:(lia) rv_described). f_equal.
    unfold rv_cells, corners_at, nds, triangle_1, simplex_volume, barycentric, combo, total, rv_X, vec2, vsub, det_vecs. cbn. lra.
  - change 1 with (2 - 1) at 1. rewrite (sub_value true 2 rv_n rv_cs segment_1 (elements rv_edges) (map (corners_at rv_X) rv_edges)).
    + f_equal. unfold rv_edges, corners_at, nds, segment_1, barycentric, combo, total, first. 
      cbn [map fst snd fmap list_fmap fold_right hd sides]. rewrite !dot2. inrv. cases. lra.
    + lia.
    + apply NoDup_ListNoDup. decided.
    + unfold elements, rv_edges, corners_at, nds. cbn [map fst snd fmap list_fmap]. repeat constructor.
Qed.

(* ---- C79: one tetrahedron of positive volume ---- *)
Definition TV := mrun true 3 [MInsert (25, nds [1; 2; 3; 4])]
  (run true [OVertex; OVertex; OVertex; OVertex; OTetrahedron 1 2 3 4] topo0).
Definition tv_cells : list (addr * gcell) := [((0, 0), (25, nds [1; 2; 3; 4]))].
Definition tv_faces : list (addr * gcell) :=
  [((0, 0), (10, nds [1; 2; 3])); ((0, 1), (16, nds [2; 4; 3])); ((0, 2), (20, nds [4; 2; 1]));
   ((0, 3), (24, nds [4; 1; 3]))].
Definition vec3 (a b c : R) : vec := λ i, match i with 0 => a | 1 => b | 2 => c | _ => 0%R end.
Definition tv_X (v : nat) : vec :=
  match v with
  | 1 => vec3 0 0 0 | 2 => vec3 2 0 0 | 3 => vec3 0 1 0 | _ => vec3 0 0 1
  end.
Definition tv_cs : csys := [(1, tv_X 1); (2, tv_X 2); (3, tv_X 3); (4, tv_X 4)].
(* the outward normal, as above *)
Definition tv_n (y : vec) : vec :=
  if Req_EM_T (y 0) 0
  then if Req_EM_T (y 1) 0
       then if Req_EM_T (y 2) 0 then vec3 (-1) (-1) (-1) else vec3 (-1) (-1) 3
       else if Req_EM_T (y 2) 0 then vec3 (-1) 3 (-1) else vec3 (-1) 0 0
  else if Req_EM_T (y 1) 0
       then if Req_EM_T (y 2) 0 then vec3 7 (-1) (-1) else vec3 0 (-1) 0
       else if Req_EM_T (y 2) 0 then vec3 0 0 (-1) else vec3 (1 / 3) (2 / 3) (2 / 3).

Lemma face_interior D a b c y : interior D [a; b; c] y →
  ∃ w w', (0 < w)%R ∧ (0 < w')%R ∧ (w + w' < 1)%R ∧ ∀ i, i < D → y i = (w * a i + w' * b i + (1 - w - w') * c i)%R.
Proof.
  intros (ws & L & Hp & Ht & Hy). destruct ws as [|w [|w' [|w'' [|]]]]; try done.
  apply List.Forall_cons_iff in Hp as [H0 Hp]. apply List.Forall_cons_iff in Hp as [H1 Hp].
  apply List.Forall_cons_iff in Hp as [H2 _].
  unfold total in Ht. cbn in Ht. exists w, w'. splits; [lra..|]. intros i Hi. rewrite (Hy i Hi). unfold combo. cbn.
  replace w'' with (1 - w - w')%R by lra. ring.
Qed.
Lemma dot3 u v : dot 3 u v = (u 0%nat * v 0%nat + u 1%nat * v 1%nat + u 2%nat * v 2%nat)%R.
Proof. unfold dot. cbn. ring. Qed.
Lemma same3 u v : u 0 = v 0 → u 1 = v 1 → u 2 = v 2 → same 3 u v.
Proof. intros H0 H1 H2 [|[|[|i]]] Hi; [done..|lia]. Qed.
Lemma face_normal a b c nu n :
  dot 3 nu nu = 1%R → dot 3 nu (vsub b a) = 0%R → dot 3 nu (vsub c a) = 0%R →
  (∀ w w', (0 < w)%R → (0 < w')%R → (w + w' < 1)%R → ∀ y, 
     (∀ i, i < 3 → y i = (w * a i + w' * b i + (1 - w - w') * c i)%R) → same 3 (n y) nu) →
  dot 3 (n a) nu = 1%R → dot 3 (n b) nu = 1%R → dot 3 (n c) nu = 1%R → normal_field 3 [a; b; c] n.
Proof.
  intros H1 Ht Ht' Hi Ha Hb Hc. exists nu. splits; [done| | |].
  - by intros t [<-|[<-|[]]].
  - intros y (w & w' & H0 & H0' & Hw & Hy)%face_interior. by apply (Hi w w').
  - by intros x [<-|[<-|[<-|[]]]].
Qed.
Local Ltac intv := unfold tv_n, tv_X, vsub, vec3; cbn.
Local Ltac face nu :=
  apply (face_normal _ _ _ nu);
  [rewrite dot3; intv; lra|rewrite dot3; intv; lra|rewrite dot3; intv; lra|
  |rewrite dot3; intv; cases; lra|rewrite dot3; intv; cases; lra|rewrite dot3; intv; cases; lra];
  let y := fresh "y" in let H := fresh "H" in
  intros w w' H0 H0' Hw y H;
  pose proof (H 0 ltac:(lia)) as E0; pose proof (H 1 ltac:(lia)) as E1; pose proof (H 2 ltac:(lia)) as E2; clear H;
  unfold tv_X, vec3 in E0, E1, E2; cbn in E0, E1, E2; apply same3; intv; cases; lra.
Lemma tv_normal x : x ∈ tv_faces → normal_field 3 (corners_at tv_X x) tv_n.
Proof.
  intros Hx. unfold tv_faces in Hx.
  repeat (apply elem_of_cons in Hx as [->|Hx]); [..|by apply elem_of_nil in Hx];
    unfold corners_at, nds; cbn [fst snd fmap list_fmap map].
  - face (vec3 0 0 (-1)).
  - face (vec3 (1 / 3) (2 / 3) (2 / 3)).
  - face (vec3 0 (-1) 0).
  - face (vec3 (-1) 0 0).
Qed.
Lemma tv_listed : reach_listed al0 true TV.1.1.
Proof.
  assert (E : TV.1.1 = run true [OVertex; OVertex; OVertex; OVertex; OTetrahedron 1 2 3 4; OCopy 3 25] topo0)
    by (vm_compute; reflexivity).
  rewrite E. apply run_listed; [done|constructor].
Qed.
Lemma tv_reach : mreach al0 blk0 true 3 TV.1.1 TV.1.2 TV.2.
Proof. apply mrun_reach, run_reach. constructor. Qed.
Lemma tv_mesh : mesh_cells TV.1.2 = Ok tv_cells.
Proof. vm_compute. reflexivity. Qed.
Lemma tv_fit : nodes_fit true TV.1.1 3 tv_cells.
Proof.
  unfold tv_cells. intros x Hx. repeat (apply elem_of_cons in Hx as [->|Hx]); [..|by apply elem_of_nil in Hx].
  split; [vm_compute; reflexivity|]; intros n Hn; revert n Hn; apply Forall_forall; decided.
Qed.
Lemma tv_created : as_created TV.1.1 3 tv_cells.
Proof.
  unfold tv_cells. intros x Hx. repeat (apply elem_of_cons in Hx as [->|Hx]); [..|by apply elem_of_nil in Hx];
  eexists; vm_compute; reflexivity.
Qed.
Lemma tv_consistent : consistent (all_facets TV.1.1 3 tv_cells).
Proof. apply nodup_consistent. decided. Qed.
Lemma tv_positions : positions tv_cs tv_X tv_cells.
Proof.
  unfold tv_cells, positions, nds. intros x n Hx Hn.
  repeat (apply elem_of_cons in Hx as [->|Hx]); [..|by apply elem_of_nil in Hx]; cbn [fst snd fmap list_fmap] in Hn;
  repeat (apply elem_of_cons in Hn as [->|Hn]); try (by apply elem_of_nil in Hn); reflexivity.
Qed.
Lemma tv_described : described 3 tv_cs (elements tv_cells) (map (corners_at tv_X) tv_cells).
Proof.
  split; [apply NoDup_ListNoDup; decided|].
  unfold elements, tv_cells, corners_at, nds. cbn [map fst snd fmap list_fmap]. repeat constructor.
Qed.
Lemma tv_boundary : ∃ st' m', boundary al0 blk0 true 3 TV.1.1 TV.1.2 = Ok (st', m') ∧ mesh_cells m' = Ok tv_faces.
Proof. apply boundary_cells. vm_compute. reflexivity. Qed.

(* the field x e0 flows out of a body at the rate of its volume, 1/3; with the outward normal, the
   boundary integral is -1/3 *)
Theorem C79_tetrahedra_refuted : ∃ st' m',
  boundary al0 blk0 true 3 TV.1.1 TV.1.2 = Ok (st', m') ∧ mesh_cells m' = Ok tv_faces ∧
  integrate true (Cartesian 3) (volume_form (Cartesian 3)) tv_cs tetrahedron_1 (elements tv_cells) (λ _, 1%R) = Ok (1 / 3)%R ∧
  integrate true (Cartesian 3) (sub_volume_form (Cartesian 3) [tv_n] 2) tv_cs triangle_2 (elements tv_faces)
    (λ y, dot 3 (first y) (tv_n y)) = Ok (- (1 / 3))%R.
Proof.
  destruct (C79_opposite_partial al0 al0_good blk0 blk0_inj true TV.1.1 TV.1.2 TV.2 tv_cells tv_cs tv_X first 1 tv_n (λ _, 1%R)
    tetrahedron_1 triangle_2 tv_listed tv_reach tv_mesh tv_fit tv_consistent tv_created tv_positions first_polynomial3
    ltac:(lia) (first_divergence 3 ltac:(lia)) eq_refl eq_refl)
    as (st' & m' & l' & E & Hl' & H).
  destruct tv_boundary as (st2 & m2 & E2 & Hl2). rewrite E in E2. injection E2 as <- <-.
  rewrite Hl2 in Hl'. injection Hl' as <-.
  destruct (H tv_normal) as (u & Hu & Hv).
  assert (u = 1 / 3)%R as ->.
  { rewrite (cartesian_value true 3 tv_cs tetrahedron_1 _ _ (λ _, 1%R) ltac:(lia) tv_described) in Hu. injection Hu as <-.
    unfold tv_cells, corners_at, nds, tetrahedron_1, simplex_volume, barycentric, combo, total, tv_X, vec3, vsub, det_vecs. cbn. clear. lra. }
  exists st', m'. splits; done.
Qed.

Print Assumptions C78_test.
Print Assumptions C78_reversed_refuted.
Print Assumptions C79_tetrahedra_refuted.
