(* Cases of C72 and C73: the segments [0, 1] and [1, 2] with the nodes 10, 11, 12, and a quadratic triangle. *)
From Coquelicot Require Import Hierarchy Derive AutoDerive.
From stdpp Require Import base gmap list sorting.
From Coq Require Import Reals Lra.
From Verif Require Import Base M_Tensor M_Geometry S_Geometry P_Volume.
From Verif Require Import M_Functions P_Functions M_Quadrature S_Quadrature P_Quadrature P_Integrator M_Fem S_Fem P_Fem P_FemBlocks P_FemNorms Properties_Fem.
From Verif Require Import S_Discrete M_System S_System P_System Properties_System P_Galerkin M_Poisson S_Poisson P_Poisson Properties_Poisson P_Line Properties_Line.
Open Scope nat_scope.

(* the constant source 1 *)
Definition one_source : polynomial := (1%R, 0 :: nil) :: nil.

Definition line_cs : csys := [(0, vec1 0); (1, vec1 1); (2, vec1 2)].
Definition line_mesh (e0 e1 : element Seg1) : list (element Seg1 * list vec) :=
  [(e0, [vec1 0%R; vec1 1%R]); (e1, [vec1 1%R; vec1 2%R])].
Definition line_made (e0 e1 : element Seg1) : Prop :=
  made e0 [vec1 0%R; vec1 1%R] ∧ made e1 [vec1 1%R; vec1 2%R] ∧
  connectivity e0 0 = 10 ∧ connectivity e0 1 = 11 ∧ connectivity e1 0 = 11 ∧ connectivity e1 1 = 12.

Lemma line_exists : ∃ e0 e1, line_made e0 e1.
Proof.
  assert (P0 : placed line_cs [0; 1] [vec1 0%R; vec1 1%R]) by (repeat constructor).
  assert (P1 : placed line_cs [1; 2] [vec1 1%R; vec1 2%R]) by (repeat constructor).
  destruct (C49_made Seg1 line_cs [0; 1] [vec1 0%R; vec1 1%R] [10; 11] P0 eq_refl) as (e0 & _ & M0 & N0).
  destruct (C49_made Seg1 line_cs [1; 2] [vec1 1%R; vec1 2%R] [11; 12] P1 eq_refl) as (e1 & _ & M1 & N1).
  exists e0, e1. split; [done|]. split; [done|].
  pose proof (N0 0 ltac:(cbn; lia)) as A0. pose proof (N0 1 ltac:(cbn; lia)) as A1.
  pose proof (N1 0 ltac:(cbn; lia)) as B0. pose proof (N1 1 ltac:(cbn; lia)) as B1. cbn in *. split_and!; congruence.
Qed.

Section line.
  Context (e0 e1 : element Seg1) (H : line_made e0 e1).
  Let mesh := line_mesh e0 e1.

  Lemma line_good : good_mesh mesh.
  Proof.
    destruct H as (M0 & M1 & _). intros e corners [Heq|[Heq|[]]]; injection Heq as <- <-; (split; [done|]);
      unfold simplex_volume, det_vecs, vsub; cbn; lra.
  Qed.
  Lemma line_system : system mesh.*1 = [(e0, [10; 11]); (e1, [11; 12])].
  Proof. destruct H as (_ & _ & A0 & A1 & B0 & B1). unfold system, mesh, line_mesh. cbn. by rewrite A0, A1, B0, B1. Qed.
  Lemma line_nodes p : node_of (system mesh.*1) p → p = 10 ∨ p = 11 ∨ p = 12.
  Proof. rewrite line_system. intros (e & He & Hp). rewrite !elem_of_cons, elem_of_nil in He. destruct He as [-> |[-> |[]]]; cbn [snd] in Hp; set_solver. Qed.
  Lemma line_held : held (system mesh.*1) {[10; 12]}.
  Proof.
    intros p Hp. apply line_nodes in Hp as [-> |[-> | ->]].
    - exists 10. split; [set_solver|constructor].
    - exists 12. split; [set_solver|]. apply rtc_once. rewrite line_system. exists (e1, [11; 12]). cbn [snd]. split_and!; set_solver.
    - exists 12. split; [set_solver|constructor].
  Qed.
  Lemma line_balanced : balanced mesh {[10; 12]}.
  Proof. destruct H as (_ & _ & A0 & A1 & B0 & B1). unfold balanced, mesh, line_mesh. cbn [fmap list_fmap fst]. rewrite A0, A1, B0, B1. reflexivity. Qed.
  Lemma line_positioned : positioned mesh (λ p, INR (p - 10)).
  Proof.
    destruct H as (_ & _ & A0 & A1 & B0 & B1). intros e corners k He Hk. unfold mesh, line_mesh in He.
    apply elem_of_cons in He as [He|He]; [|apply elem_of_list_singleton in He]; injection He as -> ->;
      (destruct k as [|[|k]]; [| |lia]); rewrite ?A0, ?A1, ?B0, ?B1; cbn; lra.
  Qed.
End line.

(* The equation - U'' = 1 with U = 0 at 0 and 2: the solution of the system is exact, and 1 / 2 at 1. *)
Example line_exact : ∃ e0 e1, line_made e0 e1 ∧
  ∀ eqs N s u fld fld',
    build_equation_map (system (line_mesh e0 e1).*1) {[10; 12]} = (eqs, N) →
    assemble true 2 eqs N (poisson segment_1 (poly one_source)) (system (line_mesh e0 e1).*1) (create N) = Ok s →
    Z.of_nat (length u) = N → solves (s_matrix s) (s_rhs s) u →
    fem_field true elements (system (line_mesh e0 e1).*1) = Ok fld → read_solution map_to_list eqs u fld = Ok fld' →
    nodal fld' 10 = 0%R ∧ nodal fld' 11 = (1 / 2)%R ∧ nodal fld' 12 = 0%R.
Proof.
  destruct line_exists as (e0 & e1 & H). exists e0, e1. split; [done|]. intros eqs N s u fld fld' Heqs Hs Hu Hsol Hf Hr.
  destruct C73_midpoint as (Q1 & Q2 & Q3).
  assert (G : ∀ p, node_of (system (line_mesh e0 e1).*1) p → nodal fld' p = (INR (p - 10) * (2 - INR (p - 10)) / 2)%R).
  { apply (C73_exact_at_nodes true (line_mesh e0 e1) (line_good e0 e1 H) {[10; 12]} eqs N Heqs elements ltac:(intros ?; reflexivity)
      map_to_list ltac:(intros ?; reflexivity) one_source 0 ltac:(constructor; [cbn; lia|constructor])
      (λ t, (t * (2 - t) / 2)%R) (λ t, (1 - t)%R)) with (position := λ p, INR (p - 10)) (q := segment_1) (s := s) (u := u) (fld := fld); try done.
    - intros t. auto_derive; [done|]. lra.
    - intros t. auto_derive; [done|]. unfold poly, S_Geometry.total, one_source. cbn. lra.
    - by apply line_positioned.
    - by apply line_balanced.
    - by apply line_held.
    - intros p Hp Hc. assert (Hp' : p = 10 ∨ p = 12) by set_solver. destruct Hp' as [-> | ->]; cbn; lra. }
  assert (Hn : ∀ p, p ∈ [10; 11; 12] → node_of (system (line_mesh e0 e1).*1) p).
  { intros p Hp. rewrite (line_system e0 e1 H). assert (Hp' : p ∈ [10; 11] ∨ p ∈ [11; 12]) by set_solver.
    destruct Hp' as [Hp'|Hp']; [exists (e0, [10; 11])|exists (e1, [11; 12])]; (split; [set_solver|exact Hp']). }
  rewrite !G by (apply Hn; set_solver). cbn. split_and!; lra.
Qed.

(* Without constraints the nodes float. *)
Example line_floating : ∃ e0 e1, line_made e0 e1 ∧ ∀ eqs N s,
  build_equation_map (system (line_mesh e0 e1).*1) ∅ = (eqs, N) →
  assemble true 2 eqs N (poisson segment_1 (λ _, 1%R)) (system (line_mesh e0 e1).*1) (create N) = Ok s →
  ¬ positive_definite (Z.to_nat N) (λ i j, s_matrix s (Z.of_nat i) (Z.of_nat j)).
Proof.
  destruct line_exists as (e0 & e1 & H). exists e0, e1. split; [done|]. intros eqs N s Heqs Hs.
  refine (proj1 (C72_floating true (line_mesh e0 e1) (line_good e0 e1 H) ∅ eqs N Heqs (λ _, 1%R) segment_1 s {[10; 11; 12]} Hs _ _ _)).
  - exists 10. split; [set_solver|]. rewrite (line_system e0 e1 H). exists (e0, [10; 11]). cbn [snd]. split; set_solver.
  - set_solver.
  - intros p p' _ (e & He & _ & Hp'). assert (Hn : node_of (system (line_mesh e0 e1).*1) p') by (by exists e).
    apply line_nodes in Hn; [|done]. set_solver.
Qed.

(* A quadratic triangle held at one node, with the rule of degree two: one solution. *)
Example triangle_solvable : ∃ e : element Tri2,
  good_mesh [(e, [vec2 0%R 0%R; vec2 2%R 0%R; vec2 0%R 1%R])] ∧
  ∀ eqs N s f, build_equation_map (system [e]) {[3]} = (eqs, N) →
    assemble true 6 eqs N (poisson triangle_2 f) (system [e]) (create N) = Ok s →
    ∃ u, (length u = Z.to_nat N ∧ solves (s_matrix s) (s_rhs s) u) ∧
      ∀ u', length u' = Z.to_nat N → solves (s_matrix s) (s_rhs s) u' → u' = u.
Proof.
  assert (P : placed [(0, vec2 0%R 0%R); (1, vec2 2%R 0%R); (2, vec2 0%R 1%R)] [0; 1; 2] [vec2 0%R 0%R; vec2 2%R 0%R; vec2 0%R 1%R]) by (repeat constructor).
  destruct (C49_made Tri2 _ _ _ [0; 1; 2; 3; 4; 5] P eq_refl) as (e & _ & M & Nd). exists e.
  assert (G : good_mesh [(e, [vec2 0%R 0%R; vec2 2%R 0%R; vec2 0%R 1%R])]).
  { intros e' corners [Heq|[]]. injection Heq as <- <-. split; [done|]. unfold simplex_volume, det_vecs, vsub. cbn. lra. }
  split; [done|]. intros eqs N s f Heqs Hs. destruct (C51_kernel_tables Tri2 2 triangle_2 eq_refl ltac:(cbn; lia)) as [S HP].
  refine (C72_one_solution true [(e, [vec2 0%R 0%R; vec2 2%R 0%R; vec2 0%R 1%R])] G {[3]} eqs N Heqs f triangle_2 _ S _ s Hs).
  - intros p w Hw. apply Rlt_le. by apply (HP p).
  - intros p (x & Hx & Hp). exists 3. split; [set_solver|]. apply rtc_once. exists x. split; [done|]. split; [done|].
    cbn in Hx. apply elem_of_list_singleton in Hx as ->. cbn.
    pose proof (Nd 3 ltac:(cbn; lia)) as A. cbn in A. injection A as A. rewrite <- A. set_solver.
Qed.
