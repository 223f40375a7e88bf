(* C87: a job of two tasks, each with the two triangles of Properties_MeshCases.v. *)
From stdpp Require Import base gmap list sorting strings.
From Coq Require Import Ascii Reals.
From Verif Require Import M_Tensor M_Geometry S_Geometry.
From Verif Require Import Base M_SegAlloc S_SegAlloc P_SegAlloc M_Topology S_Topology P_Topology
  Properties_Topology Properties_TopologyCases M_Mesh S_Mesh P_Mesh Properties_Mesh Properties_MeshCases
  M_Tetra S_Tetra P_TetraGeometry P_Tetra Properties_Tetra Properties_TetraCases S_Summit P_Summit
  M_Discrete S_Discrete M_VTK P_VTK Properties_VTK Properties_VTKCases M_Options M_VTKFiles S_VTKFiles P_VTKFiles Properties_VTKFiles.
Local Open Scope nat_scope.

(* the field with the same value at each node *)
Definition uniform (name : chars) (v : nat) : named_field (gmap node nat) :=
  NamedField name (gset_to_gmap v (list_to_set (mesh_nodes lA))).
Lemma uniform_under name v : under (uniform name v) [] name.
Proof. right. split; reflexivity. Qed.
Lemma uniform_value name v n : n ∈ mesh_nodes lA → nf_values (uniform name v) !! n = Some v.
Proof. intros Hn. cbn [nf_values uniform]. apply lookup_gset_to_gmap_Some. split; [|done]. by apply elem_of_list_to_set. Qed.
Lemma uniform_array name v arr : array_on (first_seen (mesh_nodes lA)) (uniform name v) arr → arr = replicate (length (first_seen (mesh_nodes lA))) (Some v).
Proof.
  intros (ys & -> & Hys). assert (G : ∀ ns zs, (∀ n, n ∈ ns → n ∈ mesh_nodes lA) → Forall2 (λ n y, nf_values (uniform name v) !! n = Some y) ns zs →
    Some <$> zs = replicate (length ns) (Some v)).
  { intros ns zs Hin H. induction H as [|n y ns zs Hy _ IH]; [done|]. rewrite fmap_cons. cbn [length replicate].
    rewrite IH by (intros k Hk; apply Hin; by right). rewrite uniform_value in Hy by (apply Hin; left). by injection Hy as <-. }
  apply G; [|done]. intros n Hn. by apply elem_of_first_seen.
Qed.
Local Opaque uniform mesh_nodes lA A.

(* The task 0 records two fields under the name u and writes, the task 1 records one as p and writes, the task 0
   records another that it does not write. *)
Definition job_calls : list (nat * vtk_event (gmap node nat)) :=
  [(0, Record_ (uniform ["u"]%char 1) []); (1, Record_ (uniform ["u"]%char 5) ["p"]%char); (0, Record_ (uniform ["u"]%char 2) []);
   (1, Write_); (0, Write_); (0, Record_ (uniform ["u"]%char 3) [])].
Example C87_case : ∃ ws ws' d',
  rmap (λ t, mesh_field_writer true (Cartesian 2) map_to_list (parallel_file ["o";"u";"t"]%char t) A.1.2 square) (seq 0 2) = Ok ws ∧
  vtk_run ws ∅ job_calls = Ok (ws', d') ∧
  (∃ g arrays, d' !! ["o";"u";"t";"_";"0";".";"v";"t";"u"]%char = Some (g, arrays) ∧ length (g_points g) = 4 ∧ (["u"]%char, replicate 4 (Some 2)) ∈ arrays ∧
     ∀ arr, (["u"]%char, arr) ∈ arrays → arr = replicate 4 (Some 2)) ∧
  (∃ g arrays, d' !! ["o";"u";"t";"_";"1";".";"v";"t";"u"]%char = Some (g, arrays) ∧ (["p"]%char, replicate 4 (Some 5)) ∈ arrays).
Proof.
  assert (Hlen : length (first_seen (mesh_nodes lA)) = 4) by (vm_compute; reflexivity).
  destruct (C87_job true (Cartesian 2) ["o";"u";"t"]%char 2 (λ _, map_to_list) (λ _, A.1.2) (λ _, lA) (λ _, square) ∅ job_calls)
    as (ws & ws' & d' & Hws & Hrun & _ & Hfiles).
  - unfold in_space. cbn. lia.
  - intros t _. split_and!; [intros ?; apply Permutation_refl|exact A_cells|exact lA_placed].
  - intros t e Hin. unfold job_calls in Hin. rewrite !elem_of_cons, elem_of_nil in Hin.
    decompose [or] Hin; try done; repeat match goal with X : (_, _) = (_, _) |- _ => injection X; clear X; intros; subst end; (split; [lia|]); intros f nm [= <- <-] n Hn;
      rewrite uniform_value by done; by eexists.
  - assert (U : ∀ name v, array_on (first_seen (mesh_nodes lA)) (uniform name v) (replicate 4 (Some v))).
    { intros name v. exists (replicate 4 v). rewrite fmap_replicate. split; [done|]. rewrite <- Hlen.
      assert (G : ∀ ns, (∀ n, n ∈ ns → n ∈ mesh_nodes lA) → Forall2 (λ n y, nf_values (uniform name v) !! n = Some y) ns (replicate (length ns) v)).
      { induction ns as [|n ns IH]; intros Hin; [constructor|]. cbn [length replicate]. constructor; [apply uniform_value, Hin; left|].
        apply IH. intros k Hk. apply Hin. by right. }
      apply G. intros n Hn. by apply elem_of_first_seen. }
    exists ws, ws', d'. split_and!; [done|done| |].
    + destruct (Hfiles 0 ltac:(lia)) as [_ H0].
      destruct (H0 [Record_ (uniform ["u"]%char 1) []; Record_ (uniform ["u"]%char 2) []] [Record_ (uniform ["u"]%char 3) []]) as (g & arrays & Hd & Hp & _ & _ & Hin);
        [reflexivity|by intros ?%elem_of_list_singleton|].
      exists g, arrays. split_and!; [exact Hd|by rewrite <- (Forall2_length _ _ _ Hp)| |].
      * apply Hin. exists (uniform ["u"]%char 2). split; [|apply U]. exists [Record_ (uniform ["u"]%char 1) []], [], []. split_and!; [reflexivity|apply uniform_under|].
        intros ? ? Hn. destruct (not_elem_of_nil _ Hn).
      * intros arr (f & (h1 & nm & h2 & E & Hu & Hl) & Ha)%Hin.
        destruct h1 as [|e h1]; [|destruct h1 as [|e' h1]].
        -- injection E as <- <- <-. exfalso. apply (Hl (uniform ["u"]%char 2) []); [left|apply uniform_under].
        -- injection E as _ <- <- _. apply uniform_array in Ha. by rewrite Hlen in Ha.
        -- injection E as _ _ E. by destruct h1.
    + destruct (Hfiles 1 ltac:(lia)) as [_ H1].
      destruct (H1 [Record_ (uniform ["u"]%char 5) ["p"]%char] []) as (g & arrays & Hd & _ & _ & _ & Hin); [reflexivity|exact (not_elem_of_nil _)|].
      exists g, arrays. split; [exact Hd|]. apply Hin. exists (uniform ["u"]%char 5). split; [|apply U]. exists [], ["p"]%char, []. split_and!; [reflexivity|left; split; [discriminate|reflexivity]|].
      intros ? ? Hn. destruct (not_elem_of_nil _ Hn).
Qed.
