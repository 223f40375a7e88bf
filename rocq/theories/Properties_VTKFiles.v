(* C87: what is in the files of the writers, for every schedule of calls. C88: the names of the files. *)
From stdpp Require Import base gmap list strings.
From Coq Require Import Ascii Reals.
From Verif Require Import M_Tensor M_Geometry S_Geometry.
From Verif Require Import Base M_SegAlloc S_SegAlloc P_SegAlloc M_Topology S_Topology P_Topology
  M_Mesh S_Mesh P_Mesh Properties_Mesh M_Tetra S_Tetra Properties_Tetra S_Summit P_Summit
  M_Discrete S_Discrete M_VTK P_VTK Properties_VTK M_Options M_VTKFiles S_VTKFiles P_VTKFiles.
Local Open Scope nat_scope.

Lemma Forall2_values {K Y} `{Countable K} (nodes : list K) (f : gmap K Y) ys zs :
  Forall2 (λ n y, f !! n = Some y) nodes ys → Forall2 (λ n y, f !! n = Some y) nodes zs → ys = zs.
Proof.
  intros H1. revert zs. induction H1 as [|n y nodes ys Hy _ IH]; intros zs H2; inversion H2; subst; [done|].
  f_equal; [congruence|by apply IH].
Qed.

Section contents.
  Context {K Y : Type} `{Countable K}.

  (* A new writer with the given file, that puts in the array of a field its values at the given nodes. *)
  Definition new_writer (w : vtk_writer (gmap K Y) (option Y)) (file : chars) (g : grid) (nodes : list K) : Prop :=
    w_file w = file ∧ w_grid w = g ∧ w_arrays w = [] ∧
    ∀ f, defined_on nodes f → ∃ arr, w_attach w (nf_values f) = Ok arr ∧ array_on nodes f arr.

  (* New writers with distinct files, and any schedule of calls to them: the file of a writer to which [write] was
     called holds its grid and, under each name, the field last recorded under it before the last call to [write],
     with the values it had then; the files of the others and all other files are as they were. *)
  Theorem C87_files (ws : list (vtk_writer (gmap K Y) (option Y))) (file : nat → chars) (g : nat → grid) (nodes : nat → list K) d es :
    (∀ i w, ws !! i = Some w → new_writer w (file i) (g i) (nodes i)) →
    (∀ i j, i < length ws → j < length ws → file i = file j → i = j) →
    (∀ i e, (i, e) ∈ es → i < length ws ∧ ∀ f fieldname, e = Record_ f fieldname → defined_on (nodes i) f) →
    ∃ ws' d', vtk_run ws d es = Ok (ws', d') ∧
      (∀ p, (∀ i, i < length ws → p ≠ file i) → d' !! p = d !! p) ∧
      ∀ i, i < length ws →
        (Write_ ∉ calls i es → d' !! file i = d !! file i) ∧
        (∀ h1 h2, calls i es = h1 ++ Write_ :: h2 → Write_ ∉ h2 →
           ∃ arrays, d' !! file i = Some (g i, arrays) ∧ holds_fields (array_on (nodes i)) h1 arrays).
  Proof.
    intros Hnew Hinj Hes.
    destruct (run_ok ws d es) as (ws' & d' & Hrun & Hother & Hall).
    - apply NoDup_alt. intros i j p Hi Hj. rewrite list_lookup_fmap in Hi, Hj.
      destruct (ws !! i) as [w|] eqn:Ei; [|done]. destruct (ws !! j) as [w'|] eqn:Ej; [|done]. cbn in Hi, Hj. injection Hi as <-. injection Hj as Hj.
      apply Hinj; [by apply lookup_lt_Some in Ei|by apply lookup_lt_Some in Ej|].
      destruct (Hnew i w Ei) as [<- _]. destruct (Hnew j w' Ej) as [<- _]. done.
    - intros i w Hw. by destruct (Hnew i w Hw) as (_ & _ & ? & _).
    - intros i e Hin. destruct (Hes i e Hin) as [Hi Hrec]. destruct (lookup_lt_is_Some_2 ws i Hi) as [w Hw]. exists w. split; [done|].
      intros f fieldname He. destruct (Hnew i w Hw) as (_ & _ & _ & Ha). destruct (Ha f (Hrec f fieldname He)) as (arr & Harr & _). by exists arr.
    - exists ws', d'. split_and!; [done| |].
      + intros p Hp. apply Hother. intros (w & -> & Hin)%elem_of_list_fmap. apply elem_of_list_lookup in Hin as [i Hi].
        destruct (Hnew i w Hi) as [Hf _]. apply (Hp i); [by apply lookup_lt_Some in Hi|done].
      + intros i Hi. destruct (lookup_lt_is_Some_2 ws i Hi) as [w Hw]. destruct (Hnew i w Hw) as (<- & <- & _ & Ha).
        destruct (Hall i w Hw) as (_ & H1 & H2). split; [done|]. intros h1 h2 E Hnw. destruct (H2 h1 h2 E Hnw) as (arrays & Hd & Hnd & Hin).
        exists arrays. split; [done|]. split; [done|]. intros a arr. rewrite Hin.
        assert (Hdef : ∀ f, last_recorded h1 a f → defined_on (nodes i) f).
        { intros f (h3 & nm & h4 & -> & _). assert (Hc : Record_ f nm ∈ calls i es) by (rewrite E; rewrite !elem_of_app; left; right; left).
          unfold calls in Hc. apply elem_of_list_fmap in Hc as ([j e] & He & Hc). cbn in He. subst e. apply elem_of_list_filter in Hc as [Hj Hc]. cbn in Hj. subst j.
          by apply (proj2 (Hes i _ Hc) f nm). }
        split; intros (f & Hf & Harr); exists f; (split; [done|]); destruct (Ha f (Hdef f Hf)) as (arr' & Ha1 & Ha2).
        * unfold array_of in Harr. rewrite Ha1 in Harr. by injection Harr as <-.
        * unfold array_of. rewrite Ha1. f_equal. destruct Harr as (ys & -> & Hys). destruct Ha2 as (zs & -> & Hzs). by rewrite (Forall2_values _ _ _ _ Hys Hzs).
  Qed.
End contents.
Print Assumptions C87_files.

Section writers.
  Context {Y : Type} (debug : bool) (c : chart) (Hc : in_space c).

  (* The writers that the library makes are such writers: of meshes, of function spaces and of point clouds; the
     points of their grids are those of the nodes. *)
  Theorem C87_mesh_writer (visit : gmap node nat → list (node * nat)) (file : chars) m l cs :
    visits visit → mesh_cells m = Ok l → (∀ n, n ∈ mesh_nodes l → is_Some (find_point n.2 cs)) →
    ∃ w g, mesh_field_writer (Y := Y) debug c visit file m cs = Ok w ∧ new_writer w file g (first_seen (mesh_nodes l)) ∧
      Forall2 (λ (n : node) p, ∃ x, find_point n.2 cs = Some x ∧ located c x p) (first_seen (mesh_nodes l)) (g_points g) ∧
      Forall2 (λ (x : addr * gcell) row, Forall2 (λ n i, first_seen (mesh_nodes l) !! i = Some n) x.2.2 row) l (g_cells g).
  Proof.
    intros Hv Hl Hx. destruct (C35_mesh debug c Hc m l cs Hl Hx) as (ids & g & E & _ & Hp & Hr).
    unfold mesh_field_writer. rewrite E. cbn [rbind]. eexists _, g. split; [reflexivity|]. split; [|done].
    split_and!; [done..|]. intros f Hf. cbn [w_attach].
    destruct (C35_mesh_field debug c Hc visit m l cs ids g (nf_values f) Hv Hl Hx E) as [(ys & Ha & Hys) _].
    { intros n Hn. apply Hf. by apply elem_of_first_seen. }
    exists (Some <$> ys). split; [done|]. by exists ys.
  Qed.

  Theorem C87_function_space_writer (visit : gmap nat nat → list (nat * nat)) (file : chars) (cells : list (list node)) (node_map : gmap node nat) (k : node → nat) cs :
    visits visit → (∀ n, n ∈ concat cells → node_map !! n = Some (k n) ∧ is_Some (find_point n.2 cs)) →
    ∃ w g, node_field_writer (Y := Y) debug c visit file cells node_map cs = Ok w ∧ new_writer w file g (first_seen (k <$> concat cells)) ∧
      Forall2 (λ a p, ∃ n x, n ∈ concat cells ∧ node_map !! n = Some a ∧ find_point n.2 cs = Some x ∧ located c x p)
        (first_seen (k <$> concat cells)) (g_points g) ∧
      Forall2 (λ ns row, Forall2 (λ n i, first_seen (k <$> concat cells) !! i = Some (k n)) ns row) cells (g_cells g).
  Proof.
    intros Hv Hx. destruct (C35_function_space debug c Hc cells node_map k cs Hx) as (ids & g & E & _ & Hp & Hr).
    unfold node_field_writer. rewrite E. cbn [rbind]. eexists _, g. split; [reflexivity|]. split; [|done].
    split_and!; [done..|]. intros f Hf. cbn [w_attach].
    destruct (C35_function_space_field debug c Hc visit cells node_map k cs ids g (nf_values f) Hv Hx E) as [(ys & Ha & Hys) _].
    { intros n Hn. apply Hf. apply elem_of_first_seen. by apply elem_of_list_fmap_1. }
    exists (Some <$> ys). split; [done|]. by exists ys.
  Qed.

  Theorem C87_cloud_writer (order : gset nat → list nat) (file : chars) (cloud : list nat) cs :
    visits_set order → (∀ p, p ∈ cloud → is_Some (find_point p cs)) →
    ∃ w g ps, cloud_field_writer (Y := Y) c order file cloud cs = Ok w ∧ new_writer w file g ps ∧
      NoDup ps ∧ (∀ p, p ∈ ps ↔ p ∈ cloud) ∧
      Forall2 (λ p y, ∃ x, find_point p cs = Some x ∧ located c x y) ps (g_points g) ∧ g_cells g = [].
  Proof.
    intros Ho Hx. unfold cloud_field_writer, cloud_vtk_writer.
    set (s := foldl (λ points p, {[p]} ∪ points) ∅ cloud).
    assert (Hin : ∀ p, p ∈ order s ↔ p ∈ cloud).
    { intros p. rewrite (Ho s), elem_of_elements. unfold s. rewrite cloud_points.
      split; [|by right]. intros [He|?]; [by apply elem_of_empty in He|done]. }
    assert (∃ pts, rmap (λ p, let! coord := coordinates cs p in vtk_point c coord) (order s) = Ok pts ∧
              Forall2 (λ p y, ∃ x, find_point p cs = Some x ∧ located c x y) (order s) pts) as (pts & E & HF).
    { assert (Hall : Forall (λ p, is_Some (find_point p cs)) (order s)).
      { apply Forall_forall. intros p Hp%Hin. by apply Hx. }
      clear -Hall Hc. induction Hall as [|p ps [x Hp] _ (pts & E & HF)]; [by exists []|].
      destruct (vtk_point_ok c x Hc) as (y & Ey & Hy). exists (y :: pts). cbn [rmap].
      unfold coordinates at 1. rewrite Hp. cbn [at_or_throw rbind]. rewrite Ey. cbn [rbind]. rewrite E.
      split; [done|]. constructor; [by exists x|done]. }
    rewrite E. cbn [rbind]. eexists _, (Grid pts []), (order s). split; [reflexivity|]. split; [|split_and!; [|exact Hin|done|done]].
    - split_and!; [done..|]. intros f Hf. cbn [w_attach]. destruct (attach_point_ok (nf_values f) (order s) []) as (ys & E' & Hys); [exact Hf|].
      exists (Some <$> ys). split; [|by exists ys].
      unfold attach_point_field. cbn [g_points]. rewrite <- (Forall2_length _ _ _ HF).
      exact (f_equal (λ r : res (list (option Y) * nat), let! (arr, _) := r in Ok arr) E').
    - rewrite (Ho s). apply NoDup_elements.
  Qed.
End writers.
Print Assumptions C87_mesh_writer.
Print Assumptions C87_function_space_writer.
Print Assumptions C87_cloud_writer.

Lemma rmap_tasks {A} (mk : nat → res A) (P : nat → A → Prop) n : (∀ t, t < n → ∃ w, mk t = Ok w ∧ P t w) →
  ∃ ws, rmap mk (seq 0 n) = Ok ws ∧ length ws = n ∧ ∀ t w, ws !! t = Some w → P t w.
Proof.
  intros Hmk. assert (G : ∀ k i, i + k = n → ∃ ws, rmap mk (seq i k) = Ok ws ∧ length ws = k ∧ ∀ t w, ws !! t = Some w → P (i + t) w).
  { induction k as [|k IH]; intros i Hi; [exists []; split_and!; [done|done|]; intros t w Hw; by rewrite lookup_nil in Hw|].
    destruct (Hmk i) as (w & Hw & HP); [lia|]. destruct (IH (S i)) as (ws & Hws & Hl & Hall); [lia|]. exists (w :: ws).
    cbn [seq rmap]. rewrite Hw. cbn [rbind]. rewrite Hws. cbn [rbind length]. split_and!; [done|by rewrite Hl|].
    intros [|t] w' Ht; cbn in Ht; [injection Ht as <-; by rewrite Nat.add_0_r|]. rewrite <- Nat.add_succ_comm. by apply Hall. }
  destruct (G n 0) as (ws & H1 & H2 & H3); [done|]. by exists ws.
Qed.

(* A job: every task has a mesh, of its own, a parallel field writer with the same name on it, and makes any calls;
   the calls of all the tasks happen in any order. The file of each task holds its mesh and the values at the nodes of
   it of the fields it last recorded. *)
Theorem C87_job {Y : Type} (debug : bool) (c : chart) (name : chars) (n : nat) (visit : nat → gmap node nat → list (node * nat))
    (m : nat → mesh) (l : nat → list (addr * gcell)) (cs : nat → csys)
    (d : gmap chars (grid * list (chars * list (option Y)))) (es : list (nat * vtk_event (gmap node Y))) : in_space c →
  (∀ t, t < n → visits (visit t) ∧ mesh_cells (m t) = Ok (l t) ∧ ∀ k, k ∈ mesh_nodes (l t) → is_Some (find_point k.2 (cs t))) →
  (∀ t e, (t, e) ∈ es → t < n ∧ ∀ f fieldname, e = Record_ f fieldname → defined_on (mesh_nodes (l t)) f) →
  ∃ ws ws' d', rmap (λ t, mesh_field_writer debug c (visit t) (parallel_file name t) (m t) (cs t)) (seq 0 n) = Ok ws ∧
    vtk_run ws d es = Ok (ws', d') ∧
    (∀ p, (∀ t, t < n → p ≠ parallel_file name t) → d' !! p = d !! p) ∧
    ∀ t, t < n →
      (Write_ ∉ calls t es → d' !! parallel_file name t = d !! parallel_file name t) ∧
      (∀ h1 h2, calls t es = h1 ++ Write_ :: h2 → Write_ ∉ h2 → ∃ g arrays,
         d' !! parallel_file name t = Some (g, arrays) ∧
         Forall2 (λ (k : node) p, ∃ x, find_point k.2 (cs t) = Some x ∧ located c x p) (first_seen (mesh_nodes (l t))) (g_points g) ∧
         Forall2 (λ (x : addr * gcell) row, Forall2 (λ k i, first_seen (mesh_nodes (l t)) !! i = Some k) x.2.2 row) (l t) (g_cells g) ∧
         holds_fields (array_on (first_seen (mesh_nodes (l t)))) h1 arrays).
Proof.
  intros Hc Ht Hes.
  destruct (rmap_tasks (λ t, mesh_field_writer (Y := Y) debug c (visit t) (parallel_file name t) (m t) (cs t))
    (λ t w, new_writer w (parallel_file name t) (w_grid w) (first_seen (mesh_nodes (l t))) ∧
      Forall2 (λ (k : node) p, ∃ x, find_point k.2 (cs t) = Some x ∧ located c x p) (first_seen (mesh_nodes (l t))) (g_points (w_grid w)) ∧
      Forall2 (λ (x : addr * gcell) row, Forall2 (λ k i, first_seen (mesh_nodes (l t)) !! i = Some k) x.2.2 row) (l t) (g_cells (w_grid w))) n)
    as (ws & Hws & Hlen & Hall).
  { intros t Htn. destruct (Ht t Htn) as (Hv & Hm & Hx).
    destruct (C87_mesh_writer (Y := Y) debug c Hc (visit t) (parallel_file name t) (m t) (l t) (cs t) Hv Hm Hx) as (w & g & Hw & Hn & Hp & Hr).
    exists w. split; [done|]. destruct Hn as (H1 & <- & H3). split_and!; done. }
  destruct (C87_files ws (λ t, parallel_file name t) (λ t, match ws !! t with Some w => w_grid w | None => Grid [] [] end)
    (λ t, first_seen (mesh_nodes (l t))) d es) as (ws' & d' & Hrun & Hother & Hfiles).
  - intros i w Hw. rewrite Hw. by apply Hall.
  - intros i j _ _ Hij. by apply parallel_file_inj in Hij as [_ ?].
  - intros i e Hin. rewrite Hlen. destruct (Hes i e Hin) as [Hi Hrec]. split; [done|]. intros f nm He k Hk. apply (Hrec f nm He). by apply elem_of_first_seen.
  - exists ws, ws', d'. rewrite Hlen in Hother, Hfiles. split_and!; [done|done|done|]. intros t Htn. destruct (Hfiles t Htn) as [H1 H2]. split; [done|].
    intros h1 h2 E Hnw. destruct (H2 h1 h2 E Hnw) as (arrays & Hd & Hh). destruct (lookup_lt_is_Some_2 ws t ltac:(lia)) as [w Hw].
    rewrite Hw in Hd. destruct (Hall t w Hw) as (_ & Hp & Hr). exists (w_grid w), arrays. by split_and!.
Qed.
Print Assumptions C87_job.

(* The fields recorded are not all in the file: two with one name. *)
Theorem C87_same_name_refuted : ¬ ∀ (w w' w'' : vtk_writer (gmap nat nat) (option nat)) f f',
  w_arrays w = [] → f ≠ f' → record w f [] = Ok w' → record w' f' [] = Ok w'' → length (w_arrays w'') = 2.
Proof.
  intros H. set (w := VtkWriter (F := gmap nat nat) (serial_file ["o"]%char) (Grid [] []) (λ _, Ok (@nil (option nat))) []).
  specialize (H w _ _ (NamedField ["u"]%char ∅) (NamedField ["u"]%char {[0 := 1]}) eq_refl ltac:(intros E; apply (f_equal (λ f, nf_values f !! 0)) in E; by vm_compute in E) eq_refl eq_refl). by cbv in H.
Qed.
Print Assumptions C87_same_name_refuted.

(* ---- C88 ---- *)

(* The files of two writers of the same kind are the same only if the names are (and the tasks): whatever characters
   are in the names. *)
Theorem C88_names_partial : (∀ a i b j, parallel_file a i = parallel_file b j ↔ a = b ∧ i = j) ∧ (∀ a b, serial_file a = serial_file b ↔ a = b).
Proof.
  split; [intros a i b j; split; [apply parallel_file_inj|by intros [-> ->]]|intros a b; split; [apply serial_file_inj|by intros ->]].
Qed.
(* That of a writer of a process alone is that of a task in one case. *)
Theorem C88_mixed_partial a b j : serial_file a = parallel_file b j ↔ a = b ++ "_"%char :: to_string j.
Proof. apply serial_parallel. Qed.
(* The number of a task is written in decimals, the most significant first. *)
Theorem C88_tasks n : Forall (λ c, ∃ d, d < 10 ∧ nat_of_ascii c = 48 + d) (to_string n) ∧
  foldl (λ v c, 10 * v + (nat_of_ascii c - 48)) 0 (to_string n) = n ∧ (0 < n → hd_error (to_string n) ≠ Some "0"%char).
Proof.
  split_and!.
  - eapply Forall_impl; [apply to_string_digits|]. intros c (d & Hd & ->). exists d. split; [done|]. by apply digit_value.
  - apply (digits_value (S n)). lia.
  - intros Hn. assert (G : ∀ fuel k, k < fuel → 0 < k → ∃ d, 0 < d < 10 ∧ hd_error (digits fuel k) = Some (digit d)).
    { induction fuel as [|fuel IH]; intros k Hk Hp; [lia|]. cbn [digits]. destruct (Nat.ltb_spec k 10); [by exists k|].
      assert (k / 10 < k) by (apply Nat.div_lt; lia). assert (0 < k / 10) by (apply Nat.div_str_pos; lia).
      destruct (IH (k / 10)) as (d & Hd & Hh); [lia|done|]. exists d. split; [done|]. destruct (digits fuel (k / 10)); [done|exact Hh]. }
    destruct (G (S n) n) as (d & Hd & Hh); [lia|done|]. unfold to_string. rewrite Hh. intros [= Heq]. change "0"%char with (digit 0) in Heq.
    apply digit_inj in Heq; lia.
Qed.
(* Writers of different names with one file: the file of out_1 is that of the task 1 of out. *)
Theorem C88_collision_refuted : ¬ ∀ a b j, a ≠ b → serial_file a ≠ parallel_file b j.
Proof. intros H. apply (H ["o";"_";"1"]%char ["o"]%char 1); done. Qed.
Print Assumptions C88_names_partial.
Print Assumptions C88_mixed_partial.
Print Assumptions C88_tasks.
Print Assumptions C88_collision_refuted.
