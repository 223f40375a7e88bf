(* C35: the vtk writers; C58: discrete fields. The vocabulary is in S_Discrete.v and S_Summit.v
   ([first_seen]: a list without repetitions, in the order of first occurrence). *)
From stdpp Require Import base gmap list sorting.
From Coq Require Import Reals.
From Verif Require Import M_Tensor M_Geometry S_Geometry.
From Verif Require Import Base M_SegAlloc S_SegAlloc P_SegAlloc M_Topology S_Topology P_Topology
  M_Mesh S_Mesh P_Mesh Properties_Mesh M_Tetra S_Tetra Properties_Tetra S_Summit P_Summit
  M_Discrete S_Discrete M_VTK P_VTK.
Open Scope nat_scope.

(* ---- C58 ---- *)

Section field.
  Context {K V : Type} `{Countable K} (debug : bool).

  (* After any history, reading an entry returns the value last assigned to it, or, if none was, the
     value it was first inserted with; reading an entry that was never inserted throws. *)
  Theorem C58_history (h : list (fop K V)) f :
    rfold (fstep debug) ∅ h = Ok f →
    (∀ k v, read f k = Ok v ↔ latest h k v) ∧
    (∀ k, read f k = Abort ↔ Forall (λ o, ¬ inserts k o) h).
  Proof.
    intros E. pose proof (history_ok debug h f E) as Hh.
    assert (Hsome : ∀ k v, f !! k = Some v ↔ latest h k v).
    { intros k v. destruct (Hh k) as [H1 H2]. split; [apply H1|]. intros Hl.
      destruct (f !! k) as [v'|] eqn:Ek.
      - f_equal. eapply latest_unique; [by apply H1|done].
      - exfalso. specialize (H2 eq_refl). destruct Hl as [(h1 & h2 & -> & _)|(_ & h1 & h2 & -> & _)].
        + apply Forall_app in H2 as [_ [[_ H2] _]%Forall_cons]. apply H2. by exists v.
        + apply Forall_app in H2 as [_ [[H2 _] _]%Forall_cons]. apply H2. by exists v. }
    split.
    - intros k v. rewrite <- Hsome. unfold read. destruct (f !! k); cbn; split; congruence.
    - intros k. rewrite <- (history_domain debug h f E k). unfold read. by destruct (f !! k).
  Qed.

  (* A history stops exactly when it assigns to an entry not inserted before or, in debug mode, inserts
     an entry twice. *)
  Theorem C58_defined (h : list (fop K V)) :
    (∃ f, rfold (fstep debug) ∅ h = Ok f) ↔
    ∀ h1 o h2, h = h1 ++ o :: h2 →
      match o with
      | Assign k _ => ¬ Forall (λ o, ¬ inserts k o) h1
      | Insert k _ => debug = true → Forall (λ o, ¬ inserts k o) h1
      end.
  Proof. apply history_defined. Qed.

  (* the size is the number of entries inserted *)
  Theorem C58_size (h : list (fop K V)) f keys :
    rfold (fstep debug) ∅ h = Ok f → NoDup keys → (∀ k, k ∈ keys ↔ ¬ Forall (λ o, ¬ inserts k o) h) →
    field_size f = length keys.
  Proof.
    intros E Hnd Hk. unfold field_size. rewrite <- (size_list_to_set (C := gset K)) by done. rewrite <- size_dom.
    f_equal. apply set_eq. intros k. rewrite elem_of_dom, elem_of_list_to_set, Hk, <- (history_domain debug h f E k).
    destruct (f !! k) eqn:Ek; split; try done. intros []. done.
  Qed.
End field.
Print Assumptions C58_history.
Print Assumptions C58_defined.
Print Assumptions C58_size.

(* the fields of a mesh: one entry for each node of its cells, and no other *)
Section mesh_field.
  Context {V : Type} (debug : bool) (order : gset node → list node) (Horder : visits_set order).

  Local Lemma mesh_field_ok (v0 : V) m l :
    mesh_cells m = Ok l →
    ∃ f, mesh_field debug order v0 m = Ok f ∧
      ∀ n, f !! n = if bool_decide (n ∈ get_nodes l ∅) then Some v0 else None.
  Proof.
    intros Hl. unfold mesh_field. rewrite Hl. cbn [rbind].
    set (s := get_nodes l ∅).
    assert (Hnd : NoDup (order s)) by (rewrite (Horder s); apply NoDup_elements).
    rewrite from_keys_ok by done. eexists. split; [reflexivity|]. intros n. case_bool_decide as Hn.
    - apply elem_of_list_to_map_1.
      + by rewrite <- list_fmap_compose, list_fmap_id.
      + apply (elem_of_list_fmap_1 (λ k : node, (k, v0))). rewrite (Horder s). by apply elem_of_elements.
    - apply not_elem_of_list_to_map_1. rewrite <- list_fmap_compose, list_fmap_id, (Horder s). by rewrite elem_of_elements.
  Qed.

  Theorem C58_mesh_field (v0 : V) m l :
    mesh_cells m = Ok l →
    ∃ f, mesh_field debug order v0 m = Ok f ∧
      (∀ n, (∃ x : addr * gcell, x ∈ l ∧ n ∈ x.2.2) → read f n = Ok v0) ∧
      (∀ n, ¬ (∃ x : addr * gcell, x ∈ l ∧ n ∈ x.2.2) → read f n = Abort).
  Proof.
    intros Hl. destruct (mesh_field_ok v0 m l Hl) as (f & E & Hf). exists f. split_and!; [done| |].
    - intros n Hn. unfold read. rewrite Hf, bool_decide_true; [done|]. apply get_nodes_ok. by right.
    - intros n Hn. unfold read. rewrite Hf, bool_decide_false; [done|].
      intros [He|?]%get_nodes_ok; [by apply elem_of_empty in He|done].
  Qed.

  (* a continuous field sampled at the nodes; all nodes must have coordinates *)
  Theorem C58_mesh_field_of (visit : gmap node V → list (node * V)) (v0 : V) m l cs field :
    visits visit → mesh_cells m = Ok l →
    (∀ (x : addr * gcell) n, x ∈ l → n ∈ x.2.2 → is_Some (find_point n.2 cs)) →
    ∃ f, mesh_field_of debug order visit v0 m cs field = Ok f ∧
      (∀ n, (∃ x : addr * gcell, x ∈ l ∧ n ∈ x.2.2) →
         ∃ coord, find_point n.2 cs = Some coord ∧ read f n = Ok (field coord)) ∧
      (∀ n, ¬ (∃ x : addr * gcell, x ∈ l ∧ n ∈ x.2.2) → read f n = Abort).
  Proof.
    intros Hv Hl Hc. destruct (mesh_field_ok v0 m l Hl) as (f & E & Hf). unfold mesh_field_of. rewrite E. cbn [rbind].
    assert (Hg : ∀ (es : list (node * V)) (g : gmap node V), (∀ n v, (n, v) ∈ es → is_Some (g !! n) ∧ is_Some (find_point n.2 cs)) →
      ∃ g', rfold (λ g '(n, _), let! coord := coordinates cs n.2 in assign n (field coord) g) g es = Ok g' ∧
        (∀ n, (∃ v, (n, v) ∈ es) → ∃ coord, find_point n.2 cs = Some coord ∧ g' !! n = Some (field coord)) ∧
        (∀ n, ¬ (∃ v, (n, v) ∈ es) → g' !! n = g !! n)).
    { induction es as [|[n v] es IH]; intros g Hes.
      - exists g. split_and!; [done| |done]. intros n (v & Hn). by apply elem_of_nil in Hn.
      - destruct (Hes n v) as [[u Hu] [coord Hco]]; [left|]. cbn [rfold]. unfold coordinates at 1. rewrite Hco.
        cbn [at_or_throw rbind]. unfold assign at 1. rewrite Hu. cbn [at_or_throw rbind].
        destruct (IH (<[n:=field coord]> g)) as (g' & E' & H1 & H2).
        { intros n' v' Hin. destruct (Hes n' v') as [? ?]; [by right|]. split; [|done].
          destruct (decide (n = n')) as [->|]; [rewrite lookup_insert; by eexists|by rewrite lookup_insert_ne]. }
        exists g'. split_and!; [done| |].
        + intros n' (v' & [[= -> ->]|Hin]%elem_of_cons); [|apply H1; by eexists].
          assert (Hd : (∃ v', (n, v') ∈ es) ∨ ¬ ∃ v', (n, v') ∈ es).
          { destruct (decide (n ∈ es.*1)) as [Hd|Hd].
            - apply elem_of_list_fmap in Hd as ([n' v'] & -> & Hd). left. by exists v'.
            - right. intros (v' & Hv'). by apply Hd, (elem_of_list_fmap_1 fst es (n, v')). }
          destruct Hd as [Hd|Hd]; [by apply H1|].
          exists coord. split; [done|]. rewrite H2 by done. by rewrite lookup_insert.
        + intros n' Hn'. rewrite H2.
          * rewrite lookup_insert_ne; [done|]. intros ->. apply Hn'. exists v. left.
          * intros (v' & Hin). apply Hn'. exists v'. by right. }
    assert (Hin : ∀ n, (∃ v, (n, v) ∈ visit f) ↔ ∃ x : addr * gcell, x ∈ l ∧ n ∈ x.2.2).
    { intros n. setoid_rewrite (Hv f). setoid_rewrite elem_of_map_to_list. rewrite Hf.
      case_bool_decide as Hb; rewrite get_nodes_ok in Hb.
      - split; [|by exists v0]. intros _. destruct Hb as [He|?]; [by apply elem_of_empty in He|done].
      - split; [by intros [? ?]|]. intros ?. exfalso. apply Hb. by right. }
    destruct (Hg (visit f) f) as (g & E' & H1 & H2).
    { intros n v Hn. split.
      - rewrite (Hv f) in Hn. apply elem_of_map_to_list in Hn. by exists v.
      - destruct (proj1 (Hin n)) as (x & ? & ?); [by exists v|]. by apply (Hc x). }
    exists g. split_and!; [done| |].
    - intros n Hn. apply Hin in Hn. destruct (H1 n Hn) as (coord & Hco & Hr). exists coord. split; [done|].
      unfold read. by rewrite Hr.
    - intros n Hn. unfold read. rewrite H2 by (by rewrite Hin). rewrite Hf, bool_decide_false; [done|].
      intros [He|?]%get_nodes_ok; [by apply elem_of_empty in He|done].
  Qed.
End mesh_field.
Print Assumptions C58_mesh_field.
Print Assumptions C58_mesh_field_of.

(* ---- C35 ---- *)

(* the nodes of the cells of a mesh *)
Definition mesh_nodes (l : list (addr * gcell)) : list node := concat ((λ x : addr * gcell, x.2.2) <$> l).

Section vtk.
  Context (debug : bool) (c : chart) (Hc : in_space c).

  (* The writer of a mesh numbers the distinct nodes of the mesh 0, 1, ... in the order of their first
     occurrence; point [i] of the grid is where the node number [i] is; each cell has the numbers of
     its nodes, in their order. *)
  Theorem C35_mesh m l cs :
    mesh_cells m = Ok l → (∀ n, n ∈ mesh_nodes l → is_Some (find_point n.2 cs)) →
    ∃ ids g, mesh_vtk_writer debug c cs m = Ok (ids, g) ∧
      (∀ n i, ids !! n = Some i ↔ first_seen (mesh_nodes l) !! i = Some n) ∧
      Forall2 (λ (n : node) p, ∃ x, find_point n.2 cs = Some x ∧ located c x p)
        (first_seen (mesh_nodes l)) (g_points g) ∧
      Forall2 (λ (x : addr * gcell) row, Forall2 (λ n i, first_seen (mesh_nodes l) !! i = Some n) x.2.2 row)
        l (g_cells g).
  Proof.
    intros Hl Hx. unfold mesh_vtk_writer. rewrite Hl. cbn [rbind].
    set (cells := (λ x : addr * gcell, x.2.2) <$> l). change (mesh_nodes l) with (concat cells) in *.
    set (pt := λ n : node, match find_point n.2 cs with
                           | Some x => match vtk_point c x with Ok p => p | _ => vzero end
                           | None => vzero end).
    assert (Hpt : ∀ n, n ∈ concat cells → ∃ x, find_point n.2 cs = Some x ∧ vtk_point c x = Ok (pt n)).
    { intros n [x Hn]%Hx. exists x. split; [done|]. unfold pt. rewrite Hn.
      destruct (vtk_point_ok c x Hc) as (p & -> & _). done. }
    destruct (vtk_number_ok c cs (λ n : node, Ok n) (λ n, n) pt cells) as (ids & pts & E & Hids & Hpts); [done|done|].
    rewrite list_fmap_id in Hids, Hpts.
    destruct (vtk_cells_ok (λ n : node, Ok n) (λ n, n) debug cells ids (first_seen (concat cells))) as (rows & E' & Hrows);
      [done|done|by intros n Hn; apply elem_of_first_seen|].
    unfold create_vtk_grid. rewrite E. cbn [rbind]. rewrite E'. cbn [rbind].
    eexists _, _. split_and!; [reflexivity|exact Hids| |].
    - apply (Forall2_impl _ _ _ _ Hpts). intros n p (n' & Hn' & <- & ->).
      destruct (Hpt n' Hn') as (x & Hf & Ep). exists x. split; [done|].
      destruct (vtk_point_ok c x Hc) as (p & Ep' & Hp). rewrite Ep in Ep'. by injection Ep' as ->.
    - exact (proj1 (Forall2_fmap_l _ _ _ _) Hrows).
  Qed.

  (* The writer of a function space numbers the discretization nodes of the nodes of its cells in the
     same way. A node without a discretization node stops it. *)
  Theorem C35_function_space (cells : list (list node)) (node_map : gmap node nat) (k : node → nat) cs :
    (∀ n, n ∈ concat cells → node_map !! n = Some (k n) ∧ is_Some (find_point n.2 cs)) →
    ∃ ids g, node_vtk_writer debug c cs cells node_map = Ok (ids, g) ∧
      (∀ a i, ids !! a = Some i ↔ first_seen (k <$> concat cells) !! i = Some a) ∧
      Forall2 (λ a p, ∃ n x, n ∈ concat cells ∧ node_map !! n = Some a ∧ find_point n.2 cs = Some x ∧ located c x p)
        (first_seen (k <$> concat cells)) (g_points g) ∧
      Forall2 (λ ns row, Forall2 (λ n i, first_seen (k <$> concat cells) !! i = Some (k n)) ns row)
        cells (g_cells g).
  Proof.
    intros Hx. unfold node_vtk_writer.
    set (key := λ n : node, at_or_throw (node_map !! n)).
    assert (Hkey : ∀ n, n ∈ concat cells → key n = Ok (k n)).
    { intros n [Hn _]%Hx. unfold key. by rewrite Hn. }
    set (pt := λ n : node, match find_point n.2 cs with
                           | Some x => match vtk_point c x with Ok p => p | _ => vzero end
                           | None => vzero end).
    assert (Hpt : ∀ n, n ∈ concat cells → ∃ x, find_point n.2 cs = Some x ∧ vtk_point c x = Ok (pt n)).
    { intros n [_ [x Hn]]%Hx. exists x. split; [done|]. unfold pt. rewrite Hn.
      destruct (vtk_point_ok c x Hc) as (p & -> & _). done. }
    destruct (vtk_number_ok c cs key k pt cells) as (ids & pts & E & Hids & Hpts); [done|done|].
    destruct (vtk_cells_ok key k debug cells ids (first_seen (k <$> concat cells))) as (rows & E' & Hrows);
      [done|done|by intros n Hn; apply elem_of_first_seen, elem_of_list_fmap_1|].
    unfold create_vtk_grid. rewrite E. cbn [rbind]. rewrite E'. cbn [rbind].
    eexists _, _. split_and!; [reflexivity|exact Hids| |exact Hrows].
    apply (Forall2_impl _ _ _ _ Hpts). intros a p (n & Hn & <- & ->).
    destruct (Hpt n Hn) as (x & Hf & Ep). exists n, x. split_and!; [done|by apply Hx|done|].
    destruct (vtk_point_ok c x Hc) as (p & Ep' & Hp). rewrite Ep in Ep'. by injection Ep' as ->.
  Qed.

  (* Tuple [i] of a field is its value at the node number [i]; a field without a value at some node
     stops the writer. Here for the writer of a mesh; [visit] is the order of the loop over the map of
     the nodes. *)
  Theorem C35_mesh_field {Y : Type} (visit : gmap node nat → list (node * nat)) (m : mesh) (l : list (addr * gcell)) (cs : csys) (ids : gmap node nat) (g : grid) (field : gmap node Y) :
    visits visit → mesh_cells m = Ok l → (∀ n, n ∈ mesh_nodes l → is_Some (find_point n.2 cs)) →
    mesh_vtk_writer debug c cs m = Ok (ids, g) →
    ((∀ n, n ∈ mesh_nodes l → is_Some (field !! n)) →
       ∃ ys, attach_nodal_field visit ids g field = Ok (Some <$> ys) ∧
         Forall2 (λ n y, field !! n = Some y) (first_seen (mesh_nodes l)) ys) ∧
    (∀ n, n ∈ mesh_nodes l → field !! n = None → attach_nodal_field visit ids g field = Abort).
  Proof.
    intros Hv Hl Hx E. destruct (C35_mesh m l cs Hl Hx) as (ids' & g' & E' & Hids & Hpts & _).
    rewrite E in E'. injection E' as <- <-.
    destruct (attach_ok visit ids (first_seen (mesh_nodes l)) g field) as [H1 H2]; [done|apply first_seen_NoDup|done| |].
    { symmetry. by eapply Forall2_length. }
    split.
    - intros Hf. apply H1. intros n Hn. apply Hf. exact (proj1 (elem_of_first_seen _ _) Hn).
    - intros n Hn. apply H2. by apply elem_of_first_seen.
  Qed.

  (* the same for the writer of a function space *)
  Theorem C35_function_space_field {Y : Type} (visit : gmap nat nat → list (nat * nat)) (cells : list (list node))
      (node_map : gmap node nat) (k : node → nat) (cs : csys) (ids : gmap nat nat) (g : grid) (field : gmap nat Y) :
    visits visit → (∀ n, n ∈ concat cells → node_map !! n = Some (k n) ∧ is_Some (find_point n.2 cs)) →
    node_vtk_writer debug c cs cells node_map = Ok (ids, g) →
    ((∀ n, n ∈ concat cells → is_Some (field !! k n)) →
       ∃ ys, attach_nodal_field visit ids g field = Ok (Some <$> ys) ∧
         Forall2 (λ a y, field !! a = Some y) (first_seen (k <$> concat cells)) ys) ∧
    (∀ n, n ∈ concat cells → field !! k n = None → attach_nodal_field visit ids g field = Abort).
  Proof.
    intros Hv Hx E. destruct (C35_function_space cells node_map k cs Hx) as (ids' & g' & E' & Hids & Hpts & _).
    rewrite E in E'. injection E' as <- <-.
    destruct (attach_ok visit ids (first_seen (k <$> concat cells)) g field) as [H1 H2]; [done|apply first_seen_NoDup|done| |].
    { symmetry. by eapply Forall2_length. }
    split.
    - intros Hf. apply H1. intros a Ha. apply (proj1 (elem_of_first_seen _ _)) in Ha. apply elem_of_list_fmap in Ha as (n & -> & Hn). by apply Hf.
    - intros n Hn. apply H2. by apply elem_of_first_seen, elem_of_list_fmap_1.
  Qed.

  (* The writer of a point cloud writes the distinct points of the cloud, each once; tuple [i] of a
     field is its value at the point number [i]. *)
  Theorem C35_cloud {Y : Type} (order : gset nat → list nat) (cloud : list nat) cs (field : gmap nat Y) :
    visits_set order → (∀ p, p ∈ cloud → is_Some (find_point p cs) ∧ is_Some (field !! p)) →
    ∃ points g ps ys, cloud_vtk_writer c cs order cloud = Ok (points, g) ∧
      NoDup ps ∧ (∀ p, p ∈ ps ↔ p ∈ cloud) ∧
      Forall2 (λ p y, ∃ x, find_point p cs = Some x ∧ located c x y) ps (g_points g) ∧
      attach_point_field order points g field = Ok (Some <$> ys) ∧
      Forall2 (λ p y, field !! p = Some y) ps ys.
  Proof.
    intros Ho Hx. unfold cloud_vtk_writer.
    set (s := foldl (λ points p, {[p]} ∪ points) ∅ cloud).
    assert (Hin : ∀ p, p ∈ order s ↔ p ∈ cloud).
    { intros p. rewrite (Ho s), elem_of_elements. unfold s. rewrite cloud_points.
      split; [|by right]. intros [He|?]; [by apply elem_of_empty in He|done]. }
    assert (∃ pts, rmap (λ p, let! coord := coordinates cs p in vtk_point c coord) (order s) = Ok pts ∧
              Forall2 (λ p y, ∃ x, find_point p cs = Some x ∧ located c x y) (order s) pts) as (pts & E & HF).
    { assert (Hall : Forall (λ p, is_Some (find_point p cs)) (order s)).
      { apply Forall_forall. intros p Hp%Hin. by apply Hx. }
      clear -Hall Hc. induction Hall as [|p ps [x Hp] _ (pts & E & HF)]; [by exists []|].
      destruct (vtk_point_ok c x Hc) as (y & Ey & Hy). exists (y :: pts). cbn [rmap].
      unfold coordinates at 1. rewrite Hp. cbn [at_or_throw rbind]. rewrite Ey. cbn [rbind]. rewrite E.
      split; [done|]. constructor; [by exists x|done]. }
    rewrite E. cbn [rbind].
    destruct (attach_point_ok field (order s) []) as (ys & E' & Hys).
    { intros p Hp%Hin. by apply Hx. }
    exists s, (Grid pts []), (order s), ys. split_and!; [done| |exact Hin|done| |done].
    - rewrite (Ho s). apply NoDup_elements.
    - unfold attach_point_field. cbn [g_points]. rewrite <- (Forall2_length _ _ _ HF).
      exact (f_equal (λ r : res (list (option Y) * nat), let! (arr, _) := r in Ok arr) E').
  Qed.
End vtk.
Print Assumptions C35_mesh.
Print Assumptions C35_function_space.
Print Assumptions C35_mesh_field.
Print Assumptions C35_function_space_field.
Print Assumptions C35_cloud.
