(* Model of the files written by lib/mito/io/vtk: Writer.h, GridVTKWriter.h, ParallelGridVTKWriter.h, and the
   recording of fields in FieldVTKWriter.h.

   Simplifications: a file is a name and a content, two names are one file only if they are equal (no links, no
   directories); the content is the grid with its named arrays, not the XML text; a failing disk is not
   modelled. The index {.pvtu} that vtk writes for a parallel grid is not modelled; the pieces that vtk writes
   along with it have the names and the contents of those written before. *)
From stdpp Require Import base gmap list strings.
From Coq Require Import Ascii Reals.
From Verif Require Import M_Tensor M_Geometry.
From Verif Require Import Base M_SegAlloc M_Topology M_Mesh M_Discrete M_VTK M_Options.
Local Open Scope nat_scope.

(* {std::to_string} of a number that is not negative, as used in ParallelGridVTKWriter.h line 44: a number has
   at most as many digits as its value plus one, which is the fuel *)
Definition digit (d : nat) : ascii := ascii_of_nat (48 + d).
Fixpoint digits (fuel n : nat) : chars :=
  match fuel with
  | 0 => []
  | S fuel => if n <? 10 then [digit n] else digits fuel (n / 10) ++ [digit (n mod 10)]
  end.
Definition to_string (n : nat) : chars := digits (S n) n.

(* the suffix of the files of vtk. GridVTKWriter.h line 34, ParallelGridVTKWriter.h line 44. *)
Definition vtu : chars := [".";"v";"t";"u"]%char.

(* the name of the file of a writer. GridVTKWriter.h line 34. *)
Definition serial_file (name : chars) : chars := name ++ vtu.
(* ParallelGridVTKWriter.h line 44 *)
Definition parallel_file (name : chars) (task : nat) : chars := name ++ "_"%char :: to_string task ++ vtu.

Section files.
  Context {F T : Type}.

  (* a field and its name. DiscreteField.h lines 28, 96. *)
  Record named_field := NamedField { nf_name : chars; nf_values : F }.

  (* a writer: the name of its file, its grid, how the array of a field on the grid is made (lines 85-123 of
     FieldVTKWriter.h), and the arrays attached to the grid. GridVTKWriter.h lines 13-54, ParallelGridVTKWriter.h
     lines 13-78. *)
  Record vtk_writer := VtkWriter {
    w_file : chars;
    w_grid : grid;
    w_attach : F → res (list T);
    w_arrays : list (chars * list T);
  }.

  (* FieldVTKWriter.h line 126: {AddArray} of vtk puts an array in the place of one with the same name, or else
     at the end *)
  Fixpoint add_array (name : chars) (arr : list T) (arrays : list (chars * list T)) : list (chars * list T) :=
    match arrays with
    | [] => [(name, arr)]
    | (n, a) :: rest => if decide (n = name) then (name, arr) :: rest else (n, a) :: add_array name arr rest
    end.

  (* FieldVTKWriter.h lines 135-145, 85-130 *)
  Definition record (w : vtk_writer) (f : named_field) (fieldname : chars) : res vtk_writer :=
    let name := if decide (fieldname = []) then nf_name f else fieldname in
    let! arr := w_attach w (nf_values f) in
    Ok (VtkWriter (w_file w) (w_grid w) (w_attach w) (add_array name arr (w_arrays w))).

  (* the disk: what the file of a name holds. GridVTKWriter.h lines 33-43. *)
  Notation disk := (gmap chars (grid * list (chars * list T))).

  (* FieldVTKWriter.h lines 148-152, GridVTKWriter.h lines 28-46, ParallelGridVTKWriter.h lines 27-71: what was in
     the file is replaced *)
  Definition write (w : vtk_writer) (d : disk) : disk := <[w_file w := (w_grid w, w_arrays w)]> d.

  (* the two calls that change a writer or its file. FieldVTKWriter.h lines 135, 148. *)
  Inductive vtk_event :=
    | Record_ (f : named_field) (fieldname : chars)
    | Write_.

  (* A call of one of several writers, in one process or in many that share the disk. FieldVTKWriter.h lines 135-152. *)
  Definition vtk_step (s : list vtk_writer * disk) (e : nat * vtk_event) : res (list vtk_writer * disk) :=
    let '(ws, d) := s in
    match ws !! e.1 with
    | None => Ub
    | Some w =>
        match e.2 with
        | Record_ f fieldname => let! w' := record w f fieldname in Ok (<[e.1 := w']> ws, d)
        | Write_ => Ok (ws, write w d)
        end
    end.
  (* calls one after the other, as in tests/mito.lib/io/parallel_vtk_mesh_field_writer.cc lines 62-66 *)
  Definition vtk_run (ws : list vtk_writer) (d : disk) (es : list (nat * vtk_event)) : res (list vtk_writer * disk) :=
    rfold vtk_step (ws, d) es.
End files.
Arguments named_field : clear implicits.
Arguments vtk_writer : clear implicits.
Arguments vtk_event : clear implicits.

(* the field writer of a mesh, for a process alone or for a task. FieldVTKWriter.h lines 78-81, MeshVTKWriter.h
   lines 91-96, vtk/factories.h lines 37-44, 93-101. *)
Definition mesh_field_writer {Y : Type} (debug : bool) (c : chart) (visit : gmap node nat → list (node * nat)) (file : chars)
    (m : mesh) (cs : csys) : res (vtk_writer (gmap node Y) (option Y)) :=
  let! (ids, g) := mesh_vtk_writer debug c cs m in
  Ok (VtkWriter file g (attach_nodal_field visit ids g) []).

(* the field writer of a function space. FieldVTKWriter.h lines 78-81, NodeVTKWriter.h lines 42-111, vtk/factories.h
   lines 55-63. *)
Definition node_field_writer {Y : Type} (debug : bool) (c : chart) (visit : gmap nat nat → list (nat * nat)) (file : chars)
    (cells : list (list node)) (node_map : gmap node nat) (cs : csys) : res (vtk_writer (gmap nat Y) (option Y)) :=
  let! (ids, g) := node_vtk_writer debug c cs cells node_map in
  Ok (VtkWriter file g (attach_nodal_field visit ids g) []).

(* the field writer of a point cloud. FieldVTKWriter.h lines 78-81, PointCloudVTKWriter.h lines 36-59,
   vtk/factories.h lines 46-53. *)
Definition cloud_field_writer {Y : Type} (c : chart) (order : gset nat → list nat) (file : chars)
    (cloud : list nat) (cs : csys) : res (vtk_writer (gmap nat Y) (option Y)) :=
  let! (points, g) := cloud_vtk_writer c cs order cloud in
  Ok (VtkWriter file g (attach_point_field order points g) []).
