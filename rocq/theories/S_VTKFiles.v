(* What the files of the writers must hold, in terms of the calls made. *)
From stdpp Require Import base gmap list strings.
From Coq Require Import Ascii.
From Verif Require Import Base M_Options M_VTKFiles.
Local Open Scope nat_scope.

Section spec.
  Context {F T : Type}.

  (* The name under which a field is recorded: the one given to [record], or its own. *)
  Definition under (f : named_field F) (fieldname a : chars) : Prop :=
    (fieldname ≠ [] ∧ a = fieldname) ∨ (fieldname = [] ∧ a = nf_name f).

  (* Among the calls [h], [f] is the last field recorded under the name [a]. *)
  Definition last_recorded (h : list (vtk_event F)) (a : chars) (f : named_field F) : Prop :=
    ∃ h1 fieldname h2, h = h1 ++ Record_ f fieldname :: h2 ∧ under f fieldname a ∧
      ∀ f' fieldname', Record_ f' fieldname' ∈ h2 → ¬ under f' fieldname' a.

  (* The calls made to the writer number [i]. *)
  Definition calls (i : nat) (es : list (nat * vtk_event F)) : list (vtk_event F) :=
    snd <$> filter (λ e, e.1 = i) es.

  (* The arrays in a file are the fields last recorded under each name: each name once, and [array] tells what the
     array of a field must be. *)
  Definition holds_fields (array : named_field F → list T → Prop) (h : list (vtk_event F)) (arrays : list (chars * list T)) : Prop :=
    NoDup arrays.*1 ∧ ∀ a arr, (a, arr) ∈ arrays ↔ ∃ f, last_recorded h a f ∧ array f arr.
End spec.

(* The array of a field on a grid whose points are those of the given nodes, in their order. *)
Definition array_on {K Y} `{Countable K} (nodes : list K) (f : named_field (gmap K Y)) (arr : list (option Y)) : Prop :=
  ∃ ys, arr = Some <$> ys ∧ Forall2 (λ n y, nf_values f !! n = Some y) nodes ys.
(* The field has a value at each of the nodes. *)
Definition defined_on {K Y} `{Countable K} (nodes : list K) (f : named_field (gmap K Y)) : Prop :=
  ∀ n, n ∈ nodes → is_Some (nf_values f !! n).
