(* Model of lib/mito/discrete/DiscreteField.h and of the mesh fields of lib/mito/discrete/factories.h.

   Simplifications: the name of a field is not modelled; the order in which a loop over an unordered
   container visits its elements is a parameter. *)
From stdpp Require Import base gmap list.
From Verif Require Import M_Tensor M_Geometry.
From Verif Require Import Base M_SegAlloc M_Topology M_Mesh.
Open Scope nat_scope.

Section field.
  Context {K V : Type} `{Countable K} (debug : bool).

  (* DiscreteField.h lines 23-24, 108: the map from entries to values *)
  Notation field := (gmap K V).

  (* lines 75-86: {emplace} does not overwrite *)
  Definition insert (key : K) (entry : V) (f : field) : res field :=
    let! _ := assert_ debug (bool_decide (f !! key = None)) in
    Ok (match f !! key with
        | Some _ => f
        | None => <[key := entry]> f
        end).

  (* lines 59-62 *)
  Definition read (f : field) (key : K) : res V := at_or_throw (f !! key).

  (* lines 67-70: the reference returned is assigned to *)
  Definition assign (key : K) (value : V) (f : field) : res field :=
    let! _ := at_or_throw (f !! key) in
    Ok (<[key := value]> f).

  (* line 91 *)
  Definition field_size (f : field) : nat := size f.

  (* lines 28-38: the keys of a collection, with the default value [v0] *)
  Definition from_keys (v0 : V) (keys : list K) : res field :=
    rfold (λ f key, insert key v0 f) ∅ keys.
End field.

(* mesh/utilities.h lines 15-27, in a set *)
Definition get_nodes (l : list (addr * gcell)) (nodes : gset node) : gset node :=
  foldl (λ nodes x, foldl (λ nodes n, {[n]} ∪ nodes) nodes x.2.2) nodes l.

Section mesh_field.
  Context {V : Type} (debug : bool).
  (* the order in which a loop over an unordered set visits its elements *)
  Context (order : gset node → list node).

  (* discrete/factories.h lines 22-35 *)
  Definition mesh_field (v0 : V) (m : mesh) : res (gmap node V) :=
    let! l := mesh_cells m in
    from_keys debug v0 (order (get_nodes l ∅)).

  (* discrete/factories.h lines 37-56; the loop visits the entries of the map, in the order [visit] *)
  Definition mesh_field_of (visit : gmap node V → list (node * V)) (v0 : V) (m : mesh) (cs : csys)
      (field : vec → V) : res (gmap node V) :=
    let! f := mesh_field v0 m in
    rfold (λ f '(node, _),
      let! coord := coordinates cs node.2 in
      assign node (field coord) f) f (visit f).
End mesh_field.
