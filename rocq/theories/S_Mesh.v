(* Specification vocabulary for meshes. *)
From stdpp Require Import base gmap list.
From Verif Require Import Base M_SegAlloc S_SegAlloc M_Topology S_Topology M_Mesh.

(* the facets of an oriented simplex of order N: the footprint and the orientation of each member of
   its composition *)
Definition facets_of (st : topo) (N o : nat) : list (nat * Z) :=
  match composition st N o with
  | Ok c => base.omap (λ sub, ors st !! (pred N, sub)) c
  | _ => []
  end.

(* the facets of the cells in a list *)
Definition all_facets (st : topo) (N : nat) (l : list (addr * gcell)) : list (nat * Z) :=
  concat ((λ x : addr * gcell, facets_of st N x.2.1) <$> l).

(* how many times the footprint [g] occurs with orientation [s] *)
Definition occurs (g : nat) (s : Z) (L : list (nat * Z)) : nat :=
  length (filter (λ p, p = (g, s)) L).
(* how many times the footprint [g] occurs, with any orientation *)
Definition owners (g : nat) (L : list (nat * Z)) : nat :=
  length (filter (λ p : nat * Z, p.1 = g) L).

(* no two cells (and no cell twice) have the same facet with the same orientation *)
Definition consistent (L : list (nat * Z)) : Prop := ∀ g s, occurs g s L <= 1.

(* The facets of an oriented simplex with the orientation it induces on them: a member counts with
   its own orientation times that of the simplex, as in utilities.h lines 147-157. *)
Definition induced (st : topo) (N o : nat) : list (nat * Z) :=
  match ors st !! (N, o) with
  | Some (_, s) => (λ p : nat * Z, (p.1, (p.2 * s)%Z)) <$> facets_of st N o
  | None => []
  end.

(* how many cells of a container, the erased ones included, have the simplex [o]: each holds a
   pointer to it *)
Definition uses (m : mesh) (o : nat) : nat :=
  length (filter (λ p : addr * cell (gcell * bool), (cval p.2).1.1 = o)
            (map_to_list (cells (mcells m)))).

(* Histories of a topology and one mesh of cells of order N, with the trace of the insertions and
   erasures. The client uses pointers it holds, inserts cells built by it (not cells copied from an
   erased one), erases cells at locations it got from the mesh, and gives up no more pointers than
   it has: those the mesh holds remain. What the topology throws may be caught. *)
Section histories.
  Context (pick : M_Topology.alloc) (blk : nat → nat) (debug : bool) (N : nat).

  Inductive mreach : topo → mesh → list (vevent (V:=gcell)) → Prop :=
    | mreach_init st : reach pick debug st → mreach st mesh0 []
    | mreach_topology st m es x st' :
        mreach st m es → legal st x →
        (step pick debug x st = Throw st' ∨ ∃ a, step pick debug x st = Ret a st') →
        (∀ o, uses m o <= held (hO st') (N, o)) →
        mreach st' m es
    | mreach_insert st m es x st' m' a :
        mreach st m es → has st N x.1 →
        mesh_insert blk debug N x true st m = Ok (st', m', a) →
        mreach st' m' (es ++ [EvEmplace x true a])
    | mreach_erase st m es a m' :
        mreach st m es → a ∈ first_uses [] es →
        mesh_erase debug N a st m = Ok m' →
        mreach st m' (es ++ [EvErase a (bool_decide (is_Some (contents ∅ es !! a)))]).
End histories.

(* faces of order [I] reached from an oriented simplex of order [I + k] through a chain of members *)
Inductive sub_face (st : topo) (I : nat) : nat → nat → nat → Prop :=
  | sub_face_self o : sub_face st I 0 o o
  | sub_face_member k o c sub o' :
      composition st (I + S k) o = Ok c → sub ∈ c → sub_face st I k sub o' →
      sub_face st I (S k) o o'.

(* the entries of a list whose key was not seen before *)
Fixpoint first_of {A} (key : A → nat) (seen : list nat) (l : list A) : list A :=
  match l with
  | [] => []
  | x :: l => if decide (key x ∈ seen) then first_of key seen l
              else x :: first_of key (key x :: seen) l
  end.
