(* Specification vocabulary for the partitions of a mesh. *)
From stdpp Require Import base gmap list.
From Verif Require Import Base M_SegAlloc M_Topology S_Topology M_Mesh M_Partition.

(* the entries of [l] at the positions where [p] has [r], in order *)
Definition painted {A} (p : list Z) (r : Z) (l : list A) : list A :=
  (filter (λ q : Z * A, q.1 = r) (zip p l)).*2.

(* what is known about METIS: asked for at least one partition, it paints every element with one *)
Definition paints (metis : metis_args → list Z) : Prop :=
  ∀ args, (0 < a_partitions args)%Z → length (metis args) = a_elements args ∧
    Forall (λ r, 0 <= r < a_partitions args)%Z (metis args).
