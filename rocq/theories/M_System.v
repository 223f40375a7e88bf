(* Model of lib/mito/fem: the discretizers (elements/seg1/DiscretizerCG.h, elements/tri1/DiscretizerCG.h,
   elements/tri2/DiscretizerCG.h), utilities.h, FunctionSpace.h, Weakform.h and DiscreteSystem.h.

   Simplifications. A discretization node (discrete/DiscretizationNode.h) has no content: it is its
   address, which is what {id} returns and what nodes are compared by (utilities/StdSharedPointer.h).
   An element is its cell and its connectivity. The nodes of the mesh are of any type with equality.
   PETSc is the table of the entries it was asked to store. Numbers are real numbers. *)
From stdpp Require Import base gmap list.
From Coq Require Import Reals.
From Verif Require Import Base M_Perm M_Topology M_Discrete.
Open Scope nat_scope.

Section discretizer.
  Context {K : Type} `{Countable K}.
  (* the address given to a new discretization node, from those in use *)
  Context (fresh : gset nat → nat).

  (* seg1/DiscretizerCG.h lines 18-45, tri2/DiscretizerCG.h lines 18-45: the node map and the mid
     nodes. *)
  Record nodes_state := NodesState {
    d_alive : gset nat;            (* the discretization nodes in use, those of others included *)
    d_map : gmap K nat;            (* {node_map} *)
    d_mid : gmap (nat * nat) nat;  (* {mid_nodes_map}, tri2/DiscretizerCG.h line 43 *)
  }.

  (* seg1/DiscretizerCG.h lines 41-44 and alike: {insert} does nothing when the key is there, and the
     node just built is then destroyed *)
  Definition node_insert (k : K) (s : nodes_state) : nodes_state * nat :=
    let n := fresh (d_alive s) in
    match d_map s !! k with
    | Some n' => (s, n')
    | None => (NodesState ({[n]} ∪ d_alive s) (<[k := n]> (d_map s)) (d_mid s), n)
    end.

  (* tri2/DiscretizerCG.h lines 63-65 *)
  Definition ordered_nodes (a b : nat) : nat * nat := if a <? b then (a, b) else (b, a).

  (* tri2/DiscretizerCG.h lines 66-67 *)
  Definition mid_insert (a b : nat) (s : nodes_state) : nodes_state * nat :=
    let n := fresh (d_alive s) in
    match d_mid s !! ordered_nodes a b with
    | Some n' => (s, n')
    | None => (NodesState ({[n]} ∪ d_alive s) (d_map s) (<[ordered_nodes a b := n]> (d_mid s)), n)
    end.

  (* seg1/DiscretizerCG.h lines 37-47 ([n] = 2), tri1/DiscretizerCG.h lines 37-49 ([n] = 3): a cell is
     the array of its nodes *)
  Definition element_P1 (n : nat) (nodes : list K) (s : nodes_state) : res (nodes_state * list nat) :=
    rfold (λ '(s, conn) i,
      let! k := deref (nodes !! i) in
      let '(s, node) := node_insert k s in
      Ok (s, conn ++ [node])) (s, []) (seq 0 n).

  (* tri2/DiscretizerCG.h lines 52-82 *)
  Definition element_P2 (nodes : list K) (s : nodes_state) : res (nodes_state * list nat) :=
    let! k0 := deref (nodes !! 0) in
    let '(s, node_0) := node_insert k0 s in
    let! k1 := deref (nodes !! 1) in
    let '(s, node_1) := node_insert k1 s in
    let! k2 := deref (nodes !! 2) in
    let '(s, node_2) := node_insert k2 s in
    let '(s, node_3) := mid_insert node_0 node_1 s in
    let '(s, node_4) := mid_insert node_1 node_2 s in
    let '(s, node_5) := mid_insert node_2 node_0 s in
    Ok (s, [node_0; node_1; node_2; node_3; node_4; node_5]).

  (* seg1/DiscretizerCG.h lines 53-58, tri1/DiscretizerCG.h lines 54-59: to dereference the end of the
     map is undefined *)
  Definition constrain_nodes (node_map : gmap K nat) (nodes : list K) (constrained : gset nat) : res (gset nat) :=
    rfold (λ constrained k,
      let! n := deref (node_map !! k) in
      Ok ({[n]} ∪ constrained)) constrained nodes.

  (* tri2/DiscretizerCG.h lines 86-101 *)
  Definition constrain_cell_P2 (s : nodes_state) (nodes : list K) (constrained : gset nat) : res (gset nat) :=
    let! constrained := constrain_nodes (d_map s) nodes constrained in
    let! k0 := deref (nodes !! 0) in
    let! node_0 := at_or_throw (d_map s !! k0) in
    let! k1 := deref (nodes !! 1) in
    let! node_1 := at_or_throw (d_map s !! k1) in
    let! node := at_or_throw (d_mid s !! ordered_nodes node_0 node_1) in
    Ok ({[node]} ∪ constrained).

  (* FunctionSpace.h lines 113-138: the elements, the map of the nodes and the constrained nodes *)
  Record function_space := FunctionSpace {
    fs_elements : list (list K * list nat);
    fs_node_map : gmap K nat;
    fs_constrained : gset nat;
  }.

  (* seg1/DiscretizerCG.h lines 34-48, tri1/DiscretizerCG.h lines 34-50, tri2/DiscretizerCG.h
     likewise: the loop on the cells. *)
  Definition elements_of (element : list K → nodes_state → res (nodes_state * list nat))
      (cells : list (list K)) (s : nodes_state) : res (nodes_state * list (list K * list nat)) :=
    rfold (λ '(s, es) nodes,
      let! (s, conn) := element nodes s in
      Ok (s, es ++ [(nodes, conn)])) (s, []) cells.

  (* seg1/DiscretizerCG.h lines 18-62: [domain] is a set of nodes. [alive]: the nodes in use before *)
  Definition discretize_seg1 (alive : gset nat) (cells : list (list K)) (domain : list K) : res function_space :=
    let! (s, es) := elements_of (element_P1 2) cells (NodesState alive ∅ ∅) in
    let! constrained := constrain_nodes (d_map s) domain ∅ in
    Ok (FunctionSpace es (d_map s) constrained).

  (* tri1/DiscretizerCG.h lines 18-64: [domain] is the cells of a mesh *)
  Definition discretize_tri1 (alive : gset nat) (cells : list (list K)) (domain : list (list K)) : res function_space :=
    let! (s, es) := elements_of (element_P1 3) cells (NodesState alive ∅ ∅) in
    let! constrained := rfold (λ c nodes, constrain_nodes (d_map s) nodes c) ∅ domain in
    Ok (FunctionSpace es (d_map s) constrained).

  (* tri2/DiscretizerCG.h lines 18-105 *)
  Definition discretize_tri2 (alive : gset nat) (cells : list (list K)) (domain : list (list K)) : res function_space :=
    let! (s, es) := elements_of element_P2 cells (NodesState alive ∅ ∅) in
    let! constrained := rfold (λ c nodes, constrain_cell_P2 s nodes c) ∅ domain in
    Ok (FunctionSpace es (d_map s) constrained).
End discretizer.
Arguments nodes_state K {_ _}.
Arguments function_space K {_ _}.

Section system.
  Context {C : Type} (debug : bool).
  (* the elements of a function space: a cell and a connectivity. IsoparametricSegmentP1.h lines
     38-44 and alike. *)
  Notation element := (C * list nat)%type.

  (* fem/utilities.h lines 13-25, in a set *)
  Definition get_discretization_nodes (es : list element) (nodes : gset nat) : gset nat :=
    foldl (λ nodes e, foldl (λ nodes n, {[n]} ∪ nodes) nodes e.2) nodes es.

  (* the order in which a loop visits a {std::set} of nodes: increasing addresses. DiscreteSystem.h
     lines 95-110 (the default order of a set of shared pointers, SharedPointer.h lines 95-101). *)
  Definition in_order (s : gset nat) : list nat := sort Nat.leb (elements s).

  (* DiscreteSystem.h lines 115-134 *)
  Definition number_constrained (m : gmap nat Z) (nodes : list nat) : gmap nat Z :=
    foldl (λ m n, match m !! n with Some _ => m | None => <[n := (-1)%Z]> m end) m nodes.
  (* DiscreteSystem.h lines 125-134. *)
  Definition number_interior (m : gmap nat Z) (nodes : list nat) : gmap nat Z * Z :=
    foldl (λ '(m, equation) n,
      match m !! n with
      | Some _ => (m, equation)
      | None => (<[n := equation]> m, (equation + 1)%Z)
      end) (m, 0%Z) nodes.

  (* DiscreteSystem.h lines 89-138 *)
  Definition build_equation_map (es : list element) (constrained : gset nat) : gmap nat Z * Z :=
    let nodes := get_discretization_nodes es ∅ in
    let interior_nodes := nodes ∖ constrained in
    number_interior (number_constrained ∅ (in_order constrained)) (in_order interior_nodes).

  (* PETScLinearSystem.h lines 77-88: the tables of the entries, and the number of equations *)
  Record linear_system := LinearSystem {
    s_matrix : Z → Z → R;
    s_rhs : Z → R;
    s_equations : Z;
  }.

  (* PETScLinearSystem.cc lines 97-107: PETSc refuses rows and columns out of range; the error makes
     the function return (PetscCallVoid) and is not reported *)
  Definition in_range (s : linear_system) (i : Z) : bool := bool_decide (0 <= i < s_equations s)%Z.
  (* PETScLinearSystem.cc lines 97-107. *)
  Definition add_matrix_value (row col : Z) (value : R) (s : linear_system) : linear_system :=
    if in_range s row && in_range s col then
      LinearSystem (λ i j, if decide (i = row ∧ j = col) then (s_matrix s i j + value)%R else s_matrix s i j)
        (s_rhs s) (s_equations s)
    else s.

  (* PETScLinearSystem.cc lines 121-131 *)
  Definition add_rhs_value (row : Z) (value : R) (s : linear_system) : linear_system :=
    if in_range s row then
      LinearSystem (s_matrix s) (λ i, if decide (i = row) then (s_rhs s i + value)%R else s_rhs s i) (s_equations s)
    else s.

  (* PETScLinearSystem.cc lines 21-46: the entries are zero *)
  Definition create (size : Z) : linear_system := LinearSystem (λ _ _, 0%R) (λ _, 0%R) size.

  (* Weakform.h lines 77-102: the sum of what the blocks compute *)
  Definition compute_blocks (lhs : list (element → nat → nat → R)) (rhs : list (element → nat → R)) (e : element)
      : (nat → nat → R) * (nat → R) :=
    (foldl (λ m block a b, (m a b + block e a b)%R) (λ _ _, 0%R) lhs,
     foldl (λ v block a, (v a + block e a)%R) (λ _, 0%R) rhs).

  (* DiscreteSystem.h lines 156-184, for one element; [n]: the number of nodes of an element, which is
     the length of its connectivity, an array *)
  Definition assemble_element (n : nat) (eqs : gmap nat Z) (blocks : element → (nat → nat → R) * (nat → R))
      (e : element) (s : linear_system) : res linear_system :=
    let '(matrix, vector) := blocks e in
    rfold (λ s a,
      let! node_a := deref (e.2 !! a) in
      let! eq_a := at_or_throw (eqs !! node_a) in
      let! _ := assert_ debug (bool_decide (eq_a < s_equations s)%Z) in
      if decide (eq_a = -1)%Z then Ok s
      else
        let s := add_rhs_value eq_a (vector a) s in
        rfold (λ s b,
          let! node_b := deref (e.2 !! b) in
          let! eq_b := at_or_throw (eqs !! node_b) in
          let! _ := assert_ debug (bool_decide (eq_b < s_equations s)%Z) in
          if decide (eq_b = -1)%Z then Ok s
          else Ok (add_matrix_value eq_a eq_b (matrix a b) s)) s (seq 0 n)) s (seq 0 n).

  (* DiscreteSystem.h lines 145-186 *)
  Definition assemble (n : nat) (eqs : gmap nat Z) (n_equations : Z) (blocks : element → (nat → nat → R) * (nat → R))
      (es : list element) (s : linear_system) : res linear_system :=
    let! _ := assert_ debug (bool_decide (n_equations = s_equations s)) in
    rfold (λ s e, assemble_element n eqs blocks e s) s es.

  (* DiscreteSystem.h lines 189-212: [u], the vector of the solution; [visit], the loop over the map.
     {u[eq]} is undefined out of the range of the vector. *)
  Definition read_solution (visit : gmap nat Z → list (nat * Z)) (eqs : gmap nat Z) (u : list R) (field : gmap nat R)
      : res (gmap nat R) :=
    rfold (λ field '(node, eq),
      if decide (eq = -1)%Z then Ok field
      else
        let! x := (if decide (0 <= eq)%Z then deref (u !! Z.to_nat eq) else Ub) in
        assign node x field) field (visit eqs).

  (* FunctionSpace.h lines 99-111: zero at all the nodes of the elements *)
  Definition fem_field (order : gset nat → list nat) (es : list element) : res (gmap nat R) :=
    from_keys debug 0%R (order (get_discretization_nodes es ∅)).
End system.
