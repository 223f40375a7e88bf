(* Model of lib/mito/math/combinatorics.h *)
From stdpp Require Import base list.
From Verif Require Import Base.

Section perm.
  Context {T : Type} `{EqDecision T}.

  (* std::find on a range: position of the first occurrence, None for the end iterator. As used in
     combinatorics.h line 31. *)
  Fixpoint find_index (x : T) (l : list T) : option nat :=
    match l with
    | [] => None
    | y :: l => if decide (x = y) then Some 0 else S <$> find_index x l
    end.

  (* math/combinatorics.h lines 15-48, [swap_sort].
     [arr] is the range {first}..{last} still to be sorted, [ref] the range starting at
     {first_reference}. The loop condition `first != last - 1` (line 29) stops at one element and
     is undefined on an empty range. `std::find` not finding the entry (line 31) makes `ref` the
     end iterator, which line 35 dereferences: undefined. Reading {first_reference} past the end
     of {reference} is undefined. *)
  Fixpoint swap_sort (arr ref : list T) : res nat :=
    match arr with
    | [] => Ub
    | [_] => Ok 0
    | a :: rest =>
        match ref with
        | [] => Ub
        | r :: ref' =>
            match find_index r (a :: rest) with
            | None => Ub
            | Some 0 => swap_sort rest ref'
            | Some (S j) =>
                let! n := swap_sort (<[j := a]> rest) ref' in Ok (S n)
            end
        end
    end.

  Context (leb : T → T → bool).

  (* std::ranges::sort, by insertion (for a total order all sorting algorithms give the same array).
     As used in combinatorics.h lines 56-57. *)
  Fixpoint sort_insert (x : T) (l : list T) : list T :=
    match l with
    | [] => [x]
    | y :: l' => if leb x y then x :: y :: l' else y :: sort_insert x l'
    end.

  (* std::ranges::sort, as used in combinatorics.h lines 56-57. *)
  Fixpoint sort (l : list T) : list T :=
    match l with
    | [] => []
    | x :: l => sort_insert x (sort l)
    end.

  (* math/combinatorics.h lines 52-61, [same_elements] (the comparison on line 60 is the
     element-wise comparison of std::array, std::vector). *)
  Definition same_elements (array1 array2 : list T) : bool :=
    bool_decide (sort array1 = sort array2).

  (* math/combinatorics.h lines 65-79, [permutation_sign]; [debug] says whether the assert of
     line 69 is compiled in. *)
  Definition permutation_sign (debug : bool) (data reference : list T) : res Z :=
    let! _ := assert_ debug (same_elements data reference) in
    let! n := swap_sort data reference in
    Ok (if Nat.even n then 1%Z else (-1)%Z).
End perm.
