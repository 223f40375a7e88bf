(* Model of lib/mito/matrix_solvers/backend/petsc/PETScKrylovSolver.cc, the preparation of options.
   A {std::string} is the list of its characters. PETSc is not modelled. *)
From stdpp Require Import base list strings.
From Coq Require Import Ascii.
From Verif Require Import Base.

Notation chars := (list ascii).

(* {std::string::find} of a one-character string, from a position. PETScKrylovSolver.cc line 60. *)
Definition find_from (c : ascii) (s : chars) (pos : nat) : option nat :=
  (λ ix : nat * ascii, pos + ix.1) <$> list_find (eq c) (drop pos s).

(* {std::string::substr}: throws when the position is beyond the end; [None]: up to the end ({npos -
   pos_old} is larger than what is left). PETScKrylovSolver.cc lines 61 and 65. *)
Definition substr (s : chars) (pos : nat) (count : option nat) : res chars :=
  if decide (length s < pos) then Abort
  else Ok (match count with Some n => take n (drop pos s) | None => drop pos s end).

(* lines 57-66: the loop advances at each turn and makes at most as many turns as there are characters,
   which is the fuel *)
Fixpoint split_loop (fuel : nat) (options : chars) (pos_old : nat) (words : list chars) : res (list chars) :=
  match find_from " "%char options pos_old with
  | Some pos_new =>
      let! word := substr options pos_old (Some (pos_new - pos_old)) in
      match fuel with
      | 0 => Ub
      | S fuel => split_loop fuel options (pos_new + 1) (words ++ [word])
      end
  | None =>
      let! word := substr options pos_old None in
      Ok (words ++ [word])
  end.
(* PETScKrylovSolver.cc lines 53-66, from the first character. *)
Definition split_words (options : chars) : res (list chars) := split_loop (length options) options 0 [].

(* lines 70-75: {word[0]} of an empty word is the character zero *)
Definition prefix_word (prefix word : chars) : chars :=
  match word with
  | c :: rest => if decide (c = "-"%char) then "-"%char :: prefix ++ rest else word
  | [] => []
  end.

(* lines 53-85 *)
Definition prepend_options_prefix (options prefix : chars) : res chars :=
  let! words := split_words options in
  Ok (foldl (λ s word, s ++ word ++ [" "%char]) [] (prefix_word prefix <$> words)).

(* lines 14-18 and 88-93: the prefix is the label of the linear system and an underscore *)
Definition set_options (label options : chars) : res chars :=
  prepend_options_prefix options (label ++ ["_"%char]).
