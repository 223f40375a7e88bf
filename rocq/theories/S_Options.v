(* Specification vocabulary for strings of options. *)
From stdpp Require Import base list strings.
From Coq Require Import Ascii.

(* the words of a line, separated by single spaces: the line is the words joined by spaces and no word
   has a space. Two spaces in a row enclose an empty word. *)
Fixpoint join (words : list (list ascii)) : list ascii :=
  match words with
  | [] => []
  | [w] => w
  | w :: words => w ++ " "%char :: join words
  end.
Definition words_of (line : list ascii) (words : list (list ascii)) : Prop :=
  words ≠ [] ∧ line = join words ∧ Forall (λ w, " "%char ∉ w) words.

(* the option a word names, if it starts with a dash *)
Definition option_name (word : list ascii) : option (list ascii) :=
  match word with
  | c :: name => if decide (c = "-"%char) then Some name else None
  | [] => None
  end.
