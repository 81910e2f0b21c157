(** The part of the crate regex that src/original_source.rs:8 and 53-55 use: classes of
    characters, sequences and greedy repetitions, with the documented meaning (leftmost
    match; among those the one that a backtracking matcher finds first).  Classes match
    whole characters: the pattern is in Unicode mode and the text is UTF-8. *)
From Verif Require Import Base.

Inductive regex := RClass (f : char -> bool) | RSeq (a b : regex) | RStar (a : regex).

(** Backtracking: [k] is what has to match the rest.  A repetition tries one more round
    first, if that uses up text. *)
Fixpoint backtrack {A} (r : regex) (s : str) (k : str -> option A) : option A :=
  match r with
  | RClass f => match s with c :: t => if f c then k t else None | [] => None end
  | RSeq a b => backtrack a s (fun t => backtrack b t k)
  | RStar a =>
      (fix star (n : nat) (s : str) : option A :=
         match n with
         | O => k s
         | S n =>
             match backtrack a s (fun t => if length t <? length s then star n t else None) with
             | Some x => Some x
             | None => k s
             end
         end) (length s) s
  end.

(** Regex::find: first and last byte of the match. *)
Fixpoint regex_find (r : regex) (s : str) (p : nat) : option (nat * nat) :=
  match backtrack r s (fun t => Some (p, p + (blen s - blen t))) with
  | Some m => Some m
  | None =>
      match s with
      | [] => None
      | c :: t => regex_find r t (p + len_utf8 c)
      end
  end.
