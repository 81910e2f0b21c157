(** Specification of attributions: a text in which every character carries the original
    place it belongs to (or none), and what a consumer of a source map reads for the
    characters of a generated text. *)
From Verif Require Import Base SpecMap.

Definition marked := list (char * option target).
Definition mark (a : option target) (s : str) : marked := map (fun c => (c, a)) s.
Definition text_of (m : marked) : str := map fst m.

(** The place after a character: lines count from 1, columns from 0. *)
Definition advance (p : place) (c : char) : place :=
  if N.eqb c NL then (fst p + 1, 0)%Z else (fst p, snd p + 1)%Z.

(** Every character of [s], which starts at place [p], with the answer of the map [l] for
    its place. *)
Fixpoint annotate_from (l : list (place * option target)) (p : place) (s : str) : marked :=
  match s with
  | [] => []
  | c :: r => (c, lookup l (fst p) (snd p)) :: annotate_from l (advance p c) r
  end.
Definition annotate (l : list (place * option target)) (s : str) : marked :=
  annotate_from l (1, 0)%Z s.

(** Prefixing: the prefix goes in front of every character that starts a line and gets
    the attribution of that character. *)
Fixpoint mprefix (p : str) (start : bool) (m : marked) : marked :=
  match m with
  | [] => []
  | (c, a) :: r => (if start then mark a p else []) ++ (c, a) :: mprefix p (N.eqb c NL) r
  end.
Definition mprefixed (p : str) (m : marked) : marked := mprefix p true m.

(** Following a map through another one for the file [file]: a target in [file] is
    replaced by what [inner] says about its place (the name of the outer map is kept if
    the inner one has none). *)
Definition through (file : option Z) (inner : list (place * option target))
    (t : option target) : option target :=
  match t with
  | Some (s, (ol, oc), n) =>
      match file with
      | Some f =>
          if (s =? f)%Z then
            match lookup inner ol oc with
            | Some (s', p', n') => Some (s', p', match n' with Some _ => n' | None => n end)
            | None => t
            end
          else t
      | None => t
      end
  | None => None
  end.

Example annotate_ex :
  annotate [((1, 0), Some (7, (3, 2), None)); ((1, 2), None); ((2, 1), Some (8, (1, 0), Some 5))]%Z
    (lit "abc" ++ NL :: lit "de") =
  mark (Some (7, (3, 2), None))%Z (lit "ab") ++ mark None (lit "c" ++ NL :: lit "d") ++
  mark (Some (8, (1, 0), Some 5))%Z (lit "e").
Proof. reflexivity. Qed.
Example mprefixed_ex :
  mprefixed (lit ">") (mark None (lit "a") ++ mark (Some (7, (1, 0), None))%Z [NL; 98; NL]%N) =
  mark None (lit ">a") ++ mark (Some (7, (1, 0), None))%Z [NL; 62; 98; NL]%N.
Proof. reflexivity. Qed.

(** A target without its name. *)
Definition drop_name (a : option target) : option target :=
  match a with Some (s, p, _) => Some (s, p, None) | None => None end.

(** ** Original sources *)

(** Tokens: a run of ordinary characters with the delimiters that follow it; a token
    never extends over a newline. *)
Definition delim (c : char) : bool := existsb (N.eqb c) [NL; CR; SEMI; LBRACE; RBRACE].
Definition closes (c d : char) : bool := N.eqb c NL || (delim c && negb (delim d)).
Fixpoint tokens (s : str) : list str :=
  match s with
  | [] => []
  | c :: r =>
      match tokens r with
      | (d :: t) :: ts => if closes c d then [c] :: (d :: t) :: ts else (c :: d :: t) :: ts
      | _ => [[c]]
      end
  end.
Example tokens_ex : tokens (lit "if (x) { y; }" ++ [NL] ++ lit "z") =
  [lit "if (x) {"; lit " y;"; lit " }" ++ [NL]; lit "z"].
Proof. reflexivity. Qed.

(** The place after a character if columns are counted in bytes. *)
Definition advance_bytes (p : place) (c : char) : place :=
  if N.eqb c NL then (fst p + 1, 0)%Z else (fst p, snd p + Z.of_nat (len_utf8 c))%Z.

(** Every token belongs to its own start; a blank token belongs to nothing. *)
Fixpoint mark_tokens (adv : place -> char -> place) (name : Z) (p : place) (ts : list str) : marked :=
  match ts with
  | [] => []
  | t :: r =>
      mark (if forallb is_ws t then None else Some (name, p, None)) t
      ++ mark_tokens adv name (fold_left adv t p) r
  end.

(** Every character belongs to the start of its line. *)
Fixpoint mark_lines (name : Z) (line : Z) (s : str) : marked :=
  match s with
  | [] => []
  | c :: r => (c, Some (name, (line, 0%Z), None))
              :: mark_lines name (if N.eqb c NL then line + 1 else line)%Z r
  end.

(** A carriage return occurs only in front of a newline (or at the end). *)
Fixpoint crlf_only (s : str) : bool :=
  match s with
  | [] => true
  | c :: r => (negb (N.eqb c CR) || match r with [] => true | d :: _ => N.eqb d NL end) && crlf_only r
  end.
