(** Pieces and fields of a text. *)
From Verif Require Import Base.

(** All pieces with the separator kept at the end of each. *)
Fixpoint pieces (pat : char) (s : str) : list str :=
  match s with
  | [] => [[]]
  | c :: r =>
      if N.eqb c pat then [c] :: pieces pat r
      else match pieces pat r with
           | [] => [[c]]
           | x :: l => (c :: x) :: l
           end
  end.

(** All pieces without the separators. *)
Fixpoint fields (pat : char) (s : str) : list str :=
  match s with
  | [] => [[]]
  | c :: r =>
      if N.eqb c pat then [] :: fields pat r
      else match fields pat r with
           | [] => [[c]]
           | x :: l => (c :: x) :: l
           end
  end.

(** Joining with a separator. *)
Fixpoint join (sep : char) (l : list str) : str :=
  match l with
  | [] => []
  | [x] => x
  | x :: r => x ++ sep :: join sep r
  end.
