(** Specifications of texts, independent of the model: line structure, prefixing and
    editing by character positions. *)
From Verif Require Import Base.

(** ** Prefixing lines *)

(** The prefix after each newline that is followed by another character. *)
Fixpoint indent (p s : str) : str :=
  match s with
  | [] => []
  | [c] => [c]
  | c :: r => if N.eqb c NL then c :: p ++ indent p r else c :: indent p r
  end.
Definition prefixed (p s : str) : str := p ++ indent p s.

(** ** Edits

    One call of replace or insert: exchange the characters at positions [e_from]..[e_to]
    (inclusive) by [e_text]; [e_to = e_from - 1] is an insertion before [e_from].
    [e_subf], [e_subt] are the sixteenths of fractional positions; they only matter
    for the order. *)
Record edit := mk_edit {
  e_from : Z; e_subf : Z; e_to : Z; e_subt : Z; e_text : str }.

(** The order of the new texts in the result: by end, then by start; equal keys stay in
    call order. *)
Definition e_lo (e : edit) : Z := 16 * e_from e + e_subf e.
Definition e_hi (e : edit) : Z := 16 * e_to e + e_subt e.
Definition key_le (a b : edit) : bool :=
  (e_hi a <? e_hi b)%Z || ((e_hi a =? e_hi b)%Z && (e_lo a <=? e_lo b)%Z).

(** Stable arrangement: each new element goes behind everything not greater. *)
Section Arrange.
  Context {A : Type} (le : A -> A -> bool).
  Fixpoint put (x : A) (l : list A) : list A :=
    match l with
    | [] => [x]
    | y :: r => if le y x then y :: put x r else x :: y :: r
    end.
  Definition arrange (l : list A) : list A := fold_left (fun acc x => put x acc) l [].
End Arrange.

(** Is position [j] inside a range to be removed? *)
Definition covers (e : edit) (j : nat) : bool :=
  (e_from e <=? Z.of_nat j)%Z && (Z.of_nat j <=? e_to e)%Z.
Definition covered (es : list edit) (j : nat) : bool := existsb (fun e => covers e j) es.

(** The texts put in front of character [g] ([g] = length: at the end). *)
Definition texts_at {A} (ps : list (nat * list A)) (g : nat) : list A :=
  flat_map (fun p => if Nat.eqb (fst p) g then snd p else []) ps.

(** The text [s] (whose first character has position [pos]) with the texts of [ps] put
    in and only the characters satisfying [keep] retained.  (Polymorphic: also used for
    texts whose characters carry an attribution.) *)
Fixpoint weave {A} (ps : list (nat * list A)) (keep : nat -> bool) (pos : nat) (s : list A) : list A :=
  match s with
  | [] => []
  | c :: r => texts_at ps pos ++ (if keep pos then [c] else []) ++ weave ps keep (S pos) r
  end.
Definition woven {A} (ps : list (nat * list A)) (keep : nat -> bool) (s : list A) : list A :=
  weave ps keep 0 s ++ texts_at ps (length s).

(** Non-overlapping edits: each text goes to its own start position, clamped to the
    text. *)
Definition clamp (len : nat) (z : Z) : nat := Nat.min len (Z.to_nat z).
Definition own_place (len : nat) (e : edit) : nat * str := (clamp len (e_from e), e_text e).

(** The text after arbitrary non-overlapping edits. *)
Definition edited (es : list edit) (s : str) : str :=
  woven (map (own_place (length s)) (arrange key_le es)) (fun j => negb (covered es j)) s.

(** Two edits do not overlap: one ends before the other starts.  (The second condition
    follows from the first for forward edits, unless both end at the same character and
    have different sixteenths there.) *)
Definition before (a b : edit) : Prop := (e_to a < e_from b /\ e_hi a <= e_hi b)%Z.
Definition apart (a b : edit) : Prop := before a b \/ before b a.
(** An edit is not inverted: its range is empty or from <= to. *)
Definition forward (e : edit) : Prop := (e_from e <= e_to e + 1)%Z.
(** 32-bit positions (with room for to + 1) and sixteenths. *)
Definition edit_ok (e : edit) : Prop :=
  (-2147483648 <= e_from e < 2147483648 /\ -2147483648 <= e_to e < 2147483647 /\
   0 <= e_subf e < 16 /\ 0 <= e_subt e < 16)%Z.

(** Arbitrary edits, in the order of the result: an edit cannot be placed behind one that
    comes after it, so it goes to the smallest start among itself and its successors
    (an inverted edit counts as an insertion behind its end). *)
Definition anchor (e : edit) : Z := Z.min (e_from e) (e_to e + 1).
Definition place (len : nat) (suffix : list edit) : nat :=
  fold_right (fun e m => Nat.min (Z.to_nat (anchor e)) m) len suffix.
Fixpoint places (len : nat) (es : list edit) : list (nat * str) :=
  match es with
  | [] => []
  | e :: r => (place len es, e_text e) :: places len r
  end.
(** The same with new texts of any kind. *)
Fixpoint gplaces {A} (len : nat) (es : list (edit * list A)) : list (nat * list A) :=
  match es with
  | [] => []
  | e :: r => (place len (map fst es), snd e) :: gplaces len r
  end.
Definition edited_any (es : list edit) (s : str) : str :=
  woven (places (length s) (arrange key_le es)) (fun j => negb (covered es j)) s.

(** A history of calls on a ReplaceSource. *)
Inductive call :=
| Replace (start stop : Z) (text : str) (ord_s ord_e : Z)
| Insert (pos : Z) (text : str) (ord : Z)
| Read.
Definition edit_of (c : call) : list edit :=
  match c with
  | Replace a b t o1 o2 => [mk_edit a o1 b o2 t]
  | Insert p t o => [mk_edit p o (p - 1) o t]
  | Read => []
  end.
Definition edits_of (h : list call) : list edit := flat_map edit_of h.

(** Interleaving of new texts with pieces [a, b) of the original text; the pieces are
    disjoint and in their original order, the first one not before [lo]. *)
Definition piece_of {A} (s : list A) (a b : nat) : list A := firstn (b - a) (skipn a s).
Definition interleave (s : str) (l : list (str * nat * nat)) : str :=
  flat_map (fun x => match x with (t, a, b) => t ++ piece_of s a b end) l.
Fixpoint in_order (lo : nat) (l : list (str * nat * nat)) (hi : nat) : Prop :=
  match l with
  | [] => lo <= hi
  | (_, a, b) :: r => lo <= a /\ a <= b /\ in_order b r hi
  end.
