(** Line attributions of an edited text: where each character of the result comes from,
    and what the line map may say about it. *)
From Verif Require Import Base SpecText SpecMap SpecAttr SpecEdit.

(** The text after non-overlapping edits like in [edited], each character with its origin:
    its position in the original text, or the edit that brought it in. *)
Definition traced (es : list edit) (s : str) : list (char * (nat + edit)) :=
  woven (map (fun e => (clamp (length s) (e_from e), map (fun c => (c, inr e)) (e_text e)))
           (arrange key_le es))
    (fun j => negb (covered es j)) (combine s (map inl (seq 0 (length s)))).

Definition next_line (a : option target) : option target :=
  match a with
  | Some (s, (l, c), n) => Some (s, ((l + 1)%Z, c), n)
  | None => None
  end.

(** The attribution of a new character: behind the text none; otherwise that of the
    character in front of the edit, or the line after it if that character is a newline;
    in front of the text that of the first character ([starts]: unless the list map starts
    with an empty piece). *)
Definition new_line_target (starts : Prop) (m : marked) (e : edit) (t : option target) : Prop :=
  (e_from e <= 0 -> starts -> t = attr_at m 0)%Z /\
  (Z.of_nat (length m) < e_from e -> t = None)%Z /\
  (0 < e_from e <= Z.of_nat (length m) ->
     t = attr_at m (e_from e - 1) \/
     (nth_error (text_of m) (Z.to_nat (e_from e - 1)) = Some NL /\
      t = next_line (attr_at m (e_from e - 1))))%Z.

(** A character of the result against its origin: kept characters keep their attribution. *)
Definition line_kept (starts : Prop) (m : marked) (o : char * (nat + edit)) (r : char * option target) : Prop :=
  fst o = fst r /\
  match snd o with
  | inl i => snd r = attr_at m (Z.of_nat i)
  | inr e => new_line_target starts m e (snd r)
  end.

(** The weaker relation for any texts: a character may also be attributed to the line after
    the one it belongs to. *)
Definition near (a t : option target) : Prop := t = a \/ t = next_line a.
Definition line_near (starts : Prop) (m : marked) (o : char * (nat + edit)) (r : char * option target) : Prop :=
  fst o = fst r /\
  match snd o with
  | inl i => near (attr_at m (Z.of_nat i)) (snd r)
  | inr e =>
      (e_from e <= 0 -> starts -> near (attr_at m 0) (snd r))%Z /\
      (Z.of_nat (length m) < e_from e -> snd r = None)%Z /\
      (0 < e_from e <= Z.of_nat (length m) -> near (attr_at m (e_from e - 1)) (snd r))%Z
  end.

(** A newline can only be the last character. *)
Definition one_line (s : str) : Prop := forall a b, s = a ++ NL :: b -> b = [].

Example traced_ex :
  traced [mk_edit 1 0 2 0 (lit "X"); mk_edit 4 0 3 0 (lit "!")] (lit "abcd") =
  [(97%N, inl 0); (88%N, inr (mk_edit 1 0 2 0 (lit "X"))); (100%N, inl 3); (33%N, inr (mk_edit 4 0 3 0 (lit "!")))].
Proof. reflexivity. Qed.
