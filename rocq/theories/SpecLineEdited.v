(** What an expression of JavaScript sources with ReplaceSources says about the lines of its
    characters (columns: false). *)
From Verif Require Import Base SpecText SpecMap SpecAttr SpecEdit SpecLineEdit SpecList ModelJs ModelJsApi SpecJs ModelEnd SpecEnd SpecEdited.

(** Those of C52_lines, ConcatSources, PrefixSources (as there) and ReplaceSources of them; the
    edits are at ordinary positions and do not overlap, and their texts have no surrogates. *)
Fixpoint line_edit_expr (md : bool) (e : jexpr) : Prop :=
  match e with
  | XEdit e h => line_edit_expr md e /\ Forall ordinary_call h /\ Forall plain_call h /\
      Forall forward (jedits h) /\ ForallOrdPairs apart (jedits h)
  | XPrefix p e => plain p /\ ~ In NL p /\ on_lines md e /\
      at_line_ends (leaf_texts e) /\ concat (leaf_texts e) <> [] /\ line_edit_expr md e
  | XConcat l =>
      (fix all l :=
         match l with
         | [] => True
         | x :: r => (match x with XStr s => plain s | _ => line_edit_expr md x end) /\ all r
         end) l
  | _ => line_expr md e
  end.

(** The first source of the text is not empty, and not edited. *)
Fixpoint opens (e : jexpr) : Prop :=
  match e with
  | XStr v | XRaw v | XOriginal v _ | XL2L v _ _ | XSms v _ _ _ _ => v <> []
  | XConcat (x :: _) => opens x
  | _ => False
  end.

(** Attributed texts: characters of the original text are attributed to their lines or to the
    one after that, new ones to that of the character in front of them; if there are no
    newlines in the new texts, and no edits or PrefixSources inside, then like in
    [line_kept]. *)
Inductive line_reading (nu : jstr -> Z) (md : bool) : jexpr -> marked -> Prop :=
| line_exact e M : line_marks nu md e = Some M -> line_reading nu md e M
| line_edit e h M M' : line_reading nu md e M ->
    Forall2 (line_near (opens e) M) (traced (jedits h) (text_of M)) M' ->
    (unwrapped e -> Forall (fun x => ~ In NL (e_text x)) (jedits h) ->
     Forall2 (line_kept (opens e) M) (traced (jedits h) (text_of M)) M') ->
    line_reading nu md (XEdit e h) M'
| line_prefix p e M : line_reading nu md e M -> line_reading nu md (XPrefix p e) (mprefixed p M)
| line_nil : line_reading nu md (XConcat []) []
| line_cons e l M N : line_reading nu md e M -> line_reading nu md (XConcat l) N -> line_reading nu md (XConcat (e :: l)) (M ++ N).

(** The sources of the characters. *)
Definition sources_shown (M : marked) : list Z :=
  flat_map (fun x => match snd x with Some (z, _, _) => [z] | None => [] end) M.

(** The sources an expression mentions, with the contents given for them. *)
Fixpoint paired (a b : list jstr) : list (jstr * option jstr) :=
  match a, b with
  | x :: a, y :: b => (x, Some y) :: paired a b
  | x :: a, [] => (x, None) :: paired a []
  | [], _ => []
  end.
Fixpoint line_given (md : bool) (e : jexpr) : list (jstr * option jstr) :=
  match e with
  | XStr _ | XRaw _ => []
  | XOriginal v n => [(n, Some v)]
  | XL2L _ n o => [(n, Some o)]
  | XPrefix _ e | XEdit e _ => line_given md e
  | XConcat l => flat_map (line_given md) l
  | XSms v n m _ _ => if md then paired (jm_sources m) (jm_contents m) else [(n, Some v)]
  end.
