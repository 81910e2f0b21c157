(** Rearranging an expression of sources: ConcatSources put into ConcatSources or taken out
    of them, texts without a source cut or joined, prefixes put around parts. *)
From Verif Require Import Base SpecText SpecAttr SpecMap SpecList ModelJs ModelEnd SpecEnd.

(** The last text in [e] ends with a newline. *)
Fixpoint ends_line (e : jexpr) : Prop :=
  match e with
  | XStr v | XRaw v | XOriginal v _ | XL2L v _ _ | XSms v _ _ _ _ => ends_with NL v = true
  | XPrefix _ e => ends_line e
  | XEdit _ _ => False
  | XConcat l => (fix last l := match l with [] => False | x :: r => match r with [] => ends_line x | _ => last r end end) l
  end.

Inductive alike : jexpr -> jexpr -> Prop :=
| al_refl e : alike e e
| al_sym e e' : alike e e' -> alike e' e
| al_trans e e1 e2 : alike e e1 -> alike e1 e2 -> alike e e2
(** Parts of it *)
| al_prefix p e e' : alike e e' -> alike (XPrefix p e) (XPrefix p e')
| al_part a e e' b : alike e e' -> alike (XConcat (a ++ e :: b)) (XConcat (a ++ e' :: b))
(** ConcatSources *)
| al_flat a m b : alike (XConcat (a ++ XConcat m :: b)) (XConcat (a ++ m ++ b))
| al_one e : alike (XConcat [e]) e
(** Texts *)
| al_none : alike (XRaw []) (XConcat [])
| al_text s : alike (XStr s) (XRaw s)
| al_join s s' : alike (XConcat [XRaw s; XRaw s']) (XRaw (s ++ s'))
(** Prefixes *)
| al_bare e : alike (XPrefix [] e) e
| al_twice p q e : ~ In NL q -> alike (XPrefix p (XPrefix q e)) (XPrefix (p ++ q) e)
| al_literal p s : s <> [] -> alike (XPrefix p (XRaw s)) (XRaw (prefixed p s))
| al_split p a b : ends_line (XConcat a) ->
    alike (XPrefix p (XConcat (a ++ b))) (XConcat [XPrefix p (XConcat a); XPrefix p (XConcat b)]).
