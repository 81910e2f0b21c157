(** Wrappers that do nothing: a ConcatSource of one source, a PrefixSource with an empty prefix, a
    ReplaceSource without edits; and prefixes one after the other. *)
From Verif Require Import Base SpecJs ModelJs ModelJsApi ModelEnd SpecEnd.

Definition object (e : jexpr) : Prop := match e with XStr _ => False | _ => True end.
(** The classes with a map. *)
Definition mapped (e : jexpr) : Prop := match e with XStr _ | XRaw _ => False | _ => True end.
(** The classes whose text is made by wasm, or a text that survives there. *)
Definition wrapper (e : jexpr) : Prop := match e with XPrefix _ _ | XEdit _ _ | XConcat _ => True | _ => False end.
Definition sturdy (e : jexpr) : Prop :=
  match e with
  | XStr v | XRaw v | XOriginal v _ | XL2L v _ _ | XSms v _ _ _ _ => well_formed v /\ ~ starts_with BOM v
  | _ => True
  end.

Inductive idle : jexpr -> jexpr -> Prop :=
| id_refl e : idle e e
| id_sym e e' : idle e e' -> idle e' e
| id_trans e e1 e2 : idle e e1 -> idle e1 e2 -> idle e e2
| id_part a e e' b : idle e e' -> idle (XConcat (a ++ e :: b)) (XConcat (a ++ e' :: b))
| id_prefix p e e' : idle e e' -> idle (XPrefix p e) (XPrefix p e')
| id_edit e e' h : idle e e' -> idle (XEdit e h) (XEdit e' h)
| id_flat a m b : idle (XConcat (a ++ XConcat m :: b)) (XConcat (a ++ m ++ b))
| id_one e : object e -> idle (XConcat [e]) e
| id_bare e : object e -> idle (XPrefix [] e) e
| id_twice p q e : well_formed p -> well_formed q -> ~ In NL q -> idle (XPrefix p (XPrefix q e)) (XPrefix (p ++ q) e)
| id_unedited e h : object e -> Forall (eq JRead) h -> idle (XEdit e h) e
| id_text a s b : s <> [] -> idle (XConcat (a ++ XRaw s :: b)) (XConcat (a ++ XStr s :: b)).

(** ReplaceSources without edits only, around sources without prefixes. *)
Fixpoint reads_only (e : jexpr) : Prop :=
  match e with
  | XEdit e h => Forall (eq JRead) h /\ unwrapped e
  | XPrefix _ e => reads_only e
  | XConcat l => (fix all l := match l with [] => True | x :: r => reads_only x /\ all r end) l
  | _ => True
  end.
