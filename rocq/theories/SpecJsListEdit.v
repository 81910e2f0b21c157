(** What programs that make line maps by hand mean when listMap() is also called on
    ReplaceSources: of their characters it is known which lines they may be attributed to. *)
From Verif Require Import Base SpecText SpecMap SpecAttr SpecList ModelJs ModelJsApi SpecJs ModelEnd SpecEnd SpecLineEdited ModelJsList SpecJsList.

(** A ReplaceSource somewhere in an expression. *)
Fixpoint has_edit (e : jexpr) : bool :=
  match e with
  | XEdit _ _ => true
  | XPrefix _ e => has_edit e
  | XConcat l => existsb has_edit l
  | _ => false
  end.
(** A list with the attribution [M], and with contents that are given for the sources. *)
Definition may_say (nu : jstr -> Z) (md : bool) (e : jexpr) (M : marked) (U : list (Z * option jstr)) : Prop :=
  line_reading nu md e M /\ map fst U = sources_shown M /\
  Forall (fun u => exists s, fst u = nu s /\ In (s, snd u) (line_given md e)) U.

(** The objects after a call, and whether the call succeeds. *)
Inductive lmeans (nu : jstr -> Z) (T : list (option said)) : lop -> list (option said) -> bool -> Prop :=
| means_exact op T' ok : (forall e cols md, op = LOf e cols md -> has_edit e = false) ->
    lsays nu T op = (T', ok) -> lmeans nu T op T' ok
| means_edit e cols md M U : has_edit e = true -> may_say nu md e M U ->
    lmeans nu T (LOf e cols md) (T ++ [Some (mk_said true M U false (leaf_texts e) (on_lines md e /\ leaf_texts e <> []))]) true.
Inductive lmeans_all (nu : jstr -> Z) : list (option said) -> list lop -> list (option said) -> list bool -> Prop :=
| means_nil T : lmeans_all nu T [] T []
| means_cons T op r T1 ok T2 oks : lmeans nu T op T1 ok -> lmeans_all nu T1 r T2 oks -> lmeans_all nu T (op :: r) T2 (ok :: oks).

(** The calls covered: those of [covered], and listMap() of the expressions with
    ReplaceSources that C59_map is about. *)
Definition edit_covered (nu : jstr -> Z) (T : list (option said)) (op : lop) : Prop :=
  match op with
  | LOf e _ md => if has_edit e then line_edit_expr md e else covered nu T op
  | _ => covered nu T op
  end.
Fixpoint all_edit_covered (nu : jstr -> Z) (T : list (option said)) (l : list lop) : Prop :=
  match l with
  | [] => True
  | op :: r => edit_covered nu T op /\ forall T' ok, lmeans nu T op T' ok -> all_edit_covered nu T' r
  end.
