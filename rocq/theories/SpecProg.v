(** What the objects of a program stand for, by its calls alone: no heap, no indices, no
    caches; reading plays no part. *)
From Verif Require Import Base ModelString ModelVlq ModelSm ModelSlm ModelSources ModelTree ModelWasm
  ModelJs ModelJsApi ModelJsResult ModelEnd ModelJsProg.

(** An object: without parts, around another source, edited, a sequence ([items]; [given] are
    the arguments it was made of), or a CachedSource (the object [i] inside). *)
Inductive sobj :=
| VLeaf (e : jexpr)
| VPrefix (p : jstr) (a : jarg)
| VEdit (a : jarg) (calls : list jcall)
| VConcat (items given : list jarg)
| VSame (i : nat).

Fixpoint update_at {A} (i : nat) (f : A -> A) (l : list A) : list A :=
  match l with
  | [] => []
  | x :: r => match i with O => f x :: r | S i => x :: update_at i f r end
  end.
(** The object inside all CachedSources; what a CachedSource is made of is older than it. *)
Fixpoint inside (n : nat) (vs : list sobj) (i : nat) : option sobj :=
  match nth_error vs i, n with
  | Some (VSame j), S n => inside n vs j
  | o, _ => o
  end.
Definition behind (vs : list sobj) (i : nat) : option sobj := inside i vs i.
(** [j] is [i], or the object inside the CachedSource [i], or inside that one, and so on. *)
Inductive wraps (vs : list sobj) : nat -> nat -> Prop :=
| wr_self i : wraps vs i i
| wr_in i j k : nth_error vs i = Some (VSame j) -> wraps vs j k -> wraps vs i k.
(** What an argument adds to a sequence: of a sequence, its items as they are now. *)
Definition added (vs : list sobj) (a : jarg) : list jarg :=
  match a with
  | ArgStr _ => [a]
  | ArgObj i => match behind vs i with Some (VConcat l _) => l | _ => [a] end
  end.
Definition spec_add (i : nat) (vs : list sobj) (a : jarg) : list sobj :=
  update_at i (fun v => match v with VConcat l g => VConcat (l ++ added vs a) (g ++ [a]) | _ => v end) vs.
Definition spec_call (i : nat) (vs : list sobj) (k : jcall) : list sobj :=
  update_at i (fun v => match v with VEdit a l => VEdit a (l ++ [k]) | _ => v end) vs.

Definition spec_step (vs : list sobj) (op : jop) : list sobj :=
  match op with
  | ONewRaw v => vs ++ [VLeaf (XRaw v)]
  | ONewOriginal v n => vs ++ [VLeaf (XOriginal v n)]
  | ONewL2L v n o => vs ++ [VLeaf (XL2L v n o)]
  | ONewSms v n m o i => vs ++ [VLeaf (XSms v n m o i)]
  | ONewPrefix p a => vs ++ [VPrefix p a]
  | ONewReplace a => vs ++ [VEdit a []]
  | ONewConcat l => fold_left (spec_add (length vs)) l (vs ++ [VConcat [] []])
  | ONewCached j => vs ++ [VSame j]
  | OAdd i a => spec_add i vs a
  | OReplaceAt i a b t => spec_call i vs (JReplace a b t)
  | OInsertAt i a t => spec_call i vs (JInsert a t)
  | OSource _ | OSize _ | OHash _ _ | OMap _ _ _ | OIntern _ _ => vs
  end.
Definition meaning (ops : list jop) : list sobj := fold_left spec_step ops [].

(** The expression that an argument amounts to; none if it contains itself. *)
Inductive denotes (vs : list sobj) : jarg -> jexpr -> Prop :=
| de_str s : denotes vs (ArgStr s) (XStr s)
| de_leaf i e : nth_error vs i = Some (VLeaf e) -> denotes vs (ArgObj i) e
| de_prefix i p a e : nth_error vs i = Some (VPrefix p a) -> denotes vs a e -> denotes vs (ArgObj i) (XPrefix p e)
| de_edit i a l e : nth_error vs i = Some (VEdit a l) -> denotes vs a e -> denotes vs (ArgObj i) (XEdit e l)
| de_concat i l g es : nth_error vs i = Some (VConcat l g) -> denotes_all vs l es -> denotes vs (ArgObj i) (XConcat es)
| de_same i j e : nth_error vs i = Some (VSame j) -> denotes vs (ArgObj j) e -> denotes vs (ArgObj i) e
with denotes_all (vs : list sobj) : list jarg -> list jexpr -> Prop :=
| ds_nil : denotes_all vs [] []
| ds_cons a e l es : denotes vs a e -> denotes_all vs l es -> denotes_all vs (a :: l) (e :: es).
(** Not a CachedSource. *)
Definition fresh_reads (vs : list sobj) (i : nat) : Prop := forall j, nth_error vs i <> Some (VSame j).

(** The same source made on its own, by constructor calls in a new process. *)
Definition alone (e : jexpr) : jtree := snd (build cache_empty e).

(** What updateHash feeds: the arguments of a sequence as they are now, not its items. *)
Inductive hashes (vs : list sobj) : jarg -> jstr -> Prop :=
| ha_str s : hashes vs (ArgStr s) s
| ha_raw i v : nth_error vs i = Some (VLeaf (XRaw v)) -> hashes vs (ArgObj i) v
| ha_original i v n : nth_error vs i = Some (VLeaf (XOriginal v n)) -> hashes vs (ArgObj i) v
| ha_l2l i v n o : nth_error vs i = Some (VLeaf (XL2L v n o)) -> hashes vs (ArgObj i) (v ++ o)
| ha_sms i v n m o inner : nth_error vs i = Some (VLeaf (XSms v n m o inner)) -> hashes vs (ArgObj i) (v ++ o)
| ha_prefix i p a s : nth_error vs i = Some (VPrefix p a) -> hashes vs a s -> hashes vs (ArgObj i) (s ++ p)
| ha_edit i a l e s : nth_error vs i = Some (VEdit a l) -> denotes vs (ArgObj i) e -> js_source (alone e) = Some s ->
    hashes vs (ArgObj i) s
| ha_concat i l g s : nth_error vs i = Some (VConcat l g) -> hashes_all vs g s -> hashes vs (ArgObj i) s
| ha_same i j s : nth_error vs i = Some (VSame j) -> hashes vs (ArgObj j) s -> hashes vs (ArgObj i) s
with hashes_all (vs : list sobj) : list jarg -> jstr -> Prop :=
| hs_nil : hashes_all vs [] []
| hs_cons a s l t : hashes vs a s -> hashes_all vs l t -> hashes_all vs (a :: l) (s ++ t).

(** What may follow a call of sourceAndMap: further calls of the program, and reads of the
    object that was returned, in any order. *)
Inductive use := More (op : jop) | ReadField (f : field) | ReadText.
Definition read_of (u : use) : rop := match u with ReadField f => RGet f | _ => RSource end.
Fixpoint uses (st : jstate) (o : robj) (l : list use) : option (jstate * robj) :=
  match l with
  | [] => Some (st, o)
  | More op :: r => let* (st, _) := jstep st op in uses st o r
  | u :: r => uses st (snd (fst (rstep (js_cache st, o) (read_of u)))) r
  end.
