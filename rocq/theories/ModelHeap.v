(** Model of shared, mutable source objects: Rc<RefCell<_>> handles (source.rs:15-25)
    and the operations of src/wasm_api/ on them. *)
From Verif Require Import Base ModelString ModelVlq ModelSm ModelSlm ModelSources ModelTree.

(** A Source value (source.rs:15-25): a string or a shared handle. *)
Inductive src := SStr (s : str) | SRef (i : nat).

(** The objects behind the handles. *)
Inductive obj :=
| ORaw (value : str)
| OOriginal (value : str) (value_idx name : Z)
| OL2L (value : str) (name orig : Z)
| OPrefix (prefix : str) (s : src)
| OReplace (s : src) (st : rstate)
| OConcat (children : list src)
| OSms (x : sms).

Definition heap := list obj.

Fixpoint h_set (h : heap) (i : nat) (o : obj) : heap :=
  match h, i with
  | [], _ => []
  | _ :: r, O => o :: r
  | x :: r, S i => x :: h_set r i o
  end.

(** Outcome of a read: a value, a panic (among others: already borrowed), or the
    artificial lack of fuel (shown impossible for the fuel supplied by [h_read]). *)
Inductive res (A : Type) := Val (a : A) | Panic | NoFuel.
Arguments Val {A}. Arguments Panic {A}. Arguments NoFuel {A}.

Definition rbind {A B} (m : res A) (f : A -> res B) : res B :=
  match m with Val a => f a | Panic => Panic | NoFuel => NoFuel end.
Notation "'do*' p ':=' m 'in' k" := (rbind m (fun p => k))
  (at level 200, p pattern, m at level 100, k at level 200, right associativity).
Definition lift {A} (o : option A) : res A :=
  match o with Some a => Val a | None => Panic end.

Definition is_busy (busy : list nat) (i : nat) : bool := existsb (Nat.eqb i) busy.

(** Reading through handles, source.rs:27-83: every handle is borrowed mutably
    (borrow_mut) while the method of its object runs, so meeting it again is a panic.
    [busy] is the set of objects currently borrowed.
    Simplifications: in ReplaceSource::source the sort happens after the wrapped source
    was read, in node/list_map before; as the object is borrowed meanwhile nobody can
    observe the difference, and the model always sorts afterwards.  After a panic no
    further behaviour is modelled. *)
Section Eval.
  Context {A : Type} (a : alg A).
  Fixpoint h_eval (fuel : nat) (busy : list nat) (h : heap) (s : src) : res (heap * A) :=
    match s with
    | SStr t => do* v := lift (a_str a t) in Val (h, v)
    | SRef i =>
        match fuel with
        | O => NoFuel
        | S f =>
            if is_busy busy i then Panic
            else
              do* o := lift (nth_error h i) in
              match o with
              | ORaw v => do* x := lift (a_raw a v) in Val (h, x)
              | OOriginal v vi n => do* x := lift (a_original a v vi n) in Val (h, x)
              | OL2L v n og => do* x := lift (a_l2l a v n og) in Val (h, x)
              | OPrefix p s =>
                  do* (h, x) := h_eval f (i :: busy) h s in
                  do* y := lift (a_prefix a p x) in
                  Val (h, y)
              | OReplace s st =>
                  do* (h, x) := h_eval f (i :: busy) h s in
                  let st := sort_replacements st in
                  do* y := lift (a_replace a (rs_repls st) x) in
                  Val (h_set h i (OReplace s st), y)
              | OConcat l =>
                  do* (h, xs) :=
                    (fix go (h : heap) (l : list src) : res (heap * list (str + A)) :=
                       match l with
                       | [] => Val (h, [])
                       | x :: r =>
                           do* (h, y) :=
                             (match x with
                              | SStr s => Val (h, inl s)
                              | _ => do* (h, v) := h_eval f (i :: busy) h x in Val (h, inr v)
                              end) in
                           do* (h, ys) := go h r in
                           Val (h, y :: ys)
                       end) h l in
                  do* y := lift (a_concat a xs) in
                  Val (h, y)
              | OSms x =>
                  do* (x, v) := lift (a_sms a x) in
                  Val (h_set h i (OSms x), v)
              end
        end
    end.
End Eval.

(** size on handles: concat_source.rs:37-43, the default method source.rs:87-89 (the
    object is borrowed while its own source method runs), leaf classes as in [t_size]. *)
Fixpoint h_size_eval (fuel : nat) (busy : list nat) (h : heap) (s : src) : res (heap * nat) :=
  match s with
  | SStr t => Val (h, blen t)
  | SRef i =>
      match fuel with
      | O => NoFuel
      | S f =>
          if is_busy busy i then Panic
          else
            do* o := lift (nth_error h i) in
            match o with
            | ORaw v => Val (h, blen v)
            | OOriginal v _ _ => Val (h, blen v)
            | OL2L v _ _ => Val (h, blen v)
            | OPrefix _ _ | OReplace _ _ =>
                do* (h, t) := h_eval source_alg (S f) busy h (SRef i) in Val (h, blen t)
            | OConcat l =>
                (fix go (h : heap) (l : list src) : res (heap * nat) :=
                   match l with
                   | [] => Val (h, 0)
                   | x :: r =>
                       do* (h, n) := h_size_eval f (i :: busy) h x in
                       do* (h, m) := go h r in
                       Val (h, n + m)
                   end) h l
            | OSms x => Val (h, blen (sms_value x))
            end
      end
  end.

(** Top-level reads: the _source / _size / _node_bool_bool / _list_map_bool_bool methods of
    src/wasm_api/*.rs (e.g. concat_source.rs:57-71).  No object is borrowed. *)
Definition h_read {A} (a : alg A) (h : heap) (i : nat) : res (heap * A) :=
  h_eval a (S (length h)) [] h (SRef i).
Definition h_size (h : heap) (i : nat) : res (heap * nat) :=
  h_size_eval (S (length h)) [] h (SRef i).

(** Mutations offered by src/wasm_api: creating an object, ConcatSource.add
    (wasm_api/concat_source.rs:26-55, concat_source.rs:19-25), ReplaceSource.replace
    and insert (wasm_api/replace_source.rs:78-93). *)
Definition h_new (h : heap) (o : obj) : heap * nat := (h ++ [o], length h).

Definition h_add (h : heap) (i : nat) (item : src) : res heap :=
  match nth_error h i with
  | Some (OConcat l) =>
      match item with
      | SRef j =>
          if Nat.eqb i j then Panic          (* borrow() of a mutably borrowed object *)
          else
            match nth_error h j with
            | Some (OConcat l') => Val (h_set h i (OConcat (l ++ l')))
            | Some _ => Val (h_set h i (OConcat (l ++ [item])))
            | None => Panic
            end
      | SStr _ => Val (h_set h i (OConcat (l ++ [item])))
      end
  | _ => Panic
  end.

Definition h_replace (h : heap) (i : nat) (start end_ : Z) (text : str) (ord_s ord_e : Z)
  : res heap :=
  match nth_error h i with
  | Some (OReplace s st) =>
      Val (h_set h i (OReplace s (rs_replace st start end_ text ord_s ord_e)))
  | _ => Panic
  end.

Definition h_insert (h : heap) (i : nat) (pos : Z) (text : str) (ord : Z) : res heap :=
  match nth_error h i with
  | Some (OReplace s st) => Val (h_set h i (OReplace s (rs_insert st pos text ord)))
  | _ => Panic
  end.
