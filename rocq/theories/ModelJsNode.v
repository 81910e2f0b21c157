(** Model of wasm-api/wasm-source-map/SourceNode.js: the class whose objects
    source.node(options) returns, and programs that make and join such nodes by hand. *)
From Verif Require Import Base ModelString ModelVlq ModelSm ModelSources ModelTree ModelWasm ModelJs ModelJsApi ModelJsResult ModelEnd ModelJsList.

(** What is handed to add, SourceNode.js:29-45: a string, one of the objects (by number),
    or something else, for which there is an exception (chunk.type of null and undefined;
    the misspelt aChunk in the message, 42, otherwise). *)
Inductive qarg := AStr (s : jstr) | AObj (v : nat) | ABad.

(** Calls.  New objects are numbered in the order of their creation; a constructor that
    throws makes none.  Arrays are given as the list of what is in them and in the arrays
    in them, in order: add(array) adds them one after the other (30-33).  A chunks that is
    no array is the list of that; null and undefined are the empty list (22-24).  An absent
    source is "" (12 asks whether it is truthy); [line] and [column] are u32, simplified to
    natural numbers.
    [QOf e columns module]: e.node(options) for an expression of sources, SourceAndMapMixin.js:8-16.
    [QResult]: toStringWithSourceMap({}).  [QOther]: other uses of StringCache. *)
Inductive qop :=
| QNew (line column : N) (src : jstr) (chunks : list qarg)
| QOf (e : jexpr) (columns module : bool)
| QAdd (v : nat) (chunks : list qarg)
| QFree (v : nat)
| QResult (v : nat)
| QOther (s : jstr) (checked : bool).

(** The objects, each with the wasm object it points to, no two with the same one.  None:
    ptr is 0 (moved or freed). *)
Definition qworld := (cache * list (option smnode))%type.
Inductive qout := QDone | QError | QMap (o : robj).

(** _MSourceNode::_add_string and _add_sourcenode, src/wasm_api/source_map/source_node.rs:29-35. *)
Definition node_add (n c : smnode) : smnode :=
  match n with
  | SmNode pos src name ch ct => SmNode pos src name (add_chunk ch (CNode c)) ct
  | SmStr s => SmStr s
  end.

(** add, SourceNode.js:29-45 and build/webpack_sources.js:1757-1778, for the object [self]
    (None: the one under construction), which points to [n].  An object that is added is
    moved.  If it is [self], its ptr is set to 0 before it is read again for the call:
    both are lost.  The results: what [self] points to afterwards, the objects, and whether
    there was no exception; what was added before the exception stays. *)
Fixpoint add_args (self : option nat) (n : smnode) (ws : list (option smnode)) (l : list qarg)
    : option smnode * list (option smnode) * bool :=
  match l with
  | [] => (Some n, ws, true)
  | AStr s :: r => add_args self (node_add n (SmStr (from_js s))) ws r
  | AObj u :: r =>
      if (match self with Some v => Nat.eqb u v | None => false end) then (None, ws, false)
      else
        match nth_error ws u with
        | Some (Some m) => add_args self (node_add n m) (set_nth u ws None) r
        | _ => (Some n, ws, false)
        end
  | ABad :: _ => (Some n, ws, false)
  end.

(** The constructor, SourceNode.js:10-27, and
    src/wasm_api/source_map/source_node.rs:14-27. *)
Definition node_start (c : cache) (line column : N) (src : jstr) : cache * smnode :=
  if empty src then (c, sn_new None None None None)
  else
    let '(c, i) := cache_add c src in
    (c, sn_new (Some (line, column)) (Some (Z.of_nat i)) None None).

Definition qstep (w : qworld) (op : qop) : qworld * qout :=
  let '(c, ws) := w in
  match op with
  | QNew line column src chunks =>
      let '(c, n) := node_start c line column src in
      match add_args None n ws chunks with
      | (Some n, ws, true) => (c, ws ++ [Some n], QDone)
      | (_, ws, _) => (c, ws, QError)
      end
  | QOf e columns module =>
      let '(c, t) := build c e in
      match t with
      | JStr _ | JRaw _ => (c, ws, QError)                 (* no such method *)
      | _ =>
          match t_node columns module (import t) with
          | Some n => (c, ws ++ [Some n], QDone)
          | None => (c, ws, QError)
          end
      end
  | QAdd v chunks =>
      match nth_error ws v with
      | Some (Some n) =>
          let '(n, ws, ok) := add_args (Some v) n ws chunks in
          (c, set_nth v ws n, if ok then QDone else QError)
      | Some None => (w, if empty chunks then QDone else QError)   (* add([]) does not look at ptr *)
      | None => (w, QError)
      end
  | QFree v =>                                             (* build/webpack_sources.js:1728-1732 *)
      match nth_error ws v with
      | Some (Some _) => (c, set_nth v ws None, QDone)
      | _ => (w, QError)
      end
  | QResult v =>                                           (* SourceNode.js:47-50 *)
      match nth_error ws v with
      | Some (Some n) =>
          match node_result n with
          | Some r => (w, QMap (robj_new r true))
          | None => (w, QError)
          end
      | _ => (w, QError)
      end
  | QOther s checked =>
      (fst (if checked then cache_add c s else cache_add_unchecked c s), ws, QDone)
  end.
Fixpoint qrun (w : qworld) (l : list qop) : qworld * list qout :=
  match l with
  | [] => (w, [])
  | op :: r =>
      let '(w, a) := qstep w op in
      let '(w, out) := qrun w r in
      (w, a :: out)
  end.
