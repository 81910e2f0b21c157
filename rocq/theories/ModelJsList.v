(** Model of wasm-api/wasm-source-list-map/: the classes with which line maps are made by
    hand, and programs that use them. *)
From Verif Require Import Base ModelString ModelVlq ModelSm ModelSlm ModelSources ModelTree ModelWasm ModelJs ModelJsApi ModelJsResult ModelEnd.

(** The JavaScript objects CodeNode, SourceNode, SingleLineNode (CodeNode.js:6-12,
    SourceNode.js:7-31, SingleLineNode.js:7-31) and SourceListMap (SourceListMap.js:14-30),
    each with the wasm object it points to.  No two of them point to the same one.  None:
    ptr is 0 (never set, moved or freed), or is an object, which wasm takes for 0. *)
Inductive lwrap :=
| WCode (p : option str)
| WSource (p : option piece)
| WSingle (p : option piece)
| WList (p : option slm).

(** What is handed to add and prepend: a string or one of the objects, by number. *)
Inductive larg := GStr (s : jstr) | GObj (v : nat).

(** SourceListMap.prototype.MappingFunction, SourceListMap.js:112-117. *)
Inductive lfun := MTest | MIdentical | MPrefix (prefix : jstr) | MReplace.

(** Calls.  New objects are numbered in the order of their creation.  An absent source or
    originalSource is "" (SourceListMap.js:34 etc. only ask whether the source is truthy);
    originalSource undefined next to a source is not modelled (StringCache would store it).
    [LOf e columns module]: e.listMap(options) for an expression of sources, SourceAndMapMixin.js:18-26.
    [LOther]: other uses of StringCache. *)
Inductive lop :=
| LNewCode (code : jstr)
| LNewSource (code src orig : jstr) (line : N)
| LNewSingle (code src orig : jstr) (line : N)
| LNewList (g : option larg) (src orig : jstr)
| LNewArray (l : list larg)
| LFrom (code : jstr) (m : jmap)
| LOf (e : jexpr) (columns module : bool)
| LAdd (v : nat) (g : larg) (src orig : jstr)
| LPrepend (v : nat) (g : larg) (src orig : jstr)
| LMapCode (v : nat) (f : lfun)
| LFree (v : nat)
| LString (v : nat)
| LResult (v : nat)
| LOther (s : jstr) (checked : bool)
| LClone (v : nat).
(** [OError]: an exception. *)
Inductive lout := ODone | OError | OText (s : jstr) | OResult (o : robj).

Definition lworld := (cache * list lwrap)%type.
Definition empty {A} (l : list A) : bool := match l with [] => true | _ => false end.
Fixpoint set_nth {A} (n : nat) (l : list A) (x : A) : list A :=
  match l, n with
  | [], _ => []
  | _ :: r, O => x :: r
  | y :: r, S n => y :: set_nth n r x
  end.

(** NodeVec([x]) and get_raw_first, utils.js:15-39, wasm_containers.rs:105-131 and 155-157:
    a copy of what the object points to; an exception if that is nothing. *)
Definition arg_node (ws : list lwrap) (g : larg) : option slm_node :=
  match g with
  | GStr s => Some (LStr (from_js s))
  | GObj v =>
      match nth_error ws v with
      | Some (WCode (Some s)) => Some (LCode s)
      | Some (WSource (Some p)) => Some (LSource p)
      | Some (WSingle (Some p)) => Some (LSingle p)
      | Some (WList (Some m)) => Some (LMap m)
      | _ => None
      end
  end.

(** The strings of a source, SourceListMap.js:34-36, SourceNode.js:12-16. *)
Definition pass_source (c : cache) (src orig : jstr) : cache * option Z * option Z :=
  if empty src then (c, None, None)
  else
    let '(c, i) := cache_add c src in
    let '(c, j) := cache_add_unchecked c orig in
    (c, Some (Z.of_nat i), Some (Z.of_nat j)).

(** startingLine || 1; as u32, simplified to natural numbers. *)
Definition start_line (line : N) : N := if (line =? 0)%N then 1%N else line.

(** add and prepend, SourceListMap.js:32-57: the arguments are dealt with before wasm is
    asked for the list. *)
Definition list_call (f : slm -> slm_node -> option Z -> option Z -> option slm)
    (w : lworld) (o : option slm) (g : larg) (src orig : jstr) : cache * option slm :=
  let '(c, ws) := w in
  match arg_node ws g with
  | None => (c, None)
  | Some n =>
      let '(c, si, oi) := pass_source c src orig in
      (c, let* m := o in f m n si oi)
  end.
Definition update (w : lworld) (v : nat) (f : slm -> slm_node -> option Z -> option Z -> option slm)
    (g : larg) (src orig : jstr) : lworld * lout :=
  match nth_error (snd w) v with
  | Some (WList o) =>
      match list_call f w o g src orig with
      | (c, Some m) => (c, set_nth v (snd w) (WList (Some m)), ODone)
      | (c, None) => (c, snd w, OError)
      end
  | _ => (w, OError)
  end.

(** mapGeneratedCode, SourceListMap.js:59-98 and wasm_api/source_list_map/source_list_map.rs:53-82;
    the list it is called on is moved.  There is no wasm function for MReplace. *)
Definition run_map (f : lfun) (m : slm) : option slm :=
  match f with
  | MTest => let* (_, m) := map_generated_code test_mapfun tt m in Some m
  | MIdentical => let* (_, m) := map_generated_code identical_mapfun tt m in Some m
  | MPrefix p => let* (_, m) := map_generated_code (wasm_prefix_mapfun (from_js p)) tt m in Some m
  | MReplace => None
  end.

Definition lstep (w : lworld) (op : lop) : lworld * lout :=
  let '(c, ws) := w in
  match op with
  | LNewCode code =>
      (c, ws ++ [WCode (if empty code then None else Some (from_js code))], ODone)
  | LNewSource code src orig line =>
      if empty code then (c, ws ++ [WSource None], ODone)
      else
        let '(c, si, oi) := pass_source c src orig in
        (c, ws ++ [WSource (Some (piece_new (from_js code) si oi (start_line line)))], ODone)
  | LNewSingle code src orig line =>
      if empty code then (c, ws ++ [WSingle None], ODone)
      else if empty src then (c, ws, OError)               (* SingleLineNode.js:24: misspelt *)
      else
        let '(c, si, oi) := pass_source c src orig in
        (c, ws ++ [WSingle (Some (piece_new (from_js code) si oi (start_line line)))], ODone)
  | LNewList g src orig =>
      match g with
      | None => if empty src then (c, ws ++ [WList (Some [])], ODone) else (c, ws, OError)
      | Some g =>
          if (match g with GStr s => empty s | GObj _ => false end) && empty src
          then (c, ws ++ [WList (Some [])], ODone)
          else
            match list_call slm_add w (Some []) g src orig with
            | (c, Some m) => (c, ws ++ [WList (Some m)], ODone)
            | (c, None) => (c, ws, OError)
            end
      end
  | LNewArray l =>                                         (* SourceListMap.js:18-20: .ptr missing *)
      if forallb (fun g => is_some (arg_node ws g)) l then (c, ws ++ [WList None], ODone)
      else (c, ws, OError)
  | LFrom code m =>                                        (* fromStringWithSourceMap.js:8-24 *)
      let '(c, ss) := add_list cache_add c (jm_sources m) in
      let '(c, ks) := add_list cache_add_unchecked c (jm_contents m) in
      match slm_from_string (from_js code) ss ks (from_js (jm_mappings m)) with
      | Some l => (c, ws ++ [WList (Some l)], ODone)
      | None => (c, ws, OError)
      end
  | LOf e columns module =>
      let '(c, t) := build c e in
      match t with
      | JStr _ | JRaw _ => (c, ws, OError)                 (* no such method *)
      | _ =>
          match t_list_map columns module (import t) with
          | Some l => (c, ws ++ [WList (Some l)], ODone)
          | None => (c, ws, OError)
          end
      end
  | LAdd v g src orig => update w v slm_add g src orig
  | LPrepend v g src orig => update w v slm_prepend g src orig
  | LMapCode v f =>
      match nth_error ws v, f with
      | Some (WList (Some m)), MReplace => (w, OError)
      | Some (WList (Some m)), _ =>
          match run_map f m with
          | Some m => (c, set_nth v ws (WList None) ++ [WList (Some m)], ODone)
          | None => (c, set_nth v ws (WList None), OError)
          end
      | _, _ => (w, OError)
      end
  | LClone v => (w, OError)                                (* CodeNode.js:14-18, SourceNode.js:32-36, SingleLineNode.js:32-36: the glue exports no such function; lists have no clone *)
  | LFree v =>
      match nth_error ws v with
      | Some (WCode (Some _)) => (c, set_nth v ws (WCode None), ODone)
      | Some (WSource (Some _)) => (c, set_nth v ws (WSource None), ODone)
      | Some (WSingle (Some _)) => (c, set_nth v ws (WSingle None), ODone)
      | Some (WList (Some _)) => (c, set_nth v ws (WList None), ODone)
      | _ => (w, OError)
      end
  | LString v =>                                           (* SourceListMap.js:100-102 *)
      match nth_error ws v with
      | Some (WList (Some m)) => (w, OText (to_js (slm_to_string m)))
      | _ => (w, OError)
      end
  | LResult v =>                                           (* SourceListMap.js:104-107 *)
      match nth_error ws v with
      | Some (WList (Some m)) => (w, OResult (robj_new (list_result m) false))
      | _ => (w, OError)
      end
  | LOther s checked =>
      (fst (if checked then cache_add c s else cache_add_unchecked c s), ws, ODone)
  end.
Fixpoint lrun (w : lworld) (l : list lop) : lworld * list lout :=
  match l with
  | [] => (w, [])
  | op :: r =>
      let '(w, a) := lstep w op in
      let '(w, out) := lrun w r in
      (w, a :: out)
  end.
