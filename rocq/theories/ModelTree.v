(** Model of src/source.rs and src/concat_source.rs: the methods source, size, node
    and list_map on trees of sources, i.e. without sharing.  Shared and mutable
    objects (Rc<RefCell<_>>) are modelled in ModelHeap.v on top of the same
    per-class functions. *)
From Verif Require Import Base ModelString ModelVlq ModelSm ModelSlm ModelSources.

(** enum Source, source.rs:15-25, with the objects inlined. *)
Inductive tree :=
| TStr (s : str)                                   (* SString *)
| TRaw (value : str)
| TOriginal (value : str) (value_idx name : Z)
| TL2L (value : str) (name orig : Z)
| TPrefix (prefix : str) (t : tree)
| TReplace (t : tree) (st : rstate)
| TConcat (children : list tree)
| TSms (x : sms).

(** What one method of SourceTrait (source.rs:85-92) does in each class: the body of
    the method, given the result of the same method on the wrapped sources.  [a_str]
    is the SString case of the dispatch (source.rs:38, 66, 80); in a ConcatSource a
    string child is treated separately, hence the sum type in [a_concat]. *)
Record alg (A : Type) := mk_alg {
  a_str : str -> option A;
  a_raw : str -> option A;
  a_original : str -> Z -> Z -> option A;
  a_l2l : str -> Z -> Z -> option A;
  a_prefix : str -> A -> option A;
  a_replace : list repl -> A -> option A;          (* replacements are sorted *)
  a_concat : list (str + A) -> option A;
  a_sms : sms -> option (sms * A) }.
Arguments a_str {A}. Arguments a_raw {A}. Arguments a_original {A}. Arguments a_l2l {A}.
Arguments a_prefix {A}. Arguments a_replace {A}. Arguments a_concat {A}. Arguments a_sms {A}.

(** fn source of every class: raw_source.rs:20-22, original_source.rs:33-35,
    line_to_line_mapped_source.rs:24-26, prefix_source.rs:67-73, replace_source.rs:98-101,
    concat_source.rs:29-35, source_map_source.rs:164-166. *)
Definition source_alg : alg str :=
  mk_alg str
    (fun s => Some s)
    (fun v => Some v)
    (fun v _ _ => Some v)
    (fun v _ _ => Some v)
    prefix_source
    replace_text
    (fun l => Some (flat_map (fun x => match x with inl s => s | inr s => s end) l))
    (fun x => Some (x, sms_value x)).

(** fn node of every class; ConcatSource::node, concat_source.rs:61-79. *)
Definition node_alg (columns module : bool) : alg smnode :=
  mk_alg smnode
    (fun _ => None)
    (fun v => Some (raw_node v))
    (fun v vi name => original_node v vi name columns)
    (fun v name orig => l2l_node v name orig)
    prefix_node
    replace_node
    (fun l => Some (sn_new None None None
                 (Some (CVec (map (fun x => match x with inl s => SmStr s | inr n => n end) l)))))
    sms_node.

(** The loop of ConcatSource::list_map, concat_source.rs:45-59. *)
Fixpoint concat_list_map (l : list (str + slm)) (m : slm) : option slm :=
  match l with
  | [] => Some m
  | x :: r =>
      let* m := slm_add m (match x with inl s => LStr s | inr c => LMap c end) None None in
      concat_list_map r m
  end.

(** fn list_map of every class. *)
Definition list_map_alg (columns module : bool) : alg slm :=
  mk_alg slm
    (fun _ => None)
    raw_list_map
    original_list_map
    l2l_list_map
    prefix_list_map
    replace_list_map
    (fun l => concat_list_map l [])
    (fun x => sms_list_map x module).

(** The dispatch of source.rs:27-83 on a tree, for any of the methods. *)
Section Fold.
  Context {A : Type} (a : alg A).
  Fixpoint fold_tree (t : tree) : option A :=
    match t with
    | TStr s => a_str a s
    | TRaw v => a_raw a v
    | TOriginal v vi n => a_original a v vi n
    | TL2L v n o => a_l2l a v n o
    | TPrefix p t => let* x := fold_tree t in a_prefix a p x
    | TReplace t st => let* x := fold_tree t in a_replace a (rs_repls (sort_replacements st)) x
    | TConcat l =>
        let* xs :=
          (fix go (l : list tree) : option (list (str + A)) :=
             match l with
             | [] => Some []
             | x :: r =>
                 let* y := (match x with
                            | TStr s => Some (inl s)
                            | _ => let* v := fold_tree x in Some (inr v)
                            end) in
                 let* ys := go r in
                 Some (y :: ys)
             end) l in
        a_concat a xs
    | TSms x => let* (_, v) := a_sms a x in Some v
    end.
End Fold.

Definition t_source (t : tree) : option str := fold_tree source_alg t.
Definition t_node (columns module : bool) (t : tree) : option smnode :=
  fold_tree (node_alg columns module) t.
Definition t_list_map (columns module : bool) (t : tree) : option slm :=
  fold_tree (list_map_alg columns module) t.

(** fn size: leaf classes return the byte length (raw_source.rs:24-26,
    original_source.rs:29-31, line_to_line_mapped_source.rs:28-30,
    source_map_source.rs:168-170, SString in source.rs:52), ConcatSource adds up
    (concat_source.rs:37-43), the others use the default source().len()
    (source.rs:87-89). *)
Fixpoint t_size (t : tree) : option nat :=
  match t with
  | TStr s => Some (blen s)
  | TRaw v => Some (blen v)
  | TOriginal v _ _ => Some (blen v)
  | TL2L v _ _ => Some (blen v)
  | TPrefix _ _ | TReplace _ _ => let* s := t_source t in Some (blen s)
  | TConcat l =>
      (fix go (l : list tree) : option nat :=
         match l with
         | [] => Some 0
         | x :: r => let* n := t_size x in let* m := go r in Some (n + m)
         end) l
  | TSms x => Some (blen (sms_value x))
  end.

(** sourceAndMap({columns: true}) and ({columns: false}) of wasm-api/SourceAndMapMixin.js:51-72
    down to the Rust results (file name "x" is only attached in JavaScript). *)
Definition source_and_column_map (module : bool) (t : tree) : option (str * source_map) :=
  let* n := t_node true module t in to_string_with_source_map n None None.
Definition source_and_line_map (module : bool) (t : tree) : option (str * source_map) :=
  let* m := t_list_map false module t in Some (slm_to_string_with_source_map m None).

(** ConcatSource::new and add, concat_source.rs:13-26: adding a ConcatSource appends
    its children. *)
Definition concat_new : list tree := [].
Definition concat_add (children : list tree) (item : tree) : list tree :=
  match item with
  | TConcat l => children ++ l
  | _ => children ++ [item]
  end.
