(** What a tree of sources attributes and emits, and which trees this is claimed for. *)
From Coq Require Import Permutation Sorted.
From Verif Require Import Base ModelSm ModelSources ModelTree SpecMap SpecView SpecAttr SpecNode SpecLeaf SpecSorted SpecReadable.

(** Mapped chunks have 1-based original lines. *)
Definition lined (x : leaf) : Prop :=
  match x with (_, Some _, Some (l, _), _) => (0 < l)%N | _ => True end.

Definition nlined (n : smnode) : Prop := Forall lined (leaves n).

(** The node for a generator, whose list is in the order of generated places. *)
Definition ordered (g : generator) : Prop :=
  vsorted (ml_list (g_mappings g)) /\ Forall small_col (ml_list (g_mappings g)) /\ gen_wf g.

(** A cell of a SourceMapSource whose map has the entries [es]. *)
Definition cell_entries (c : sm_cell) (es : list (place * option target)) : Prop :=
  match ce_gen c with
  | Some g => ordered g /\ (Permutation (map view (ml_list (g_mappings g))) es) /\ unambiguous es
  | None => exists d, ce_data c = Some d /\ readable d es
  end.

(** Trees on which node is defined: no string outside of a ConcatSource (source.rs:80
    panics there), and source maps that can be read. *)
Fixpoint usable (t : tree) : Prop :=
  match t with
  | TStr _ => False
  | TRaw _ | TOriginal _ _ _ | TL2L _ _ _ => True
  | TPrefix _ t | TReplace t _ => usable t
  | TConcat l =>
      (fix all (l : list tree) : Prop :=
         match l with
         | [] => True
         | x :: r => (match x with TStr _ => True | _ => usable x end) /\ all r
         end) l
  | TSms x => exists x' n, sms_node x = Some (x', n) /\ nlined n
  end.

(** A PrefixSource over a source that yields no chunk at all, or whose last chunk is empty
    although the text ends in a newline, is not covered by [node_text]. *)
Fixpoint prefix_fine (c m : bool) (t : tree) : Prop :=
  match t with
  | TPrefix _ t =>
      prefix_fine c m t /\
      forall n, t_node c m t = Some n ->
        leaves n <> [] /\ (ends_with NL (texts (leaves n)) = true -> last_empty (leaves n) = false)
  | TReplace t _ => prefix_fine c m t
  | TConcat l =>
      (fix all (l : list tree) : Prop :=
         match l with [] => True | x :: r => prefix_fine c m x /\ all r end) l
  | _ => True
  end.

(** The generator built by a walk of the source answers as [M] says. *)
Definition attributed (c m : bool) (t : tree) (M : marked) : Prop :=
  exists n code g, t_node c m t = Some n /\ to_string_with_generator n None None = Some (code, g) /\
    annotate (map view (ml_list (g_mappings g))) code = M.

(** The emitted pair of text and map answers as [M] says. *)
Definition emits (c m : bool) (t : tree) (M : marked) : Prop :=
  exists n code mp es, t_node c m t = Some n /\ to_string_with_source_map n None None = Some (code, mp) /\
    read_map (map_sources mp) (map_names mp) (map_mappings mp) = Some es /\
    annotate es code = M.

(** What is true of all chunks of the source. *)
Definition chunks (P : leaf -> Prop) (c m : bool) (t : tree) : Prop :=
  forall n, t_node c m t = Some n -> Forall P (leaves n).

Definition child_attr (c m : bool) (x : tree) (M : marked) : Prop :=
  match x with TStr s => M = mark None s | _ => attributed c m x M end.

(** Sources without empty chunks. *)
Fixpoint dense (t : tree) : Prop :=
  match t with
  | TStr _ => False
  | TRaw _ | TOriginal _ _ _ | TL2L _ _ _ => True
  | TPrefix _ t => dense t
  | TReplace _ _ => False
  | TConcat l =>
      (fix all (l : list tree) : Prop :=
         match l with
         | [] => True
         | x :: r => (match x with TStr s => s <> [] | _ => dense x end) /\ all r
         end) l
  | TSms x => exists es, cell_entries (sms_map x) es /\
      (sms_inner x = None \/
       exists ic ei, sms_inner x = Some ic /\ cell_entries ic ei /\ sms_applied x = false)
  end.

Definition dense_child (x : tree) : Prop := match x with TStr s => s <> [] | _ => dense x end.
