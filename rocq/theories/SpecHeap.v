(** Object graphs: edges, reachability, cycles, the tree seen from an object, questions
    and histories. *)
From Verif Require Import Base ModelString ModelVlq ModelSm ModelSlm ModelSources ModelTree ModelHeap.
Require Import Relations.

(** The sources an object refers to. *)
Definition items (o : obj) : list src :=
  match o with
  | OPrefix _ s | OReplace s _ => [s]
  | OConcat l => l
  | _ => []
  end.
Definition edge (h : heap) (i j : nat) : Prop := exists o, nth_error h i = Some o /\ In (SRef j) (items o).
Definition reaches (h : heap) : nat -> nat -> Prop := clos_refl_trans nat (edge h).
Definition on_cycle (h : heap) (j : nat) : Prop := clos_trans nat (edge h) j j.
Definition cyclic (h : heap) (i : nat) : Prop := exists j, reaches h i j /\ on_cycle h j.
(** No dangling handles (Rc keeps every object alive). *)
Definition closed (h : heap) : Prop := forall i j, edge h i j -> j < length h.

(** The tree seen from a source. *)
Inductive unfolds (h : heap) : src -> tree -> Prop :=
| u_str s : unfolds h (SStr s) (TStr s)
| u_raw i v : nth_error h i = Some (ORaw v) -> unfolds h (SRef i) (TRaw v)
| u_original i v vi n : nth_error h i = Some (OOriginal v vi n) -> unfolds h (SRef i) (TOriginal v vi n)
| u_l2l i v n o : nth_error h i = Some (OL2L v n o) -> unfolds h (SRef i) (TL2L v n o)
| u_prefix i p s t : nth_error h i = Some (OPrefix p s) -> unfolds h s t -> unfolds h (SRef i) (TPrefix p t)
| u_replace i s st t : nth_error h i = Some (OReplace s st) -> unfolds h s t -> unfolds h (SRef i) (TReplace t st)
| u_concat i l ts : nth_error h i = Some (OConcat l) -> unfolds_all h l ts -> unfolds h (SRef i) (TConcat ts)
| u_sms i x : nth_error h i = Some (OSms x) -> unfolds h (SRef i) (TSms x)
with unfolds_all (h : heap) : list src -> list tree -> Prop :=
| us_nil : unfolds_all h [] []
| us_cons s t l ts : unfolds h s t -> unfolds_all h l ts -> unfolds_all h (s :: l) (t :: ts).

(** The questions that can be asked, and the answers. *)
Inductive question := AskSource | AskSize | AskNode (columns module : bool) | AskLines (columns module : bool).
Inductive answer := GotText (s : str) | GotSize (n : nat) | GotNode (n : smnode) | GotLines (m : slm).

Definition rmap {A B} (f : A -> B) (r : res (heap * A)) : res (heap * B) :=
  do* (h, v) := r in Val (h, f v).
Definition put (h : heap) (i : nat) (q : question) : res (heap * answer) :=
  match q with
  | AskSource => rmap GotText (h_read source_alg h i)
  | AskSize => rmap GotSize (h_size h i)
  | AskNode c m => rmap GotNode (h_read (node_alg c m) h i)
  | AskLines c m => rmap GotLines (h_read (list_map_alg c m) h i)
  end.
(** The answer alone. *)
Definition reply (h : heap) (i : nat) (q : question) : res answer := do* (_, v) := put h i q in Val v.
(** The answer on a tree. *)
Definition t_answer (t : tree) (q : question) : option answer :=
  match q with
  | AskSource => let* s := t_source t in Some (GotText s)
  | AskSize => let* n := t_size t in Some (GotSize n)
  | AskNode c m => let* n := t_node c m t in Some (GotNode n)
  | AskLines c m => let* m := t_list_map c m t in Some (GotLines m)
  end.

(** Sequences of reads. *)
Inductive reads : heap -> heap -> Prop :=
| rd_none h : reads h h
| rd_one h i q h1 v h2 : put h i q = Val (h1, v) -> reads h1 h2 -> reads h h2.
(** Successful reads with questions of some kind. *)
Inductive reads_of (P : question -> Prop) : heap -> heap -> Prop :=
| ro_none h : reads_of P h h
| ro_one h i q h1 v h2 : P q -> put h i q = Val (h1, v) -> reads_of P h1 h2 -> reads_of P h h2.

(** Any history of reads of any object, new objects, and changes of objects outside [D]. *)
Inductive history (D : nat -> Prop) : heap -> heap -> Prop :=
| hi_none h : history D h h
| hi_read h i q h1 v h2 : put h i q = Val (h1, v) -> history D h1 h2 -> history D h h2
| hi_new h o h2 : history D (fst (h_new h o)) h2 -> history D h h2
| hi_add h i x h1 h2 : ~ D i -> h_add h i x = Val h1 -> history D h1 h2 -> history D h h2
| hi_replace h i a b t c d h1 h2 : ~ D i -> h_replace h i a b t c d = Val h1 -> history D h1 h2 -> history D h h2
| hi_insert h i a t c h1 h2 : ~ D i -> h_insert h i a t c = Val h1 -> history D h1 h2 -> history D h h2.

(** A SourceMapSource that answers the same whatever was asked before. *)
Inductive asked : sms -> sms -> Prop :=
| as_none x : asked x x
| as_node x y n z : sms_node x = Some (y, n) -> asked y z -> asked x z
| as_lines x m y l z : sms_list_map x m = Some (y, l) -> asked y z -> asked x z.
Definition steady (x : sms) : Prop :=
  forall y, asked x y ->
    (let* (_, n) := sms_node y in Some n) = (let* (_, n) := sms_node x in Some n) /\
    forall m, (let* (_, l) := sms_list_map y m in Some l) = (let* (_, l) := sms_list_map x m in Some l).
Definition steady_heap (h : heap) : Prop := forall i x, nth_error h i = Some (OSms x) -> steady x.
