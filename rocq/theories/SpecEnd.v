(** What an expression of JavaScript sources says about its characters, in terms of the
    strings it was made of. *)
From Verif Require Import Base SpecText SpecMap SpecAttr SpecList ModelJs ModelJsApi ModelJsResult SpecJs ModelEnd.

(** Numbers for strings: attributions are written with numbers, [nu] tells which string has
    which number. *)
Definition numbering (nu : jstr -> Z) : Prop := forall a b, nu a = nu b -> a = b.

(** What a consumer of a map reads, in these numbers. *)
Definition reads_as (nu : jstr -> Z) (sources names : list jstr) (mappings : jstr)
  : option (list (place * option target)) :=
  read_map (map nu sources) (map nu names) mappings.
Definition map_says (nu : jstr -> Z) (m : jmap) := reads_as nu (jm_sources m) (jm_names m) (jm_mappings m).

(** Every character of the text of [e] with its original place. *)
Fixpoint marks (nu : jstr -> Z) (e : jexpr) : option marked :=
  match e with
  | XStr v | XRaw v => Some (mark None v)
  | XOriginal v name => Some (mark_tokens advance (nu name) (1, 0)%Z (tokens v))
  | XL2L v name _ => Some (mark_lines (nu name) 1 v)
  | XPrefix p e => let* M := marks nu e in Some (mprefixed p M)
  | XEdit _ _ => None
  | XConcat l =>
      (fix go l :=
         match l with
         | [] => Some []
         | x :: r => let* M := marks nu x in let* N := go r in Some (M ++ N)
         end) l
  | XSms v name m _ None => let* es := map_says nu m in Some (annotate es v)
  | XSms v name m _ (Some inner) =>
      let* es := map_says nu m in
      let* ei := map_says nu inner in
      Some (map (fun x => (fst x, through (Some (nu name)) ei (snd x))) (annotate es v))
  end.

(** A map that can be read in one way only: sources and names are listed once, the numbers
    fit 32 bits, the indices are in range, no two segments for a place disagree. *)
Definition small_seg (s : seg) : Prop :=
  (0 <= sg_col s < 2147483648)%Z /\
  match sg_orig s with
  | None => True
  | Some (a, b, c, n) => (0 <= a < 4294967296 /\ 0 <= b < 4294967296 /\ 0 <= c < 4294967296 /\
                          match n with Some n => 0 <= n < 4294967296 | None => True end)%Z
  end.
Definition in_range (ns nn : nat) (s : seg) : Prop :=
  match sg_orig s with
  | None => True
  | Some (a, _, _, n) => (a < Z.of_nat ns /\ match n with Some n => n < Z.of_nat nn | None => True end)%Z
  end.
Definition sound_map (m : jmap) : Prop :=
  NoDup (jm_sources m) /\ NoDup (jm_names m) /\ plain (jm_mappings m) /\
  exists segs, decode (jm_mappings m) = Some segs /\ Forall small_seg segs /\
    Forall (in_range (length (jm_sources m)) (length (jm_names m))) segs /\
    forall s s', In s segs -> In s' segs -> sg_line s = sg_line s' -> sg_col s = sg_col s' -> sg_orig s = sg_orig s'.

(** Expressions for which the attribution is exact: texts without surrogates, original
    sources in ASCII, sound maps; no ReplaceSource, and strings only in ConcatSources. *)
Fixpoint exact_expr (e : jexpr) : Prop :=
  match e with
  | XStr _ => False
  | XRaw v => plain v
  | XOriginal v _ => forallb is_ascii v = true /\ crlf_only v = true
  | XL2L v _ _ => plain v
  | XPrefix p e => plain p /\ exact_expr e
  | XEdit _ _ => False
  | XConcat l =>
      (fix all l :=
         match l with
         | [] => True
         | x :: r => (match x with XStr s => s <> [] /\ plain s | _ => exact_expr x end) /\ all r
         end) l
  | XSms v _ m _ inner => plain v /\ sound_map m /\ match inner with Some i => sound_map i | None => True end
  end.

(** The source names and names that occur. *)
Fixpoint zip (a b : list jstr) : list (jstr * jstr) :=
  match a, b with x :: a, y :: b => (x, y) :: zip a b | _, _ => [] end.
Fixpoint sources_in (e : jexpr) : list jstr :=
  match e with
  | XStr _ | XRaw _ => []
  | XOriginal _ n | XL2L _ n _ => [n]
  | XPrefix _ e | XEdit e _ => sources_in e
  | XConcat l => flat_map sources_in l
  | XSms _ _ m _ i => jm_sources m ++ match i with Some i => jm_sources i | None => [] end
  end.
Fixpoint names_in (e : jexpr) : list jstr :=
  match e with
  | XStr _ | XRaw _ | XOriginal _ _ | XL2L _ _ _ => []
  | XPrefix _ e | XEdit e _ => names_in e
  | XConcat l => flat_map names_in l
  | XSms _ _ m _ i => jm_names m ++ match i with Some i => jm_names i | None => [] end
  end.
(** The contents given for sources, in the order of the text. *)
Fixpoint contents_given (e : jexpr) : list (jstr * jstr) :=
  match e with
  | XStr _ | XRaw _ => []
  | XOriginal v n => [(n, v)]
  | XL2L _ n o => [(n, o)]
  | XPrefix _ e | XEdit e _ => contents_given e
  | XConcat l => flat_map contents_given l
  | XSms _ n m o i =>
      zip (jm_sources m) (jm_contents m) ++
      match i with
      | Some i => match o with [] => [] | _ => [(n, o)] end ++ zip (jm_sources i) (jm_contents i)
      | None => []
      end
  end.
(** The first one for [s]. *)
Fixpoint first_content (l : list (jstr * jstr)) (s : jstr) : option jstr :=
  match l with
  | [] => None
  | (s', k) :: r => if list_eq_dec N.eq_dec s s' then Some k else first_content r s
  end.
(** The contents of a list of sources; those without one are left out. *)
Definition contents_of (e : jexpr) (sources : list jstr) : list jstr :=
  flat_map (fun s => match first_content (contents_given e) s with Some k => [k] | None => [] end) sources.

(** Reads of a result, and other use of StringCache: nothing is assigned, wrapped or cleared. *)
Definition quiet (op : rop) : Prop :=
  match op with RGet _ | RSource | ROther _ _ => True | _ => False end.

(** ** columns: false *)

(** Every character with its original line; [module] as in the options. *)
Definition line_says (nu : jstr -> Z) (m : jmap) (v : jstr) : option marked :=
  let* segs := decode (jm_mappings m) in
  Some (attribute (map nu (jm_sources m)) segs 0 None (cut_lines v)).
Fixpoint line_marks (nu : jstr -> Z) (md : bool) (e : jexpr) : option marked :=
  match e with
  | XStr v | XRaw v => Some (mark None v)
  | XOriginal v name | XL2L v name _ => Some (mark_lines (nu name) 1 v)
  | XPrefix p e => let* M := line_marks nu md e in Some (mprefixed p M)
  | XEdit _ _ => None
  | XConcat l =>
      (fix go l :=
         match l with
         | [] => Some []
         | x :: r => let* M := line_marks nu md x in let* N := go r in Some (M ++ N)
         end) l
  | XSms v name m _ _ => if md then line_says nu m v else Some (mark_lines (nu name) 1 v)
  end.
(** No ReplaceSource and no PrefixSource. *)
Fixpoint unwrapped (e : jexpr) : Prop :=
  match e with
  | XPrefix _ _ | XEdit _ _ => False
  | XConcat l => (fix all l := match l with [] => True | x :: r => unwrapped x /\ all r end) l
  | _ => True
  end.
(** The texts its ConcatSources put together. *)
Fixpoint leaf_texts (e : jexpr) : list jstr :=
  match e with
  | XStr v | XRaw v | XOriginal v _ | XL2L v _ _ | XSms v _ _ _ _ => [v]
  | XPrefix p e => [prefixed p (concat (leaf_texts e))]
  | XEdit e h => [edited (jedits h) (concat (leaf_texts e))]
  | XConcat l => flat_map leaf_texts l
  end.
(** The lines of one source, in order. *)
Fixpoint one_leaf (md : bool) (e : jexpr) : Prop :=
  match e with
  | XStr _ | XConcat _ => False
  | XRaw _ | XOriginal _ _ | XL2L _ _ _ => True
  | XSms _ _ _ _ _ => md = false
  | XPrefix _ e | XEdit e _ => one_leaf md e
  end.
Definition closed (md : bool) (e : jexpr) : Prop := one_leaf md e \/ ends_with NL (concat (leaf_texts e)) = true.
(** An edit inside a line: it brings in and takes away no newlines, and does not start
    right behind one. *)
Definition within (s : jstr) (x : edit) : Prop :=
  ~ In NL (e_text x) /\ (e_from x <= Z.of_nat (length s))%Z /\
  ((0 < e_from x)%Z -> nth_error s (Z.to_nat (e_from x - 1)) <> Some NL) /\
  forall j, covers x j = true -> nth_error s j <> Some NL.
(** What a PrefixSource may be put around, if the texts inside end where lines end:
    SourceMapSources do not end with a newline; PrefixSources and ReplaceSources inside are
    of one source or end with a newline; edits are inside lines, and do not empty the last one. *)
Fixpoint on_lines (md : bool) (e : jexpr) : Prop :=
  match e with
  | XStr _ | XRaw _ | XOriginal _ _ | XL2L _ _ _ => True
  | XSms v _ _ _ _ => md = true -> v <> [] /\ ends_with NL v = false
  | XPrefix _ e => closed md e
  | XEdit e h => on_lines md e /\ at_line_ends (leaf_texts e) /\ closed md e /\
      Forall (within (concat (leaf_texts e))) (jedits h) /\
      ends_with NL (edited (jedits h) (concat (leaf_texts e))) = ends_with NL (concat (leaf_texts e))
  | XConcat l => (fix all l := match l with [] => True | x :: r => on_lines md x /\ all r end) l
  end.
(** Texts without surrogates and sound maps; a PrefixSource only around texts that end where
    lines end (see C08_prefix_refuted, C59_prefix_refuted for others). *)
Fixpoint line_expr (md : bool) (e : jexpr) : Prop :=
  match e with
  | XStr _ => False
  | XRaw v | XOriginal v _ | XL2L v _ _ => plain v
  | XPrefix p e => plain p /\ ~ In NL p /\ on_lines md e /\
      at_line_ends (leaf_texts e) /\ concat (leaf_texts e) <> [] /\ line_expr md e
  | XEdit _ _ => False
  | XConcat l =>
      (fix all l :=
         match l with
         | [] => True
         | x :: r => (match x with XStr s => plain s | _ => line_expr md x end) /\ all r
         end) l
  | XSms v _ m _ _ => plain v /\ (md = true -> sound_map m /\ forall segs, decode (jm_mappings m) = Some segs -> Forall fits segs)
  end.

(** The sources of the characters, each with the content that was given with it there. *)
Definition used (g : Z -> option jstr) (M : marked) : list (Z * option jstr) :=
  flat_map (fun x => match snd x with Some (z, _, _) => [(z, g z)] | None => [] end) M.
Fixpoint line_uses (nu : jstr -> Z) (md : bool) (e : jexpr) : list (Z * option jstr) :=
  match e with
  | XStr _ | XRaw _ | XEdit _ _ => []
  | XPrefix _ e => line_uses nu md e
  | XOriginal v name => used (fun _ => Some v) (mark_lines (nu name) 1 v)
  | XL2L v name o => used (fun _ => Some o) (mark_lines (nu name) 1 v)
  | XConcat l => flat_map (line_uses nu md) l
  | XSms v name m _ _ =>
      if md then
        match line_says nu m v with
        | Some M => used (fun z => option_map snd (find (fun x => (nu (fst x) =? z)%Z) (zip (jm_sources m) (jm_contents m)))) M
        | None => []
        end
      else used (fun _ => Some v) (mark_lines (nu name) 1 v)
  end.
(** The content given with the first use. *)
Definition first_use (u : list (Z * option jstr)) (z : Z) : option jstr :=
  match find (fun x => (fst x =? z)%Z) u with Some (_, k) => k | None => None end.
