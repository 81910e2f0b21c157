(** Programs that use maps: what they amount to, and what is to be read off a map. *)
From Verif Require Import Base ModelString ModelVlq ModelSm ModelSlm ModelSources ModelTree ModelWasm
  ModelJs ModelJsApi ModelJsResult SpecText SpecMap SpecAttr SpecEdit SpecLineEdit SpecList SpecEffect SpecJs SpecResult ModelEnd SpecEnd SpecEdited SpecLineEdited
  ModelJsProg SpecProg ModelJsCached.

(** The calls that make or change sources. *)
Definition plain_ops (ops : list kop) : list jop := flat_map (fun k => match k with KOp op => [op] | _ => [] end) ops.
Definition kmeaning (ops : list kop) : list sobj := meaning (plain_ops ops).

(** A result of which these calls only read. *)
Definition untouched (r : nat) (ops : list kop) : Prop :=
  forall op, In (KUse r op) ops -> match op with RGet _ | RSource | ROther _ _ => True | _ => False end.
(** What reading a property of result [r] gives now. *)
Definition look (st : kstate) (r : nat) (q : rop) : rans :=
  match nth_error (k_results st) r with
  | Some x => snd (rstep (js_cache (k_js st), x) q)
  | None => AError
  end.

(** Object [i] is a CachedSource around [j], which amounted to [e] all the time since. *)
Definition cached_of (ops : list kop) (i j : nat) (since : list kop) : Prop :=
  exists ops1, ops = ops1 ++ KOp (ONewCached j) :: since /\ i = length (kmeaning ops1).
Definition steadily (ops : list kop) (j : nat) (e : jexpr) (since : list kop) : Prop :=
  forall ops1 l l', ops = ops1 ++ KOp (ONewCached j) :: since -> since = l ++ l' ->
    denotes (kmeaning (ops1 ++ KOp (ONewCached j) :: l)) (ArgObj j) e.
(** What options ask for: columns and module, unless they say false. *)
Definition by_columns (o : jopt) : bool := match o with JObj (Some b) _ => b | _ => true end.
Definition by_module (o : jopt) : bool := match o with JObj _ (Some b) => b | _ => true end.
(** map() is map({}). *)
Definition or_empty (o : jopt) : jopt := match o with JObj c m => JObj c m | JUndef => JObj None None end.
(** When sourceAndMap(o) of [i], which is the CachedSource [n] or one around it, gives a map as [o]
    asks for: map(options) makes the default map (C37_map_refuted), and so does sourceAndMap(options)
    of a CachedSource that knows its text and wraps a CachedSource.  So either [o] asks for columns;
    or nobody asked [n] for map(o) and no CachedSource around [n] for sourceAndMap(o), for [n];
    or the CachedSources around [n] were only asked for sourceAndMap(o) and for other default maps. *)
Definition suits (ops : list kop) (n i : nat) (o : jopt) : Prop :=
  by_columns o = true \/
  (i = n /\ (forall o', In (KMap n o') ops -> or_empty o' <> o) /\
    forall k, wraps (kmeaning ops) k n -> k <> n -> ~ In (KSourceAndMap k o) ops) \/
  (forall k, wraps (kmeaning ops) k n -> (forall o', In (KMap k o') ops -> or_empty o' <> o) /\
    (k <> n -> ~ In (KOp (OSource k)) ops /\ forall o', In (KSourceAndMap k o') ops -> o' = o)).

(** The ways in which result [r] can answer from now on, while it is only read. *)
Definition later (st : kstate) (r : nat) (a : rop -> rans) : Prop :=
  exists l st', krun st l = Some st' /\ untouched r l /\ a = look st' r.

(** What a map of [e] tells, in the four cases of C52, C58 and C59; [A] are the ways in which
    questions are answered. *)
Definition tells_columns (nu : jstr -> Z) (e : jexpr) (A : (rop -> rans) -> Prop) : Prop :=
  exists M Ls Ln ms es, marks nu e = Some M /\
    NoDup Ls /\ NoDup Ln /\ incl Ls (sources_in e) /\ incl Ln (names_in e) /\
    reads_as nu Ls Ln ms = Some es /\ annotate es (text_of M) = M /\
    forall a, A a -> (~ starts_with BOM (text_of M) -> a RSource = AText (text_of M)) /\
      a (RGet FSources) = AVal (VArr (map Some Ls)) /\ a (RGet FNames) = AVal (VArr (map Some Ln)) /\
      a (RGet FMappings) = AVal (VStr ms) /\
      exists v, a (RGet FContents) = AVal v /\ lists v (map Some (contents_of e Ls)).
Definition tells_edited (nu : jstr -> Z) (c : cache) (e : jexpr) (A : (rop -> rans) -> Prop) : Prop :=
  exists M E Ls Ln Ks ms es, reading nu e M /\ marks nu (unedited e) = Some E /\
    NoDup Ls /\ NoDup Ln /\ incl Ls (sources_in e) /\ incl Ln (names_in e) /\
    reads_as nu Ls Ln ms = Some es /\
    Forall (fun x => within E (snd x)) (annotate es (text_of M)) /\
    (in_order c e -> Forall2 agrees M (annotate es (text_of M))) /\
    Forall2 (given_for e) Ls Ks /\ (lone_edits e -> Ks = map (first_content (contents_given e)) Ls) /\
    forall a, A a -> (~ starts_with BOM (text_of M) -> a RSource = AText (text_of M)) /\
      a (RGet FSources) = AVal (VArr (map Some Ls)) /\ a (RGet FNames) = AVal (VArr (map Some Ln)) /\
      a (RGet FMappings) = AVal (VStr ms) /\
      exists v, a (RGet FContents) = AVal v /\ lists v (map Some (flat_map (fun k => match k with Some k => [k] | None => [] end) Ks)).
Definition tells_lines (nu : jstr -> Z) (md : bool) (e : jexpr) (A : (rop -> rans) -> Prop) : Prop :=
  exists M Ls ms es, line_marks nu md e = Some M /\
    map nu Ls = firsts (map fst (line_uses nu md e)) /\
    reads_as nu Ls [] ms = Some es /\ annotate_bytes es (text_of M) = carried None M /\
    forall a, A a -> (~ starts_with BOM (text_of M) -> a RSource = AText (text_of M)) /\
      a (RGet FSources) = AVal (VArr (map Some Ls)) /\ a (RGet FMappings) = AVal (VStr ms) /\ a (RGet FNames) = AVal VUndef /\
      exists v, a (RGet FContents) = AVal v /\
        lists v (map Some (flat_map (fun s => match first_use (line_uses nu md e) (nu s) with Some k => [k] | None => [] end) Ls)).
Definition tells_line_edited (nu : jstr -> Z) (md : bool) (e : jexpr) (A : (rop -> rans) -> Prop) : Prop :=
  exists M Ls Ks ms es, line_reading nu md e M /\
    map nu Ls = firsts (sources_shown M) /\ Forall2 (fun s k => In (s, k) (line_given md e)) Ls Ks /\
    reads_as nu Ls [] ms = Some es /\ annotate_bytes es (text_of M) = carried None M /\
    forall a, A a -> (~ starts_with BOM (text_of M) -> a RSource = AText (text_of M)) /\
      a (RGet FSources) = AVal (VArr (map Some Ls)) /\ a (RGet FMappings) = AVal (VStr ms) /\ a (RGet FNames) = AVal VUndef /\
      exists v, a (RGet FContents) = AVal v /\
        lists v (map Some (flat_map (fun k => match k with Some k => [k] | None => [] end) Ks)).
(** What the map that is made with these options tells; [c] is the string cache. *)
Definition covered (columns md : bool) (e : jexpr) : Prop :=
  (forall v, e <> XRaw v) /\
  if columns then exact_expr e \/ edit_expr e else line_expr md e \/ line_edit_expr md e.
Definition tells (nu : jstr -> Z) (c : cache) (columns md : bool) (e : jexpr) (A : (rop -> rans) -> Prop) : Prop :=
  if columns then (exact_expr e -> tells_columns nu e A) /\ (edit_expr e -> tells_edited nu c e A)
  else (line_expr md e -> tells_lines nu md e A) /\ (line_edit_expr md e -> tells_line_edited nu md e A).
