(** C68: wrappers that do nothing. *)
From Verif Require Import Base ModelString ModelVlq ModelSm ModelSlm ModelSources ModelTree ModelWasm ModelJs ModelJsApi ModelJsResult ModelEnd
  SpecText SpecMap SpecAttr SpecEdit SpecEffect SpecResult SpecJs SpecEnd SpecLineEdited SpecList SpecIdle SpecRun ResultProps EndFacts IdleFacts IdleTree IdleLines PropertiesEnd SpecJs.

(** For all expressions, edits of every kind and sources that throw included. *)
Theorem C68_idle : forall c e e' c1 c1' t t', idle e e' -> build c e = (c1, t) -> build c e' = (c1', t') ->
  c1 = c1' /\
  (mapped e -> mapped e' -> forall md, js_source_and_map true md t = js_source_and_map true md t') /\
  (sturdy e -> sturdy e' -> js_source t = js_source t') /\
  (wrapper e -> wrapper e' -> js_size t = js_size t').
Proof. exact idle_same. Qed.
Print Assumptions C68_idle.

(** What is read of sourceAndMap. *)
Definition read68 (columns : bool) (e : jexpr) : option (list rans) :=
  let '(c, t) := build cache_empty e in
  match js_source_and_map columns true t with
  | Some (ResMap o) => Some (snd (rrun (c, o) [RSource; RGet FMappings; RGet FSources]))
  | _ => None
  end.
Definition at68 (z : Z) : jnum := Fin z 0.
Definition h68 : list jcall := [JReplace (at68 3) (at68 6) (lit "X" ++ [NL]); JInsert (at68 5) (lit "Y")].
Definition o68 : jexpr := XOriginal (lit "a;b" ++ [NL] ++ lit "c") (lit "f.js").
Definition e68 : jexpr := XEdit (XPrefix (lit "> ") (XConcat [XStr (lit "s"); o68; XRaw (lit "t")])) h68.
Definition e68' : jexpr :=
  XEdit (XPrefix (lit ">") (XEdit (XPrefix (lit " ") (XConcat [XRaw (lit "s"); XPrefix [] (XEdit (XConcat [o68; XStr (lit "t")]) [JRead])])) [])) h68.
Lemma idle68 : idle e68 e68'.
Proof.
  assert (W : forall s, forallb is_ascii s = true -> well_formed s).
  { intros s H. exists s. induction s as [|x s IH]; [constructor|]. cbn [forallb] in H. apply andb_prop in H as [H1 H2]. apply N.ltb_lt in H1.
    apply (utf16_cons x s [x] s); [unfold scalar; lia|constructor; lia|exact (IH H2)]. }
  apply id_edit. eapply id_trans; [|apply id_prefix, id_sym, id_unedited; [exact I|constructor]].
  eapply id_trans; [|apply id_sym, id_twice; [apply W; reflexivity|apply W; reflexivity|intros [Z|[]]; discriminate]]. apply id_prefix.
  eapply id_trans; [|apply id_sym; eapply (id_part [_] _ _ []); apply id_bare; exact I].
  eapply id_trans; [|apply id_sym; eapply (id_part [_] _ _ []); apply id_unedited; [exact I|repeat constructor]].
  eapply id_trans; [|apply id_sym; eapply (id_flat [_] [_; _] [])]. cbn [app].
  eapply id_trans; [apply id_sym; eapply (id_text [] (lit "s") [_; _]); discriminate|]. eapply (id_text [_; _] (lit "t") []). discriminate.
Qed.
Example C68_case : idle e68 e68' /\ mapped e68 /\ mapped e68' /\
  read68 true e68 = Some [AText (lit "> sYX" ++ [NL] ++ lit "> ct"); AVal (VStr (lit "IAAA;AAAE,AACF,G")); AVal (VArr [Some (lit "f.js")])] /\
  read68 true e68' = read68 true e68.
Proof. split; [exact idle68|]. split; [exact I|]. split; [exact I|]. split; vm_compute; reflexivity. Qed.

(** Without columns: both maps attribute every character alike and have the same sources, for
    expressions without edits in the scope of C59. *)
Theorem C68_lines : forall nu c0 c0' e e' md c1 c1' t t', numbering nu -> idle e e' -> reached_cache c0 -> reached_cache c0' ->
  line_edit_expr md e -> line_edit_expr md e' -> reads_only e -> reads_only e' -> (forall v, e <> XRaw v) -> (forall v, e' <> XRaw v) ->
  build c0 e = (c1, t) -> build c0' e' = (c1', t') ->
  exists o o' T Ls ms ms' es es', js_source_and_map false md t = Some (ResMap o) /\ js_source_and_map false md t' = Some (ResMap o') /\
    reads_as nu Ls [] ms = Some es /\ reads_as nu Ls [] ms' = Some es' /\ annotate_bytes es T = annotate_bytes es' T /\
    forall l l', Forall quiet l -> Forall quiet l' ->
      let a q := snd (rstep (fst (rrun (c1, o) l)) q) in
      let a' q := snd (rstep (fst (rrun (c1', o') l')) q) in
      (~ starts_with BOM T -> a RSource = AText T /\ a' RSource = AText T) /\
      a (RGet FSources) = AVal (VArr (map Some Ls)) /\ a' (RGet FSources) = AVal (VArr (map Some Ls)) /\
      a (RGet FNames) = AVal VUndef /\ a' (RGet FNames) = AVal VUndef /\
      a (RGet FMappings) = AVal (VStr ms) /\ a' (RGet FMappings) = AVal (VStr ms').
Proof. exact idle_lines. Qed.
Print Assumptions C68_lines.
Definition g68 : jexpr := XL2L (lit "x" ++ [NL] ++ lit "y" ++ [NL]) (lit "g.js") (lit "o").
Definition l68 : jexpr := XConcat [XStr (lit "s"); o68; XRaw [NL]; XPrefix (lit "> ") g68].
Definition l68' : jexpr := XConcat [XRaw (lit "s"); XEdit (XConcat [o68; XStr [NL]]) [JRead]; XPrefix [] (XPrefix (lit ">") (XPrefix (lit " ") g68))].
Lemma idle_l68 : idle l68 l68'.
Proof.
  assert (W : forall s, forallb is_ascii s = true -> well_formed s).
  { intros s H. exists s. induction s as [|x s IH]; [constructor|]. cbn [forallb] in H. apply andb_prop in H as [H1 H2]. apply N.ltb_lt in H1.
    apply (utf16_cons x s [x] s); [unfold scalar; lia|constructor; lia|exact (IH H2)]. }
  eapply id_trans; [|apply id_sym; eapply (id_part [_; _] _ _ []); apply id_bare; exact I].
  eapply id_trans; [|apply id_sym; eapply (id_part [_; _] _ _ []); apply id_twice; [apply W; reflexivity|apply W; reflexivity|intros [Z|[]]; discriminate]]. cbn [app].
  eapply id_trans; [|apply id_sym; eapply (id_part [_] _ _ [_]); apply id_unedited; [exact I|repeat constructor]].
  eapply id_trans; [|apply id_sym; eapply (id_flat [_] [_; _] [_])]. cbn [app].
  eapply id_trans; [apply id_sym; eapply (id_text [] (lit "s") [_; _; _]); discriminate|]. eapply (id_text [_; _] [NL] [_]). discriminate.
Qed.
Example C68_lines_case : idle l68 l68' /\ (forall md, line_edit_expr md l68) /\ (forall md, line_edit_expr md l68') /\
  reads_only l68 /\ reads_only l68' /\ (forall v, l68 <> XRaw v) /\ (forall v, l68' <> XRaw v) /\
  read68 false l68 = Some [AText (lit "sa;b" ++ [NL] ++ lit "c" ++ [NL] ++ lit "> x" ++ [NL] ++ lit "> y" ++ [NL]); AVal (VStr (lit "A,CAAA;AACA;ACDA;AACA;")); AVal (VArr [Some (lit "f.js"); Some (lit "g.js")])] /\
  read68 false l68' = read68 false l68.
Proof.
  assert (P : forall u, forallb is_ascii u = true -> plain u) by apply EndFacts.is_ascii_plain.
  split; [exact idle_l68|]. split; [|split; [|split; [|split; [|split; [discriminate|split; [discriminate|split; vm_compute; reflexivity]]]]]].
  1,2: intro md; cbn [l68 l68' g68 o68 line_edit_expr line_expr on_lines closed leaf_texts flat_map app at_line_ends]; repeat split; try exact I; try discriminate;
    try (intros [H|[H|[]]]; discriminate H); try (intros [H|[]]; discriminate H); try (intros []); try (apply P; vm_compute; reflexivity); repeat constructor.
  all: repeat split; repeat constructor.
Qed.

(** Without columns another line can be named. *)
Theorem C68_lines_refuted : exists e, mapped e /\ idle (XPrefix [] e) e /\ idle (XEdit e []) e /\
  read68 false e = Some [AText (lit "x" ++ [NL] ++ lit "a" ++ [NL] ++ lit "b"); AVal (VStr (lit "AAAA;AACA;AAAA")); AVal (VArr [Some (lit "f.js")])] /\
  read68 false (XPrefix [] e) = Some [AText (lit "x" ++ [NL] ++ lit "a" ++ [NL] ++ lit "b"); AVal (VStr (lit "AAAA;AACA;AACA")); AVal (VArr [Some (lit "f.js")])] /\
  read68 false (XEdit e []) = read68 false (XPrefix [] e).
Proof.
  exists (XConcat [XSms (lit "x" ++ [NL]) (lit "g.js") (mk_jmap [lit "f.js"] [] [] (lit "AAAA")) [] None;
    XEdit (XSms (lit "ab") (lit "g.js") (mk_jmap [lit "f.js"] [] [] (lit "AACA")) [] None) [JInsert (at68 1) [NL]]]).
  split; [exact I|]. split; [apply id_bare; exact I|]. split; [apply id_unedited; [exact I|constructor]|]. vm_compute. repeat split.
Qed.
Print Assumptions C68_lines_refuted.

(** The hash is another one. *)
Theorem C68_hash_refuted : exists e, wrapper e /\ idle (XEdit e []) e /\
  js_hash (snd (build cache_empty e)) = Some (lit "a> ") /\ js_hash (snd (build cache_empty (XEdit e []))) = Some (lit "> a").
Proof. exists (XPrefix (lit "> ") (XRaw (lit "a"))). split; [exact I|]. split; [apply id_unedited; [exact I|constructor]|]. split; vm_compute; reflexivity. Qed.
Print Assumptions C68_hash_refuted.

(** A string in a ConcatSource is no object that could be wrapped. *)
Theorem C68_string_refuted : exists s,
  read68 true (XConcat [XStr s]) = Some [AText s; AVal (VStr []); AVal (VArr [])] /\
  read68 true (XConcat [XPrefix [] (XStr s)]) = None /\ read68 true (XConcat [XEdit (XStr s) []]) = None.
Proof. exists (lit "a"). vm_compute. repeat split. Qed.
Print Assumptions C68_string_refuted.
