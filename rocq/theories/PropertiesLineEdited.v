(** C59: sourceAndMap({columns: false}) for expressions with ReplaceSources, from the
    constructors to the values read off the returned object. *)
From Verif Require Import Base ModelString ModelVlq ModelSm ModelSlm ModelSources ModelTree ModelWasm ModelJs ModelJsApi
  SpecText SpecMap SpecAttr SpecEdit SpecLineEdit SpecList SpecEffect JsFacts SpecResult ModelJsResult ResultProps SpecJs ModelEnd SpecEnd EndFacts SpecEdited SpecLineEdited LineEditedEnd PropertiesEnd.

(** What is read off the object is a reading of the expression: for the characters its edits
    keep, that of their lines. The sources are those of the characters of that reading, each
    with a content it is given with somewhere in the expression. *)
Theorem C59_map : forall nu c0 e md c1 t, numbering nu -> reached_cache c0 -> line_edit_expr md e -> (forall v, e <> XRaw v) -> build c0 e = (c1, t) ->
  exists o M Ls Ks ms es, js_source_and_map false md t = Some (ResMap o) /\ line_reading nu md e M /\
    map nu Ls = firsts (sources_shown M) /\ Forall2 (fun s k => In (s, k) (line_given md e)) Ls Ks /\
    reads_as nu Ls [] ms = Some es /\ annotate_bytes es (text_of M) = carried None M /\
    forall l, Forall quiet l ->
      (~ starts_with BOM (text_of M) -> snd (rstep (fst (rrun (c1, o) l)) RSource) = AText (text_of M)) /\
      snd (rstep (fst (rrun (c1, o) l)) (RGet FSources)) = AVal (VArr (map Some Ls)) /\
      snd (rstep (fst (rrun (c1, o) l)) (RGet FMappings)) = AVal (VStr ms) /\
      snd (rstep (fst (rrun (c1, o) l)) (RGet FNames)) = AVal VUndef /\
      exists v, snd (rstep (fst (rrun (c1, o) l)) (RGet FContents)) = AVal v /\
        lists v (map Some (flat_map (fun k => match k with Some k => [k] | None => [] end) Ks)).
Proof. exact end_line_edits. Qed.
Print Assumptions C59_map.

(** If every source has one content, sourcesContent has it at the position of the source in sources. *)
Theorem C59_contents : forall (K : jstr -> jstr) c0 e md c1 t, reached_cache c0 -> line_edit_expr md e -> (forall v, e <> XRaw v) -> build c0 e = (c1, t) ->
  (forall s k, In (s, k) (line_given md e) -> k = Some (K s)) ->
  exists o Ls, js_source_and_map false md t = Some (ResMap o) /\ NoDup Ls /\
    forall l, Forall quiet l ->
      snd (rstep (fst (rrun (c1, o) l)) (RGet FSources)) = AVal (VArr (map Some Ls)) /\
      exists v, snd (rstep (fst (rrun (c1, o) l)) (RGet FContents)) = AVal v /\ lists v (map (fun s => Some (K s)) Ls).
Proof. exact end_line_contents. Qed.
Print Assumptions C59_contents.

(** new ConcatSource("/* h */", ReplaceSource of ConcatSource(OriginalSource("a()\nb()\n", "f.js"), OriginalSource("c\n", "g.js")),
      SourceMapSource("foo\n", "gen.js", {...}, "bar", {...}), ReplaceSource of LineToLineMappedSource("x\ny", "g.js", "c\n")). *)
Definition l59 : jexpr :=
  XConcat [XStr (lit "/* h */");
           XEdit (XConcat [XOriginal (lit "a()" ++ nlj ++ lit "b()" ++ nlj) (lit "f.js"); XOriginal (lit "c" ++ nlj) (lit "g.js")])
             [JReplace (Fin 1 0) (Fin 3 0) []; JInsert (Fin 5 0) (lit "zz"); JReplace (Fin 8 0) (Fin 8 0) (lit "1" ++ nlj ++ lit "2")];
           XSms (lit "foo" ++ nlj) (lit "gen.js") outer52 (lit "bar") (Some inner52);
           XEdit (XL2L (lit "x" ++ nlj ++ lit "y") (lit "g.js") (lit "c" ++ nlj)) [JReplace (Fin 2 0) (Fin 2 0) (lit "w")]].
Example C59_case : (forall md, line_edit_expr md l59) /\ (forall v, l59 <> XRaw v) /\
  (forall md, exists o, js_source_and_map false md (snd (build cache_empty l59)) = Some (ResMap o) /\
    snd (rrun (fst (build cache_empty l59), o) reads52) =
    [ADone; AVal (VStr (lit "A,OAAA,CACA;AAAA;AAAA,CCDA;ACAA;ADAA;AAAA"));
     AText (lit "/* h */abzz()" ++ nlj ++ lit "1" ++ nlj ++ lit "2" ++ nlj ++ lit "foo" ++ nlj ++ lit "x" ++ nlj ++ lit "w");
     AVal (VArr ([Some (lit "a()" ++ nlj ++ lit "b()" ++ nlj); Some (lit "c" ++ nlj)] ++ if md then [] else [Some (lit "foo" ++ nlj)])); AVal VUndef;
     AVal (VArr [Some (lit "f.js"); Some (lit "g.js"); Some (lit "gen.js")]); AVal (VStr (lit "A,OAAA,CACA;AAAA;AAAA,CCDA;ACAA;ADAA;AAAA"))]).
Proof.
  split; [|split; [discriminate|]].
  - assert (P : forall u, forallb is_ascii u = true -> plain u) by apply EndFacts.is_ascii_plain.
    intro md. cbn [l59 line_edit_expr line_expr]. repeat split; try exact I; try (apply P; vm_compute; reflexivity); try (apply P; reflexivity); try apply outer52_sound.
    all: lazymatch goal with
      | |- Forall ordinary_call _ => repeat (apply (@Forall_cons jcall)); cbn; unfold ordinary; cbn; try lia; constructor
      | |- Forall plain_call _ => repeat (apply (@Forall_cons jcall)); try (apply P; reflexivity); constructor
      | |- Forall forward _ => repeat (apply (@Forall_cons edit)); try (unfold forward; cbn; lia); constructor
      | |- ForallOrdPairs apart _ => repeat (apply (@FOP_cons edit)); repeat (apply (@Forall_cons edit)); try (unfold apart, before; cbn; lia); constructor
      | _ => intros segs E; vm_compute in E; injection E as <-; repeat constructor; cbn; lia
      end.
    all: split; vm_compute; [reflexivity|discriminate].
  - intros [|]; (eexists; split; [vm_compute; reflexivity|]; vm_compute; reflexivity).
Qed.

(** A PrefixSource among them, and edited ones. *)
Definition p59 : jexpr :=
  XConcat [XPrefix (lit "> ") (XConcat [XOriginal (lit "a()" ++ nlj) (lit "f.js"); XL2L (lit "x" ++ nlj ++ lit "y" ++ nlj) (lit "g.js") (lit "o")]);
           XEdit (XPrefix (lit "> ") (XL2L (lit "x" ++ nlj ++ lit "y") (lit "g.js") (lit "o"))) [JReplace (Fin 2 0) (Fin 2 0) (lit "zz")]].
Example C59_prefix_case : (forall md, line_edit_expr md p59) /\ (forall v, p59 <> XRaw v) /\
  (forall md, exists o, js_source_and_map false md (snd (build cache_empty p59)) = Some (ResMap o) /\
    snd (rrun (fst (build cache_empty p59), o) [RSource; RGet FMappings; RGet FSources; RGet FContents]) =
    [AText (lit "> a()" ++ nlj ++ lit "> x" ++ nlj ++ lit "> y" ++ nlj ++ lit "> zz" ++ nlj ++ lit "> y");
     AVal (VStr (lit "AAAA;ACAA;AACA;AADA;AACA")); AVal (VArr [Some (lit "f.js"); Some (lit "g.js")]); AVal (VArr [Some (lit "a()" ++ nlj); Some (lit "o")])]).
Proof.
  split; [|split; [discriminate|]].
  - assert (P : forall u, forallb is_ascii u = true -> plain u) by apply EndFacts.is_ascii_plain.
    intro md. cbn [p59 line_edit_expr line_expr on_lines leaf_texts flat_map app at_line_ends]. repeat split; try exact I; try discriminate; try (intros [H|[H|[]]]; discriminate H);
      try (apply P; vm_compute; reflexivity); try (apply P; reflexivity).
    all: lazymatch goal with
      | |- Forall ordinary_call _ => repeat (apply (@Forall_cons jcall)); cbn; unfold ordinary; cbn; try lia; constructor
      | |- Forall plain_call _ => repeat (apply (@Forall_cons jcall)); try (apply P; reflexivity); constructor
      | |- Forall forward _ => repeat (apply (@Forall_cons edit)); try (unfold forward; cbn; lia); constructor
      | |- ForallOrdPairs apart _ => repeat (apply (@FOP_cons edit)); repeat (apply (@Forall_cons edit)); try (unfold apart, before; cbn; lia); constructor
      end.
  - intros [|]; (eexists; split; [vm_compute; reflexivity|]; vm_compute; reflexivity).
Qed.
(** PrefixSources around edits inside lines. *)
Definition e59 : jexpr :=
  XPrefix (lit "> ") (XConcat [XEdit (XOriginal (lit "abc" ++ nlj ++ lit "def" ++ nlj) (lit "f.js")) [JInsert (Fin 1 0) (lit "w"); JReplace (Fin 5 0) (Fin 6 0) (lit "zzz")];
    XPrefix (lit "* ") (XEdit (XL2L (lit "xx" ++ nlj ++ lit "y") (lit "g.js") (lit "o")) [JReplace (Fin 1 0) (Fin 1 0) []])]).
Example C59_around_case : (forall md, line_edit_expr md e59) /\ (forall v, e59 <> XRaw v) /\
  (forall md, exists o, js_source_and_map false md (snd (build cache_empty e59)) = Some (ResMap o) /\
    snd (rrun (fst (build cache_empty e59), o) [RSource; RGet FMappings; RGet FSources; RGet FContents]) =
    [AText (lit "> awbc" ++ nlj ++ lit "> dzzz" ++ nlj ++ lit "> * x" ++ nlj ++ lit "> * y");
     AVal (VStr (lit "AAAA;AACA;ACDA;AACA")); AVal (VArr [Some (lit "f.js"); Some (lit "g.js")]); AVal (VArr [Some (lit "abc" ++ nlj ++ lit "def" ++ nlj); Some (lit "o")])]).
Proof.
  split; [|split; [discriminate|]].
  - assert (P : forall u, forallb is_ascii u = true -> plain u) by apply EndFacts.is_ascii_plain.
    assert (W : forall s x, existsb (N.eqb NL) (e_text x) = false -> (e_from x <= Z.of_nat (length s))%Z -> ((0 < e_from x)%Z -> nth_error s (Z.to_nat (e_from x - 1)) <> Some NL) ->
      forallb (fun j => implb (covers x j) (negb (N.eqb (nth j s 0%N) NL))) (seq 0 (length s)) = true -> SpecEnd.within s x).
    { intros s x H1 H2 H3 H4. split; [|split; [exact H2|split; [exact H3|]]].
      - intro H. apply Bool.not_true_iff_false in H1. apply H1. apply existsb_exists. exists NL. split; [exact H|reflexivity].
      - intros j C E. rewrite forallb_forall in H4. assert (J : j < length s) by (apply (proj1 (nth_error_Some s j)); intro Z; discriminate (eq_trans (eq_sym Z) E)). specialize (H4 j). rewrite in_seq, C in H4.
        rewrite (nth_error_nth s j 0%N E) in H4. assert (H5 : implb true (negb (N.eqb NL NL)) = true) by (apply H4; lia). discriminate. }
    intro md. cbn [e59 line_edit_expr line_expr on_lines leaf_texts flat_map app at_line_ends]. repeat split; try exact I; try discriminate; try (intros [H|[H|[]]]; discriminate H); try (left; exact I);
      try (apply P; vm_compute; reflexivity); try (apply P; reflexivity); try (vm_compute; reflexivity).
    all: lazymatch goal with
      | |- Forall ordinary_call _ => repeat (apply (@Forall_cons jcall)); cbn; unfold ordinary; cbn; try lia; constructor
      | |- Forall plain_call _ => repeat (apply (@Forall_cons jcall)); try (apply P; reflexivity); constructor
      | |- Forall forward _ => repeat (apply (@Forall_cons edit)); try (unfold forward; cbn; lia); constructor
      | |- Forall (SpecEnd.within _) _ => repeat (apply (@Forall_cons edit)); try (apply W; [vm_compute; reflexivity|vm_compute; discriminate|intros _; vm_compute; discriminate|vm_compute; reflexivity]); constructor
      | |- ForallOrdPairs apart _ => repeat (apply (@FOP_cons edit)); repeat (apply (@Forall_cons edit)); try (left; vm_compute; split; [reflexivity|discriminate]); constructor
      end.
  - intros [|]; (eexists; split; [vm_compute; reflexivity|]; vm_compute; reflexivity).
Qed.

(** A PrefixSource around an edit at the beginning of a line: the text of the result is not
    that of source(). *)
Definition b59 : jexpr := XEdit (XOriginal (lit "abc" ++ nlj ++ lit "def" ++ nlj ++ lit "ghi") (lit "f.js")) [JReplace (Fin 4 0) (Fin 4 0) (lit "X")].
Theorem C59_prefix_refuted : exists p e, (forall md, line_edit_expr md e) /\ at_line_ends (leaf_texts e) /\ ~ In NL p /\
  (forall md, exists o, js_source_and_map false md (snd (build cache_empty (XPrefix p e))) = Some (ResMap o) /\
    snd (rstep (fst (build cache_empty (XPrefix p e)), o) RSource) = AText (lit "> abc" ++ nlj ++ lit "> X> ef" ++ nlj ++ lit "> ghi")) /\
  js_source (snd (build cache_empty (XPrefix p e))) = Some (lit "> abc" ++ nlj ++ lit "> Xef" ++ nlj ++ lit "> ghi").
Proof.
  exists (lit "> "), b59. split; [|split; [exact I|split; [intros [H|[H|[]]]; discriminate H|split]]].
  - assert (P : forall u, forallb is_ascii u = true -> plain u) by apply EndFacts.is_ascii_plain.
    intro md. cbn [b59 line_edit_expr line_expr]. repeat split; try (apply P; reflexivity).
    all: lazymatch goal with
      | |- Forall ordinary_call _ => repeat (apply (@Forall_cons jcall)); cbn; unfold ordinary; cbn; try lia; constructor
      | |- Forall plain_call _ => repeat (apply (@Forall_cons jcall)); try (apply P; reflexivity); constructor
      | |- Forall forward _ => repeat (apply (@Forall_cons edit)); try (unfold forward; cbn; lia); constructor
      | |- ForallOrdPairs apart _ => repeat (apply (@FOP_cons edit)); repeat (apply (@Forall_cons edit)); try (unfold apart, before; cbn; lia); constructor
      end.
  - intros [|]; (eexists; split; [vm_compute; reflexivity|]; vm_compute; reflexivity).
  - vm_compute. reflexivity.
Qed.
Print Assumptions C59_prefix_refuted.

(** The same without the SourceMapSource: every source has one content. *)
Definition l59' : jexpr := match l59 with XConcat [a; b; _; d] => XConcat [a; b; d] | e => e end.
Example C59_contents_case : forall md, line_edit_expr md l59' /\ (forall v, l59' <> XRaw v) /\
  (forall s k, In (s, k) (line_given md l59') -> k = Some (if jstr_eqb s (lit "f.js") then lit "a()" ++ nlj ++ lit "b()" ++ nlj else lit "c" ++ nlj)) /\
  exists o, js_source_and_map false md (snd (build cache_empty l59')) = Some (ResMap o) /\
    snd (rrun (fst (build cache_empty l59'), o) [RGet FSources; RGet FContents]) =
    [AVal (VArr [Some (lit "f.js"); Some (lit "g.js")]); AVal (VArr [Some (lit "a()" ++ nlj ++ lit "b()" ++ nlj); Some (lit "c" ++ nlj)])].
Proof.
  intro md. split; [|split; [discriminate|split]].
  - destruct (proj1 C59_case md) as (A & B & _ & D & E). exact (conj A (conj B (conj D E))).
  - intros s k H. vm_compute in H. destruct H as [H|[H|[H|[]]]]; injection H as <- <-; reflexivity.
  - destruct md; (eexists; split; [vm_compute; reflexivity|]; vm_compute; reflexivity).
Qed.
