(** C52: whole programs, from the strings given to the constructors to the properties read off
    the result of sourceAndMap. *)
From Verif Require Import Base ModelString ModelVlq ModelSm ModelJs ModelJsApi ModelJsResult SpecText SpecMap SpecAttr SpecList SpecJs SpecResult ResultProps
  ModelEnd SpecEnd EndMap LineEnd.

(** [nu] numbers the strings; any numbering will do. *)
Theorem C52_map : forall nu c0 e md c1 t, numbering nu -> reached_cache c0 -> exact_expr e -> (forall v, e <> XRaw v) -> build c0 e = (c1, t) ->
  exists o M Ls Ln ms es, js_source_and_map true md t = Some (ResMap o) /\ marks nu e = Some M /\
    NoDup Ls /\ NoDup Ln /\ incl Ls (sources_in e) /\ incl Ln (names_in e) /\
    reads_as nu Ls Ln ms = Some es /\ annotate es (text_of M) = M /\
    forall l, Forall quiet l ->
      (~ starts_with BOM (text_of M) -> snd (rstep (fst (rrun (c1, o) l)) RSource) = AText (text_of M)) /\
      snd (rstep (fst (rrun (c1, o) l)) (RGet FSources)) = AVal (VArr (map Some Ls)) /\
      snd (rstep (fst (rrun (c1, o) l)) (RGet FNames)) = AVal (VArr (map Some Ln)) /\
      snd (rstep (fst (rrun (c1, o) l)) (RGet FMappings)) = AVal (VStr ms) /\
      exists v, snd (rstep (fst (rrun (c1, o) l)) (RGet FContents)) = AVal v /\ lists v (map Some (contents_of e Ls)).
Proof. exact end_to_end. Qed.
Print Assumptions C52_map.
Theorem C52_numbering : exists nu, numbering nu.
Proof. exact numbers. Qed.
Print Assumptions C52_numbering.
(** columns: false. *)
Theorem C52_lines : forall nu c0 e md c1 t, numbering nu -> reached_cache c0 -> line_expr md e -> (forall v, e <> XRaw v) -> build c0 e = (c1, t) ->
  exists o M Ls ms es, js_source_and_map false md t = Some (ResMap o) /\ line_marks nu md e = Some M /\
    map nu Ls = firsts (map fst (line_uses nu md e)) /\
    reads_as nu Ls [] ms = Some es /\ annotate_bytes es (text_of M) = carried None M /\ NoDup (map fst es) /\
    forall l, Forall quiet l ->
      (~ starts_with BOM (text_of M) -> snd (rstep (fst (rrun (c1, o) l)) RSource) = AText (text_of M)) /\
      snd (rstep (fst (rrun (c1, o) l)) (RGet FSources)) = AVal (VArr (map Some Ls)) /\
      snd (rstep (fst (rrun (c1, o) l)) (RGet FMappings)) = AVal (VStr ms) /\
      snd (rstep (fst (rrun (c1, o) l)) (RGet FNames)) = AVal VUndef /\
      exists v, snd (rstep (fst (rrun (c1, o) l)) (RGet FContents)) = AVal v /\
        lists v (map Some (flat_map (fun s => match first_use (line_uses nu md e) (nu s) with Some k => [k] | None => [] end) Ls)).
Proof. exact end_lines. Qed.
Print Assumptions C52_lines.
(** A RawSource by itself has no map. *)
Theorem C52_raw : forall c0 v md cols c1 t, build c0 (XRaw v) = (c1, t) -> js_source_and_map cols md t = Some (ResPlain v).
Proof. intros c0 v md cols c1 t E. injection E as _ <-. reflexivity. Qed.
Print Assumptions C52_raw.

(** new ConcatSource("/* h */\n", new PrefixSource("  ", new ConcatSource(new OriginalSource("a();b()\nc()", "f.js"), new RawSource("\n"))),
      new SourceMapSource("foo", "gen.js", {...}, "bar", {...}), new OriginalSource("x", "gen.js")) *)
Definition nlj : jstr := [10%N].
Definition outer52 := mk_jmap [lit "gen.js"; lit "other.js"] [] [lit "n"] (lit "AAAAA,CCCA").
Definition inner52 := mk_jmap [lit "in.ts"] [lit "let bar"] [] (lit "AAII").
Definition e52 : jexpr :=
  XConcat [XStr (lit "/* h */" ++ nlj); XPrefix (lit "  ") (XConcat [XOriginal (lit "a();b()" ++ nlj ++ lit "c()") (lit "f.js"); XRaw nlj]);
           XSms (lit "foo") (lit "gen.js") outer52 (lit "bar") (Some inner52); XOriginal (lit "x") (lit "gen.js")].
Lemma outer52_sound : sound_map outer52.
Proof.
  split; [repeat constructor; cbn; intuition discriminate|]. split; [repeat constructor; cbn; tauto|]. split; [apply EndFacts.ascii_plain; repeat constructor|].
  eexists. split; [vm_compute; reflexivity|]. split; [repeat constructor; cbn; try lia|]. split; [repeat constructor; cbn; lia|].
  intros s s' [<-|[<-|[]]] [<-|[<-|[]]]; cbn; congruence.
Qed.
Lemma inner52_sound : sound_map inner52.
Proof.
  split; [repeat constructor; cbn; tauto|]. split; [constructor|]. split; [apply EndFacts.ascii_plain; repeat constructor|].
  eexists. split; [vm_compute; reflexivity|]. split; [repeat constructor; cbn; lia|]. split; [repeat constructor; cbn; lia|].
  intros s s' [<-|[]] [<-|[]]; congruence.
Qed.
Definition reads52 : list rop := [ROther (lit "zz") true; RGet FMappings; RSource; RGet FContents; RGet FNames; RGet FSources; RGet FMappings].
Example C52_case : exact_expr e52 /\ (forall v, e52 <> XRaw v) /\
  exists o, js_source_and_map true true (snd (build cache_empty e52)) = Some (ResMap o) /\
    snd (rrun (fst (build cache_empty e52), o) reads52) =
    [ADone; AVal (VStr (lit ";AAAA,MAAI;AACJ,K;ACGIA,CCHJ,ECDA"));
     AText (lit "/* h */" ++ nlj ++ lit "  a();b()" ++ nlj ++ lit "  c()" ++ nlj ++ lit "foox");
     AVal (VArr [Some (lit "a();b()" ++ nlj ++ lit "c()"); Some (lit "let bar"); Some (lit "bar")]); AVal (VArr [Some (lit "n")]);
     AVal (VArr [Some (lit "f.js"); Some (lit "in.ts"); Some (lit "other.js"); Some (lit "gen.js")]); AVal (VStr (lit ";AAAA,MAAI;AACJ,K;ACGIA,CCHJ,ECDA"))].
Proof.
  split; [|split; [discriminate|]].
  - assert (P : forall u, forallb is_ascii u = true -> plain u) by apply EndFacts.is_ascii_plain.
    cbn [e52 exact_expr]. repeat split; try exact I; try discriminate; try (apply P; vm_compute; reflexivity); try (apply P; reflexivity); try apply outer52_sound; try apply inner52_sound.
  - eexists. split; [vm_compute; reflexivity|]. vm_compute. reflexivity.
Qed.

(** null in sources and sourcesContent: it keeps its place, and as the first content given for f.js
    it hides the one given later. *)
Definition null52 : jexpr :=
  XConcat [XSms (lit "foo") (lit "gen.js") (mk_jmap [lit "f.js"; JNULL; lit "g.js"] [JNULL; lit "K"; lit "G"] [] (lit "AAAA,CCCA,CCAA")) [] None;
           XOriginal (lit "x") (lit "f.js")].
Example C52_null_case : exact_expr null52 /\ (forall v, null52 <> XRaw v) /\
  exists o, js_source_and_map true true (snd (build cache_empty null52)) = Some (ResMap o) /\
    snd (rrun (fst (build cache_empty null52), o) [RGet FSources; RGet FContents; RGet FMappings]) =
    [AVal (VArr [Some (lit "f.js"); Some JNULL; Some (lit "g.js")]); AVal (VArr [Some JNULL; Some (lit "K"); Some (lit "G")]);
     AVal (VStr (lit "AAAA,CCCA,CCAA,CFDA"))].
Proof.
  split; [|split; [discriminate|]].
  - assert (P : forall u, forallb is_ascii u = true -> plain u) by apply EndFacts.is_ascii_plain.
    cbn [null52 exact_expr]. repeat split; try (apply P; vm_compute; reflexivity); try (repeat constructor; cbn; intuition discriminate).
    eexists. split; [vm_compute; reflexivity|]. split; [repeat constructor; cbn; lia|]. split; [repeat constructor; cbn; lia|].
    intros s s' [<-|[<-|[<-|[]]]] [<-|[<-|[<-|[]]]]; cbn; congruence.
  - eexists. split; [vm_compute; reflexivity|]. vm_compute. reflexivity.
Qed.

Definition l52 : jexpr :=
  XConcat [XStr (lit "/* h */"); XConcat [XOriginal (lit "a()" ++ nlj ++ lit "b()") (lit "f.js"); XRaw nlj];
           XSms (lit "foo" ++ nlj) (lit "gen.js") outer52 (lit "bar") (Some inner52);
           XPrefix (lit "  ") (XConcat [XL2L (lit "x" ++ nlj) (lit "f.js") (lit "X"); XOriginal (lit "y") (lit "gen.js")])].
(** The content of gen.js given with its last use is lost if there was none with the first one. *)
Example C52_lines_case : (forall md, line_expr md l52) /\ (forall v, l52 <> XRaw v) /\
  (forall md, exists o, js_source_and_map false md (snd (build cache_empty l52)) = Some (ResMap o) /\
    snd (rrun (fst (build cache_empty l52), o) reads52) =
    [ADone; AVal (VStr (lit "A,OAAA;AACA;ACDA;ADAA;ACAA"));
     AText (lit "/* h */a()" ++ nlj ++ lit "b()" ++ nlj ++ lit "foo" ++ nlj ++ lit "  x" ++ nlj ++ lit "  y");
     AVal (VArr (Some (lit "a()" ++ nlj ++ lit "b()") :: if md then [] else [Some (lit "foo" ++ nlj)])); AVal VUndef;
     AVal (VArr [Some (lit "f.js"); Some (lit "gen.js")]); AVal (VStr (lit "A,OAAA;AACA;ACDA;ADAA;ACAA"))]).
Proof.
  split; [|split; [discriminate|]].
  - assert (P : forall u, forallb is_ascii u = true -> plain u) by apply EndFacts.is_ascii_plain.
    intro md. cbn [l52 line_expr on_lines leaf_texts flat_map app at_line_ends]. repeat split; try exact I; try discriminate; try (intros [H|[H|[]]]; discriminate H); try (left; exact I); try (apply P; vm_compute; reflexivity); try (apply P; reflexivity); try apply outer52_sound.
    intros segs E. vm_compute in E. injection E as <-. repeat constructor; cbn; lia.
  - intros [|]; (eexists; split; [vm_compute; reflexivity|]; vm_compute; reflexivity).
Qed.
(** PrefixSources inside one another, and around a SourceMapSource. *)
Definition map52 : jmap := mk_jmap [lit "h.js"] [] [] (lit "AAEA;AACA").
Definition s52 : jexpr :=
  XPrefix (lit "> ") (XConcat [XPrefix (lit "* ") (XOriginal (lit "a" ++ nlj ++ lit "b" ++ nlj) (lit "f.js"));
    XPrefix (lit "- ") (XPrefix (lit "+ ") (XL2L (lit "x" ++ nlj) (lit "g.js") (lit "o"))); XSms (lit "foo" ++ nlj ++ lit "bar") (lit "gen.js") map52 (lit "o") None]).
Lemma map52_sound : sound_map map52.
Proof.
  split; [repeat constructor; cbn; tauto|]. split; [constructor|]. split; [apply EndFacts.ascii_plain; repeat constructor|].
  eexists. split; [vm_compute; reflexivity|]. split; [repeat constructor; cbn; lia|]. split; [repeat constructor; cbn; lia|].
  intros s s' [<-|[<-|[]]] [<-|[<-|[]]]; cbn; congruence.
Qed.
Example C52_nested_case : (forall md, line_expr md s52) /\ (forall v, s52 <> XRaw v) /\
  exists o, js_source_and_map false true (snd (build cache_empty s52)) = Some (ResMap o) /\
    snd (rrun (fst (build cache_empty s52), o) [RSource; RGet FMappings; RGet FSources]) =
    [AText (lit "> * a" ++ nlj ++ lit "> * b" ++ nlj ++ lit "> - + x" ++ nlj ++ lit "> foo" ++ nlj ++ lit "> bar");
     AVal (VStr (lit "AAAA;AACA;ACDA;ACEA;AACA")); AVal (VArr [Some (lit "f.js"); Some (lit "g.js"); Some (lit "h.js")])].
Proof.
  split; [|split; [discriminate|]].
  - assert (P : forall u, forallb is_ascii u = true -> plain u) by apply EndFacts.is_ascii_plain.
    intro md. cbn [s52 line_expr on_lines leaf_texts flat_map app at_line_ends]. repeat split; try exact I; try discriminate; try (intros [H|[H|[]]]; discriminate H); try (left; exact I);
      try (apply P; vm_compute; reflexivity); try (apply P; reflexivity); try apply map52_sound.
    intros segs E. vm_compute in E. injection E as <-. repeat constructor; cbn; lia.
  - eexists; split; [vm_compute; reflexivity|]; vm_compute; reflexivity.
Qed.
