(** C63: a result made a source again. *)
From Verif Require Import Base ModelString ModelVlq ModelSm ModelSources ModelJs ModelJsApi ModelJsResult SpecText SpecMap SpecAttr SpecLeast SpecList SpecJs SpecResult ResultProps
  ModelEnd SpecEnd EndMap LineEnd ModelAgain SpecAgain AgainProps AgainLines AgainDirect PropertiesEnd SpecEdit SpecEdited.

(** The fields of the result given to a new SourceMapSource: it stands for the same characters,
    and its own result shows the same text and the same map. *)
Theorem C63_again : forall nu e M, numbering nu -> exact_expr e -> (forall v, e <> XRaw v) -> marks nu e = Some M ->
  ~ starts_with BOM (text_of M) -> (N.of_nat (length M) < 2147483648)%N ->
  forall c0 md c1 t, reached_cache c0 -> build c0 e = (c1, t) ->
  exists o m, js_source_and_map true md t = Some (ResMap o) /\ displays c1 o (text_of M) m /\
    map nu (jm_sources m) = firsts (srcs_of M) /\ jm_contents m = contents_of e (jm_sources m) /\
    map_says nu m = Some (least M) /\ sound_map m /\
    forall name orig, exact_expr (XSms (text_of M) name m orig None) /\ marks nu (XSms (text_of M) name m orig None) = Some M /\
      forall c0' md' c1' t', reached_cache c0' -> build c0' (XSms (text_of M) name m orig None) = (c1', t') ->
        exists o', js_source_and_map true md' t' = Some (ResMap o') /\ displays c1' o' (text_of M) m.
Proof. intros nu e M Hn X NR EM NB Sz. exact (made_again Hn X NR EM NB Sz). Qed.
Print Assumptions C63_again.

(** The map itself given to a new SourceMapSource, and its map to another one, and so on. *)
Theorem C63_direct : forall nu e M, numbering nu -> exact_expr e -> (forall v, e <> XRaw v) -> marks nu e = Some M ->
  ~ starts_with BOM (text_of M) -> (N.of_nat (length M) < 2147483648)%N ->
  forall c0 md c1 t, reached_cache c0 -> build c0 e = (c1, t) ->
  exists o m, js_source_and_map true md t = Some (ResMap o) /\ displays c1 o (text_of M) m /\
    forall c2 o2, again (text_of M) (c1, o) (c2, o2) -> displays c2 o2 (text_of M) m /\
      forall l name, Forall quiet l -> exists c3 o3 x, rstep (fst (rrun (c2, o2) l)) (RWrap (text_of M) name) = (c3, o3, ASms x) /\
        forall k, exists x1 x2 o4, sms_calls k x = Some x1 /\ sms_source_and_map x1 = Some (x2, o4).
Proof. intros nu e M Hn X NR EM NB Sz. exact (made_direct Hn X NR EM NB Sz). Qed.
Print Assumptions C63_direct.

(** The new source in the places of the old one, inside other sources. *)
Theorem C63_inside : forall nu e M v m name orig, numbering nu -> marks nu e = Some M ->
  marks nu (XSms v name m orig None) = Some M -> exact_expr (XSms v name m orig None) ->
  NoDup (jm_sources m) -> jm_contents m = contents_of e (jm_sources m) ->
  forall x x' c0 md c1 t c0' md' c1' t', exact_expr x -> (forall u, x <> XRaw u) -> (forall u, e <> XRaw u) -> swaps e (XSms v name m orig None) x x' ->
  reached_cache c0 -> build c0 x = (c1, t) -> reached_cache c0' -> build c0' x' = (c1', t') ->
  exists o o' u m1 m2, js_source_and_map true md t = Some (ResMap o) /\ displays c1 o u m1 /\
    js_source_and_map true md' t' = Some (ResMap o') /\ displays c1' o' u m2 /\
    jm_sources m2 = jm_sources m1 /\ jm_names m2 = jm_names m1 /\ jm_mappings m2 = jm_mappings m1 /\
    (length (jm_contents m) = length (jm_sources m) -> (forall s, In s (map fst (contents_given e)) -> In s (jm_sources m)) -> m2 = m1).
Proof. intros nu e M v m name orig Hn EM E1 E2 E3 E4 x x' c0 md c1 t c0' md' c1' t'. exact (made_inside Hn EM name orig x x' c0 md c1 t c0' md' c1' t' E1 E2 E3 E4). Qed.
Print Assumptions C63_inside.

(** The fields of a result of columns: false, which says of every line what it came from, given
    to a new SourceMapSource: its result with columns shows the same text, sources and contents,
    and says the same about every character. *)
Theorem C63_lines : forall nu e md M, numbering nu -> line_expr md e -> (forall v, e <> XRaw v) -> line_marks nu md e = Some M ->
  forallb is_ascii (text_of M) = true -> (N.of_nat (length M) < 2147483648)%N ->
  forall c0 c1 t, reached_cache c0 -> build c0 e = (c1, t) ->
  exists o m es, js_source_and_map false md t = Some (ResMap o) /\ displays_as VUndef c1 o (text_of M) m /\ jm_names m = [] /\
    map nu (jm_sources m) = firsts (srcs_of M) /\ map_says nu m = Some es /\ annotate es (text_of M) = carried None M /\
    ((forall segs, decode (jm_mappings m) = Some segs -> Forall small_seg segs) -> sound_map m /\
     forall name orig, exact_expr (XSms (text_of M) name m orig None) /\ marks nu (XSms (text_of M) name m orig None) = Some (carried None M) /\
       forall c0' md' c1' t', reached_cache c0' -> build c0' (XSms (text_of M) name m orig None) = (c1', t') ->
         exists o' m', js_source_and_map true md' t' = Some (ResMap o') /\ displays c1' o' (text_of M) m' /\
           jm_sources m' = jm_sources m /\ jm_contents m' = jm_contents m /\ jm_names m' = [] /\ map_says nu m' = Some (least (carried None M))).
Proof. intros nu e md M Hn X NR EM As Sz. exact (lines_again Hn X NR EM As Sz). Qed.
Print Assumptions C63_lines.

(** The result of an expression with ReplaceSources: if its map has one segment for a place, then a
    copy says the same about every character. *)
Theorem C63_edited : forall nu e c0 md c1 t, numbering nu -> edit_expr e -> (forall v, e <> XRaw v) -> reached_cache c0 -> build c0 e = (c1, t) ->
  exists o M m es, js_source_and_map true md t = Some (ResMap o) /\ reading nu e M /\
    (~ starts_with BOM (text_of M) -> displays_as (VArr (map Some (jm_names m))) c1 o (text_of M) m) /\ map_says nu m = Some es /\
    ((forall segs, decode (jm_mappings m) = Some segs -> tidy_segs segs) -> sound_map m /\
     forall name orig, exact_expr (XSms (text_of M) name m orig None) /\ marks nu (XSms (text_of M) name m orig None) = Some (annotate es (text_of M)) /\
       (~ starts_with BOM (text_of M) -> (N.of_nat (length M) < 2147483648)%N ->
        forall c0' md' c1' t', reached_cache c0' -> build c0' (XSms (text_of M) name m orig None) = (c1', t') ->
          exists o' m', js_source_and_map true md' t' = Some (ResMap o') /\ displays c1' o' (text_of M) m' /\
            exists es', map_says nu m' = Some es' /\ annotate es' (text_of M) = annotate es (text_of M))).
Proof. exact edited_again. Qed.
Print Assumptions C63_edited.

(** ** Examples *)
Definition text63 : jstr := lit "/* h */" ++ nlj ++ lit "  a();b()" ++ nlj ++ lit "  c()" ++ nlj ++ lit "foox".
Definition map63 : jmap := mk_jmap [lit "f.js"; lit "in.ts"; lit "other.js"; lit "gen.js"] [lit "a();b()" ++ nlj ++ lit "c()"; lit "let bar"; lit "bar"] [lit "n"]
  (lit ";AAAA,MAAI;AACJ,K;ACGIA,CCHJ,ECDA").
Definition read63 : list rop := [RSource; RGet FSources; RGet FContents; RGet FNames; RGet FMappings].
Definition answers63 (m : jmap) : list rans :=
  [AText text63; AVal (VArr (map Some (jm_sources m))); AVal (VArr (map Some (jm_contents m))); AVal (VArr (map Some (jm_names m))); AVal (VStr (jm_mappings m))].
(** The expression of C52, which meets the hypotheses; its map passed on by its fields. *)
Example C63_case : forall nu, exists M, exact_expr e52 /\ (forall v, e52 <> XRaw v) /\ marks nu e52 = Some M /\
  text_of M = text63 /\ ~ starts_with BOM (text_of M) /\ (N.of_nat (length M) < 2147483648)%N /\
  exists o o', js_source_and_map true true (snd (build cache_empty e52)) = Some (ResMap o) /\
    snd (rrun (fst (build cache_empty e52), o) read63) = answers63 map63 /\
    let b := build cache_empty (XSms text63 (lit "bundle.js") map63 [] None) in
    js_source_and_map true true (snd b) = Some (ResMap o') /\ snd (rrun (fst b, o') read63) = answers63 map63.
Proof.
  intro nu. destruct C52_case as (X & NR & _). eexists. split; [exact X|]. split; [exact NR|]. split; [reflexivity|]. split; [vm_compute; reflexivity|].
  split; [intros (s & E); vm_compute in E; discriminate|]. split; [vm_compute; reflexivity|].
  eexists _, _. split; [vm_compute; reflexivity|]. split; [vm_compute; reflexivity|]. cbv zeta. split; [vm_compute; reflexivity|vm_compute; reflexivity].
Qed.
(** The same map passed on as it is: at once, and then, after reads of the new result and calls
    of sourceAndMap, once more. *)
Example C63_direct_case : exists o c2 o2, js_source_and_map true true (snd (build cache_empty e52)) = Some (ResMap o) /\
  again text63 (fst (build cache_empty e52), o) (c2, o2) /\ snd (rrun (c2, o2) read63) = answers63 map63.
Proof.
  eexists _, _, _. split; [vm_compute; reflexivity|]. split.
  - eapply (ag_next _ _ [] (lit "bundle.js")) with (k := 0); [constructor|vm_compute; reflexivity|vm_compute; reflexivity|vm_compute; reflexivity|].
    eapply (ag_next _ _ [RGet FContents; ROther (lit "zz") true; RSource] (lit "f.js")) with (k := 2); [repeat constructor|vm_compute; reflexivity|vm_compute; reflexivity|vm_compute; reflexivity|]. apply ag_here.
  - vm_compute. reflexivity.
Qed.
(** The bundle inside another one, next to one of its sources. *)
Definition part63 : jexpr := XConcat [XOriginal (lit "a()") (lit "a.js"); XRaw nlj; XOriginal (lit "b()") (lit "b.js")].
Definition pmap63 : jmap := mk_jmap [lit "a.js"; lit "b.js"] [lit "a()"; lit "b()"] [] (lit "AAAA,G;ACAA").
Definition pcopy63 : jexpr := XSms (lit "a()" ++ nlj ++ lit "b()") (lit "part.js") pmap63 [] None.
Definition whole63 (p : jexpr) : jexpr := XPrefix (lit "> ") (XConcat [p; XOriginal (lit "c()") (lit "b.js"); p]).
Lemma pmap63_sound : sound_map pmap63.
Proof.
  split; [repeat constructor; cbn; intuition discriminate|]. split; [constructor|]. split; [apply EndFacts.ascii_plain; repeat constructor|].
  eexists. split; [vm_compute; reflexivity|]. split; [repeat constructor; cbn; try lia|]. split; [repeat constructor; cbn; lia|].
  intros s s' [<-|[<-|[<-|[]]]] [<-|[<-|[<-|[]]]]; cbn; congruence.
Qed.
Lemma plain63 : forall u, forallb is_ascii u = true -> plain u.
Proof. exact EndFacts.is_ascii_plain. Qed.
Example C63_inside_case : forall nu, exists M, marks nu part63 = Some M /\ marks nu pcopy63 = Some M /\ exact_expr pcopy63 /\
  NoDup (jm_sources pmap63) /\ jm_contents pmap63 = contents_of part63 (jm_sources pmap63) /\
  exact_expr (whole63 part63) /\ swaps part63 pcopy63 (whole63 part63) (whole63 pcopy63) /\ whole63 part63 <> whole63 pcopy63 /\
  length (jm_contents pmap63) = length (jm_sources pmap63) /\ (forall s, In s (map fst (contents_given part63)) -> In s (jm_sources pmap63)).
Proof.
  intro nu. eexists. split; [reflexivity|]. split; [reflexivity|]. split; [split; [apply plain63; reflexivity|split; [apply pmap63_sound|exact I]]|].
  split; [apply pmap63_sound|]. split; [vm_compute; reflexivity|].
  split; [cbn [whole63 part63 exact_expr]; repeat split; try exact I; try discriminate; try (apply plain63; reflexivity)|].
  split; [apply sw_prefix, sw_concat; constructor; [apply sw_here|]; constructor; [apply sw_same|]; constructor; [apply sw_here|constructor]|].
  split; [discriminate|]. split; [reflexivity|]. intros s [<-|[<-|[]]]; vm_compute; auto.
Qed.

(** The expression of C52_lines: the map with columns of the copy has a segment only where the
    source changes. *)
Definition ltext63 : jstr := lit "/* h */a()" ++ nlj ++ lit "b()" ++ nlj ++ lit "foo" ++ nlj ++ lit "  x" ++ nlj ++ lit "  y".
Definition lmap63 : jmap := mk_jmap [lit "f.js"; lit "gen.js"] [lit "a()" ++ nlj ++ lit "b()"] [] (lit "A,OAAA;AACA;ACDA;ADAA;ACAA").
Example C63_lines_case : forall nu, exists M, line_expr true l52 /\ (forall v, l52 <> XRaw v) /\ line_marks nu true l52 = Some M /\
  text_of M = ltext63 /\ forallb is_ascii (text_of M) = true /\ (N.of_nat (length M) < 2147483648)%N /\
  (exists o, js_source_and_map false true (snd (build cache_empty l52)) = Some (ResMap o) /\
    snd (rrun (fst (build cache_empty l52), o) read63) =
      [AText ltext63; AVal (VArr (map Some (jm_sources lmap63))); AVal (VArr (map Some (jm_contents lmap63))); AVal VUndef; AVal (VStr (jm_mappings lmap63))]) /\
  (forall segs, decode (jm_mappings lmap63) = Some segs -> Forall small_seg segs) /\
  let b := build cache_empty (XSms ltext63 (lit "bundle.js") lmap63 [] None) in
  exists o', js_source_and_map true true (snd b) = Some (ResMap o') /\
    snd (rrun (fst b, o') read63) =
      [AText ltext63; AVal (VArr (map Some (jm_sources lmap63))); AVal (VArr (map Some (jm_contents lmap63))); AVal (VArr []); AVal (VStr (lit "OAAA;AACA;ACDA;ADAA;ACAA"))].
Proof.
  intro nu. destruct C52_lines_case as (X & NR & _). eexists. split; [exact (X true)|]. split; [exact NR|]. split; [reflexivity|]. split; [vm_compute; reflexivity|].
  split; [vm_compute; reflexivity|]. split; [vm_compute; reflexivity|]. split; [eexists; split; [vm_compute; reflexivity|vm_compute; reflexivity]|].
  split; [intros segs E; vm_compute in E; injection E as <-; repeat constructor; cbn; lia|]. cbv zeta. eexists. split; [vm_compute; reflexivity|vm_compute; reflexivity].
Qed.
(** Asked for lines again, the copy gives a line with two sources to the first one. *)
Definition pair63 : jexpr := XConcat [XOriginal (lit "a();") (lit "a.js"); XOriginal (lit "b()") (lit "b.js")].
Definition pairmap63 : jmap := mk_jmap [lit "a.js"; lit "b.js"] [lit "a();"; lit "b()"] [] (lit "AAAA,ICAA").
Theorem C63_lines_refuted : exists e m v o o' c1 t c2 t', line_expr true e /\ build cache_empty e = (c1, t) /\ build cache_empty (XSms v (lit "part.js") m [] None) = (c2, t') /\
  js_source_and_map false true t = Some (ResMap o) /\ js_source_and_map false true t' = Some (ResMap o') /\
  snd (rrun (c1, o) read63) =
    [AText v; AVal (VArr (map Some (jm_sources m))); AVal (VArr (map Some (jm_contents m))); AVal VUndef; AVal (VStr (jm_mappings m))] /\
  jm_sources m = [lit "a.js"; lit "b.js"] /\ snd (rstep (c2, o') (RGet FSources)) = AVal (VArr [Some (lit "a.js")]) /\
  snd (rstep (c2, o') (RGet FMappings)) = AVal (VStr (lit "AAAA")).
Proof.
  exists pair63, pairmap63, (lit "a();b()"). eexists _, _, _, _, _, _. split; [repeat split; apply plain63; reflexivity|].
  split; [vm_compute; reflexivity|]. split; [vm_compute; reflexivity|]. split; [vm_compute; reflexivity|]. split; [vm_compute; reflexivity|].
  split; [vm_compute; reflexivity|]. split; [reflexivity|]. split; [vm_compute; reflexivity|vm_compute; reflexivity].
Qed.
Print Assumptions C63_lines_refuted.

(** An edited source between two texts. *)
Definition edit63 : jexpr := XConcat [XStr (lit "("); XEdit (XOriginal (lit "a();b()" ++ nlj ++ lit "c()") (lit "f.js")) [JReplace (Fin 5 0) (Fin 5 0) (lit "--"); JInsert (Fin 8 0) (lit "//")]; XStr (lit ")")].
Definition etext63 : jstr := lit "(a();b--)" ++ nlj ++ lit "//c())".
Definition emap63 : jmap := mk_jmap [lit "f.js"] [lit "a();b()" ++ nlj ++ lit "c()"] [] (lit "CAAA,IAAI;AAAA,EACJ,G").
Example C63_edited_case : edit_expr edit63 /\ (forall v, edit63 <> XRaw v) /\
  (exists o, js_source_and_map true true (snd (build cache_empty edit63)) = Some (ResMap o) /\
    snd (rrun (fst (build cache_empty edit63), o) read63) =
      [AText etext63; AVal (VArr (map Some (jm_sources emap63))); AVal (VArr (map Some (jm_contents emap63))); AVal (VArr []); AVal (VStr (jm_mappings emap63))]) /\
  (forall segs, decode (jm_mappings emap63) = Some segs -> tidy_segs segs) /\
  let b := build cache_empty (XSms etext63 (lit "bundle.js") emap63 [] None) in
  exists o', js_source_and_map true true (snd b) = Some (ResMap o') /\
    snd (rrun (fst b, o') read63) =
      [AText etext63; AVal (VArr (map Some (jm_sources emap63))); AVal (VArr (map Some (jm_contents emap63))); AVal (VArr []); AVal (VStr (lit "CAAA,IAAI;AAAA,EACJ,G"))].
Proof.
  split; [|split; [discriminate|]].
  - cbn [edit63 edit_expr exact_expr]. repeat split; try exact I; try discriminate; try (apply plain63; reflexivity); repeat constructor; unfold ordinary, forward; cbn; try lia; try discriminate; try (apply plain63; reflexivity).
  - split; [eexists; split; [vm_compute; reflexivity|vm_compute; reflexivity]|]. split; [intros segs E; vm_compute in E; injection E as <-; split; [repeat constructor; cbn; lia|]|].
    + intros s s' H H'. cbn [In] in H, H'. destruct H as [<-|[<-|[<-|[<-|[<-|[]]]]]], H' as [<-|[<-|[<-|[<-|[<-|[]]]]]]; cbn [sg_line sg_col]; congruence.
    + cbv zeta. eexists. split; [vm_compute; reflexivity|vm_compute; reflexivity].
Qed.
(** With several segments for a place the copy can say something else: b.js was seen before a.js,
    so the generator puts its segment in front of that of a.js, whose text is gone, and the text of
    b.js is read as that of a.js; the copy sorts the segments by the place of the source in the map,
    and b.js comes back. *)
Definition gone63 : jexpr := XEdit (XConcat [XOriginal (lit "a();") (lit "a.js"); XOriginal (lit "b()") (lit "b.js")]) [JReplace (Fin 0 0) (Fin 3 0) []].
Definition gonemap63 : jmap := mk_jmap [lit "a.js"; lit "b.js"] [lit "a();"; lit "b()"] [] (lit "ACAA,ADAA").
Definition seen63 : cache := fst (build cache_empty (XOriginal (lit "z") (lit "b.js"))).
Theorem C63_edited_refuted : exists e m v o o' c0 c1 t c2 t', reached_cache c0 /\ edit_expr e /\ build c0 e = (c1, t) /\ build c0 (XSms v (lit "part.js") m [] None) = (c2, t') /\
  js_source_and_map true true t = Some (ResMap o) /\ js_source_and_map true true t' = Some (ResMap o') /\
  snd (rrun (c1, o) read63) =
    [AText v; AVal (VArr (map Some (jm_sources m))); AVal (VArr (map Some (jm_contents m))); AVal (VArr []); AVal (VStr (jm_mappings m))] /\
  (forall nu, exists es, map_says nu m = Some es /\ annotate es v = mark (Some (nu (lit "a.js"), (1, 0)%Z, None)) v) /\
  snd (rstep (c2, o') (RGet FSources)) = AVal (VArr [Some (lit "b.js")]) /\ snd (rstep (c2, o') (RGet FMappings)) = AVal (VStr (lit "AAAA")).
Proof.
  exists gone63, gonemap63, (lit "b()"). eexists _, _, seen63, _, _, _, _. split; [|split].
  - eapply reached_build with (c := cache_empty) (e := XOriginal (lit "z") (lit "b.js")); [exists [], []; reflexivity|unfold seen63; apply surjective_pairing].
  - cbn [gone63 edit_expr exact_expr]. repeat split; try exact I; try discriminate; try (apply plain63; reflexivity); repeat constructor; unfold ordinary, forward; cbn; try lia; try discriminate.
  - split; [vm_compute; reflexivity|]. split; [vm_compute; reflexivity|]. split; [vm_compute; reflexivity|]. split; [vm_compute; reflexivity|].
    split; [vm_compute; reflexivity|]. split; [intro nu; eexists; split; reflexivity|]. split; [vm_compute; reflexivity|vm_compute; reflexivity].
Qed.
Print Assumptions C63_edited_refuted.

(** sourcesContent of a map leaves out sources without content: read from its fields, the
    contents of the others move to the wrong sources. *)
Definition bare63 : jmap := mk_jmap [lit "a.js"] [] [] (lit "AAAA").
Definition gap63 : jexpr := XConcat [XSms (lit "a()" ++ nlj) (lit "g.js") bare63 [] None; XOriginal (lit "b()") (lit "b.js")].
Definition gmap63 : jmap := mk_jmap [lit "a.js"; lit "b.js"] [lit "b()"] [] (lit "AAAA;ACAA").
Theorem C63_contents_refuted : exists e m v x x' o o' c1 t c2 t', exact_expr e /\ exact_expr x /\
  (exists o0, js_source_and_map true true (snd (build cache_empty e)) = Some (ResMap o0) /\
    snd (rrun (fst (build cache_empty e), o0) read63) =
      [AText v; AVal (VArr (map Some (jm_sources m))); AVal (VArr (map Some (jm_contents m))); AVal (VArr (map Some (jm_names m))); AVal (VStr (jm_mappings m))]) /\
  swaps e (XSms v (lit "part.js") m [] None) x x' /\ build cache_empty x = (c1, t) /\ build cache_empty x' = (c2, t') /\
  js_source_and_map true true t = Some (ResMap o) /\ js_source_and_map true true t' = Some (ResMap o') /\
  snd (rstep (c1, o) (RGet FSources)) = snd (rstep (c2, o') (RGet FSources)) /\
  snd (rstep (c1, o) (RGet FContents)) = AVal (VArr [Some (lit "a()"); Some (lit "b()")]) /\
  snd (rstep (c2, o') (RGet FContents)) = AVal (VArr [Some (lit "b()")]).
Proof.
  assert (So : sound_map bare63).
  { split; [repeat constructor; cbn; tauto|]. split; [constructor|]. split; [apply EndFacts.ascii_plain; repeat constructor|].
    eexists. split; [vm_compute; reflexivity|]. split; [repeat constructor; cbn; lia|]. split; [repeat constructor; cbn; lia|]. intros s s' [<-|[]] [<-|[]]; congruence. }
  assert (Xg : exact_expr gap63) by (cbn [gap63 exact_expr]; repeat split; try exact I; try discriminate; try (apply plain63; reflexivity); apply So).
  exists gap63, gmap63, (lit "a()" ++ nlj ++ lit "b()"), (XConcat [gap63; XOriginal (lit "a()") (lit "a.js")]),
    (XConcat [XSms (lit "a()" ++ nlj ++ lit "b()") (lit "part.js") gmap63 [] None; XOriginal (lit "a()") (lit "a.js")]).
  eexists _, _, _, _, _, _. split; [exact Xg|].
  split; [cbn [exact_expr gap63]; repeat split; try exact I; try discriminate; try (apply plain63; reflexivity); apply So|]. split; [|split; [apply sw_concat; constructor; [apply sw_here|]; constructor; [apply sw_same|constructor]|]].
  - eexists. split; [vm_compute; reflexivity|vm_compute; reflexivity].
  - split; [vm_compute; reflexivity|]. split; [vm_compute; reflexivity|]. split; [vm_compute; reflexivity|]. split; [vm_compute; reflexivity|]. split; [vm_compute; reflexivity|]. split; vm_compute; reflexivity.
Qed.
Print Assumptions C63_contents_refuted.
