(** C60: programs of the JavaScript API, in which objects are shared, changed and read in any
    order. *)
From Verif Require Import Base ModelString ModelVlq ModelSm ModelSlm ModelSources ModelTree ModelWasm ModelJs ModelJsApi ModelJsResult
  SpecText SpecMap SpecAttr SpecEdit SpecLineEdit SpecList SpecEffect SpecJs SpecResult ResultProps ModelEnd SpecEnd EndFacts SpecEdited SpecLineEdited
  ModelJsProg SpecProg ProgFacts ProgProps ProgEnd PropertiesEnd PropertiesEdited PropertiesLineEdited.

(** source() and size() answer as for the expression that the calls amount to, made on its own. *)
Theorem C60_source : forall c0 ops st i e, reached_cache c0 -> jrun (jstate_new c0) ops = Some st ->
  denotes (meaning ops) (ArgObj i) e -> fresh_reads (meaning ops) i ->
  option_map snd (jstep st (OSource i)) = option_map NText (js_source (alone e)).
Proof. intros c0 ops st i e R Run. exact (run_source R Run i e). Qed.
Print Assumptions C60_source.
Theorem C60_size : forall c0 ops st i e, reached_cache c0 -> jrun (jstate_new c0) ops = Some st ->
  denotes (meaning ops) (ArgObj i) e -> fresh_reads (meaning ops) i ->
  option_map snd (jstep st (OSize i)) = option_map NSize (js_size (alone e)).
Proof. intros c0 ops st i e R Run. exact (run_size R Run i e). Qed.
Print Assumptions C60_size.

(** sourceAndMap(): what is read off the returned object, at any later time. *)
Theorem C60_map : forall nu c0 ops st i e md, numbering nu -> reached_cache c0 -> jrun (jstate_new c0) ops = Some st ->
  denotes (meaning ops) (ArgObj i) e -> fresh_reads (meaning ops) i -> exact_expr e -> (forall v, e <> XRaw v) ->
  exists st' o M Ls Ln ms es, jstep st (OMap i true md) = Some (st', NResult (ResMap o)) /\ marks nu e = Some M /\
    NoDup Ls /\ NoDup Ln /\ incl Ls (sources_in e) /\ incl Ln (names_in e) /\
    reads_as nu Ls Ln ms = Some es /\ annotate es (text_of M) = M /\
    forall l st2 o2, uses st' o l = Some (st2, o2) ->
      (~ starts_with BOM (text_of M) -> snd (rstep (js_cache st2, o2) RSource) = AText (text_of M)) /\
      snd (rstep (js_cache st2, o2) (RGet FSources)) = AVal (VArr (map Some Ls)) /\
      snd (rstep (js_cache st2, o2) (RGet FNames)) = AVal (VArr (map Some Ln)) /\
      snd (rstep (js_cache st2, o2) (RGet FMappings)) = AVal (VStr ms) /\
      exists v, snd (rstep (js_cache st2, o2) (RGet FContents)) = AVal v /\ lists v (map Some (contents_of e Ls)).
Proof. intros nu c0 ops st i e md Hnu R Run. exact (run_map R Run nu i e md Hnu). Qed.
Print Assumptions C60_map.
(** Two programs whose objects amount to the same expression get the same. *)
Theorem C60_same : forall c0 ops st i c0' ops' st' i' e md md', reached_cache c0 -> reached_cache c0' ->
  jrun (jstate_new c0) ops = Some st -> jrun (jstate_new c0') ops' = Some st' ->
  denotes (meaning ops) (ArgObj i) e -> fresh_reads (meaning ops) i -> denotes (meaning ops') (ArgObj i') e -> fresh_reads (meaning ops') i' ->
  exact_expr e -> (forall v, e <> XRaw v) ->
  exists st1 o st1' o', jstep st (OMap i true md) = Some (st1, NResult (ResMap o)) /\ jstep st' (OMap i' true md') = Some (st1', NResult (ResMap o')) /\
    forall l l' st2 o2 st2' o2' q, uses st1 o l = Some (st2, o2) -> uses st1' o' l' = Some (st2', o2') -> (q = RSource \/ exists f, q = RGet f) ->
      snd (rstep (js_cache st2, o2) q) = snd (rstep (js_cache st2', o2') q).
Proof. exact run_same. Qed.
Print Assumptions C60_same.
(** columns: false. *)
Theorem C60_lines : forall nu c0 ops st i e md, numbering nu -> reached_cache c0 -> jrun (jstate_new c0) ops = Some st ->
  denotes (meaning ops) (ArgObj i) e -> fresh_reads (meaning ops) i -> line_expr md e -> (forall v, e <> XRaw v) ->
  exists st' o M Ls ms es, jstep st (OMap i false md) = Some (st', NResult (ResMap o)) /\ line_marks nu md e = Some M /\
    map nu Ls = firsts (map fst (line_uses nu md e)) /\
    reads_as nu Ls [] ms = Some es /\ annotate_bytes es (text_of M) = carried None M /\
    forall l st2 o2, uses st' o l = Some (st2, o2) ->
      (~ starts_with BOM (text_of M) -> snd (rstep (js_cache st2, o2) RSource) = AText (text_of M)) /\
      snd (rstep (js_cache st2, o2) (RGet FSources)) = AVal (VArr (map Some Ls)) /\
      snd (rstep (js_cache st2, o2) (RGet FMappings)) = AVal (VStr ms) /\
      snd (rstep (js_cache st2, o2) (RGet FNames)) = AVal VUndef /\
      exists v, snd (rstep (js_cache st2, o2) (RGet FContents)) = AVal v /\
        lists v (map Some (flat_map (fun s => match first_use (line_uses nu md e) (nu s) with Some k => [k] | None => [] end) Ls)).
Proof. intros nu c0 ops st i e md Hnu R Run. exact (run_lines R Run nu i e md Hnu). Qed.
Print Assumptions C60_lines.
(** With ReplaceSources: as C58_map and C59_map. *)
Theorem C60_edited : forall nu c0 ops st i e md, numbering nu -> reached_cache c0 -> jrun (jstate_new c0) ops = Some st ->
  denotes (meaning ops) (ArgObj i) e -> fresh_reads (meaning ops) i -> edit_expr e -> (forall v, e <> XRaw v) ->
  exists st' o M E Ls Ln Ks ms es, jstep st (OMap i true md) = Some (st', NResult (ResMap o)) /\ reading nu e M /\ marks nu (unedited e) = Some E /\
    NoDup Ls /\ NoDup Ln /\ incl Ls (sources_in e) /\ incl Ln (names_in e) /\
    reads_as nu Ls Ln ms = Some es /\
    Forall (fun x => within E (snd x)) (annotate es (text_of M)) /\
    (in_order (js_cache st) e -> Forall2 agrees M (annotate es (text_of M))) /\
    Forall2 (given_for e) Ls Ks /\ (lone_edits e -> Ks = map (first_content (contents_given e)) Ls) /\
    forall l st2 o2, uses st' o l = Some (st2, o2) ->
      (~ starts_with BOM (text_of M) -> snd (rstep (js_cache st2, o2) RSource) = AText (text_of M)) /\
      snd (rstep (js_cache st2, o2) (RGet FSources)) = AVal (VArr (map Some Ls)) /\
      snd (rstep (js_cache st2, o2) (RGet FNames)) = AVal (VArr (map Some Ln)) /\
      snd (rstep (js_cache st2, o2) (RGet FMappings)) = AVal (VStr ms) /\
      exists v, snd (rstep (js_cache st2, o2) (RGet FContents)) = AVal v /\ lists v (map Some (flat_map (fun k => match k with Some k => [k] | None => [] end) Ks)).
Proof. intros nu c0 ops st i e md Hnu R Run. exact (run_edited R Run nu i e md Hnu). Qed.
Print Assumptions C60_edited.
Theorem C60_line_edited : forall nu c0 ops st i e md, numbering nu -> reached_cache c0 -> jrun (jstate_new c0) ops = Some st ->
  denotes (meaning ops) (ArgObj i) e -> fresh_reads (meaning ops) i -> line_edit_expr md e -> (forall v, e <> XRaw v) ->
  exists st' o M Ls Ks ms es, jstep st (OMap i false md) = Some (st', NResult (ResMap o)) /\ line_reading nu md e M /\
    map nu Ls = firsts (sources_shown M) /\ Forall2 (fun s k => In (s, k) (line_given md e)) Ls Ks /\
    reads_as nu Ls [] ms = Some es /\ annotate_bytes es (text_of M) = carried None M /\
    forall l st2 o2, uses st' o l = Some (st2, o2) ->
      (~ starts_with BOM (text_of M) -> snd (rstep (js_cache st2, o2) RSource) = AText (text_of M)) /\
      snd (rstep (js_cache st2, o2) (RGet FSources)) = AVal (VArr (map Some Ls)) /\
      snd (rstep (js_cache st2, o2) (RGet FMappings)) = AVal (VStr ms) /\
      snd (rstep (js_cache st2, o2) (RGet FNames)) = AVal VUndef /\
      exists v, snd (rstep (js_cache st2, o2) (RGet FContents)) = AVal v /\
        lists v (map Some (flat_map (fun k => match k with Some k => [k] | None => [] end) Ks)).
Proof. intros nu c0 ops st i e md Hnu R Run. exact (run_line_edited R Run nu i e md Hnu). Qed.
Print Assumptions C60_line_edited.
(** updateHash, if the stack is large enough. *)
Theorem C60_hash : forall c0 ops st i s, reached_cache c0 -> jrun (jstate_new c0) ops = Some st -> hashes (meaning ops) (ArgObj i) s ->
  exists d, forall stack, d <= stack -> option_map snd (jstep st (OHash stack i)) = Some (NHash s).
Proof. exact run_hash. Qed.
Print Assumptions C60_hash.
(** A CachedSource answers like the object inside as long as it has not been read, nor a CachedSource inside it, neither
    itself nor through another CachedSource; once read, source() stays. *)
Theorem C60_cached : forall c0 ops st i e, reached_cache c0 -> jrun (jstate_new c0) ops = Some st ->
  (forall k m, In (OSource k) ops \/ In (OSize k) ops -> wraps (meaning ops) k m -> wraps (meaning ops) i m -> fresh_reads (meaning ops) m) ->
  denotes (meaning ops) (ArgObj i) e ->
  option_map snd (jstep st (OSource i)) = option_map NText (js_source (alone e)) /\
  option_map snd (jstep st (OSize i)) = option_map NSize (js_size (alone e)).
Proof. exact run_cached. Qed.
Print Assumptions C60_cached.
Theorem C60_cached_stays : forall c0 ops st i j st1 s ops' st2, reached_cache c0 -> jrun (jstate_new c0) ops = Some st -> nth_error (meaning ops) i = Some (VSame j) ->
  jstep st (OSource i) = Some (st1, NText s) -> jrun st1 ops' = Some st2 -> option_map snd (jstep st2 (OSource i)) = Some (NText s).
Proof. exact run_stays. Qed.
Print Assumptions C60_cached_stays.

(** ** Examples *)
(** Object 7 amounts to the expression of C52_case; 4 and 2 are changed after they were read and used, 4 also after 7 was made of it. *)
Definition ops60 : list jop :=
  [ONewOriginal (lit "a();b()" ++ nlj ++ lit "c()") (lit "f.js"); ONewRaw nlj; ONewConcat [ArgObj 0]; ONewPrefix (lit "  ") (ArgObj 2);
   ONewConcat [ArgStr (lit "/* h */" ++ nlj); ArgObj 3]; OSource 4; OMap 4 true true; OAdd 2 (ArgObj 1);
   ONewSms (lit "foo") (lit "gen.js") outer52 (lit "bar") (Some inner52); OIntern (lit "zz") true; OAdd 4 (ArgObj 5); OSize 4;
   ONewOriginal (lit "x") (lit "gen.js"); OAdd 4 (ArgObj 6); ONewConcat [ArgObj 4]; OMap 5 false true; OAdd 4 (ArgStr (lit "later"))].
Definition run60 : jstate := match jrun (jstate_new cache_empty) ops60 with Some st => st | None => jstate_new cache_empty end.
Lemma denotes60 : denotes (meaning ops60) (ArgObj 7) e52.
Proof.
  eapply de_concat; [reflexivity|]. repeat apply ds_cons; try apply ds_nil.
  - apply de_str.
  - eapply de_prefix; [reflexivity|]. eapply de_concat; [reflexivity|]. repeat apply ds_cons; try apply ds_nil; (eapply de_leaf; reflexivity).
  - eapply de_leaf; reflexivity.
  - eapply de_leaf; reflexivity.
Qed.
Example C60_case : jrun (jstate_new cache_empty) ops60 = Some run60 /\ denotes (meaning ops60) (ArgObj 7) e52 /\ fresh_reads (meaning ops60) 7 /\ exact_expr e52 /\
  option_map snd (jstep run60 (OSource 7)) = Some (NText (lit "/* h */" ++ nlj ++ lit "  a();b()" ++ nlj ++ lit "  c()" ++ nlj ++ lit "foox")) /\
  option_map snd (jstep run60 (OSize 7)) = Some (NSize 28) /\
  exists st' o st2 o2, jstep run60 (OMap 7 true false) = Some (st', NResult (ResMap o)) /\
    uses st' o [ReadField FNames; More (OAdd 7 (ArgObj 1)); More (OIntern (lit "f.js") false); ReadText; More (OMap 7 true true)] = Some (st2, o2) /\
    snd (rstep (js_cache st2, o2) (RGet FMappings)) = AVal (VStr (lit ";AAAA,MAAI;AACJ,K;ACGIA,CCHJ,ECDA")) /\
    snd (rstep (js_cache st2, o2) (RGet FSources)) = AVal (VArr [Some (lit "f.js"); Some (lit "in.ts"); Some (lit "other.js"); Some (lit "gen.js")]).
Proof.
  split; [vm_compute; reflexivity|]. split; [exact denotes60|]. split; [intro j; vm_compute; discriminate|]. split; [apply C52_case|].
  split; [vm_compute; reflexivity|]. split; [vm_compute; reflexivity|].
  eexists _, _, _, _. split; [vm_compute; reflexivity|]. split; [vm_compute; reflexivity|]. split; vm_compute; reflexivity.
Qed.
(** The same expression, by another program. *)
Definition ops60' : list jop :=
  [OIntern (lit "gen.js") true; ONewOriginal (lit "x") (lit "gen.js"); ONewSms (lit "foo") (lit "gen.js") outer52 (lit "bar") (Some inner52);
   ONewOriginal (lit "a();b()" ++ nlj ++ lit "c()") (lit "f.js"); ONewRaw nlj; ONewConcat [ArgObj 2; ArgObj 3]; ONewPrefix (lit "  ") (ArgObj 4);
   ONewConcat [ArgStr (lit "/* h */" ++ nlj); ArgObj 5; ArgObj 1; ArgObj 0]].
Example C60_same_case : (exists st, jrun (jstate_new cache_empty) ops60' = Some st) /\ denotes (meaning ops60') (ArgObj 6) e52 /\ fresh_reads (meaning ops60') 6.
Proof.
  split; [eexists; vm_compute; reflexivity|]. split; [|intro j; vm_compute; discriminate].
  eapply de_concat; [reflexivity|]. repeat apply ds_cons; try apply ds_nil.
  - apply de_str.
  - eapply de_prefix; [reflexivity|]. eapply de_concat; [reflexivity|]. repeat apply ds_cons; try apply ds_nil; (eapply de_leaf; reflexivity).
  - eapply de_leaf; reflexivity.
  - eapply de_leaf; reflexivity.
Qed.
(** columns: false; object 6. *)
Definition l60 : jexpr :=
  XConcat [XStr (lit "/* h */"); XOriginal (lit "a()" ++ nlj ++ lit "b()") (lit "f.js"); XRaw nlj;
           XSms (lit "foo" ++ nlj) (lit "gen.js") outer52 (lit "bar") (Some inner52);
           XPrefix (lit "  ") (XConcat [XL2L (lit "x" ++ nlj) (lit "f.js") (lit "X"); XOriginal (lit "y") (lit "gen.js")])].
Definition lops60 : list jop :=
  [ONewRaw nlj; ONewOriginal (lit "y") (lit "gen.js"); ONewConcat [ArgObj 0]; ONewOriginal (lit "a()" ++ nlj ++ lit "b()") (lit "f.js");
   ONewSms (lit "foo" ++ nlj) (lit "gen.js") outer52 (lit "bar") (Some inner52); ONewL2L (lit "x" ++ nlj) (lit "f.js") (lit "X");
   ONewConcat [ArgStr (lit "/* h */"); ArgObj 3; ArgObj 2; ArgObj 4]; OMap 6 false true; OSource 6; ONewConcat [ArgObj 5]; ONewPrefix (lit "  ") (ArgObj 7);
   OAdd 6 (ArgObj 8); OAdd 2 (ArgObj 4); OAdd 7 (ArgObj 1)].
Example C60_lines_case : (forall md, line_expr md l60) /\ denotes (meaning lops60) (ArgObj 6) l60 /\ fresh_reads (meaning lops60) 6 /\
  exists st st' o, jrun (jstate_new cache_empty) lops60 = Some st /\ jstep st (OMap 6 false true) = Some (st', NResult (ResMap o)) /\
    snd (rstep (js_cache st', o) (RGet FMappings)) = AVal (VStr (lit "A,OAAA;AACA;ACDA;ADAA;ACAA")).
Proof.
  split; [|split; [|split; [intro j; vm_compute; discriminate|]]].
  - assert (P : forall u, forallb is_ascii u = true -> plain u) by apply EndFacts.is_ascii_plain.
    intro md. cbn [l60 line_expr on_lines leaf_texts flat_map app at_line_ends]. repeat split; try exact I; try discriminate; try (intros [H|[H|[]]]; discriminate H); try (left; exact I); try (apply P; vm_compute; reflexivity); try (apply P; reflexivity); try apply outer52_sound.
    intros segs E. vm_compute in E. injection E as <-. repeat constructor; cbn; lia.
  - eapply de_concat; [reflexivity|]. repeat apply ds_cons; try apply ds_nil; [apply de_str|eapply de_leaf; reflexivity..|].
    eapply de_prefix; [reflexivity|]. eapply de_concat; [reflexivity|]. repeat apply ds_cons; try apply ds_nil; eapply de_leaf; reflexivity.
  - eexists _, _, _. split; [vm_compute; reflexivity|]. split; [vm_compute; reflexivity|]. vm_compute; reflexivity.
Qed.
(** Edits, with reads in between; object 4 amounts to the expression of C58_case. *)
Definition eops60 : list jop :=
  [ONewOriginal (lit "a();b();" ++ nlj ++ lit "c()") (lit "f.js"); ONewReplace (ArgObj 0); OReplaceAt 1 (Fin 4 0) (Fin 7 0) []; OSource 1; OInsertAt 1 (Fin 9 0) (lit "//");
   ONewL2L (lit "x" ++ nlj ++ lit "y") (lit "g.js") (lit "o"); ONewReplace (ArgObj 2); ONewConcat [ArgStr (lit "("); ArgObj 1; ArgStr (lit ";" ++ nlj)];
   OMap 4 true true; OReplaceAt 1 (Fin 0 0) (Fin 0 0) (lit "xy"); ONewPrefix (lit "  ") (ArgObj 3); OAdd 4 (ArgObj 5); OSize 4; OReplaceAt 3 (Fin 0 0) (Fin 0 0) (lit "z")].
Example C60_edited_case : edit_expr (XConcat ps58) /\ denotes (meaning eops60) (ArgObj 4) (XConcat ps58) /\ fresh_reads (meaning eops60) 4 /\
  exists st, jrun (jstate_new cache_empty) eops60 = Some st /\
    option_map snd (jstep st (OSource 4)) = Some (NText (lit "(xy();" ++ nlj ++ lit "//c();" ++ nlj ++ lit "  z" ++ nlj ++ lit "  y")).
Proof.
  split; [|split; [|split; [intro j; vm_compute; discriminate|]]].
  - destruct C58_case as (R & P & N & U & _). destruct (build cache_empty (XConcat ps58)) as [c1 t] eqn:E. exact (proj1 (C58_modules _ _ _ _ R P N U E)).
  - eapply de_concat; [reflexivity|]. repeat apply ds_cons; try apply ds_nil.
    + apply de_str.
    + eapply de_edit; [reflexivity|]. eapply de_leaf; reflexivity.
    + apply de_str.
    + eapply de_prefix; [reflexivity|]. eapply de_edit; [reflexivity|]. eapply de_leaf; reflexivity.
  - eexists. split; [vm_compute; reflexivity|]. vm_compute; reflexivity.
Qed.
(** Object 7 amounts to the expression of C59_case. *)
Definition leops60 : list jop :=
  [ONewOriginal (lit "a()" ++ nlj ++ lit "b()" ++ nlj) (lit "f.js"); ONewOriginal (lit "c" ++ nlj) (lit "g.js"); ONewConcat [ArgObj 0; ArgObj 1];
   ONewReplace (ArgObj 2); ONewSms (lit "foo" ++ nlj) (lit "gen.js") outer52 (lit "bar") (Some inner52); ONewL2L (lit "x" ++ nlj ++ lit "y") (lit "g.js") (lit "c" ++ nlj);
   ONewReplace (ArgObj 5); ONewConcat [ArgStr (lit "/* h */"); ArgObj 3; ArgObj 4; ArgObj 6]; OReplaceAt 3 (Fin 1 0) (Fin 3 0) []; OMap 7 false true;
   OInsertAt 3 (Fin 5 0) (lit "zz"); OSource 3; OReplaceAt 6 (Fin 2 0) (Fin 2 0) (lit "w"); OReplaceAt 3 (Fin 8 0) (Fin 8 0) (lit "1" ++ nlj ++ lit "2"); OSource 7].
Example C60_line_edited_case : (forall md, line_edit_expr md l59) /\ denotes (meaning leops60) (ArgObj 7) l59 /\ fresh_reads (meaning leops60) 7 /\
  exists st, jrun (jstate_new cache_empty) leops60 = Some st.
Proof.
  split; [apply C59_case|]. split; [|split; [intro j; vm_compute; discriminate|eexists; vm_compute; reflexivity]].
  eapply de_concat; [reflexivity|]. repeat apply ds_cons; try apply ds_nil.
  - apply de_str.
  - eapply de_edit; [reflexivity|]. eapply de_concat; [reflexivity|]. repeat apply ds_cons; try apply ds_nil; (eapply de_leaf; reflexivity).
  - eapply de_leaf; reflexivity.
  - eapply de_edit; [reflexivity|]. eapply de_leaf; reflexivity.
Qed.
(** updateHash of object 4: the text of the ReplaceSource, then the prefix after what it is put before. *)
Example C60_hash_case : hashes (meaning eops60) (ArgObj 4) (lit "(" ++ (lit "xy();" ++ nlj ++ lit "//c()") ++ (lit ";" ++ nlj) ++ (lit "z" ++ nlj ++ lit "y") ++ lit "  ").
Proof.
  eapply ha_concat; [reflexivity|]. apply hs_cons; [apply ha_str|]. apply hs_cons.
  - eapply ha_edit; [reflexivity|eapply de_edit; [reflexivity|eapply de_leaf; reflexivity]|vm_compute; reflexivity].
  - apply hs_cons; [apply ha_str|]. match goal with |- hashes_all _ _ ?s => replace s with (s ++ []) by apply app_nil_r end. apply hs_cons; [|apply hs_nil].
    eapply ha_prefix; [reflexivity|]. eapply ha_edit; [reflexivity|eapply de_edit; [reflexivity|eapply de_leaf; reflexivity]|vm_compute; reflexivity].
Qed.
(** What a ConcatSource amounts to does not determine its hash: after outer.add(inner), inner.add("z") changes
    the hash of outer, though neither its text nor its map. *)
Definition hops60 : list jop := [ONewConcat [ArgStr (lit "i")]; ONewConcat [ArgStr (lit "o"); ArgObj 0]].
Theorem C60_hash_refuted : exists ops op i e st st' a s s', jrun (jstate_new cache_empty) ops = Some st /\ jstep st op = Some (st', a) /\
  denotes (meaning ops) (ArgObj i) e /\ denotes (meaning (ops ++ [op])) (ArgObj i) e /\
  (forall stack, 2 <= stack -> option_map snd (jstep st (OHash stack i)) = Some (NHash s) /\ option_map snd (jstep st' (OHash stack i)) = Some (NHash s')) /\ s <> s'.
Proof.
  exists hops60, (OAdd 0 (ArgStr (lit "z"))), 1, (XConcat [XStr (lit "o"); XStr (lit "i")]). eexists _, _, NDone, (lit "oi"), (lit "oiz").
  split; [vm_compute; reflexivity|]. split; [vm_compute; reflexivity|].
  split; [|split; [|split; [|discriminate]]].
  - eapply de_concat; [reflexivity|]. repeat apply ds_cons; try apply ds_nil; apply de_str.
  - eapply de_concat; [reflexivity|]. repeat apply ds_cons; try apply ds_nil; apply de_str.
  - intros [|[|n]] Hn; [lia|lia|]. destruct n; split; reflexivity.
Qed.
Print Assumptions C60_hash_refuted.
(** a.add(b); b.add(a): both have texts, but updateHash never ends (it overflows any stack). *)
Definition cops60 : list jop := [ONewConcat [ArgStr (lit "a")]; ONewConcat [ArgStr (lit "b")]; OAdd 0 (ArgObj 1); OAdd 1 (ArgObj 0)].
Theorem C60_hash_loop_refuted : exists ops st e, jrun (jstate_new cache_empty) ops = Some st /\ denotes (meaning ops) (ArgObj 0) e /\
  option_map snd (jstep st (OSource 0)) = Some (NText (lit "ab")) /\ forall stack, jstep st (OHash stack 0) = None.
Proof.
  exists cops60. eexists _, (XConcat [XStr (lit "a"); XStr (lit "b")]). split; [vm_compute; reflexivity|]. split; [|split; [vm_compute; reflexivity|]].
  - eapply de_concat; [reflexivity|]. repeat apply ds_cons; try apply ds_nil; apply de_str.
  - match goal with |- forall stack, jstep ?s _ = _ => set (st := s) end.
    assert (E0 : forall n, update_hash n st (ArgObj 1) = None -> update_hash (S n) st (ArgObj 0) = None).
    { intros n H. transitivity (let* (st, s) := update_hash n st (ArgStr (lit "a")) in let* (st, t) := (let* (st, s) := update_hash n st (ArgObj 1) in Some (st, s ++ [])) in Some (st, s ++ t)); [reflexivity|].
      destruct n; [reflexivity|]. change (update_hash (S n) st (ArgStr (lit "a"))) with (Some (st, lit "a")). cbn [bind]. now rewrite H. }
    assert (E1 : forall n, update_hash n st (ArgObj 0) = None -> update_hash (S n) st (ArgObj 1) = None).
    { intros n H. transitivity (let* (st, s) := update_hash n st (ArgStr (lit "b")) in let* (st, t) := (let* (st, s) := update_hash n st (ArgObj 0) in Some (st, s ++ [])) in Some (st, s ++ t)); [reflexivity|].
      destruct n; [reflexivity|]. change (update_hash (S n) st (ArgStr (lit "b"))) with (Some (st, lit "b")). cbn [bind]. now rewrite H. }
    assert (H : forall n, update_hash n st (ArgObj 0) = None /\ update_hash n st (ArgObj 1) = None) by (induction n as [|n [H0 H1]]; split; auto).
    intro n. cbn [jstep]. now rewrite (proj1 (H n)).
Qed.
Print Assumptions C60_hash_loop_refuted.
(** CachedSources: before and after the first read; 3 is around 1, and 4 is another one around 0, that was read. *)
Definition kops60 : list jop := [ONewConcat [ArgStr (lit "a")]; ONewCached 0; OAdd 0 (ArgStr (lit "b")); ONewConcat [ArgObj 1; ArgStr (lit "!")];
  ONewCached 1; ONewCached 0; OSource 4; OSource 0].
Example C60_cached_case : denotes (meaning kops60) (ArgObj 3) (XConcat [XStr (lit "a"); XStr (lit "b")]) /\ nth_error (meaning kops60) 3 = Some (VSame 1) /\
  nth_error (meaning kops60) 1 = Some (VSame 0) /\
  (forall k m, In (OSource k) kops60 \/ In (OSize k) kops60 -> wraps (meaning kops60) k m -> wraps (meaning kops60) 3 m -> fresh_reads (meaning kops60) m) /\
  denotes (meaning kops60) (ArgObj 2) (XConcat [XStr (lit "a"); XStr (lit "b"); XStr (lit "!")]) /\
  exists st st1 st2, jrun (jstate_new cache_empty) kops60 = Some st /\ jstep st (OSource 3) = Some (st1, NText (lit "ab")) /\
    jrun st1 [OAdd 0 (ArgStr (lit "c")); OSource 0] = Some st2 /\ option_map snd (jstep st2 (OSource 3)) = Some (NText (lit "ab")) /\
    option_map snd (jstep st2 (OSource 1)) = Some (NText (lit "ab")) /\ option_map snd (jstep st2 (OSource 0)) = Some (NText (lit "abc")).
Proof.
  assert (W0 : forall m, wraps (meaning kops60) 0 m -> m = 0).
  { intros m W. inversion W as [|? ? ? E _]; [reflexivity|]. discriminate E. }
  split; [|split; [reflexivity|split; [reflexivity|split; [|split]]]].
  - eapply de_same; [reflexivity|]. eapply de_same; [reflexivity|]. eapply de_concat; [reflexivity|]. repeat apply ds_cons; try apply ds_nil; apply de_str.
  - intros k m Hk W W3. assert (m = 0) as ->; [|intros j E; discriminate E].
    assert (Hk' : k = 4 \/ k = 0).
    { destruct Hk as [Hk|Hk]; cbn in Hk; repeat (destruct Hk as [Hk|Hk]; [try discriminate Hk; injection Hk as <-; auto|]); destruct Hk. }
    destruct Hk' as [-> | ->]; [|auto].
    inversion W as [|? j ? E W']; subst; [|injection E as <-; auto].
    exfalso. inversion W3 as [|? j ? E W']; subst. injection E as <-. inversion W' as [|? j ? E W2]; subst. injection E as <-. discriminate (W0 _ W2).
  - eapply de_concat; [reflexivity|]. repeat apply ds_cons; try apply ds_nil; apply de_str.
  - eexists _, _, _. split; [vm_compute; reflexivity|]. split; [vm_compute; reflexivity|]. split; [vm_compute; reflexivity|].
    split; [vm_compute; reflexivity|]. split; vm_compute; reflexivity.
Qed.
