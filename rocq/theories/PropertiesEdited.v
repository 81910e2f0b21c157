(** C58: sourceAndMap for expressions with ReplaceSources, from the constructors to the
    values read off the returned object. *)
From Verif Require Import Base ModelString ModelVlq ModelSm ModelSlm ModelSources ModelTree ModelWasm ModelJs ModelJsApi
  SpecText SpecMap SpecAttr SpecEdit SpecEffect JsFacts SpecResult ModelJsResult ResultProps SpecJs ModelEnd SpecEnd EndFacts SpecEdited EditedEnd EditedOrder.

(** The text is that of the expression with its edits; what is read for a character is a
    place that the expression without its edits mentions; and if its characters come in
    the order of their places, every kept character is read with its own place.  What is listed
    as content was given for its source; nothing is missing unless a ReplaceSource is around a ConcatSource. *)
Theorem C58_map : forall nu c0 e md c1 t, numbering nu -> reached_cache c0 -> edit_expr e -> (forall v, e <> XRaw v) -> build c0 e = (c1, t) ->
  exists o M E Ls Ln Ks ms es, js_source_and_map true md t = Some (ResMap o) /\ reading nu e M /\ marks nu (unedited e) = Some E /\
    NoDup Ls /\ NoDup Ln /\ incl Ls (sources_in e) /\ incl Ln (names_in e) /\
    reads_as nu Ls Ln ms = Some es /\
    Forall (fun x => within E (snd x)) (annotate es (text_of M)) /\
    (in_order c1 e -> Forall2 agrees M (annotate es (text_of M))) /\
    Forall2 (given_for e) Ls Ks /\ (lone_edits e -> Ks = map (first_content (contents_given e)) Ls) /\
    forall l, Forall quiet l ->
      (~ starts_with BOM (text_of M) -> snd (rstep (fst (rrun (c1, o) l)) RSource) = AText (text_of M)) /\
      snd (rstep (fst (rrun (c1, o) l)) (RGet FSources)) = AVal (VArr (map Some Ls)) /\
      snd (rstep (fst (rrun (c1, o) l)) (RGet FNames)) = AVal (VArr (map Some Ln)) /\
      snd (rstep (fst (rrun (c1, o) l)) (RGet FMappings)) = AVal (VStr ms) /\
      exists v, snd (rstep (fst (rrun (c1, o) l)) (RGet FContents)) = AVal v /\ lists v (map Some (flat_map (fun k => match k with Some k => [k] | None => [] end) Ks)).
Proof. exact edited_end. Qed.
Print Assumptions C58_map.

(** Strings that StringCache has not seen are numbered in the order in which they are first passed. *)
Theorem C58_fresh : forall c0 e c1 t s s', build c0 e = (c1, t) -> In s (strings_of e) -> In s' (strings_of e) -> unseen c0 s -> unseen c0 s' ->
  number c1 s < number c1 s' <-> s <> s' /\ comes_first (strings_of e) s s'.
Proof. exact build_order. Qed.
Print Assumptions C58_fresh.

(** A ConcatSource of texts and edited modules with different names, none seen before: all the conditions hold. *)
Theorem C58_modules : forall c0 ps c1 t, reached_cache c0 -> Forall piece ps -> NoDup (sources_in (XConcat ps)) ->
  Forall (unseen c0) (sources_in (XConcat ps)) -> build c0 (XConcat ps) = (c1, t) ->
  edit_expr (XConcat ps) /\ lone_edits (XConcat ps) /\ in_order c1 (XConcat ps).
Proof. exact modules_in_order. Qed.
Print Assumptions C58_modules.

(** new ConcatSource("(", ReplaceSource of OriginalSource("a();b();\nc()", "f.js"), ";\n",
    PrefixSource of a ReplaceSource of LineToLineMappedSource("x\ny", "g.js", "o")) with edits. *)
Definition ps58 : list jexpr :=
  [XStr (lit "(");
   XEdit (XOriginal (lit "a();b();" ++ [NL] ++ lit "c()") (lit "f.js")) [JReplace (Fin 4 0) (Fin 7 0) []; JInsert (Fin 9 0) (lit "//"); JReplace (Fin 0 0) (Fin 0 0) (lit "xy")];
   XStr (lit ";" ++ [NL]);
   XPrefix (lit "  ") (XEdit (XL2L (lit "x" ++ [NL] ++ lit "y") (lit "g.js") (lit "o")) [JReplace (Fin 0 0) (Fin 0 0) (lit "z")])].
(** Numbers for the strings of the example. *)
Definition read58 (Ls : list jstr) (ms : jstr) (text : jstr) : option (list (option (jstr * Z * Z))) :=
  let* es := read_map (map Z.of_nat (seq 0 (length Ls))) [] ms in
  Some (map (fun x : char * option target => match snd x with Some (s, (l, k), _) => Some (nth (Z.to_nat s) Ls [], l, k) | None => None end) (annotate es text)).
Definition shown (c : cache) (e : jexpr) (text : jstr) (Ls : list jstr) (contents : list jstr) (marks : list (option (jstr * Z * Z))) : Prop :=
  exists c1 t o ms, build c e = (c1, t) /\ js_source_and_map true true t = Some (ResMap o) /\
    snd (rrun (c1, o) [RSource; RGet FSources; RGet FContents; RGet FMappings]) =
      [AText text; AVal (VArr (map Some Ls)); AVal (VArr (map Some contents)); AVal (VStr ms)] /\
    read58 Ls ms text = Some marks.
Example C58_case : reached_cache cache_empty /\ Forall piece ps58 /\ NoDup (sources_in (XConcat ps58)) /\ Forall (unseen cache_empty) (sources_in (XConcat ps58)) /\
  shown cache_empty (XConcat ps58) (lit "(xy();" ++ [NL] ++ lit "//c();" ++ [NL] ++ lit "  z" ++ [NL] ++ lit "  y") [lit "f.js"; lit "g.js"] [lit "a();b();" ++ [NL] ++ lit "c()"; lit "o"]
    ([None] ++ repeat (Some (lit "f.js", 1%Z, 0%Z)) 5 ++ repeat (Some (lit "f.js", 1%Z, 4%Z)) 3 ++ repeat (Some (lit "f.js", 2%Z, 0%Z)) 3 ++
     [None; None] ++ repeat (Some (lit "g.js", 1%Z, 0%Z)) 4 ++ repeat (Some (lit "g.js", 2%Z, 0%Z)) 3).
Proof.
  split; [exists [], []; reflexivity|]. split; [|split; [|split]].
  - assert (P : forall s, forallb (fun c => N.ltb c 128) s = true -> plain s).
    { intros s H. apply Forall_forall. intros c Hc. rewrite forallb_forall in H. specialize (H c Hc). apply N.ltb_lt in H. unfold scalar. lia. }
    repeat (apply (@Forall_cons jexpr)); [split; [discriminate|apply P; reflexivity]| |split; [discriminate|apply P; reflexivity]| |constructor].
    + split; [split; reflexivity|]. split; [|split; [|]].
      * repeat (apply (@Forall_cons jcall)); cbn; unfold ordinary; cbn; try lia; constructor.
      * repeat (apply (@Forall_cons jcall)); try (apply P; reflexivity). constructor.
      * repeat (apply (@Forall_cons edit)); try (unfold forward; vm_compute; discriminate). constructor.
    + split; [apply P; reflexivity|]. split; [apply P; reflexivity|]. split; [|split; [|]].
      * repeat (apply (@Forall_cons jcall)); cbn; unfold ordinary; cbn; try lia; constructor.
      * repeat (apply (@Forall_cons jcall)); try (apply P; reflexivity). constructor.
      * repeat (apply (@Forall_cons edit)); try (unfold forward; vm_compute; discriminate). constructor.
  - cbn. constructor; [intros [H|[]]; discriminate|]. constructor; [intros []|constructor].
  - cbn. repeat constructor.
  - eexists _, _, _, _. split; [vm_compute; reflexivity|]. split; [vm_compute; reflexivity|]. split; vm_compute; reflexivity.
Qed.

(** new ReplaceSource(new ConcatSource(new OriginalSource("ab", "a.js"), new OriginalSource("cd", "b.js"),
    new OriginalSource("ef", "c.js"))) with replace(1, 2, ""): the text is "adef"; the content of b.js goes with the
    deleted text, and as sourcesContent leaves out what is missing, b.js is shown with the content of c.js. *)
Definition e58 : jexpr :=
  XEdit (XConcat [XOriginal (lit "ab") (lit "a.js"); XOriginal (lit "cd") (lit "b.js"); XOriginal (lit "ef") (lit "c.js")])
    [JReplace (Fin 1 0) (Fin 2 0) []].
Theorem C58_contents_refuted : exists e, edit_expr e /\
  shown cache_empty e (lit "adef") [lit "a.js"; lit "b.js"; lit "c.js"] [lit "ab"; lit "ef"]
    [Some (lit "a.js", 1%Z, 0%Z); Some (lit "b.js", 1%Z, 0%Z); Some (lit "c.js", 1%Z, 0%Z); Some (lit "c.js", 1%Z, 0%Z)] /\
  contents_of e [lit "a.js"; lit "b.js"; lit "c.js"] = [lit "ab"; lit "cd"; lit "ef"].
Proof.
  exists e58. split; [|split].
  - cbn. repeat split; try reflexivity; repeat constructor; unfold ordinary, forward; cbn; try lia; try discriminate.
  - eexists _, _, _, _. split; [vm_compute; reflexivity|]. split; [vm_compute; reflexivity|]. split; vm_compute; reflexivity.
  - vm_compute. reflexivity.
Qed.
Print Assumptions C58_contents_refuted.
