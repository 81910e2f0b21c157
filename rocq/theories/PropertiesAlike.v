(** C65: how the parts of a bundle are grouped does not matter. *)
From Verif Require Import Base Tactics ModelString ModelVlq ModelSm ModelSources ModelTree ModelJs ModelJsApi ModelJsResult
  SpecText SpecMap SpecAttr SpecList SpecJs SpecResult ResultProps ModelEnd SpecEnd EndFacts SpecAlike AlikeFacts AlikeEnd PropertiesEnd.

(** Whatever [alike] relates says the same about every character. *)
Theorem C65_says : forall nu md e e', alike e e' -> marks nu e = marks nu e' /\ line_marks nu md e = line_marks nu md e' /\
  contents_given e = contents_given e'.
Proof. intros nu md e e' A. split; [now apply alike_marks|]. split; [now apply alike_line_marks|now apply alike_contents]. Qed.
Print Assumptions C65_says.
(** columns: true.  Everything that can be read off the results is the same. *)
Theorem C65_same : forall c0 c0' e e' md md' c1 c1' t t', alike e e' -> reached_cache c0 -> reached_cache c0' ->
  exact_expr e -> exact_expr e' -> (forall v, e <> XRaw v) -> (forall v, e' <> XRaw v) ->
  build c0 e = (c1, t) -> build c0' e' = (c1', t') ->
  exists o o', js_source_and_map true md t = Some (ResMap o) /\ js_source_and_map true md' t' = Some (ResMap o') /\
    forall l l' q, Forall quiet l -> Forall quiet l' -> (q = RSource \/ exists f, q = RGet f) ->
      snd (rstep (fst (rrun (c1, o) l)) q) = snd (rstep (fst (rrun (c1', o') l')) q).
Proof. exact alike_same. Qed.
Print Assumptions C65_same.
(** columns: false.  The same text, sources and contents, and every character is looked up
    to the same place; the mappings may be written differently. *)
Theorem C65_lines : forall nu c0 c0' e e' md c1 c1' t t', numbering nu -> alike e e' -> reached_cache c0 -> reached_cache c0' ->
  line_expr md e -> line_expr md e' -> (forall v, e <> XRaw v) -> (forall v, e' <> XRaw v) ->
  build c0 e = (c1, t) -> build c0' e' = (c1', t') ->
  exists o o' T Ls Ks ms ms' es es', js_source_and_map false md t = Some (ResMap o) /\ js_source_and_map false md t' = Some (ResMap o') /\
    reads_as nu Ls [] ms = Some es /\ reads_as nu Ls [] ms' = Some es' /\ annotate_bytes es T = annotate_bytes es' T /\
    forall l l', Forall quiet l -> Forall quiet l' ->
      let a q := snd (rstep (fst (rrun (c1, o) l)) q) in
      let a' q := snd (rstep (fst (rrun (c1', o') l')) q) in
      (~ starts_with BOM T -> a RSource = AText T /\ a' RSource = AText T) /\
      a (RGet FSources) = AVal (VArr (map Some Ls)) /\ a' (RGet FSources) = AVal (VArr (map Some Ls)) /\
      a (RGet FNames) = AVal VUndef /\ a' (RGet FNames) = AVal VUndef /\
      a (RGet FMappings) = AVal (VStr ms) /\ a' (RGet FMappings) = AVal (VStr ms') /\
      exists v v', a (RGet FContents) = AVal v /\ a' (RGet FContents) = AVal v' /\ lists v Ks /\ lists v' Ks.
Proof. exact alike_lines. Qed.
Print Assumptions C65_lines.

(** A prefix around everything, and the same put together from two prefixed halves. *)
Definition e65 : jexpr :=
  XConcat [XPrefix (lit "> ") (XConcat [XStr (lit "/* h */" ++ nlj); XOriginal (lit "a();b()" ++ nlj) (lit "f.js");
    XSms (lit "foo") (lit "gen.js") outer52 (lit "bar") (Some inner52)]); XStr (lit "x;y")].
Definition e65' : jexpr :=
  XConcat [XPrefix (lit ">") (XPrefix (lit " ") (XConcat [XRaw (lit "/* h */" ++ nlj); XOriginal (lit "a();b()" ++ nlj) (lit "f.js")]));
    XPrefix (lit "> ") (XSms (lit "foo") (lit "gen.js") outer52 (lit "bar") (Some inner52));
    XConcat [XRaw (lit "x;"); XRaw (lit "y")]].
Example C65_case : alike e65 e65' /\ exact_expr e65 /\ exact_expr e65' /\ (forall md, line_expr md e65 /\ line_expr md e65') /\
  forall cols e, e = e65 \/ e = e65' -> exists o, js_source_and_map cols true (snd (build cache_empty e)) = Some (ResMap o) /\
    snd (rrun (fst (build cache_empty e), o) [RSource; RGet FMappings]) =
    [AText (lit "> /* h */" ++ nlj ++ lit "> a();b()" ++ nlj ++ lit "> foox;y"); AVal (VStr (lit (if cols then ";AAAA,MAAI;ACIAA,GCHJ,E" else ";AAAA;ACAA")))].
Proof.
  assert (P : forall u, forallb is_ascii u = true -> plain u) by apply EndFacts.is_ascii_plain.
  split; [|split; [|split; [|split]]].
  - eapply al_trans; [eapply (al_part [] _ _ [_]); eapply (al_split _ [_; _] [_]); reflexivity|].
    eapply al_trans; [eapply (al_flat [] [_; _] [_])|]. cbn [app].
    eapply al_trans; [eapply (al_part [] _ (XPrefix (lit ">") (XPrefix (lit " ") (XConcat [XRaw (lit "/* h */" ++ nlj); XOriginal (lit "a();b()" ++ nlj) (lit "f.js")]))));
      eapply al_trans; [apply al_prefix; eapply (al_part [] _ _ [_]); apply al_text|];
      apply al_sym; apply (al_twice (lit ">") (lit " ")); intros [H|[]]; discriminate H|].
    eapply al_trans; [eapply (al_part [_] _ _ [_]); apply al_prefix, al_one|].
    eapply (al_part [_; _] _ _ []). eapply al_trans; [apply al_text|]. apply al_sym. eapply (al_join (lit "x;") (lit "y")).
  - cbn [e65 exact_expr]. repeat split; try exact I; try discriminate; try (apply P; vm_compute; reflexivity); try apply outer52_sound; try apply inner52_sound.
  - cbn [e65' exact_expr]. repeat split; try exact I; try discriminate; try (apply P; vm_compute; reflexivity); try apply outer52_sound; try apply inner52_sound.
  - intro md. cbn [e65 e65' line_expr on_lines leaf_texts flat_map app at_line_ends].
    repeat split; try exact I; try discriminate; try (intros [H|[H|[]]]; discriminate H); try (left; exact I); try (apply P; vm_compute; reflexivity); try apply outer52_sound.
    all: try (intros segs E; vm_compute in E; injection E as <-; repeat constructor; cbn; lia).
    all: try (right; vm_compute; reflexivity). all: try (intros [H|[]]; discriminate H). all: intros _; split; [discriminate|reflexivity].
  - intros cols e [->| ->]; destruct cols; (eexists; split; [vm_compute; reflexivity|]; vm_compute; reflexivity).
Qed.

(** columns: false, and the mappings: two texts without a source in one line get a segment,
    one such text gets none. *)
Theorem C65_written_refuted : exists e e' t t' c1 c1' o o', alike e e' /\ (forall md, line_expr md e /\ line_expr md e') /\
  (forall v, e <> XRaw v) /\ (forall v, e' <> XRaw v) /\ build cache_empty e = (c1, t) /\ build cache_empty e' = (c1', t') /\
  js_source_and_map false true t = Some (ResMap o) /\ js_source_and_map false true t' = Some (ResMap o') /\
  snd (rstep (c1, o) (RGet FMappings)) = AVal (VStr (lit "A;")) /\ snd (rstep (c1', o') (RGet FMappings)) = AVal (VStr (lit ";")).
Proof.
  exists (XConcat [XRaw (lit "x"); XRaw (lit "y" ++ nlj)]), (XConcat [XRaw (lit "xy" ++ nlj)]). eexists _, _, _, _, _, _.
  split; [eapply al_trans; [apply (al_join (lit "x") (lit "y" ++ nlj))|apply al_sym, al_one]|].
  split; [intro md; split; repeat split; apply EndFacts.is_ascii_plain; reflexivity|]. split; [discriminate|]. split; [discriminate|].
  split; [vm_compute; reflexivity|]. split; [vm_compute; reflexivity|]. split; [vm_compute; reflexivity|]. split; [vm_compute; reflexivity|].
  split; vm_compute; reflexivity.
Qed.
Print Assumptions C65_written_refuted.
(** A prefix cannot be moved to the parts if a line goes on from one part to the next, and two
    prefixes are not one if the inner one has a newline. *)
Definition text_read (e : jexpr) : option rans :=
  let* r := js_source_and_map true true (snd (build cache_empty e)) in
  match r with ResMap o => Some (snd (rstep (fst (build cache_empty e), o) RSource)) | _ => None end.
Theorem C65_prefix_refuted :
  (exists p a b, text_read (XPrefix p (XConcat (a ++ b))) = Some (AText (lit " ab")) /\
     text_read (XConcat [XPrefix p (XConcat a); XPrefix p (XConcat b)]) = Some (AText (lit " a b"))) /\
  (exists p q e, text_read (XPrefix p (XPrefix q e)) = Some (AText (lit " " ++ nlj ++ lit " a")) /\
     text_read (XPrefix (p ++ q) e) = Some (AText (lit " " ++ nlj ++ lit "a"))).
Proof.
  split.
  - exists (lit " "), [XRaw (lit "a")], [XRaw (lit "b")]. split; vm_compute; reflexivity.
  - exists (lit " "), nlj, (XRaw (lit "a")). split; vm_compute; reflexivity.
Qed.
Print Assumptions C65_prefix_refuted.
