(** C69: a map without columns is a coarser form of the map with columns. *)
From Verif Require Import Base Tactics ModelString ModelVlq ModelSm ModelSources ModelTree ModelJs ModelJsApi ModelJsResult
  SpecText SpecMap SpecAttr SpecEdit SpecEffect SpecRun SpecLineEdit SpecLineEdited SpecList SpecJs SpecResult ResultProps ModelEnd SpecEnd EndFacts SpecEdited
  SpecSplit SpecCoarse CoarseFacts CoarseEdit CoarsePrefix PropertiesEnd PropertiesEdited PropertiesEffect.

Theorem C69_coarse : forall nu c0 e md md' c1 t, numbering nu -> reached_cache c0 -> exact_expr e -> line_expr md' e -> by_lines nu md' e -> (forall v, e <> XRaw v) ->
  build c0 e = (c1, t) ->
  exists o o' T Ls Ln Ls' ms ms' es es', js_source_and_map true md t = Some (ResMap o) /\ js_source_and_map false md' t = Some (ResMap o') /\
    reads_as nu Ls Ln ms = Some es /\ reads_as nu Ls' [] ms' = Some es' /\
    Forall2 coarser (annotate es T) (annotate_bytes es' T) /\
    forall l l', Forall quiet l -> Forall quiet l' ->
      let a q := snd (rstep (fst (rrun (c1, o) l)) q) in
      let a' q := snd (rstep (fst (rrun (c1, o') l')) q) in
      (~ starts_with BOM T -> a RSource = AText T /\ a' RSource = AText T) /\
      a (RGet FSources) = AVal (VArr (map Some Ls)) /\ a' (RGet FSources) = AVal (VArr (map Some Ls')) /\
      a (RGet FNames) = AVal (VArr (map Some Ln)) /\ a' (RGet FNames) = AVal VUndef /\
      a (RGet FMappings) = AVal (VStr ms) /\ a' (RGet FMappings) = AVal (VStr ms').
Proof. exact coarse_end. Qed.
Print Assumptions C69_coarse.

(** In bundles of edited modules: [K] gives the places of the characters that are kept. *)
Theorem C69_edited : forall nu c0 e K md md' c1 t, numbering nu -> keeps nu e K -> by_lines nu md' e -> reached_cache c0 -> (forall v, e <> XRaw v) ->
  edit_expr e -> line_edit_expr md' e -> build c0 e = (c1, t) -> in_order c1 e ->
  exists o o' Ls Ln Ls' ms ms' es es', js_source_and_map true md t = Some (ResMap o) /\ js_source_and_map false md' t = Some (ResMap o') /\
    reads_as nu Ls Ln ms = Some es /\ reads_as nu Ls' [] ms' = Some es' /\
    Forall2 agrees K (annotate es (text_of K)) /\ Forall2 nearly_coarser K (annotate_bytes es' (text_of K)) /\
    (edits_in_lines e -> Forall2 coarser K (annotate_bytes es' (text_of K))) /\
    forall l l', Forall quiet l -> Forall quiet l' ->
      let a q := snd (rstep (fst (rrun (c1, o) l)) q) in
      let a' q := snd (rstep (fst (rrun (c1, o') l')) q) in
      (~ starts_with BOM (text_of K) -> a RSource = AText (text_of K) /\ a' RSource = AText (text_of K)) /\
      a (RGet FSources) = AVal (VArr (map Some Ls)) /\ a' (RGet FSources) = AVal (VArr (map Some Ls')) /\
      a (RGet FNames) = AVal (VArr (map Some Ln)) /\ a' (RGet FNames) = AVal VUndef /\
      a (RGet FMappings) = AVal (VStr ms) /\ a' (RGet FMappings) = AVal (VStr ms').
Proof. exact coarse_edited. Qed.
Print Assumptions C69_edited.

Definition m69 := mk_jmap [lit "u.ts"; lit "v.ts"] [] [lit "n"] (lit "AAAAA,CAAC;ACIA").
Definition e69 : jexpr :=
  XConcat [XStr (lit "/* h */" ++ nlj); XPrefix (lit "  ") (XOriginal (lit "a();b()" ++ nlj ++ lit "c()" ++ nlj) (lit "f.js"));
           XSms (lit "foo" ++ nlj ++ lit "bar") (lit "gen.js") m69 [] None; XL2L (lit "x") (lit "g.js") (lit "y")].
Lemma m69_sound : sound_map m69.
Proof.
  split; [repeat constructor; cbn; intuition discriminate|]. split; [repeat constructor; cbn; tauto|]. split; [apply EndFacts.ascii_plain; repeat constructor|].
  eexists. split; [vm_compute; reflexivity|]. split; [repeat constructor; cbn; try lia|]. split; [repeat constructor; cbn; lia|].
  intros s s' [<-|[<-|[<-|[]]]] [<-|[<-|[<-|[]]]]; cbn; congruence.
Qed.
Lemma m69_lines nu es : map_says nu m69 = Some es -> one_line_each es.
Proof.
  intro E. vm_compute in E. injection E as <-. intros p p' s l c n s' l' c' n' I I' F.
  destruct I as [I|[I|[I|[]]]], I' as [I'|[I'|[I'|[]]]]; injection I as <- <- <- _ _; injection I' as <- <- <- _ _; split; try reflexivity; discriminate F.
Qed.
Example C69_case : exact_expr e69 /\ line_expr true e69 /\ (forall nu, by_lines nu true e69) /\
  forall cols, exists o, js_source_and_map cols true (snd (build cache_empty e69)) = Some (ResMap o) /\
    snd (rrun (fst (build cache_empty e69), o) [RSource; RGet FMappings]) =
    [AText (lit "/* h */" ++ nlj ++ lit "  a();b()" ++ nlj ++ lit "  c()" ++ nlj ++ lit "foo" ++ nlj ++ lit "barx");
     AVal (VStr (lit (if cols then ";AAAA,MAAI;AACJ;ACDAA,CAAC;ACIA,GCJD" else ";AAAA;AACA;ACDA;ACIA,GCJA")))].
Proof.
  assert (P : forall u, forallb is_ascii u = true -> plain u) by apply EndFacts.is_ascii_plain.
  split; [|split; [|split]].
  - cbn [e69 exact_expr]. repeat split; try exact I; try discriminate; try (apply P; reflexivity); apply m69_sound.
  - cbn [e69 line_expr]. repeat split; try (apply P; reflexivity); try apply m69_sound; try (cbn; tauto); try discriminate.
    + cbn. intuition discriminate.
    + intros segs E. vm_compute in E. injection E as <-. repeat constructor; cbn; lia.
  - intro nu. exact (conj I (conj I (conj (conj eq_refl (conj eq_refl (m69_lines nu))) (conj I I)))).
  - intros [|]; (eexists; split; [vm_compute; reflexivity|]; vm_compute; reflexivity).
Qed.
(** new ConcatSource("(", ReplaceSource of OriginalSource("a();b();\nc()\n", "f.js"), ReplaceSource of
    LineToLineMappedSource("x\ny", "g.js", "o")). *)
Definition h69 : list jcall := [JReplace (Fin 4 0) (Fin 7 0) []; JInsert (Fin 10 0) (lit "//"); JReplace (Fin 0 0) (Fin 0 0) (lit "xy")].
Definition k69 : list jcall := [JReplace (Fin 2 0) (Fin 2 0) (lit "z")].
Definition ps69 : list jexpr :=
  [XStr (lit "("); XEdit (XOriginal (lit "a();b();" ++ nlj ++ lit "c()" ++ nlj) (lit "f.js")) h69; XEdit (XL2L (lit "x" ++ nlj ++ lit "y") (lit "g.js") (lit "o")) k69].
Example C69_edited_case : (forall nu, exists K, keeps nu (XConcat ps69) K) /\ (forall nu md, by_lines nu md (XConcat ps69)) /\ edit_expr (XConcat ps69) /\
  (forall md, line_edit_expr md (XConcat ps69)) /\ in_order (fst (build cache_empty (XConcat ps69))) (XConcat ps69) /\ edits_in_lines (XConcat ps69) /\
  forall cols, exists o, js_source_and_map cols true (snd (build cache_empty (XConcat ps69))) = Some (ResMap o) /\
    snd (rrun (fst (build cache_empty (XConcat ps69)), o) [RSource; RGet FMappings]) =
    [AText (lit "(xy();" ++ nlj ++ lit "c//()" ++ nlj ++ lit "x" ++ nlj ++ lit "z"); AVal (VStr (lit (if cols then "CAAA,KAAI;AACJ;ACDA;AACA" else "A,CAAA;AACA;ACDA;AAAA")))].
Proof.
  assert (P : forall u, forallb is_ascii u = true -> plain u) by apply EndFacts.is_ascii_plain.
  assert (Hh : Forall ordinary_call h69 /\ Forall plain_call h69 /\ Forall forward (jedits h69)).
  { split; [repeat (apply (@Forall_cons jcall)); cbn; unfold ordinary; cbn; try lia; constructor|].
    split; [repeat (apply (@Forall_cons jcall)); try (apply P; reflexivity); constructor|]. repeat (apply (@Forall_cons edit)); try (unfold forward; vm_compute; discriminate); constructor. }
  assert (Hk : Forall ordinary_call k69 /\ Forall plain_call k69 /\ Forall forward (jedits k69)).
  { split; [repeat (apply (@Forall_cons jcall)); cbn; unfold ordinary; cbn; try lia; constructor|].
    split; [repeat (apply (@Forall_cons jcall)); try (apply P; reflexivity); constructor|]. repeat (apply (@Forall_cons edit)); try (unfold forward; vm_compute; discriminate); constructor. }
  assert (Ha : ForallOrdPairs apart (jedits h69)).
  { repeat (apply (@FOP_cons edit)); repeat (apply (@Forall_cons edit)); try (first [right; split; vm_compute; [reflexivity|discriminate]|left; split; vm_compute; [reflexivity|discriminate]]); constructor. }
  assert (M : edit_expr (XConcat ps69) /\ lone_edits (XConcat ps69) /\ in_order (fst (build cache_empty (XConcat ps69))) (XConcat ps69)).
  { destruct (build cache_empty (XConcat ps69)) as [c1 t1] eqn:B. cbn [fst]. apply (C58_modules cache_empty ps69 c1 t1 ltac:(exists [], []; reflexivity)); [| | |exact B].
    - apply (@Forall_cons jexpr); [split; [discriminate|apply P; reflexivity]|]. apply (@Forall_cons jexpr); [|apply (@Forall_cons jexpr); [|apply (@Forall_nil jexpr)]].
      + split; [split; reflexivity|exact Hh].
      + split; [apply P; reflexivity|exact Hk].
    - cbn. constructor; [intros [X|[]]; discriminate|]; constructor; [intros []|constructor].
    - cbn. repeat constructor. }
  split; [|split; [|split; [|split; [|split; [|split]]]]].
  - intro nu. eexists. apply keeps_cons; [apply keeps_all; reflexivity|]. apply keeps_cons; [apply keeps_edit; reflexivity|]. apply keeps_cons; [apply keeps_edit; reflexivity|apply keeps_nil].
  - intros nu md. cbn. tauto.
  - apply M.
  - intro md. split; [apply P; reflexivity|]. split; [|split; [|exact I]]; (split; [apply P; reflexivity|]).
    + split; [apply Hh|]. split; [apply Hh|]. split; [apply Hh|exact Ha].
    + split; [apply Hk|]. split; [apply Hk|]. split; [apply Hk|]. repeat constructor.
  - apply M.
  - split; [exact I|]. split; [split; [|exact I]|split; [split; [|exact I]|exact I]]; repeat (apply (@Forall_cons edit)); try apply (@Forall_nil edit); cbn; intuition discriminate.
  - intros [|]; (eexists; split; [vm_compute; reflexivity|]; vm_compute; reflexivity).
Qed.

(** With PrefixSources around edits; [T] is the text returned with columns, which may have a prefix more at the end. *)
Theorem C69_prefixed : forall nu c0 e K md md' c1 t, numbering nu -> keeps_below nu e K -> by_lines nu md' e -> reached_cache c0 -> (forall v, e <> XRaw v) ->
  edit_expr e -> line_edit_expr md' e -> build c0 e = (c1, t) -> in_order c1 e ->
  exists o o' T Ls Ln Ls' ms ms' es es', js_source_and_map true md t = Some (ResMap o) /\ js_source_and_map false md' t = Some (ResMap o') /\
    reads_as nu Ls Ln ms = Some es /\ reads_as nu Ls' [] ms' = Some es' /\
    (unended e -> T = text_of K) /\ (T = text_of K -> Forall2 agrees K (annotate es T)) /\ Forall2 nearly_coarser K (annotate_bytes es' (text_of K)) /\
    (edits_in_lines e -> Forall2 coarser K (annotate_bytes es' (text_of K))) /\
    forall l l', Forall quiet l -> Forall quiet l' ->
      let a q := snd (rstep (fst (rrun (c1, o) l)) q) in
      let a' q := snd (rstep (fst (rrun (c1, o') l')) q) in
      (~ starts_with BOM T -> a RSource = AText T) /\ (~ starts_with BOM (text_of K) -> a' RSource = AText (text_of K)) /\
      a (RGet FSources) = AVal (VArr (map Some Ls)) /\ a' (RGet FSources) = AVal (VArr (map Some Ls')) /\
      a (RGet FNames) = AVal (VArr (map Some Ln)) /\ a' (RGet FNames) = AVal VUndef /\
      a (RGet FMappings) = AVal (VStr ms) /\ a' (RGet FMappings) = AVal (VStr ms').
Proof. exact coarse_prefixed. Qed.
Print Assumptions C69_prefixed.

(** new PrefixSource("> ", ReplaceSource of OriginalSource("ab;c\ndef", "f.js")). *)
Definition b69 : jexpr := XEdit (XOriginal (lit "ab;c" ++ nlj ++ lit "def") (lit "f.js")) [JInsert (Fin 1 0) (lit "w"); JReplace (Fin 6 0) (Fin 7 0) (lit "zzz")].
Definition q69 : jexpr := XPrefix (lit "> ") b69.
Example C69_prefixed_case : (forall nu, exists K, keeps_below nu q69 K /\ text_of K = lit "> awb;c" ++ nlj ++ lit "> dzzz") /\ (forall nu md, by_lines nu md q69) /\ edit_expr q69 /\
  (forall md, line_edit_expr md q69) /\ in_order (fst (build cache_empty q69)) q69 /\ edits_in_lines q69 /\ unended q69 /\
  forall cols, exists o, js_source_and_map cols true (snd (build cache_empty q69)) = Some (ResMap o) /\
    snd (rrun (fst (build cache_empty q69), o) [RSource; RGet FMappings]) =
    [AText (lit "> awb;c" ++ nlj ++ lit "> dzzz"); AVal (VStr (lit (if cols then "AAAA,MAAG;AACH" else "AAAA;AACA")))].
Proof.
  assert (P : forall u, forallb is_ascii u = true -> plain u) by apply EndFacts.is_ascii_plain.
  assert (W : forall s x, existsb (N.eqb NL) (e_text x) = false -> (e_from x <= Z.of_nat (length s))%Z -> ((0 < e_from x)%Z -> nth_error s (Z.to_nat (e_from x - 1)) <> Some NL) ->
    forallb (fun j => implb (covers x j) (negb (N.eqb (nth j s 0%N) NL))) (seq 0 (length s)) = true -> SpecEnd.within s x).
  { intros s x H1 H2 H3 H4. split; [|split; [exact H2|split; [exact H3|]]].
    - intro H. apply Bool.not_true_iff_false in H1. apply H1. apply existsb_exists. exists NL. split; [exact H|reflexivity].
    - intros j C E. rewrite forallb_forall in H4. assert (J : j < length s) by (apply (proj1 (nth_error_Some s j)); intro Z; discriminate (eq_trans (eq_sym Z) E)). specialize (H4 j). rewrite in_seq, C in H4.
      rewrite (nth_error_nth s j 0%N E) in H4. assert (H5 : implb true (negb (N.eqb NL NL)) = true) by (apply H4; lia). discriminate. }
  split; [|split; [|split; [|split; [|split; [|split; [|split]]]]]].
  - intro nu. eexists. split; [apply below_prefix, below_edit; reflexivity|]. vm_compute. reflexivity.
  - intros nu md. exact I.
  - cbn [q69 b69 edit_expr exact_expr]. repeat split; try (apply P; reflexivity).
    all: lazymatch goal with
      | |- Forall ordinary_call _ => repeat (apply (@Forall_cons jcall)); cbn; unfold ordinary; cbn; try lia; constructor
      | |- Forall plain_call _ => repeat (apply (@Forall_cons jcall)); try (apply P; reflexivity); constructor
      | |- Forall forward _ => repeat (apply (@Forall_cons edit)); try (unfold forward; cbn; lia); constructor
      end.
  - intro md. cbn [q69 b69 line_edit_expr line_expr on_lines leaf_texts flat_map app at_line_ends]. repeat split; try exact I; try discriminate; try (intros [H|[H|[]]]; discriminate H); try (left; exact I);
      try (apply P; vm_compute; reflexivity); try (apply P; reflexivity); try (vm_compute; reflexivity).
    all: lazymatch goal with
      | |- Forall ordinary_call _ => repeat (apply (@Forall_cons jcall)); cbn; unfold ordinary; cbn; try lia; constructor
      | |- Forall plain_call _ => repeat (apply (@Forall_cons jcall)); try (apply P; reflexivity); constructor
      | |- Forall forward _ => repeat (apply (@Forall_cons edit)); try (unfold forward; cbn; lia); constructor
      | |- Forall (SpecEnd.within _) _ => repeat (apply (@Forall_cons edit)); try (apply W; [vm_compute; reflexivity|vm_compute; discriminate|intros _; vm_compute; discriminate|vm_compute; reflexivity]); constructor
      | |- ForallOrdPairs apart _ => repeat (apply (@FOP_cons edit)); repeat (apply (@Forall_cons edit)); try (left; vm_compute; split; [reflexivity|discriminate]); constructor
      end.
  - destruct EndMap.numbers as (nu & Nu). exists nu. eexists. split; [exact Nu|]. split; [cbn [q69 b69 unedited marks bind]; reflexivity|]. split.
    + unfold mprefixed. apply EditedFacts.mprefix_rising. apply (C53_original (nu (lit "f.js"))).
    + intros s s' [<-|[]] [<-|[]] L. lia.
  - split; [|exact I]. repeat (apply (@Forall_cons edit)); try apply (@Forall_nil edit); cbn; intuition discriminate.
  - split; [exact I|]. right. split; [vm_compute; reflexivity|discriminate].
  - intros [|]; (eexists; split; [vm_compute; reflexivity|]; vm_compute; reflexivity).
Qed.

(** If a line of the generated text comes from two lines, the map without columns names only the first one. Without
    module, or with an inner map, it names another source. *)
Definition r69 (columns module : bool) (e : jexpr) : option (list rans) :=
  let '(c, t) := build cache_empty e in
  match js_source_and_map columns module t with
  | Some (ResMap o) => Some (snd (rrun (c, o) [RGet FMappings; RGet FSources]))
  | _ => None
  end.
Theorem C69_refuted : exists m, sound_map m /\
  let e := XSms (lit "ab") (lit "gen.js") m [] None in
  exact_expr e /\ (forall md, line_expr md e) /\
  (forall md, r69 true md e = Some [AVal (VStr (lit "AAAA,CACA")); AVal (VArr [Some (lit "f.js")])]) /\
  r69 false true e = Some [AVal (VStr (lit "AAAA")); AVal (VArr [Some (lit "f.js")])] /\
  r69 false false e = Some [AVal (VStr (lit "AAAA")); AVal (VArr [Some (lit "gen.js")])].
Proof.
  exists (mk_jmap [lit "f.js"] [] [] (lit "AAAA,CACA")).
  assert (P : forall u, forallb is_ascii u = true -> plain u) by apply EndFacts.is_ascii_plain.
  assert (S : sound_map (mk_jmap [lit "f.js"] [] [] (lit "AAAA,CACA"))).
  { split; [repeat constructor; cbn; intuition discriminate|]. split; [repeat constructor; cbn; tauto|]. split; [apply EndFacts.ascii_plain; repeat constructor|].
    eexists. split; [vm_compute; reflexivity|]. split; [repeat constructor; cbn; try lia|]. split; [repeat constructor; cbn; lia|].
    intros s s' [<-|[<-|[]]] [<-|[<-|[]]]; cbn; congruence. }
  split; [exact S|]. cbv zeta. split; [split; [apply P; reflexivity|split; [exact S|exact I]]|]. split.
  - intro md. split; [apply P; reflexivity|]. intros _. split; [exact S|]. intros segs E. vm_compute in E. injection E as <-. repeat constructor; cbn; lia.
  - split; [intros [|]; vm_compute; reflexivity|]. split; vm_compute; reflexivity.
Qed.
Print Assumptions C69_refuted.
