(** C66: edits may be done in the whole or in the parts. *)
From Verif Require Import Base Tactics ModelString ModelVlq ModelSm ModelSources ModelTree ModelJs ModelJsApi ModelJsResult
  SpecText SpecMap SpecAttr SpecEdit SpecEffect SpecRun SpecLineEdit SpecLineEdited SpecList SpecJs SpecResult ResultProps ModelEnd SpecEnd EndFacts SpecEdited EditedOrder
  SpecSplit SplitFacts SplitTree SplitEnd SplitLines PropertiesEnd PropertiesEdited.

(** Texts: any parts, any edits that do not reach from one part into another. *)
Theorem C66_text : forall ts us ss h, map t_source ts = map Some ss -> Forall call_ok h -> Forall edit_ok (edits_of h) ->
  parts_edited tree_edited (map (@length char) ss) (edits_of h) ts us ->
  t_source (TReplace (TConcat ts) (run h)) = t_source (TConcat us).
Proof. exact bundle_text. Qed.
Print Assumptions C66_text.
Example C66_text_case : let h := [Insert 3 (lit "<") 0; Replace 4 5 (lit "X") 0 0; Read; Replace 0 1 (lit "Y") 0 0; Insert 9 (lit "!") 0; Replace 5 4 (lit "Z") 0 0] in
  let ts := [TRaw (lit "abc"); TPrefix (lit "") (TRaw (lit "def")); TStr (lit "gh")] in
  let us := [TReplace (TRaw (lit "abc")) (run [Insert 3 (lit "<") 0; Replace 0 1 (lit "Y") 0 0]);
             TReplace (TPrefix (lit "") (TRaw (lit "def"))) (run [Replace 1 2 (lit "X") 0 0; Replace 2 1 (lit "Z") 0 0]);
             TReplace (TStr (lit "gh")) (run [Insert 3 (lit "!") 0])] in
  Forall call_ok h /\ Forall edit_ok (edits_of h) /\ parts_edited tree_edited [3; 3; 2] (edits_of h) ts us /\
  t_source (TConcat us) = Some (lit "Yc<dZXgh!").
Proof.
  cbv zeta. split; [repeat constructor; cbn; lia|]. split; [repeat constructor; cbn; lia|]. split; [|vm_compute; reflexivity].
  constructor; [repeat constructor; unfold crosses_not; cbn; lia| |constructor; [repeat constructor; unfold crosses_not; cbn; lia| |constructor]].
  - apply (tree_replaced [Insert 3 (lit "<") 0; Replace 0 1 (lit "Y") 0 0]). repeat constructor; cbn; lia.
  - apply (tree_replaced [Replace 1 2 (lit "X") 0 0; Replace 2 1 (lit "Z") 0 0]). repeat constructor.
  - apply (tree_replaced [Insert 3 (lit "!") 0]). repeat constructor; cbn; lia.
Qed.

(** Maps: both give the same text, and every character that is kept the same place. *)
Theorem C66_map : forall nu c0 c0' xs ys Ms h md md' c1 c1' t t', numbering nu -> reached_cache c0 -> reached_cache c0' ->
  Forall2 (fun x M => marks nu x = Some M) xs Ms -> edit_expr (XEdit (XConcat xs) h) -> edit_expr (XConcat ys) ->
  parts_edited expr_edited (map (@length _) Ms) (jedits h) xs ys ->
  build c0 (XEdit (XConcat xs) h) = (c1, t) -> build c0' (XConcat ys) = (c1', t') ->
  in_order c1 (XEdit (XConcat xs) h) -> in_order c1' (XConcat ys) ->
  exists o o' Ls Ln Ls' Ln' ms ms' es es', js_source_and_map true md t = Some (ResMap o) /\ js_source_and_map true md' t' = Some (ResMap o') /\
    let K := kept_marked (jedits h) (concat Ms) in
    reads_as nu Ls Ln ms = Some es /\ reads_as nu Ls' Ln' ms' = Some es' /\
    Forall2 agrees K (annotate es (text_of K)) /\ Forall2 agrees K (annotate es' (text_of K)) /\
    forall l l', Forall quiet l -> Forall quiet l' ->
      let a q := snd (rstep (fst (rrun (c1, o) l)) q) in
      let a' q := snd (rstep (fst (rrun (c1', o') l')) q) in
      (~ starts_with BOM (text_of K) -> a RSource = AText (text_of K) /\ a' RSource = AText (text_of K)) /\
      a (RGet FSources) = AVal (VArr (map Some Ls)) /\ a' (RGet FSources) = AVal (VArr (map Some Ls')) /\
      a (RGet FNames) = AVal (VArr (map Some Ln)) /\ a' (RGet FNames) = AVal (VArr (map Some Ln')) /\
      a (RGet FMappings) = AVal (VStr ms) /\ a' (RGet FMappings) = AVal (VStr ms').
Proof. exact bundle_map. Qed.
Print Assumptions C66_map.

(** Line maps: what a kept character is attributed to is that of the part, or the line after it
    (where a part has newlines in new texts or PrefixSources inside), in both. *)
Theorem C66_lines : forall nu c0 c0' xs ys Ms h md c1 c1' t t', numbering nu -> reached_cache c0 -> reached_cache c0' ->
  Forall2 (fun x M => line_marks nu md x = Some M) xs Ms -> line_edit_expr md (XEdit (XConcat xs) h) -> line_edit_expr md (XConcat ys) ->
  parts_edited expr_edited (map (@length _) Ms) (jedits h) xs ys ->
  build c0 (XEdit (XConcat xs) h) = (c1, t) -> build c0' (XConcat ys) = (c1', t') ->
  exists o o' M M' Ls Ls' ms ms' es es', js_source_and_map false md t = Some (ResMap o) /\ js_source_and_map false md t' = Some (ResMap o') /\
    let K := kept_lines (jedits h) (concat Ms) in
    let T := map fst K in
    Forall2 (kept_as near) K M /\ Forall2 (kept_as near) K M' /\
    (Forall (fun x => ~ In NL (e_text x)) (jedits h) -> Forall unwrapped xs -> Forall2 (kept_as eq) K M /\ Forall2 (kept_as eq) K M') /\
    reads_as nu Ls [] ms = Some es /\ annotate_bytes es T = carried None M /\
    reads_as nu Ls' [] ms' = Some es' /\ annotate_bytes es' T = carried None M' /\
    forall l l', Forall quiet l -> Forall quiet l' ->
      let a q := snd (rstep (fst (rrun (c1, o) l)) q) in
      let a' q := snd (rstep (fst (rrun (c1', o') l')) q) in
      (~ starts_with BOM T -> a RSource = AText T /\ a' RSource = AText T) /\
      a (RGet FSources) = AVal (VArr (map Some Ls)) /\ a' (RGet FSources) = AVal (VArr (map Some Ls')) /\
      a (RGet FMappings) = AVal (VStr ms) /\ a' (RGet FMappings) = AVal (VStr ms').
Proof. exact bundle_lines. Qed.
Print Assumptions C66_lines.

Definition xs66 : list jexpr := [XOriginal (lit "a();b();" ++ [NL]) (lit "f.js"); XL2L (lit "x" ++ [NL] ++ lit "y") (lit "g.js") (lit "o")].
Definition h66 : list jcall := [JReplace (Fin 4 0) (Fin 7 0) []; JInsert (Fin 9 0) (lit "//"); JReplace (Fin 9 0) (Fin 9 0) (lit "z")].
Definition ys66 : list jexpr :=
  [XEdit (XOriginal (lit "a();b();" ++ [NL]) (lit "f.js")) [JReplace (Fin 4 0) (Fin 7 0) []; JInsert (Fin 9 0) (lit "//")];
   XEdit (XL2L (lit "x" ++ [NL] ++ lit "y") (lit "g.js") (lit "o")) [JReplace (Fin 0 0) (Fin 0 0) (lit "z")]].
Example C66_case : let c1 := fst (build cache_empty (XConcat ys66)) in
  edit_expr (XEdit (XConcat xs66) h66) /\ edit_expr (XConcat ys66) /\
  (forall nu, exists Ms, Forall2 (fun x M => marks nu x = Some M) xs66 Ms /\ parts_edited expr_edited (map (@length _) Ms) (jedits h66) xs66 ys66) /\
  fst (build cache_empty (XEdit (XConcat xs66) h66)) = c1 /\ in_order c1 (XEdit (XConcat xs66) h66) /\ in_order c1 (XConcat ys66) /\
  let ms := repeat (Some (lit "f.js", 1%Z, 0%Z)) 4 ++ repeat (Some (lit "f.js", 1%Z, 4%Z)) 3 ++ repeat (Some (lit "g.js", 1%Z, 0%Z)) 2 ++ [Some (lit "g.js", 2%Z, 0%Z)] in
  shown cache_empty (XEdit (XConcat xs66) h66) (lit "a();" ++ [NL] ++ lit "//z" ++ [NL] ++ lit "y") [lit "f.js"; lit "g.js"] [lit "a();b();" ++ [NL]] ms /\
  shown cache_empty (XConcat ys66) (lit "a();" ++ [NL] ++ lit "//z" ++ [NL] ++ lit "y") [lit "f.js"; lit "g.js"] [lit "a();b();" ++ [NL]; lit "o"] ms.
Proof.
  assert (P : forall u, forallb is_ascii u = true -> plain u) by apply EndFacts.is_ascii_plain.
  cbv zeta.
  assert (Hp : Forall piece ys66).
  { repeat (apply (@Forall_cons jexpr)); [| |constructor]; split; try (split; [apply P; reflexivity|reflexivity]); try (apply P; reflexivity); try (split; reflexivity);
      (split; [repeat (apply (@Forall_cons jcall)); cbn; unfold ordinary; cbn; try lia; constructor|]);
      (split; [repeat (apply (@Forall_cons jcall)); try (apply P; reflexivity); constructor|]);
      repeat (apply (@Forall_cons edit)); try (unfold forward; vm_compute; discriminate); constructor. }
  destruct (build cache_empty (XConcat ys66)) as [c1 t1] eqn:B. cbn [fst].
  destruct (C58_modules cache_empty ys66 c1 t1 ltac:(exists [], []; reflexivity) Hp) as (X1 & X2 & X3); [cbn; constructor; [intros [H|[]]; discriminate|]; constructor; [intros []|constructor]|cbn; repeat constructor|exact B|].
  split.
  { split; [cbn; repeat split; apply P; reflexivity|]. split; [repeat (apply (@Forall_cons jcall)); cbn; unfold ordinary; cbn; try lia; constructor|].
    split; [repeat (apply (@Forall_cons jcall)); try (apply P; reflexivity); constructor|]. repeat (apply (@Forall_cons edit)); try (unfold forward; vm_compute; discriminate); constructor. }
  split; [exact X1|]. split.
  { intro nu. eexists. split; [repeat constructor|]. cbn [map]. apply parts_more.
    - change (Z.of_nat _) with 9%Z. repeat (apply (@Forall_cons edit)); [left; reflexivity|left; reflexivity|right; discriminate|constructor].
    - apply (expr_replaced [JReplace (Fin 4 0) (Fin 7 0) []; JInsert (Fin 9 0) (lit "//")]).
    - apply parts_last. apply (expr_replaced [JReplace (Fin 0 0) (Fin 0 0) (lit "z")]). }
  split; [vm_compute in B |- *; now injection B as <-|]. split; [exact X3|]. split; [exact X3|].
  split; (eexists _, _, _, _; split; [vm_compute; reflexivity|]; split; [vm_compute; reflexivity|]; split; vm_compute; reflexivity).
Qed.
(** Contents: the ReplaceSource around the whole loses that of g.js, whose first character is replaced. *)
Theorem C66_contents_refuted : exists xs ys h T Ls ms, (forall nu, exists Ms, Forall2 (fun x M => marks nu x = Some M) xs Ms /\ parts_edited expr_edited (map (@length _) Ms) (jedits h) xs ys) /\
  edit_expr (XEdit (XConcat xs) h) /\ edit_expr (XConcat ys) /\
  shown cache_empty (XEdit (XConcat xs) h) T Ls [lit "a();b();" ++ [NL]] ms /\ shown cache_empty (XConcat ys) T Ls [lit "a();b();" ++ [NL]; lit "o"] ms.
Proof.
  exists xs66, ys66, h66. destruct C66_case as (H2 & H3 & H4 & _ & _ & _ & H5 & H6). eexists _, _, _. split; [exact H4|]. split; [exact H2|]. split; [exact H3|]. split; [exact H5|exact H6].
Qed.
Print Assumptions C66_contents_refuted.
(** An insertion between two parts done in the second one: the same text, but the new text has
    the place of the character after it instead of that before it. *)
Theorem C66_seam_refuted : exists a b x T,
  shown cache_empty (XEdit (XConcat [a; b]) [JInsert (Fin 2 0) x]) T [lit "a.js"; lit "b.js"] [lit "ab"; lit "cd"]
    [Some (lit "a.js", 1%Z, 0%Z); Some (lit "a.js", 1%Z, 0%Z); Some (lit "a.js", 1%Z, 0%Z); Some (lit "b.js", 1%Z, 0%Z); Some (lit "b.js", 1%Z, 0%Z)] /\
  shown cache_empty (XConcat [a; XEdit b [JInsert (Fin 0 0) x]]) T [lit "a.js"; lit "b.js"] [lit "ab"; lit "cd"]
    [Some (lit "a.js", 1%Z, 0%Z); Some (lit "a.js", 1%Z, 0%Z); Some (lit "b.js", 1%Z, 0%Z); Some (lit "b.js", 1%Z, 0%Z); Some (lit "b.js", 1%Z, 0%Z)].
Proof.
  exists (XOriginal (lit "ab") (lit "a.js")), (XOriginal (lit "cd") (lit "b.js")), (lit "-"), (lit "ab-cd").
  split; (eexists _, _, _, _; split; [vm_compute; reflexivity|]; split; [vm_compute; reflexivity|]; split; vm_compute; reflexivity).
Qed.
Print Assumptions C66_seam_refuted.
(** Line maps with a string between the modules. *)
Definition xl66 : list jexpr := [XOriginal (lit "a();b();" ++ [NL]) (lit "f.js"); XStr (lit "--"); XL2L (lit "x" ++ [NL] ++ lit "y") (lit "g.js") (lit "o")].
Definition hl66 : list jcall := [JReplace (Fin 11 0) (Fin 11 0) (lit "z"); JReplace (Fin 4 0) (Fin 7 0) []; JInsert (Fin 9 0) (lit "//")].
Definition yl66 : list jexpr :=
  [XEdit (XOriginal (lit "a();b();" ++ [NL]) (lit "f.js")) [JReplace (Fin 4 0) (Fin 7 0) []; JInsert (Fin 9 0) (lit "//")]; XStr (lit "--");
   XEdit (XL2L (lit "x" ++ [NL] ++ lit "y") (lit "g.js") (lit "o")) [JReplace (Fin 0 0) (Fin 0 0) (lit "z")]].
Definition lines_shown (e : jexpr) (md : bool) (ms : jstr) : Prop :=
  exists o, js_source_and_map false md (snd (build cache_empty e)) = Some (ResMap o) /\
    snd (rrun (fst (build cache_empty e), o) [RSource; RGet FMappings; RGet FSources; RGet FContents]) =
    [AText (lit "a();" ++ [NL] ++ lit "//--z" ++ [NL] ++ lit "y"); AVal (VStr ms);
     AVal (VArr [Some (lit "f.js"); Some (lit "g.js")]); AVal (VArr [Some (lit "a();b();" ++ [NL]); Some (lit "o")])].
Example C66_lines_case : (forall md, line_edit_expr md (XEdit (XConcat xl66) hl66) /\ line_edit_expr md (XConcat yl66)) /\
  (forall nu md, exists Ms, Forall2 (fun x M => line_marks nu md x = Some M) xl66 Ms /\ parts_edited expr_edited (map (@length _) Ms) (jedits hl66) xl66 yl66) /\
  Forall (fun x => ~ In NL (e_text x)) (jedits hl66) /\ Forall unwrapped xl66 /\
  forall md, lines_shown (XEdit (XConcat xl66) hl66) md (lit "AAAA;AAAA,KCAA;AACA") /\ lines_shown (XConcat yl66) md (lit "AAAA;AAAA,ICAA;AACA").
Proof.
  assert (P : forall u, forallb is_ascii u = true -> plain u) by apply EndFacts.is_ascii_plain.
  split; [|split; [|split; [|split]]].
  - intro md. cbn [xl66 yl66 line_edit_expr line_expr]. repeat split; try exact I; try (apply P; vm_compute; reflexivity); try (apply P; reflexivity).
    all: lazymatch goal with
      | |- Forall ordinary_call _ => repeat (apply (@Forall_cons jcall)); cbn; unfold ordinary; cbn; try lia; constructor
      | |- Forall plain_call _ => repeat (apply (@Forall_cons jcall)); try (apply P; reflexivity); constructor
      | |- Forall forward _ => repeat (apply (@Forall_cons edit)); try (unfold forward; cbn; lia); constructor
      | |- ForallOrdPairs apart _ => repeat (apply (@FOP_cons edit)); repeat (apply (@Forall_cons edit)); try (first [right; split; vm_compute; [reflexivity|discriminate]|left; split; vm_compute; [reflexivity|discriminate]]); constructor
      end.
  - intros nu md. eexists. split; [repeat constructor|]. cbn [map]. apply parts_more.
    + repeat (apply (@Forall_cons edit)); [right; vm_compute; discriminate|left; vm_compute; reflexivity|left; vm_compute; reflexivity|constructor].
    + apply (expr_replaced [JReplace (Fin 4 0) (Fin 7 0) []; JInsert (Fin 9 0) (lit "//")]).
    + apply parts_more.
      * match goal with |- Forall _ ?l => let l1 := eval vm_compute in l in change l with l1 end.
        apply (@Forall_cons edit); [right; vm_compute; discriminate|apply (@Forall_nil edit)].
      * apply expr_as_is.
      * apply parts_last. apply (expr_replaced [JReplace (Fin 0 0) (Fin 0 0) (lit "z")]).
  - repeat (apply (@Forall_cons edit)); try (cbn; intuition discriminate). constructor.
  - repeat constructor.
  - intros [|]; split; (eexists; split; [vm_compute; reflexivity|]; vm_compute; reflexivity).
Qed.
(** Line maps of the two forms need not be the same: they can differ on new text. *)
Theorem C66_lines_refuted : exists xs ys h ms ms', (forall nu md, exists Ms, Forall2 (fun x M => line_marks nu md x = Some M) xs Ms /\ parts_edited expr_edited (map (@length _) Ms) (jedits h) xs ys) /\
  (forall md, line_edit_expr md (XEdit (XConcat xs) h) /\ line_edit_expr md (XConcat ys)) /\
  (forall md, lines_shown (XEdit (XConcat xs) h) md ms /\ lines_shown (XConcat ys) md ms') /\ ms <> ms'.
Proof.
  destruct C66_lines_case as (H1 & H2 & _ & _ & H3). exists xl66, yl66, hl66. eexists _, _. split; [exact H2|]. split; [exact H1|]. split; [exact H3|discriminate].
Qed.
Print Assumptions C66_lines_refuted.
