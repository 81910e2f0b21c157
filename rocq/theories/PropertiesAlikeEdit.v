(** C65 in a ReplaceSource: edits around rearranged parts. *)
From Verif Require Import Base Tactics ModelString ModelVlq ModelSm ModelSources ModelTree ModelJs ModelJsApi ModelJsResult
  SpecText SpecMap SpecAttr SpecEdit SpecEffect SpecRun SpecLineEdit SpecLineEdited SpecList SpecJs SpecResult ResultProps ModelEnd SpecEnd EndFacts SpecEdited EditedOrder
  SpecSplit SpecAlike AlikeFacts AlikeEdit SpecRegroup RegroupFacts PropertiesEnd PropertiesEdited.

(** columns: true.  The same text; kept characters, and with insertions only all characters,
    have the same places. *)
Theorem C65_edited : forall nu c0 c0' e e' M h md md' c1 c1' t t', numbering nu -> alike e e' -> marks nu e = Some M -> reached_cache c0 -> reached_cache c0' ->
  edit_expr (XEdit e h) -> edit_expr (XEdit e' h) -> build c0 (XEdit e h) = (c1, t) -> build c0' (XEdit e' h) = (c1', t') ->
  in_order c1 (XEdit e h) -> in_order c1' (XEdit e' h) ->
  exists o o' Ls Ln Ls' Ln' ms ms' es es', js_source_and_map true md t = Some (ResMap o) /\ js_source_and_map true md' t' = Some (ResMap o') /\
    let K := kept_marked (jedits h) M in
    reads_as nu Ls Ln ms = Some es /\ reads_as nu Ls' Ln' ms' = Some es' /\
    Forall2 agrees K (annotate es (text_of K)) /\ Forall2 agrees K (annotate es' (text_of K)) /\
    (Forall (fun x => (e_to x < e_from x)%Z) (jedits h) -> ForallOrdPairs apart (jedits h) ->
     exists ts, Forall2 (new_target M) (arrange key_le (jedits h)) ts /\
       let N := edited_marked (jedits h) ts M in
       Forall2 agrees N (annotate es (text_of K)) /\ Forall2 agrees N (annotate es' (text_of K))) /\
    forall l l', Forall quiet l -> Forall quiet l' ->
      let a q := snd (rstep (fst (rrun (c1, o) l)) q) in
      let a' q := snd (rstep (fst (rrun (c1', o') l')) q) in
      (~ starts_with BOM (text_of K) -> a RSource = AText (text_of K) /\ a' RSource = AText (text_of K)) /\
      a (RGet FSources) = AVal (VArr (map Some Ls)) /\ a' (RGet FSources) = AVal (VArr (map Some Ls')) /\
      a (RGet FNames) = AVal (VArr (map Some Ln)) /\ a' (RGet FNames) = AVal (VArr (map Some Ln')) /\
      a (RGet FMappings) = AVal (VStr ms) /\ a' (RGet FMappings) = AVal (VStr ms').
Proof. intros nu c0 c0' e e' M h md md' c1 c1' t t' Hnu A HM. apply edited_both; [exact Hnu|exact HM|now rewrite <- (alike_marks nu e e' A)]. Qed.
Print Assumptions C65_edited.
(** columns: false. *)
Theorem C65_edited_lines : forall nu c0 c0' e e' M h md c1 c1' t t', numbering nu -> alike e e' -> line_marks nu md e = Some M -> reached_cache c0 -> reached_cache c0' ->
  line_edit_expr md (XEdit e h) -> line_edit_expr md (XEdit e' h) -> build c0 (XEdit e h) = (c1, t) -> build c0' (XEdit e' h) = (c1', t') ->
  exists o o' N N' Ls Ls' ms ms' es es', js_source_and_map false md t = Some (ResMap o) /\ js_source_and_map false md t' = Some (ResMap o') /\
    let K := kept_lines (jedits h) M in
    let T := map fst K in
    Forall2 (kept_as near) K N /\ Forall2 (kept_as near) K N' /\
    (Forall (fun x => ~ In NL (e_text x)) (jedits h) -> unwrapped e -> unwrapped e' -> Forall2 (kept_as eq) K N /\ Forall2 (kept_as eq) K N') /\
    reads_as nu Ls [] ms = Some es /\ annotate_bytes es T = carried None N /\
    reads_as nu Ls' [] ms' = Some es' /\ annotate_bytes es' T = carried None N' /\
    forall l l', Forall quiet l -> Forall quiet l' ->
      let a q := snd (rstep (fst (rrun (c1, o) l)) q) in
      let a' q := snd (rstep (fst (rrun (c1', o') l')) q) in
      (~ starts_with BOM T -> a RSource = AText T /\ a' RSource = AText T) /\
      a (RGet FSources) = AVal (VArr (map Some Ls)) /\ a' (RGet FSources) = AVal (VArr (map Some Ls')) /\
      a (RGet FMappings) = AVal (VStr ms) /\ a' (RGet FMappings) = AVal (VStr ms').
Proof. intros nu c0 c0' e e' M h md c1 c1' t t' Hnu A HM. apply lines_both; [exact Hnu|exact HM|now rewrite <- (alike_line_marks nu md e e' A)]. Qed.
Print Assumptions C65_edited_lines.

Definition xe65 : jexpr := XConcat [XOriginal (lit "a();b();" ++ [NL]) (lit "f.js"); XRaw (lit "--"); XL2L (lit "x" ++ [NL] ++ lit "y") (lit "g.js") (lit "o")].
Definition xe65' : jexpr := XConcat [XOriginal (lit "a();b();" ++ [NL]) (lit "f.js"); XConcat [XConcat [XRaw (lit "-"); XRaw (lit "-")]; XL2L (lit "x" ++ [NL] ++ lit "y") (lit "g.js") (lit "o")]].
Definition he65 : list jcall := [JReplace (Fin 11 0) (Fin 11 0) (lit "z"); JReplace (Fin 4 0) (Fin 7 0) []; JInsert (Fin 10 0) (lit "//")].
Example C65_edited_case : alike xe65 xe65' /\ edit_expr (XEdit xe65 he65) /\ edit_expr (XEdit xe65' he65) /\
  (forall nu, exists M, marks nu xe65 = Some M) /\
  in_order (fst (build cache_empty (XEdit xe65 he65))) (XEdit xe65 he65) /\ in_order (fst (build cache_empty (XEdit xe65' he65))) (XEdit xe65' he65) /\
  (forall md, line_edit_expr md (XEdit xe65 he65) /\ line_edit_expr md (XEdit xe65' he65)) /\
  (forall nu md, exists M, line_marks nu md xe65 = Some M) /\
  Forall (fun x => ~ In NL (e_text x)) (jedits he65) /\ unwrapped xe65 /\ unwrapped xe65' /\
  forall cols e, e = xe65 \/ e = xe65' -> exists o, js_source_and_map cols true (snd (build cache_empty (XEdit e he65))) = Some (ResMap o) /\
    snd (rrun (fst (build cache_empty (XEdit e he65)), o) [RSource; RGet FMappings]) =
    [AText (lit "a();" ++ [NL] ++ lit "-//-z" ++ [NL] ++ lit "y"); AVal (VStr (lit (if cols then "AAAA,IAAI;ICAJ;AACA" else "AAAA;A,KCAA;AACA")))].
Proof.
  assert (P : forall u, forallb is_ascii u = true -> plain u) by apply EndFacts.is_ascii_plain.
  assert (H : Forall ordinary_call he65 /\ Forall plain_call he65 /\ Forall forward (jedits he65)).
  { split; [repeat (apply (@Forall_cons jcall)); cbn; unfold ordinary; cbn; try lia; constructor|].
    split; [repeat (apply (@Forall_cons jcall)); try (apply P; reflexivity); constructor|]. repeat (apply (@Forall_cons edit)); try (unfold forward; vm_compute; discriminate); constructor. }
  assert (HA : ForallOrdPairs apart (jedits he65)).
  { repeat (apply (@FOP_cons edit)); repeat (apply (@Forall_cons edit)); try (first [right; split; vm_compute; [reflexivity|discriminate]|left; split; vm_compute; [reflexivity|discriminate]]); constructor. }
  assert (O : in_order (fst (build cache_empty xe65)) xe65).
  { destruct (build cache_empty xe65) as [c1 t1] eqn:B. cbn [fst].
    assert (Hp : Forall piece [XOriginal (lit "a();b();" ++ [NL]) (lit "f.js"); XRaw (lit "--"); XL2L (lit "x" ++ [NL] ++ lit "y") (lit "g.js") (lit "o")]).
    { apply (@Forall_cons jexpr); [|apply (@Forall_cons jexpr); [|apply (@Forall_cons jexpr); [|apply (@Forall_nil jexpr)]]]; repeat split; try (apply P; reflexivity). }
    apply (C58_modules cache_empty _ c1 t1 ltac:(exists [], []; reflexivity) Hp); [cbn; constructor; [intros [X|[]]; discriminate|]; constructor; [intros []|constructor]|cbn; repeat constructor|exact B]. }
  split; [|split; [|split; [|split; [|split; [|split; [|split; [|split; [|split; [|split; [|split]]]]]]]]]].
  - apply al_sym. eapply al_trans; [eapply (al_flat [_] _ [])|]. cbn [app]. eapply (al_part [_] _ _ [_]). apply (al_join (lit "-") (lit "-")).
  - split; [|exact H]. cbn. repeat split; apply P; reflexivity.
  - split; [|exact H]. cbn. repeat split; apply P; reflexivity.
  - intro nu. eexists. reflexivity.
  - exact O.
  - exact O.
  - intro md. split; (split; [cbn; repeat split; apply P; reflexivity|]); (split; [apply H|split; [apply H|split; [apply H|exact HA]]]).
  - intros nu md. eexists. reflexivity.
  - repeat (apply (@Forall_cons edit)); try (cbn; intuition discriminate). constructor.
  - cbn. tauto.
  - cbn. tauto.
  - intros cols e [->| ->]; destruct cols; (eexists; split; [vm_compute; reflexivity|]; vm_compute; reflexivity).
Qed.

(** ConcatSources in ConcatSources, with ReplaceSources and PrefixSources anywhere, for all
    expressions: nothing that is read differs, whether it fails or not. *)
Theorem C65_regrouped : forall c e e' c1 c1' t t', regrouped e e' -> build c e = (c1, t) -> build c e' = (c1', t') ->
  c1 = c1' /\ js_source t = js_source t' /\ js_size t = js_size t' /\ js_hash t = js_hash t' /\
  forall columns module, js_source_and_map columns module t = js_source_and_map columns module t'.
Proof. exact regrouped_same. Qed.
Print Assumptions C65_regrouped.
Definition rg65 : jexpr := XConcat [XEdit (XPrefix (lit "> ") (XConcat [XStr (lit "-"); XConcat [XOriginal (lit "a();b();" ++ [NL]) (lit "f.js"); XConcat []]])) he65; XRaw (lit "z")].
Definition rg65' : jexpr := XConcat [XConcat [XEdit (XPrefix (lit "> ") (XConcat [XStr (lit "-"); XOriginal (lit "a();b();" ++ [NL]) (lit "f.js")])) he65; XRaw (lit "z")]].
Example C65_regrouped_case : regrouped rg65 rg65' /\ snd (build cache_empty rg65) <> snd (build cache_empty rg65') /\
  js_source (snd (build cache_empty rg65)) = Some (lit "> -a()//;zz").
Proof.
  split; [|split; [discriminate|vm_compute; reflexivity]].
  eapply rg_trans; [|apply rg_sym; apply (rg_flat [] [_; _] [])]. apply (rg_part [] _ _ [_]). apply rg_edit, rg_prefix.
  eapply rg_trans; [apply (rg_flat [_] [_; _] [])|]. cbn [app]. apply (rg_flat [_; _] [] []).
Qed.
