(** C67: edits may be made in two steps. *)
From Verif Require Import Base Tactics ModelString ModelVlq ModelSm ModelSources ModelTree ModelJs ModelJsApi ModelJsResult
  SpecText SpecMap SpecAttr SpecEdit SpecEffect SpecRun SpecList SpecJs SpecResult ResultProps ModelEnd SpecEnd EndFacts SpecEdited EditedOrder
  SpecSplit SpecStages StageFacts StageEnd PropertiesEnd PropertiesEdited PropertiesSplit.

(** Texts: the edits [R], at whole positions and from front to back, done in a second
    ReplaceSource at the positions that they have in the text of the first one. *)
Theorem C67_text : forall t s h R h1 h2, t_source t = Some s -> Forall call_ok h -> Forall call_ok h1 -> Forall call_ok h2 ->
  Forall edit_ok (edits_of h1) -> Forall edit_ok (edits_of h2) -> Forall forward (edits_of h) ->
  front_to_back R -> Forall (range_of s) R -> Forall (fun r => Forall (apart r) (edits_of h)) R ->
  edits_of h1 = edits_of h ++ R -> edits_of h2 = map (later_edit (edits_of h) s) R ->
  t_source (TReplace (TReplace t (run h)) (run h2)) = t_source (TReplace t (run h1)).
Proof. exact stage_text. Qed.
Print Assumptions C67_text.
Ltac eds tac := lazymatch goal with
  | |- Forall _ (_ :: _) => apply Forall_cons; [cbv beta; tac|eds tac]
  | |- Forall _ [] => apply Forall_nil
  end.
Ltac calls_ok := eds ltac:(first [exact I|split; reflexivity|split; [reflexivity|discriminate]]).
Ltac edits_ok := eds ltac:(unfold edit_ok; cbn [e_from e_to e_subf e_subt]; lia).
Ltac is_apart := first [left; split; vm_compute; [reflexivity|discriminate]|right; split; vm_compute; [reflexivity|discriminate]].
Example C67_text_case : let h := [Insert 6 (lit "!") 0; Replace 2 3 (lit "XYZ") 0 0; Read] in
  let R := [mk_edit 0 0 0 0 (lit "q"); mk_edit 4 0 4 0 []; mk_edit 6 0 5 0 (lit "<")] in
  let h1 := h ++ [Replace 0 0 (lit "q") 0 0; Replace 4 4 [] 0 0; Read; Insert 6 (lit "<") 0] in
  let h2 := [Replace 0 0 (lit "q") 0 0; Replace 5 5 [] 0 0; Insert 8 (lit "<") 0] in
  let s := lit "abcdefghij" in
  Forall call_ok h /\ Forall call_ok h1 /\ Forall call_ok h2 /\ Forall edit_ok (edits_of h1) /\ Forall edit_ok (edits_of h2) /\ Forall forward (edits_of h) /\
  front_to_back R /\ Forall (range_of s) R /\ Forall (fun r => Forall (apart r) (edits_of h)) R /\
  edits_of h1 = edits_of h ++ R /\ edits_of h2 = map (later_edit (edits_of h) s) R /\
  t_source (TReplace (TReplace (TRaw s) (run h)) (run h2)) = Some (lit "qbXYZf!<ghij").
Proof.
  cbv zeta. cbn [edits_of flat_map edit_of app]. split; [calls_ok|]. split; [calls_ok|]. split; [calls_ok|]. split; [edits_ok|]. split; [edits_ok|].
  split; [eds ltac:(unfold forward; cbn [e_from e_to]; lia)|].
  split. { split; [|eds ltac:(split; reflexivity)]. repeat (apply FOP_cons; [eds ltac:(split; [is_apart|reflexivity])|]). apply FOP_nil. }
  split; [eds ltac:(unfold range_of; cbn; lia)|]. split; [eds ltac:(idtac; eds ltac:(idtac; is_apart))|]. split; [reflexivity|]. split; vm_compute; reflexivity.
Qed.

(** A single edit may be at a position between two characters. *)
Theorem C67_one : forall t s h r h1 h2, t_source t = Some s -> Forall call_ok h -> Forall call_ok h1 -> Forall call_ok h2 ->
  Forall edit_ok (edits_of h1) -> Forall edit_ok (edits_of h2) -> Forall forward (edits_of h) ->
  range_of s r -> Forall (apart r) (edits_of h) ->
  edits_of h1 = edits_of h ++ [r] -> edits_of h2 = [later_edit (edits_of h) s r] ->
  t_source (TReplace (TReplace t (run h)) (run h2)) = t_source (TReplace t (run h1)).
Proof. exact stage_one_more. Qed.
Print Assumptions C67_one.
(** The new text goes in front of one that the first ReplaceSource has put in. *)
Example C67_one_case : let h := [Insert 6 (lit "!") 8; Replace 2 3 (lit "XYZ") 0 0] in let r := mk_edit 6 3 5 3 (lit "<") in
  let h1 := h ++ [Insert 6 (lit "<") 3] in let h2 := [Insert 7 (lit "<") 3] in let s := lit "abcdefghij" in
  Forall call_ok h /\ Forall call_ok h1 /\ Forall call_ok h2 /\ Forall edit_ok (edits_of h1) /\ Forall edit_ok (edits_of h2) /\ Forall forward (edits_of h) /\
  range_of s r /\ Forall (apart r) (edits_of h) /\ edits_of h1 = edits_of h ++ [r] /\ edits_of h2 = [later_edit (edits_of h) s r] /\
  t_source (TReplace (TReplace (TRaw s) (run h)) (run h2)) = Some (lit "abXYZef<!ghij").
Proof.
  cbv zeta. cbn [edits_of flat_map edit_of app]. split; [calls_ok|]. split; [calls_ok|]. split; [calls_ok|]. split; [edits_ok|]. split; [edits_ok|].
  split; [eds ltac:(unfold forward; cbn [e_from e_to]; lia)|]. split; [unfold range_of; cbn; lia|]. split; [eds ltac:(idtac; is_apart)|]. split; [reflexivity|]. split; vm_compute; reflexivity.
Qed.

(** All edits in one ReplaceSource, or each in its own. *)
Theorem C67_one_by_one : forall t s h u, t_source t = Some s -> Forall call_ok h -> one_by_one s t (edits_of h) u ->
  Forall edit_ok (edits_of h) -> ForallOrdPairs apart (edits_of h) -> Forall (range_of s) (edits_of h) ->
  t_source u = t_source (TReplace t (run h)).
Proof. exact one_by_one_same. Qed.
Print Assumptions C67_one_by_one.
Example C67_one_by_one_case : let s := lit "abcdefghij" in let h := [Insert 6 (lit "!") 8; Replace 2 3 (lit "XYZ") 0 0; Insert 6 (lit "<") 3; Replace 0 1 [] 0 0] in
  let u := TReplace (TReplace (TReplace (TReplace (TRaw s) (run [Insert 6 (lit "!") 8])) (run [Replace 2 3 (lit "XYZ") 0 0])) (run [Insert 7 (lit "<") 3])) (run [Replace 0 1 [] 0 0]) in
  Forall call_ok h /\ one_by_one s (TRaw s) (edits_of h) u /\ Forall edit_ok (edits_of h) /\ ForallOrdPairs apart (edits_of h) /\ Forall (range_of s) (edits_of h) /\
  t_source u = Some (lit "XYZef<!ghij").
Proof.
  cbv zeta. cbn [edits_of flat_map edit_of app]. split; [calls_ok|]. split; [|split; [edits_ok|split; [|split]]].
  - set (e1 := mk_edit 6 8 (6 - 1) 8 (lit "!")). set (e2 := mk_edit 2 0 3 0 (lit "XYZ")). set (e3 := mk_edit 6 3 (6 - 1) 3 (lit "<")). set (e4 := mk_edit 0 0 1 0 []).
    apply (by_more _ _ [e1; e2; e3] e4); [|calls_ok|vm_compute; reflexivity|cbn [edits_of flat_map edit_of app]; edits_ok].
    apply (by_more _ _ [e1; e2] e3); [|calls_ok|vm_compute; reflexivity|cbn [edits_of flat_map edit_of app]; edits_ok].
    apply (by_more _ _ [e1] e2); [|calls_ok|vm_compute; reflexivity|cbn [edits_of flat_map edit_of app]; edits_ok].
    apply (by_more _ _ [] e1); [constructor|calls_ok|vm_compute; reflexivity|cbn [edits_of flat_map edit_of app]; edits_ok].
  - repeat (apply FOP_cons; [eds ltac:(idtac; is_apart)|]). apply FOP_nil.
  - eds ltac:(unfold range_of; cbn; lia).
  - vm_compute. reflexivity.
Qed.

(** An edit can be taken back by a second ReplaceSource. *)
Theorem C67_undone : forall t s h r h1 hu, t_source t = Some s -> Forall call_ok h -> Forall call_ok h1 -> Forall call_ok hu ->
  Forall edit_ok (edits_of h1) -> Forall edit_ok (edits_of hu) -> Forall forward (edits_of h) ->
  range_of s r -> Forall (apart r) (edits_of h) ->
  edits_of h1 = edits_of h ++ [r] -> edits_of hu = [undoing (edits_of h) s r] ->
  t_source (TReplace (TReplace t (run h1)) (run hu)) = t_source (TReplace t (run h)).
Proof. exact stage_undone. Qed.
Print Assumptions C67_undone.
Example C67_undone_case : let h := [Insert 6 (lit "!") 8; Replace 2 3 (lit "XYZ") 0 0] in let r := mk_edit 4 0 5 0 (lit "<->") in
  let h1 := h ++ [Replace 4 5 (lit "<->") 0 0] in let hu := [Replace 5 7 (lit "ef") 0 0] in let s := lit "abcdefghij" in
  Forall call_ok h /\ Forall call_ok h1 /\ Forall call_ok hu /\ Forall edit_ok (edits_of h1) /\ Forall edit_ok (edits_of hu) /\ Forall forward (edits_of h) /\
  range_of s r /\ Forall (apart r) (edits_of h) /\ edits_of h1 = edits_of h ++ [r] /\ edits_of hu = [undoing (edits_of h) s r] /\
  t_source (TReplace (TRaw s) (run h1)) = Some (lit "abXYZ<->!ghij") /\
  t_source (TReplace (TReplace (TRaw s) (run h1)) (run hu)) = Some (lit "abXYZef!ghij").
Proof.
  cbv zeta. cbn [edits_of flat_map edit_of app]. split; [calls_ok|]. split; [calls_ok|]. split; [calls_ok|]. split; [edits_ok|]. split; [edits_ok|].
  split; [eds ltac:(unfold forward; cbn [e_from e_to]; lia)|]. split; [unfold range_of; cbn; lia|]. split; [eds ltac:(idtac; is_apart)|]. split; [reflexivity|].
  split; [vm_compute; reflexivity|]. split; vm_compute; reflexivity.
Qed.

(** Not from front to back: the text between two insertions has been removed in the first step, so
    that both go to the same position in the second. *)
Theorem C67_order_refuted : exists t s h R h1 h2, t_source t = Some s /\ Forall call_ok h /\ Forall call_ok h1 /\ Forall call_ok h2 /\
  Forall edit_ok (edits_of h1) /\ Forall edit_ok (edits_of h2) /\ Forall forward (edits_of h) /\
  ForallOrdPairs apart R /\ Forall whole R /\ Forall (range_of s) R /\ Forall (fun r => Forall (apart r) (edits_of h)) R /\
  edits_of h1 = edits_of h ++ R /\ edits_of h2 = map (later_edit (edits_of h) s) R /\
  t_source (TReplace (TReplace t (run h)) (run h2)) <> t_source (TReplace t (run h1)).
Proof.
  exists (TRaw (lit "abcdef")), (lit "abcdef"), [Replace 2 3 [] 0 0], [mk_edit 4 0 3 0 (lit "x"); mk_edit 2 0 1 0 (lit "y")],
    [Replace 2 3 [] 0 0; Insert 4 (lit "x") 0; Insert 2 (lit "y") 0], [Insert 2 (lit "x") 0; Insert 2 (lit "y") 0].
  cbn [edits_of flat_map edit_of app]. split; [reflexivity|]. split; [calls_ok|]. split; [calls_ok|]. split; [calls_ok|]. split; [edits_ok|]. split; [edits_ok|].
  split; [eds ltac:(unfold forward; cbn [e_from e_to]; lia)|].
  split. { repeat (apply FOP_cons; [eds ltac:(idtac; is_apart)|]). apply FOP_nil. }
  split; [eds ltac:(split; reflexivity)|]. split; [eds ltac:(unfold range_of; cbn; lia)|]. split; [eds ltac:(idtac; eds ltac:(idtac; is_apart))|]. split; [reflexivity|]. split; [vm_compute; reflexivity|].
  vm_compute. discriminate.
Qed.
Print Assumptions C67_order_refuted.

(** Maps: both give the same text, and every character that is kept the same place. *)
Theorem C67_map : forall nu c0 c0' e M R h h1 h2 md md' c1 c1' t t', numbering nu -> reached_cache c0 -> reached_cache c0' ->
  marks nu e = Some M -> edit_expr (XEdit e h1) -> edit_expr (XEdit (XEdit e h) h2) ->
  front_to_back R -> Forall (range_of (text_of M)) R -> Forall (fun r => Forall (apart r) (jedits h)) R ->
  jedits h1 = jedits h ++ R -> jedits h2 = map (later_edit (jedits h) (text_of M)) R ->
  build c0 (XEdit e h1) = (c1, t) -> build c0' (XEdit (XEdit e h) h2) = (c1', t') ->
  in_order c1 (XEdit e h1) -> in_order c1' (XEdit (XEdit e h) h2) ->
  exists o o' Ls Ln Ls' Ln' ms ms' es es', js_source_and_map true md t = Some (ResMap o) /\ js_source_and_map true md' t' = Some (ResMap o') /\
    let K := kept_marked (jedits h1) M in
    reads_as nu Ls Ln ms = Some es /\ reads_as nu Ls' Ln' ms' = Some es' /\
    Forall2 agrees K (annotate es (text_of K)) /\ Forall2 agrees K (annotate es' (text_of K)) /\
    forall l l', Forall quiet l -> Forall quiet l' ->
      let a q := snd (rstep (fst (rrun (c1, o) l)) q) in
      let a' q := snd (rstep (fst (rrun (c1', o') l')) q) in
      (~ starts_with BOM (text_of K) -> a RSource = AText (text_of K) /\ a' RSource = AText (text_of K)) /\
      a (RGet FSources) = AVal (VArr (map Some Ls)) /\ a' (RGet FSources) = AVal (VArr (map Some Ls')) /\
      a (RGet FNames) = AVal (VArr (map Some Ln)) /\ a' (RGet FNames) = AVal (VArr (map Some Ln')) /\
      a (RGet FMappings) = AVal (VStr ms) /\ a' (RGet FMappings) = AVal (VStr ms').
Proof. exact stage_map. Qed.
Print Assumptions C67_map.
Definition h67 : list jcall := [JReplace (Fin 4 0) (Fin 7 0) []].
Definition k67 : list jcall := [JInsert (Fin 5 0) (lit "//"); JReplace (Fin 5 0) (Fin 5 0) (lit "z")].
Definition r67 : list edit := [mk_edit 9 0 8 0 (lit "//"); mk_edit 9 0 9 0 (lit "z")].
Example C67_map_case : let e := XConcat xs66 in let c1 := fst (build cache_empty (XEdit e h66)) in
  edit_expr (XEdit e h66) /\ edit_expr (XEdit (XEdit e h67) k67) /\
  (forall nu, exists M, marks nu e = Some M /\ front_to_back r67 /\ Forall (range_of (text_of M)) r67 /\ Forall (fun r => Forall (apart r) (jedits h67)) r67 /\
    jedits h66 = jedits h67 ++ r67 /\ jedits k67 = map (later_edit (jedits h67) (text_of M)) r67) /\
  fst (build cache_empty (XEdit (XEdit e h67) k67)) = c1 /\ in_order c1 (XEdit e h66) /\ in_order c1 (XEdit (XEdit e h67) k67) /\
  let ms := repeat (Some (lit "f.js", 1%Z, 0%Z)) 4 ++ repeat (Some (lit "f.js", 1%Z, 4%Z)) 3 ++ repeat (Some (lit "g.js", 1%Z, 0%Z)) 2 ++ [Some (lit "g.js", 2%Z, 0%Z)] in
  shown cache_empty (XEdit e h66) (lit "a();" ++ [NL] ++ lit "//z" ++ [NL] ++ lit "y") [lit "f.js"; lit "g.js"] [lit "a();b();" ++ [NL]] ms /\
  shown cache_empty (XEdit (XEdit e h67) k67) (lit "a();" ++ [NL] ++ lit "//z" ++ [NL] ++ lit "y") [lit "f.js"; lit "g.js"] [lit "a();b();" ++ [NL]] ms.
Proof.
  destruct C66_case as (X1 & _ & _ & X4 & X5 & _).
  assert (P : forall u, forallb is_ascii u = true -> plain u) by apply EndFacts.is_ascii_plain.
  cbv zeta. split; [exact X1|]. split.
  { split; [split; [apply X1|]|].
    all: split; [repeat (apply (@Forall_cons jcall)); cbn; unfold ordinary; cbn; try lia; constructor|].
    all: split; [repeat (apply (@Forall_cons jcall)); try (apply P; reflexivity); constructor|]; repeat (apply (@Forall_cons edit)); try (unfold forward; vm_compute; discriminate); constructor. }
  split.
  { intro nu. eexists. split; [reflexivity|].
    split. { unfold r67. split; [|eds ltac:(split; reflexivity)]. repeat (apply FOP_cons; [eds ltac:(split; [is_apart|reflexivity])|]). apply FOP_nil. }
    split; [unfold r67; eds ltac:(unfold range_of; vm_compute; repeat split; discriminate)|]. split; [unfold r67; eds ltac:(cbn [jedits flat_map h67 jedit_of app]; eds ltac:(idtac; is_apart))|]. split; [vm_compute; reflexivity|vm_compute; reflexivity]. }
  split; [vm_compute; reflexivity|]. split; [exact X5|]. split; [exact X5|].
  split; (eexists _, _, _, _; split; [vm_compute; reflexivity|]; split; [vm_compute; reflexivity|]; split; vm_compute; reflexivity).
Qed.
(** The maps need not be written alike: a newline put in by the first step. *)
Theorem C67_written_refuted : exists e M R h h1 h2 t t' c1 c1' o o', (forall nu, option_map text_of (marks nu e) = Some M) /\
  edit_expr (XEdit e h1) /\ edit_expr (XEdit (XEdit e h) h2) /\
  front_to_back R /\ Forall (range_of M) R /\ Forall (fun r => Forall (apart r) (jedits h)) R /\
  jedits h1 = jedits h ++ R /\ jedits h2 = map (later_edit (jedits h) M) R /\
  build cache_empty (XEdit e h1) = (c1, t) /\ build cache_empty (XEdit (XEdit e h) h2) = (c1', t') /\
  js_source_and_map true true t = Some (ResMap o) /\ js_source_and_map true true t' = Some (ResMap o') /\
  snd (rstep (c1, o) (RGet FMappings)) = AVal (VStr (lit "AAAA;AAAA,AAAG")) /\ snd (rstep (c1', o') (RGet FMappings)) = AVal (VStr (lit "AAAA;AAAG")).
Proof.
  assert (P : forall u, forallb is_ascii u = true -> plain u) by apply EndFacts.is_ascii_plain.
  exists (XOriginal (lit "ab;cd") (lit "f.js")), (lit "ab;cd"), [mk_edit 3 0 3 0 (lit "!")], [JReplace (Fin 0 0) (Fin 2 0) [NL]],
    [JReplace (Fin 0 0) (Fin 2 0) [NL]; JReplace (Fin 3 0) (Fin 3 0) (lit "!")], [JReplace (Fin 1 0) (Fin 1 0) (lit "!")]. eexists _, _, _, _, _, _.
  split; [reflexivity|]. split; [|split].
  1,2: cbn [edit_expr exact_expr]; repeat split; try (apply P; reflexivity).
  all: try lazymatch goal with
      | |- Forall ordinary_call _ => repeat (apply (@Forall_cons jcall)); cbn; unfold ordinary; cbn; try lia; constructor
      | |- Forall plain_call _ => repeat (apply (@Forall_cons jcall)); try (apply P; reflexivity); constructor
      | |- Forall forward _ => repeat (apply (@Forall_cons edit)); try (unfold forward; vm_compute; discriminate); constructor
      end.
  split; [split; [repeat constructor|eds ltac:(split; reflexivity)]|]. split; [eds ltac:(unfold range_of; cbn; lia)|].
  split; [eds ltac:(cbn [jedits flat_map jedit_of app]; eds ltac:(idtac; is_apart))|].
  split; [vm_compute; reflexivity|]. split; [vm_compute; reflexivity|]. split; [vm_compute; reflexivity|]. split; [vm_compute; reflexivity|]. split; [vm_compute; reflexivity|]. split; [vm_compute; reflexivity|].
  split; vm_compute; reflexivity.
Qed.
Print Assumptions C67_written_refuted.
