(** C56 with listMap() of ReplaceSources. *)
From Verif Require Import Base ModelString ModelVlq ModelSm ModelSlm ModelJs ModelJsApi ModelJsResult SpecText SpecMap SpecAttr SpecEffect SpecEdit SpecLineEdit SpecList SpecJs SpecResult ResultProps
  ModelEnd SpecEnd SpecEdited SpecLineEdited EndMap LineEnd ModelJsList SpecJsList JsListProps SpecJsListEdit JsListEdit PropertiesEnd PropertiesJsList.

(** [T]: something the objects may say after the calls, and what they say. *)
Theorem C56_edited : forall nu c0 ops w outs, numbering nu -> reached_cache c0 -> all_edit_covered nu [] ops ->
  lrun (c0, []) ops = (w, outs) ->
  exists T, lmeans_all nu [] ops T (map succeeds outs) /\
  forall v x, usable T v = Some x -> let M := sd_marks x in
    exists o Ls ms es, lstep w (LResult v) = (w, OResult o) /\
      map nu Ls = firsts (map fst (sd_uses x)) /\ reads_as nu Ls [] ms = Some es /\ annotate_bytes es (text_of M) = carried None M /\
      forall l, Forall quiet l ->
        (~ starts_with BOM (text_of M) -> snd (rstep (fst (rrun (fst w, o) l)) RSource) = AText (text_of M)) /\
        snd (rstep (fst (rrun (fst w, o) l)) (RGet FSources)) = AVal (VArr (map Some Ls)) /\
        snd (rstep (fst (rrun (fst w, o) l)) (RGet FMappings)) = AVal (VStr ms) /\
        snd (rstep (fst (rrun (fst w, o) l)) (RGet FNames)) = AVal VUndef /\
        exists k, snd (rstep (fst (rrun (fst w, o) l)) (RGet FContents)) = AVal k /\
          lists k (map Some (flat_map (fun s => match first_use (sd_uses x) (nu s) with Some k => [k] | None => [] end) Ls)).
Proof. exact edit_program. Qed.
Print Assumptions C56_edited.
(** Without ReplaceSources that is what C56_program says. *)
Theorem C56_meaning : forall nu ops, Forall (fun op => forall e cols md, op = LOf e cols md -> has_edit e = false) ops -> forall T T' oks,
  lmeans_all nu T ops T' oks <-> lsays_all nu T ops = (T', oks).
Proof. exact means_says. Qed.
Print Assumptions C56_meaning.

(** An edited file, with a text in front, and with a prefix on each line. *)
Definition x56 : jexpr := XEdit (XOriginal (lit "abc" ++ nlj ++ lit "def" ++ nlj) (lit "f.js")) [JInsert (Fin 1 0) (lit "w"); JReplace (Fin 5 0) (Fin 6 0) (lit "zzz")].
Definition eops56 : list lop :=
  [LOf x56 false true; LMapCode 0 (MPrefix (lit "> ")); LNewCode (lit "head" ++ nlj); LPrepend 1 (GObj 2) [] []; LAdd 1 (GStr (lit "tail")) (lit "g.js") (lit "G")].
Lemma x56_expr md : line_edit_expr md x56 /\ on_lines md x56.
Proof.
  assert (P : forall u, forallb is_ascii u = true -> plain u) by apply EndFacts.is_ascii_plain.
  assert (W : forall s x, existsb (N.eqb NL) (e_text x) = false -> (e_from x <= Z.of_nat (length s))%Z -> ((0 < e_from x)%Z -> nth_error s (Z.to_nat (e_from x - 1)) <> Some NL) ->
    forallb (fun j => implb (covers x j) (negb (N.eqb (nth j s 0%N) NL))) (seq 0 (length s)) = true -> SpecEnd.within s x).
  { intros s x H1 H2 H3 H4. split; [|split; [exact H2|split; [exact H3|]]].
    - intro H. apply Bool.not_true_iff_false in H1. apply H1. apply existsb_exists. exists NL. split; [exact H|reflexivity].
    - intros j C E. rewrite forallb_forall in H4. assert (J : j < length s) by (apply (proj1 (nth_error_Some s j)); intro Z; discriminate (eq_trans (eq_sym Z) E)). specialize (H4 j). rewrite in_seq, C in H4.
      rewrite (nth_error_nth s j 0%N E) in H4. assert (H5 : implb true (negb (N.eqb NL NL)) = true) by (apply H4; lia). discriminate. }
  unfold x56. cbn [line_edit_expr line_expr on_lines leaf_texts at_line_ends]. repeat split; try (left; exact I); try (vm_compute; reflexivity); try (apply P; vm_compute; reflexivity).
  all: lazymatch goal with
    | |- Forall ordinary_call _ => repeat (apply (@Forall_cons jcall)); cbn; unfold ordinary; cbn; try lia; constructor
    | |- Forall plain_call _ => repeat (apply (@Forall_cons jcall)); try (apply P; reflexivity); constructor
    | |- Forall forward _ => repeat (apply (@Forall_cons edit)); try (unfold forward; cbn; lia); constructor
    | |- Forall (SpecEnd.within _) _ => repeat (apply (@Forall_cons edit)); try (apply W; [vm_compute; reflexivity|vm_compute; discriminate|intros _; vm_compute; discriminate|vm_compute; reflexivity]); constructor
    | |- ForallOrdPairs apart _ => repeat (apply (@FOP_cons edit)); repeat (apply (@Forall_cons edit)); try (left; vm_compute; split; [reflexivity|discriminate]); constructor
    end.
Qed.
Example C56_edited_case : (forall nu, all_edit_covered nu [] eops56) /\
  exists w outs o, lrun (cache_empty, []) eops56 = (w, outs) /\ Forall (fun o => succeeds o = true) outs /\
    lstep w (LResult 1) = (w, OResult o) /\ snd (rrun (fst w, o) reads56) =
    [AText (lit "head" ++ nlj ++ lit "> awbc" ++ nlj ++ lit "> dzzz" ++ nlj ++ lit "tail"); AVal (VStr (lit ";AAAA;AACA;ACDA"));
     AVal (VArr [Some (lit "f.js"); Some (lit "g.js")]); AVal (VArr [Some (lit "abc" ++ nlj ++ lit "def" ++ nlj); Some (lit "G")]); AVal VUndef].
Proof.
  split.
  - intro nu. assert (P : forall u, forallb is_ascii u = true -> plain u) by apply EndFacts.is_ascii_plain. destruct (x56_expr true) as [X1 X2].
    unfold eops56. cbn [all_edit_covered edit_covered has_edit x56]. split; [exact X1|]. intros T1 ok1 L1. inversion L1 as [op T' ok N _ E1 E2 E3|e cols md M U He (R & S & G) E1 E2 E3]; subst.
    { specialize (N _ _ _ eq_refl). discriminate. }
    split.
    + cbn [covered usable nth_error app]. cbn [sd_list]. split; [apply P; reflexivity|]. split; [intros [H|[H|[]]]; discriminate H|].
      split; [cbn [sd_lines]; split; [exact X2|discriminate]|]. split; [exact I|]. cbn [sd_marks]. fold x56 in R. rewrite (reading_text nu true x56 M R X1). vm_compute. reflexivity.
    + intros T2 ok2 _. split; [apply P; reflexivity|]. intros T3 ok3 _. split; [exact I|]. intros T4 ok4 _. split; [apply P; reflexivity|]. intros T5 ok5 _. exact I.
  - eexists _, _, _. split; [vm_compute; reflexivity|]. split; [repeat constructor|]. split; [vm_compute; reflexivity|]. vm_compute. reflexivity.
Qed.
