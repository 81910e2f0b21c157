(** C56: programs that make line maps by hand. *)
From Verif Require Import Base ModelString ModelVlq ModelSm ModelSlm ModelJs ModelJsApi ModelJsResult SpecText SpecMap SpecAttr SpecList SpecJs SpecResult ResultProps
  ModelEnd SpecEnd EndMap LineEnd ModelJsList SpecJsList JsListProps PropertiesEnd.

(** [T]: what the objects say after the calls; [oks]: which calls succeed. *)
Theorem C56_program : forall nu c0 ops w outs T oks, numbering nu -> reached_cache c0 -> all_covered nu [] ops ->
  lrun (c0, []) ops = (w, outs) -> lsays_all nu [] ops = (T, oks) ->
  map succeeds outs = oks /\
  forall v x, usable T v = Some x -> let M := sd_marks x in
    exists o Ls ms es, lstep w (LResult v) = (w, OResult o) /\
      map nu Ls = firsts (map fst (sd_uses x)) /\ reads_as nu Ls [] ms = Some es /\ annotate_bytes es (text_of M) = carried None M /\
      forall l, Forall quiet l ->
        (~ starts_with BOM (text_of M) -> snd (rstep (fst (rrun (fst w, o) l)) RSource) = AText (text_of M)) /\
        snd (rstep (fst (rrun (fst w, o) l)) (RGet FSources)) = AVal (VArr (map Some Ls)) /\
        snd (rstep (fst (rrun (fst w, o) l)) (RGet FMappings)) = AVal (VStr ms) /\
        snd (rstep (fst (rrun (fst w, o) l)) (RGet FNames)) = AVal VUndef /\
        exists k, snd (rstep (fst (rrun (fst w, o) l)) (RGet FContents)) = AVal k /\
          lists k (map Some (flat_map (fun s => match first_use (sd_uses x) (nu s) with Some k => [k] | None => [] end) Ls)).
Proof. exact program. Qed.
Print Assumptions C56_program.

Definition ops56 : list lop :=
  [LNewSource (lit "a" ++ nlj ++ lit "b" ++ nlj) (lit "f.js") (lit "A") 0;
   LNewList (Some (GStr (lit "head" ++ nlj))) [] [];
   LAdd 1 (GObj 0) [] [];
   LNewSingle (lit "x" ++ nlj) (lit "g.js") (lit "G") 5;
   LNewSingle (lit "x") [] [] 1;
   LAdd 1 (GObj 2) [] [];
   LAdd 1 (GStr (lit "tail")) (lit "f.js") (lit "B");
   LMapCode 1 MReplace;
   LMapCode 1 MIdentical;
   LAdd 1 (GStr (lit "lost")) [] [];
   LNewList (Some (GObj 3)) [] [];
   LOther (lit "zz") true;
   LPrepend 4 (GObj 2) [] [];
   LAdd 3 (GStr (lit "more")) [] [];
   LFrom (lit "foo") outer52;
   LAdd 4 (GObj 5) [] [];
   LClone 0;
   LFree 5].
Definition reads56 : list rop := [RSource; RGet FMappings; RGet FSources; RGet FContents; RGet FNames].
Lemma covered56 : forall nu, all_covered nu [] ops56.
Proof.
  intro nu. assert (P : forall u, forallb is_ascii u = true -> plain u) by apply EndFacts.is_ascii_plain.
  unfold ops56. cbn [all_covered]. repeat split; try (apply P; vm_compute; reflexivity); try discriminate; try apply outer52_sound; try (now left).
  intros segs E. vm_compute in E. injection E as <-. repeat constructor; cbn; lia.
Qed.
Example C56_case : (forall nu, all_covered nu [] ops56) /\
  exists w outs o, lrun (cache_empty, []) ops56 = (w, outs) /\
    map succeeds outs = [true; true; true; true; false; true; true; false; true; false; true; true; true; true; true; true; false; true] /\
    lstep w (LResult 4) = (w, OResult o) /\
    snd (rrun (fst w, o) reads56) =
    [AText (lit "x" ++ nlj ++ lit "head" ++ nlj ++ lit "a" ++ nlj ++ lit "b" ++ nlj ++ lit "x" ++ nlj ++ lit "tailfoo"); 
     AVal (VStr (lit "AAIA;;ACJA;AACA;ADGA;ACJA,ICAA")); AVal (VArr [Some (lit "g.js"); Some (lit "f.js"); Some (lit "gen.js")]);
     AVal (VArr [Some (lit "G"); Some (lit "A")]); AVal VUndef].
Proof.
  split; [exact covered56|]. eexists _, _, _. split; [vm_compute; reflexivity|]. split; [vm_compute; reflexivity|]. split; [vm_compute; reflexivity|]. vm_compute. reflexivity.
Qed.

(** listMap() of an expression with a PrefixSource, taken apart from there. *)
Definition pops56 : list lop := [LOf l52 false true; LNewList (Some (GStr nlj)) [] []; LPrepend 0 (GObj 1) [] []; LAdd 0 (GStr (lit "tail")) (lit "f.js") []].
Example C56_prefix_case : (forall nu, all_covered nu [] pops56) /\ no_prefix l52 = false /\
  exists w outs o, lrun (cache_empty, []) pops56 = (w, outs) /\ map succeeds outs = [true; true; true; true] /\
    lstep w (LResult 0) = (w, OResult o) /\ snd (rrun (fst w, o) reads56) =
    [AText (nlj ++ lit "/* h */a()" ++ nlj ++ lit "b()" ++ nlj ++ lit "foo" ++ nlj ++ lit "  x" ++ nlj ++ lit "  ytail");
     AVal (VStr (lit ";A,OAAA;AACA;ACDA;ADAA;ACAA,GDAA")); AVal (VArr [Some (lit "f.js"); Some (lit "gen.js")]); AVal (VArr [Some (lit "a()" ++ nlj ++ lit "b()")]); AVal VUndef].
Proof.
  split; [|split; [reflexivity|]].
  - intro nu. cbn [all_covered pops56 covered plain_arg]. split; [right; apply (proj1 C52_lines_case)|]. split; [|split; [exact I|split; [|exact I]]]; apply EndFacts.is_ascii_plain; reflexivity.
  - eexists _, _, _. split; [vm_compute; reflexivity|]. split; [vm_compute; reflexivity|]. split; [vm_compute; reflexivity|]. vm_compute. reflexivity.
Qed.

(** mapGeneratedCode with prefixes and with the identity, again and again. *)
Definition mops56 : list lop :=
  [LNewSource (lit "a" ++ nlj ++ lit "b" ++ nlj) (lit "f.js") (lit "A") 1; LNewList (Some (GObj 0)) [] []; LAdd 1 (GStr (lit "x" ++ nlj)) [] [];
   LAdd 1 (GStr (lit "c" ++ nlj)) (lit "g.js") (lit "C"); LMapCode 1 (MPrefix (lit "  ")); LAdd 2 (GStr (lit "y" ++ nlj)) [] []; LMapCode 2 (MPrefix (lit "> "));
   LMapCode 3 MIdentical; LAdd 4 (GStr (lit "z")) (lit "f.js") (lit "A"); LMapCode 4 MIdentical].
Example C56_mapped_case : (forall nu, all_covered nu [] mops56) /\
  exists w outs o, lrun (cache_empty, []) mops56 = (w, outs) /\ Forall (fun o => succeeds o = true) outs /\
    lstep w (LResult 5) = (w, OResult o) /\ snd (rrun (fst w, o) reads56) =
    [AText (lit ">   a" ++ nlj ++ lit ">   b" ++ nlj ++ lit ">   x" ++ nlj ++ lit ">   c" ++ nlj ++ lit "> y" ++ nlj ++ lit "z");
     AVal (VStr (lit "AAAA;AACA;;ACDA;;ADAA")); AVal (VArr [Some (lit "f.js"); Some (lit "g.js")]); AVal (VArr [Some (lit "A"); Some (lit "C")]); AVal VUndef].
Proof.
  split.
  - intro nu. assert (P : forall u, forallb is_ascii u = true -> plain u) by apply EndFacts.is_ascii_plain.
    unfold mops56. cbn [all_covered]. repeat split; try (apply P; vm_compute; reflexivity); try discriminate; try (now left).
    all: try (intro Z; cbn in Z; repeat destruct Z as [Z|Z]; try discriminate; exact Z).
    right. left. vm_compute. reflexivity.
  - eexists _, _, _. split; [vm_compute; reflexivity|]. split; [repeat constructor|]. split; [vm_compute; reflexivity|]. vm_compute. reflexivity.
Qed.

(** A list that mapGeneratedCode was called on, and an object that was freed, are of no use. *)
Theorem C56_moved : forall w v f w1 ops w2 outs op, lstep w (LMapCode v f) = (w1, ODone) -> lrun w1 ops = (w2, outs) ->
  uses_object v op -> snd (lstep w2 op) = OError.
Proof. exact moved. Qed.
Print Assumptions C56_moved.
Theorem C56_freed : forall w v w1 ops w2 outs op, lstep w (LFree v) = (w1, ODone) -> lrun w1 ops = (w2, outs) ->
  uses_object v op -> snd (lstep w2 op) = OError.
Proof. exact freed. Qed.
Print Assumptions C56_freed.
(** new SourceListMap([...]) succeeds, and everything done with the object fails. *)
Theorem C56_array : forall w l w1 ops w2 outs op, lstep w (LNewArray l) = (w1, ODone) -> lrun w1 ops = (w2, outs) ->
  uses_object (length (snd w)) op -> snd (lstep w2 op) = OError.
Proof. exact array_dead. Qed.
Print Assumptions C56_array.
Example C56_dead_case : exists w w1 w2,
  lrun (cache_empty, []) [LNewCode (lit "a"); LNewList (Some (GObj 0)) [] []] = (w, [ODone; ODone]) /\
  lstep w (LNewArray [GObj 0; GStr (lit "b")]) = (w1, ODone) /\ lstep w1 (LMapCode 1 MIdentical) = (w2, ODone) /\
  snd (lstep w2 (LResult 1)) = OError /\ snd (lstep w2 (LResult 2)) = OError /\ snd (lstep w2 (LAdd 3 (GObj 1) [] [])) = OError /\
  snd (lstep w2 (LAdd 3 (GObj 0) [] [])) = ODone.
Proof. eexists _, _, _. repeat (split; [vm_compute; reflexivity|]). vm_compute. reflexivity. Qed.

(** Without the restriction on prepend: the source of a string that is prepended is dropped,
    and a string without one gets a source without name. *)
Theorem C56_prepend_refuted : exists w w1 w2 o o1 o2, 
  lrun (cache_empty, []) [LNewList None [] []; LNewList None [] []; LNewList None [] []; LAdd 0 (GStr (lit "a")) (lit "f.js") (lit "A");
    LPrepend 1 (GStr (lit "a")) (lit "f.js") (lit "A"); LPrepend 2 (GStr (lit "a")) [] []] = (w, [ODone; ODone; ODone; ODone; ODone; ODone]) /\
  lstep w (LResult 0) = (w, OResult o) /\ snd (rrun (fst w, o) reads56) =
    [AText (lit "a"); AVal (VStr (lit "AAAA")); AVal (VArr [Some (lit "f.js")]); AVal (VArr [Some (lit "A")]); AVal VUndef] /\
  lstep w (LResult 1) = (w1, OResult o1) /\ snd (rrun (fst w1, o1) reads56) =
    [AText (lit "a"); AVal (VStr (lit "A")); AVal (VArr []); AVal VUndef; AVal VUndef] /\
  lstep w (LResult 2) = (w2, OResult o2) /\ snd (rrun (fst w2, o2) reads56) =
    [AText (lit "a"); AVal (VStr (lit "AAAA")); AVal (VArr [None]); AVal VUndef; AVal VUndef].
Proof. eexists _, _, _, _, _, _. repeat (split; [vm_compute; reflexivity|]). vm_compute. reflexivity. Qed.
Print Assumptions C56_prepend_refuted.

(** mapGeneratedCode with a prefix on a list that is not made of whole lines: the last line gets a line of its own in front,
    and pieces inside a line get prefixes. *)
Theorem C56_prefix_refuted : exists w w1 o,
  lrun (cache_empty, []) [LNewList (Some (GStr (lit "a" ++ nlj))) [] []; LAdd 0 (GStr (lit "b")) (lit "f.js") []; LAdd 0 (GStr (lit "c")) (lit "g.js") []] = (w, [ODone; ODone; ODone]) /\
  lstep w (LMapCode 0 (MPrefix (lit "> "))) = (w1, ODone) /\ lstep w1 (LResult 1) = (w1, OResult o) /\
  snd (rrun (fst w1, o) [RSource]) = [AText (lit "> a" ++ nlj ++ lit "> " ++ nlj ++ lit "> b> " ++ nlj ++ lit "> c")] /\
  prefixed (lit "> ") (lit "a" ++ nlj ++ lit "bc") = lit "> a" ++ nlj ++ lit "> bc".
Proof. eexists _, _, _. repeat (split; [vm_compute; reflexivity|]). vm_compute. reflexivity. Qed.
Print Assumptions C56_prefix_refuted.
