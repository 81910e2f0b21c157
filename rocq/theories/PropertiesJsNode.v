(** C57: programs that make source nodes by hand. *)
From Verif Require Import Base ModelString ModelVlq ModelSm ModelJs ModelJsApi ModelJsResult SpecText SpecMap SpecAttr SpecLeast SpecJs SpecResult ResultProps
  ModelEnd SpecEnd EndMap ModelJsList ModelJsNode SpecJsNode LeastEnd JsNodeProps PropertiesEnd.

(** [T]: what the objects say after the calls; [oks]: which calls succeed. *)
Theorem C57_program : forall nu c0 ops w outs T oks, numbering nu -> reached_cache c0 -> Forall node_call ops ->
  qrun (c0, []) ops = (w, outs) -> nsays_all nu [] ops = (T, oks) ->
  map works outs = oks /\
  forall v x, nth_error T v = Some (Some x) -> let M := ns_marks x in
    exists o Ls Ln ms, qstep w (QResult v) = (w, QMap o) /\
      map nu Ls = firsts (srcs_of M) /\ map nu Ln = firsts (names_of M) /\ reads_as nu Ls Ln ms = Some (least M) /\
      forall l, Forall quiet l ->
        (~ starts_with BOM (text_of M) -> snd (rstep (fst (rrun (fst w, o) l)) RSource) = AText (text_of M)) /\
        snd (rstep (fst (rrun (fst w, o) l)) (RGet FSources)) = AVal (VArr (map Some Ls)) /\
        snd (rstep (fst (rrun (fst w, o) l)) (RGet FNames)) = AVal (VArr (map Some Ln)) /\
        snd (rstep (fst (rrun (fst w, o) l)) (RGet FMappings)) = AVal (VStr ms) /\
        snd (rstep (fst (rrun (fst w, o) l)) (RGet FContents)) =
          AVal (list_value (flat_map (fun s => match first_content (ns_contents x) s with Some k => [k] | None => [] end) Ls)).
Proof. exact node_program. Qed.
Print Assumptions C57_program.

Definition ops57 : list qop :=
  [QOf (XOriginal (lit "a();b()") (lit "f.js")) true true;
   QNew 3 4 (lit "g.js") [AStr (lit "x" ++ nlj); AStr []; AStr (lit "y")];
   QAdd 0 [AStr (lit "/**/"); AObj 1; AStr nlj];
   QAdd 0 [AObj 1];
   QNew 0 0 [] [AStr (lit "z")];
   QOf e52 true false;
   QOther (lit "zz") true;
   QOf (XRaw (lit "r")) true true;
   QNew 1 0 (lit "g.js") [AStr (lit "w"); ABad];
   QOf (XOriginal (lit "F") (lit "f.js")) true true;
   QAdd 0 [AObj 4; AObj 2];
   QAdd 0 [AStr (lit "lost"); AObj 2];
   QAdd 3 [AObj 3];
   QFree 3;
   QResult 0].
Definition reads57 : list rop := [RSource; RGet FMappings; RGet FSources; RGet FContents; RGet FNames].
Lemma calls57 : Forall node_call ops57.
Proof.
  assert (P : forall u, forallb is_ascii u = true -> plain u) by apply EndFacts.is_ascii_plain.
  assert (Q : forall g, match g with AStr s => forallb is_ascii s | _ => true end = true -> plain_chunk g) by (intros [s|v|] H; [exact (P s H)|exact I|exact I]).
  assert (R : forall l, forallb (fun g => match g with AStr s => forallb is_ascii s | _ => true end) l = true -> Forall plain_chunk l).
  { intros l H. apply Forall_forall. intros g Hg. apply Q. rewrite forallb_forall in H. exact (H g Hg). }
  unfold ops57. repeat (apply (@Forall_cons qop); [try exact I|]); [..|apply Forall_nil]; cbn [node_call].
  - split; vm_compute; reflexivity.
  - split; [apply R; vm_compute; reflexivity|intros _; lia].
  - apply R. vm_compute. reflexivity.
  - apply R. vm_compute. reflexivity.
  - split; [apply R; vm_compute; reflexivity|congruence].
  - exact (proj1 C52_case).
  - split; [apply R; vm_compute; reflexivity|intros _; lia].
  - split; vm_compute; reflexivity.
  - apply R. vm_compute. reflexivity.
  - apply R. vm_compute. reflexivity.
  - apply R. vm_compute. reflexivity.
Qed.
Example C57_case : Forall node_call ops57 /\
  exists w outs o, qrun (cache_empty, []) ops57 = (w, outs) /\
    map works outs = [true; true; true; false; true; true; true; false; false; true; true; false; false; false; true] /\
    qstep w (QResult 0) = (w, QMap o) /\ 
    snd (rrun (fst w, o) reads57) =
    [AText (lit "a();b()/**/x" ++ nlj ++ lit "y" ++ nlj ++ lit "Fzlost"); AVal (VStr (lit "AAAA,IAAI,G,ICEA;AAAA,C;ADFJ,C"));
     AVal (VArr [Some (lit "f.js"); Some (lit "g.js")]); AVal (VArr [Some (lit "F")]); AVal (VArr [])].
Proof.
  split; [exact calls57|]. eexists _, _, _. split; [vm_compute; reflexivity|]. split; [vm_compute; reflexivity|]. split; [vm_compute; reflexivity|]. vm_compute. reflexivity.
Qed.

(** node({columns: false}): an OriginalSource (here with a letter beyond ASCII) by lines. *)
Definition lines57 : list qop :=
  [QOf (XConcat [XPrefix (lit "> ") (XOriginal (lit "a();b()" ++ nlj ++ [252%N] ++ lit ";d") (lit "f.js")); XStr (lit "z")]) false true;
   QOf (XOriginal (lit "a();b()") (lit "f.js")) true true; QAdd 0 [AObj 1]].
Example C57_lines_case : Forall node_call lines57 /\
  exists w o, qrun (cache_empty, []) lines57 = (w, [QDone; QDone; QDone]) /\ qstep w (QResult 0) = (w, QMap o) /\
    snd (rrun (fst w, o) reads57) =
    [AText (lit "> a();b()" ++ nlj ++ lit "> " ++ [252%N] ++ lit ";dza();b()"); AVal (VStr (lit "AAAA;AACA,K,CADA,IAAI"));
     AVal (VArr [Some (lit "f.js")]); AVal (VArr [Some (lit "a();b()" ++ nlj ++ [252%N] ++ lit ";d")]); AVal (VArr [])].
Proof.
  split; [|eexists _, _; split; [vm_compute; reflexivity|]; split; [vm_compute; reflexivity|]; vm_compute; reflexivity].
  assert (P : forall u, forallb is_ascii u = true -> plain u) by apply EndFacts.is_ascii_plain.
  unfold lines57. repeat apply (@Forall_cons qop); [..|apply Forall_nil]; cbn [node_call roughly map exact_expr].
  - split; [|split; [split; [discriminate|apply P; reflexivity]|exact I]]. split; [apply P; reflexivity|].
    apply Forall_app. split; [apply P; reflexivity|]. apply Forall_app. split; [apply P; reflexivity|]. apply Forall_app. split; [|apply P; reflexivity].
    constructor; [unfold scalar; lia|constructor].
  - split; vm_compute; reflexivity.
  - repeat constructor.
Qed.

(** A node that was added to another one, that was freed, or that was added to itself, is
    of no use. *)
Theorem C57_added : forall w u l v w1 ops w2 outs op, qstep w (QAdd u l) = (w1, QDone) -> In (AObj v) l ->
  qrun w1 ops = (w2, outs) -> touches v op -> snd (qstep w2 op) = QError.
Proof. exact added_gone. Qed.
Print Assumptions C57_added.
Theorem C57_built : forall w line column src l v w1 ops w2 outs op, qstep w (QNew line column src l) = (w1, QDone) -> In (AObj v) l ->
  qrun w1 ops = (w2, outs) -> touches v op -> snd (qstep w2 op) = QError.
Proof. exact built_gone. Qed.
Print Assumptions C57_built.
Theorem C57_freed : forall w v w1 ops w2 outs op, qstep w (QFree v) = (w1, QDone) ->
  qrun w1 ops = (w2, outs) -> touches v op -> snd (qstep w2 op) = QError.
Proof. exact freed_gone. Qed.
Print Assumptions C57_freed.
Theorem C57_self : forall w v l r w1 o w1' ops w2 outs op, qstep w (QAdd v l) = (w1', QDone) -> qstep w (QAdd v (l ++ AObj v :: r)) = (w1, o) ->
  (exists n, nth_error (snd w) v = Some (Some n)) -> o = QError /\ (qrun w1 ops = (w2, outs) -> touches v op -> snd (qstep w2 op) = QError).
Proof. exact self_gone. Qed.
Print Assumptions C57_self.
Example C57_gone_case : exists w w1 w2 w3,
  qrun (cache_empty, []) [QNew 1 0 (lit "f") [AStr (lit "a")]; QNew 0 0 [] [AStr (lit "b")]] = (w, [QDone; QDone]) /\
  qstep w (QAdd 1 [AObj 0]) = (w1, QDone) /\ snd (qstep w1 (QResult 0)) = QError /\
  qstep w (QAdd 1 [AObj 0; AObj 1]) = (w2, QError) /\ snd (qstep w2 (QResult 0)) = QError /\ snd (qstep w2 (QResult 1)) = QError /\
  qstep w1 (QNew 0 0 [] [AStr (lit "c"); AObj 1]) = (w3, QDone) /\ snd (qstep w3 (QResult 1)) = QError /\ exists o, snd (qstep w3 (QResult 2)) = QMap o.
Proof. eexists _, _, _, _. repeat (split; [vm_compute; reflexivity|]). eexists. vm_compute. reflexivity. Qed.

(** Without the condition on lines: the call succeeds, and the map cannot be read (with
    overflow checks; without them there is a line before the first). *)
Theorem C57_line_refuted : exists w o, qrun (cache_empty, []) [QNew 0 0 (lit "f") [AStr (lit "a")]] = (w, [QDone]) /\
  qstep w (QResult 0) = (w, QMap o) /\ snd (rrun (fst w, o) reads57) = [AText (lit "a"); AError; AError; AError; AError].
Proof. eexists _, _. repeat (split; [vm_compute; reflexivity|]). vm_compute. reflexivity. Qed.
Print Assumptions C57_line_refuted.
