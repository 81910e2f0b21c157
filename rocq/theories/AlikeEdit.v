(** Rearranged expressions in a ReplaceSource. *)
From Coq Require Import Permutation.
From Verif Require Import Base Tactics ModelString StringFacts ModelVlq ModelSm ModelSlm ModelSources ModelTree ModelWasm
  ModelJs ModelJsApi SpecText SpecMap SpecAttr SpecEdit SpecEffect SpecLineEdit SpecList SpecRun SortFacts TextFacts EditFacts NodeFacts LeafFacts
  IdxFacts SpecResult ModelJsResult ResultProps SpecJs ModelEnd SpecEnd EndFacts MadeFacts EndProps EndMap SpecEdited EditedFacts EditedBuild EditedEnd
  SpecLineEdited LineEditedFacts LineEditedEnd SpecSplit SplitFacts SplitTree SplitEnd SplitLines SpecAlike AlikeFacts.

Lemma insert_target M e t t' : (e_to e < e_from e)%Z -> new_target M e t -> new_target M e t' -> t = t'.
Proof.
  intros H (A1 & A2 & A3) (B1 & B2 & B3). destruct (Z.le_gt_cases (e_from e) 0) as [L|L]; [now rewrite A1, B1|].
  destruct (Z.lt_ge_cases (Z.of_nat (length M)) (e_from e)) as [G|G]; [now rewrite A2, B2|].
  destruct (A3 ltac:(lia)) as [->|[X _]]; [|lia]. destruct (B3 ltac:(lia)) as [->|[X _]]; [reflexivity|lia].
Qed.
Lemma insert_targets M es : Forall (fun e => (e_to e < e_from e)%Z) es -> forall ts ts', Forall2 (new_target M) es ts -> Forall2 (new_target M) es ts' -> ts = ts'.
Proof.
  induction 1 as [|e es He _ IH]; intros ts ts' A B; inversion A; subst; inversion B; subst; [reflexivity|]. f_equal; [eapply insert_target; eassumption|now apply IH].
Qed.

Theorem edited_both nu c0 c0' e e' M h md md' c1 c1' t t' : numbering nu -> marks nu e = Some M -> marks nu e' = Some M -> reached_cache c0 -> reached_cache c0' ->
  edit_expr (XEdit e h) -> edit_expr (XEdit e' h) -> build c0 (XEdit e h) = (c1, t) -> build c0' (XEdit e' h) = (c1', t') ->
  in_order c1 (XEdit e h) -> in_order c1' (XEdit e' h) ->
  exists o o' Ls Ln Ls' Ln' ms ms' es es', js_source_and_map true md t = Some (ResMap o) /\ js_source_and_map true md' t' = Some (ResMap o') /\
    let K := kept_marked (jedits h) M in
    reads_as nu Ls Ln ms = Some es /\ reads_as nu Ls' Ln' ms' = Some es' /\
    Forall2 agrees K (annotate es (text_of K)) /\ Forall2 agrees K (annotate es' (text_of K)) /\
    (Forall (fun x => (e_to x < e_from x)%Z) (jedits h) -> ForallOrdPairs apart (jedits h) ->
     exists ts, Forall2 (new_target M) (arrange key_le (jedits h)) ts /\
       let N := edited_marked (jedits h) ts M in
       Forall2 agrees N (annotate es (text_of K)) /\ Forall2 agrees N (annotate es' (text_of K))) /\
    forall l l', Forall quiet l -> Forall quiet l' ->
      let a q := snd (rstep (fst (rrun (c1, o) l)) q) in
      let a' q := snd (rstep (fst (rrun (c1', o') l')) q) in
      (~ starts_with BOM (text_of K) -> a RSource = AText (text_of K) /\ a' RSource = AText (text_of K)) /\
      a (RGet FSources) = AVal (VArr (map Some Ls)) /\ a' (RGet FSources) = AVal (VArr (map Some Ls')) /\
      a (RGet FNames) = AVal (VArr (map Some Ln)) /\ a' (RGet FNames) = AVal (VArr (map Some Ln')) /\
      a (RGet FMappings) = AVal (VStr ms) /\ a' (RGet FMappings) = AVal (VStr ms').
Proof.
  intros Hnu HM HM' H0 H0' X X' B B' I I'.
  destruct (edited_end nu c0 _ md c1 t Hnu H0 X ltac:(discriminate) B) as (o & N & E & Ls & Ln & Ks & ms & es & J & Rd & _ & _ & _ & _ & _ & RE & _ & A & _ & _ & Q).
  destruct (edited_end nu c0' _ md' c1' t' Hnu H0' X' ltac:(discriminate) B') as (o' & N' & E' & Ls' & Ln' & Ks' & ms' & es' & J' & Rd' & _ & _ & _ & _ & _ & RE' & _ & A' & _ & _ & Q').
  pose proof (marks_editless nu e M HM) as Xe. pose proof (marks_editless nu e' M HM') as Xe'.
  pose proof (reading_part nu (jedits h) e _ M N (expr_replaced h e) Xe HM Rd) as Bl.
  pose proof (reading_part nu (jedits h) e' _ M N' (expr_replaced h e') Xe' HM' Rd') as Bl'.
  exists o, o', Ls, Ln, Ls', Ln', ms, ms', es, es'. split; [exact J|]. split; [exact J'|]. intro K. split; [exact RE|]. split; [exact RE'|].
  assert (T : text_of N = text_of K) by now apply blanked_text. assert (T' : text_of N' = text_of K) by now apply blanked_text.
  specialize (A I). specialize (A' I'). rewrite T in A. rewrite T' in A'.
  split; [now apply (blanked_agrees N)|]. split; [now apply (blanked_agrees N')|]. split.
  - intros Hi Ha.
    assert (G : forall e0 N0, marks nu e0 = Some M -> reading nu (XEdit e0 h) N0 -> exists ts, Forall2 (new_target M) (arrange key_le (jedits h)) ts /\ N0 = edited_marked (jedits h) ts M).
    { intros e0 N0 M0 R0. inversion R0 as [? ? Z|? ? M1 ts R1 L P| | |]; subst; [discriminate|].
      pose proof (reading_editless nu e0 M1 R1 (marks_editless nu e0 M M0)) as Z. rewrite M0 in Z. injection Z as <-. exists ts. split; [apply P; [rewrite M0; discriminate|exact Ha]|reflexivity]. }
    destruct (G e N HM Rd) as (ts & F & ->). destruct (G e' N' HM' Rd') as (ts' & F' & ->). exists ts. split; [exact F|].
    assert (ts = ts') as <- by (eapply insert_targets; [eapply Permutation_Forall; [apply arrange_perm|exact Hi]|exact F|exact F']). split; [exact A|exact A'].
  - intros l l' Hl Hl' a a'. destruct (Q l Hl) as (Q1 & Q2 & Q3 & Q4 & _). destruct (Q' l' Hl') as (Q1' & Q2' & Q3' & Q4' & _).
    rewrite T in Q1. rewrite T' in Q1'. split; [auto|]. split; [exact Q2|]. split; [exact Q2'|]. split; [exact Q3|]. split; [exact Q3'|]. split; [exact Q4|exact Q4'].
Qed.

Theorem lines_both nu c0 c0' e e' M h md c1 c1' t t' : numbering nu -> line_marks nu md e = Some M -> line_marks nu md e' = Some M -> reached_cache c0 -> reached_cache c0' ->
  line_edit_expr md (XEdit e h) -> line_edit_expr md (XEdit e' h) -> build c0 (XEdit e h) = (c1, t) -> build c0' (XEdit e' h) = (c1', t') ->
  exists o o' N N' Ls Ls' ms ms' es es', js_source_and_map false md t = Some (ResMap o) /\ js_source_and_map false md t' = Some (ResMap o') /\
    let K := kept_lines (jedits h) M in
    let T := map fst K in
    Forall2 (kept_as near) K N /\ Forall2 (kept_as near) K N' /\
    (Forall (fun x => ~ In NL (e_text x)) (jedits h) -> unwrapped e -> unwrapped e' -> Forall2 (kept_as eq) K N /\ Forall2 (kept_as eq) K N') /\
    reads_as nu Ls [] ms = Some es /\ annotate_bytes es T = carried None N /\
    reads_as nu Ls' [] ms' = Some es' /\ annotate_bytes es' T = carried None N' /\
    forall l l', Forall quiet l -> Forall quiet l' ->
      let a q := snd (rstep (fst (rrun (c1, o) l)) q) in
      let a' q := snd (rstep (fst (rrun (c1', o') l')) q) in
      (~ starts_with BOM T -> a RSource = AText T /\ a' RSource = AText T) /\
      a (RGet FSources) = AVal (VArr (map Some Ls)) /\ a' (RGet FSources) = AVal (VArr (map Some Ls')) /\
      a (RGet FMappings) = AVal (VStr ms) /\ a' (RGet FMappings) = AVal (VStr ms').
Proof.
  intros Hnu HM HM' H0 H0' X X' B B'.
  destruct (end_line_edits nu c0 _ md c1 t Hnu H0 X ltac:(discriminate) B) as (o & N & Ls & Ks & ms & es & J & Rd & _ & _ & RE & A & Q).
  destruct (end_line_edits nu c0' _ md c1' t' Hnu H0' X' ltac:(discriminate) B') as (o' & N' & Ls' & Ks' & ms' & es' & J' & Rd' & _ & _ & RE' & A' & Q').
  destruct (line_part nu md (jedits h) e _ M N (expr_replaced h _) (line_editless nu md e M HM) HM Rd) as [P1 P2].
  destruct (line_part nu md (jedits h) e' _ M N' (expr_replaced h _) (line_editless nu md e' M HM') HM' Rd') as [P1' P2'].
  pose proof (kept_text _ _ _ _ P1) as T1. pose proof (kept_text _ _ _ _ P1') as T2.
  exists o, o', N, N', Ls, Ls', ms, ms', es, es'. split; [exact J|]. split; [exact J'|]. intros K T. split; [exact P1|]. split; [exact P1'|].
  split; [intros Hn Hu Hu'; split; [now apply P2|now apply P2']|].
  split; [exact RE|]. split; [unfold T, K; rewrite <- T1; exact A|]. split; [exact RE'|]. split; [unfold T, K; rewrite <- T2; exact A'|].
  intros l l' Hl Hl' a a'. destruct (Q l Hl) as (Q1 & Q2 & Q3 & _). destruct (Q' l' Hl') as (Q1' & Q2' & Q3' & _).
  rewrite T1 in Q1. rewrite T2 in Q1'. split; [auto|]. split; [exact Q2|]. split; [exact Q2'|]. split; [exact Q3|exact Q3'].
Qed.
