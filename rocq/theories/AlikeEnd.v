(** What is read off the results of rearranged expressions. *)
From Verif Require Import Base Tactics ModelString StringFacts ModelVlq ModelSm ModelSlm ModelSources ModelTree ModelWasm
  ModelJs ModelJsApi SpecText SpecMap SpecAttr SpecEdit SpecEffect SpecLineEdit SpecList SortFacts TextFacts EditFacts NodeFacts LeafFacts ParseFacts MapFacts LoadFacts GenFacts SmsProps NodeTree
  SlmFacts SlmMap SlmRead SlmReplace SlmTree SlmProps SlmEdits SlmWhole SlmLines
  IdxFacts JsFacts Utf16Facts JsTextProps SpecResult ModelJsResult ResultFacts ResultProps SpecJs ModelEnd SpecEnd EndFacts MadeFacts EndProps ContentFacts EndMap LineEnd
  SpecLeast LeastEnd SpecAlike AlikeFacts.

Lemma numbers_inj (nu : jstr -> Z) : numbering nu -> forall a b, map nu a = map nu b -> a = b.
Proof. intro Hnu. induction a as [|x a IH]; intros [|y b] E; try discriminate; [reflexivity|]. injection E as E1 E2. f_equal; [now apply Hnu|auto]. Qed.

Theorem alike_same c0 c0' e e' md md' c1 c1' t t' : alike e e' -> reached_cache c0 -> reached_cache c0' ->
  exact_expr e -> exact_expr e' -> (forall v, e <> XRaw v) -> (forall v, e' <> XRaw v) ->
  build c0 e = (c1, t) -> build c0' e' = (c1', t') ->
  exists o o', js_source_and_map true md t = Some (ResMap o) /\ js_source_and_map true md' t' = Some (ResMap o') /\
    forall l l' q, Forall quiet l -> Forall quiet l' -> (q = RSource \/ exists f, q = RGet f) ->
      snd (rstep (fst (rrun (c1, o) l)) q) = snd (rstep (fst (rrun (c1', o') l')) q).
Proof.
  intros A H0 H0' X X' NR NR' B B'. destruct numbers as (nu & Hnu).
  destruct (end_least nu c0 e md c1 t Hnu H0 X NR B) as (o & M & Ls & Ln & ms & segs & J & EM & A1 & A2 & R & D & S & Q).
  destruct (end_least nu c0' e' md' c1' t' Hnu H0' X' NR' B') as (o' & M' & Ls' & Ln' & ms' & segs' & J' & EM' & A1' & A2' & R' & D' & S' & Q').
  rewrite <- (alike_marks nu e e' A), EM in EM'. injection EM' as <-.
  assert (Ls = Ls') by (apply (numbers_inj nu Hnu); congruence). subst Ls'. assert (Ln = Ln') by (apply (numbers_inj nu Hnu); congruence). subst Ln'.
  assert (ms = ms').
  { unfold reads_as in R, R'. eapply (spelled_unique (map nu Ls) (map nu Ln)); eauto; rewrite ?A1, ?A2; apply firsts_nodup. }
  subst ms'. exists o, o'. split; [exact J|]. split; [exact J'|]. intros l l' q Hl Hl' Hq.
  assert (C : contents_of e Ls = contents_of e' Ls) by (unfold contents_of; now rewrite (alike_contents e e' A)).
  destruct (Q l Hl) as (Q1 & Q2 & Q3 & Q4 & Q5). destruct (Q' l' Hl') as (Q1' & Q2' & Q3' & Q4' & Q5').
  destruct Hq as [->|[f ->]]; [congruence|]. destruct f; congruence.
Qed.

Theorem alike_lines nu c0 c0' e e' md c1 c1' t t' : numbering nu -> alike e e' -> reached_cache c0 -> reached_cache c0' ->
  line_expr md e -> line_expr md e' -> (forall v, e <> XRaw v) -> (forall v, e' <> XRaw v) ->
  build c0 e = (c1, t) -> build c0' e' = (c1', t') ->
  exists o o' T Ls Ks ms ms' es es', js_source_and_map false md t = Some (ResMap o) /\ js_source_and_map false md t' = Some (ResMap o') /\
    reads_as nu Ls [] ms = Some es /\ reads_as nu Ls [] ms' = Some es' /\ annotate_bytes es T = annotate_bytes es' T /\
    forall l l', Forall quiet l -> Forall quiet l' ->
      let a q := snd (rstep (fst (rrun (c1, o) l)) q) in
      let a' q := snd (rstep (fst (rrun (c1', o') l')) q) in
      (~ starts_with BOM T -> a RSource = AText T /\ a' RSource = AText T) /\
      a (RGet FSources) = AVal (VArr (map Some Ls)) /\ a' (RGet FSources) = AVal (VArr (map Some Ls)) /\
      a (RGet FNames) = AVal VUndef /\ a' (RGet FNames) = AVal VUndef /\
      a (RGet FMappings) = AVal (VStr ms) /\ a' (RGet FMappings) = AVal (VStr ms') /\
      exists v v', a (RGet FContents) = AVal v /\ a' (RGet FContents) = AVal v' /\ lists v Ks /\ lists v' Ks.
Proof.
  intros Hnu A H0 H0' X X' NR NR' B B'.
  destruct (end_lines nu c0 e md c1 t Hnu H0 X NR B) as (o & M & Ls & ms & es & J & EM & A1 & R & N & _ & Q).
  destruct (end_lines nu c0' e' md c1' t' Hnu H0' X' NR' B') as (o' & M' & Ls' & ms' & es' & J' & EM' & A1' & R' & N' & _ & Q').
  rewrite <- (alike_line_marks nu md e e' A), EM in EM'. injection EM' as <-.
  rewrite <- (alike_uses nu md e e' A) in *.
  assert (Ls = Ls') by (apply (numbers_inj nu Hnu); congruence). subst Ls'.
  exists o, o', (text_of M), Ls. eexists. exists ms, ms', es, es'. split; [exact J|]. split; [exact J'|]. split; [exact R|]. split; [exact R'|]. split; [congruence|].
  intros l l' Hl Hl' a a'. destruct (Q l Hl) as (Q1 & Q2 & Q3 & Q4 & v & Q5 & Q6). destruct (Q' l' Hl') as (Q1' & Q2' & Q3' & Q4' & v' & Q5' & Q6').
  split; [auto|]. split; [exact Q2|]. split; [exact Q2'|]. split; [exact Q4|]. split; [exact Q4'|]. split; [exact Q3|]. split; [exact Q3'|].
  exists v, v'. split; [exact Q5|]. split; [exact Q5'|]. split; [exact Q6|exact Q6'].
Qed.
