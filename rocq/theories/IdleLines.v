(** Wrappers that do nothing, for maps without columns. *)
From Verif Require Import Base Tactics ModelString StringFacts ModelVlq ModelSm ModelSlm ModelSources ModelTree ModelWasm
  ModelJs ModelJsApi SpecText SpecMap SpecAttr SpecEdit SpecEffect SpecLineEdit SpecList SpecRun TextFacts EditFacts NodeFacts LeafFacts
  IdxFacts SpecResult ModelJsResult ResultProps SpecJs ModelEnd SpecEnd EndFacts MadeFacts EndProps EndMap LineEnd
  SpecLineEdited LineEditedFacts LineEditedEnd SpecSplit SplitFacts SplitEnd SplitLines SpecIdle.

(** [line_marks] through ReplaceSources without edits. *)
Fixpoint through_marks (nu : jstr -> Z) (md : bool) (e : jexpr) : option marked :=
  match e with
  | XPrefix p e => let* M := through_marks nu md e in Some (mprefixed p M)
  | XEdit e h => match jedits h with [] => through_marks nu md e | _ => None end
  | XConcat l =>
      (fix go l :=
         match l with
         | [] => Some []
         | x :: r => let* M := through_marks nu md x in let* N := go r in Some (M ++ N)
         end) l
  | e => line_marks nu md e
  end.
Lemma through_cons nu md x l : through_marks nu md (XConcat (x :: l)) = let* M := through_marks nu md x in let* N := through_marks nu md (XConcat l) in Some (M ++ N).
Proof. reflexivity. Qed.
Lemma through_app nu md a b : through_marks nu md (XConcat (a ++ b)) = let* M := through_marks nu md (XConcat a) in let* N := through_marks nu md (XConcat b) in Some (M ++ N).
Proof.
  induction a as [|x a IH]; cbn [app].
  - change (through_marks nu md (XConcat [])) with (Some (@nil (char * option target))). cbn [bind app]. destruct (through_marks nu md (XConcat b)); reflexivity.
  - rewrite !through_cons, IH. destruct (through_marks nu md x) as [M|]; [|reflexivity]. cbn [bind]. destruct (through_marks nu md (XConcat a)) as [A|]; [|reflexivity]. cbn [bind].
    destruct (through_marks nu md (XConcat b)) as [B|]; [|reflexivity]. cbn [bind]. now rewrite app_assoc.
Qed.
Lemma mprefix_none b M : mprefix [] b M = M.
Proof. revert b. induction M as [|[c a] M IH]; intro b; [reflexivity|]. cbn [mprefix mark map]. rewrite IH. destruct b; reflexivity. Qed.
Lemma mprefix_line p a q R : ~ In NL q -> mprefix p false (mark a q ++ R) = mark a q ++ mprefix p false R.
Proof.
  induction q as [|c q IH]; intro N; [reflexivity|]. cbn [mark map app mprefix]. rewrite (proj2 (N.eqb_neq c NL)) by (intros ->; apply N; now left).
  f_equal. apply IH. intro; apply N; now right.
Qed.
Lemma mprefix_twice p q M : ~ In NL q -> forall b, mprefix p b (mprefix q b M) = mprefix (p ++ q) b M.
Proof.
  intro N. induction M as [|[c a] M IH]; intro b; [reflexivity|]. cbn [mprefix]. destruct b; cbn [app].
  - destruct q as [|d q].
    + cbn [mark map app mprefix]. rewrite IH, app_nil_r. reflexivity.
    + change (mark a (d :: q)) with ((d, a) :: mark a q). cbn [app mprefix]. rewrite (proj2 (N.eqb_neq d NL)) by (intros ->; apply N; now left).
      rewrite mprefix_line by (intro; apply N; now right). cbn [mprefix app]. rewrite IH. unfold mark. rewrite map_app. cbn [map]. rewrite <- !app_assoc. reflexivity.
  - cbn [mprefix app]. now rewrite IH.
Qed.
Lemma reads_no_edits h : Forall (eq JRead) h -> jedits h = [].
Proof. induction 1 as [|c h <- _ IH]; [reflexivity|]. exact IH. Qed.
Lemma idle_through nu md e e' : idle e e' -> through_marks nu md e = through_marks nu md e'.
Proof.
  induction 1 as [e|e e' H IH|e e1 e2 H IH H' IH'|a e e' b H IH|p e e' H IH|e e' h H IH|a m b|e O|e O|p q e P Q N|e h O F|a s b Hs].
  - reflexivity.
  - now symmetry.
  - congruence.
  - rewrite !through_app, !through_cons, IH. reflexivity.
  - cbn [through_marks]. now rewrite IH.
  - cbn [through_marks]. now rewrite IH.
  - rewrite !through_app, through_cons. destruct (through_marks nu md (XConcat a)) as [A|]; [|reflexivity]. cbn [bind].
    destruct (through_marks nu md (XConcat m)) as [B|]; reflexivity.
  - rewrite through_cons. destruct (through_marks nu md e) as [M|]; [|reflexivity]. cbn [bind through_marks]. now rewrite app_nil_r.
  - cbn [through_marks]. destruct (through_marks nu md e) as [M|]; [|reflexivity]. cbn [bind]. unfold mprefixed. now rewrite mprefix_none.
  - cbn [through_marks]. destruct (through_marks nu md e) as [M|]; [|reflexivity]. cbn [bind]. unfold mprefixed. now rewrite mprefix_twice.
  - cbn [through_marks]. now rewrite (reads_no_edits h F).
  - rewrite !through_app, !through_cons. reflexivity.
Qed.

Lemma through_line nu md e : forall M, line_marks nu md e = Some M -> through_marks nu md e = Some M.
Proof.
  induction e as [s|v|v n|v n o|p e IH|e h IH|l IH|v n m o i] using jexpr_ind'; intros M E; try exact E.
  - cbn [line_marks] in E. unb E as A EA. injection E as <-. cbn [through_marks]. rewrite (IH _ EA). reflexivity.
  - discriminate.
  - revert M E. induction IH as [|x l Hx _ IHl]; intros M E; [exact E|]. cbn [line_marks] in E. unb E as A EA. unb E as B EB. injection E as <-.
    rewrite through_cons, (Hx _ EA). cbn [bind]. rewrite (IHl _ EB). reflexivity.
Qed.
Lemma unwrapped_editless e : unwrapped e -> editless e.
Proof.
  induction e as [s|v|v n|v n o|p e IH|e h IH|l IH|v n m o i] using jexpr_ind'; intro U; try exact I; try destruct U.
  induction IH as [|x l Hx _ IHl]; [exact I|]. destruct U as [U1 U2]. split; [exact (Hx U1)|exact (IHl U2)].
Qed.
Lemma kept_known M N : Forall2 (kept_as eq) (known_marks M) N -> N = M.
Proof.
  unfold known_marks. revert N. induction M as [|[c a] M IH]; intros N F; inversion F as [|x [d b] l N' [F1 F2] F3]; subst; [reflexivity|].
  cbn [fst snd] in *. subst. f_equal. now apply IH.
Qed.
Lemma reading_through nu md e N : line_reading nu md e N -> reads_only e -> through_marks nu md e = Some N.
Proof.
  induction 1 as [e M E|e h M M' R IH N1 N2|p e M R IH| |e l M N R IH R' IH']; intro X.
  - now apply through_line.
  - destruct X as [X1 X2]. pose proof (reads_no_edits h X1) as J. pose proof (line_reading_editless nu md e M R (unwrapped_editless e X2)) as EM.
    destruct (line_part nu md (jedits h) e (XEdit e h) M M' (expr_replaced h e) (unwrapped_editless e X2) EM (line_edit nu md e h M M' R N1 N2)) as [_ P].
    rewrite J, kept_lines_nil in P. rewrite (kept_known M M' (P (Forall_nil _) X2)). cbn [through_marks]. rewrite J. now apply through_line.
  - cbn [through_marks]. rewrite (IH X). reflexivity.
  - reflexivity.
  - destruct X as [X1 X2]. rewrite through_cons, (IH X1). cbn [bind]. rewrite (IH' X2). reflexivity.
Qed.

Theorem idle_lines nu c0 c0' e e' md c1 c1' t t' : numbering nu -> idle e e' -> reached_cache c0 -> reached_cache c0' ->
  line_edit_expr md e -> line_edit_expr md e' -> reads_only e -> reads_only e' -> (forall v, e <> XRaw v) -> (forall v, e' <> XRaw v) ->
  build c0 e = (c1, t) -> build c0' e' = (c1', t') ->
  exists o o' T Ls ms ms' es es', js_source_and_map false md t = Some (ResMap o) /\ js_source_and_map false md t' = Some (ResMap o') /\
    reads_as nu Ls [] ms = Some es /\ reads_as nu Ls [] ms' = Some es' /\ annotate_bytes es T = annotate_bytes es' T /\
    forall l l', Forall quiet l -> Forall quiet l' ->
      let a q := snd (rstep (fst (rrun (c1, o) l)) q) in
      let a' q := snd (rstep (fst (rrun (c1', o') l')) q) in
      (~ starts_with BOM T -> a RSource = AText T /\ a' RSource = AText T) /\
      a (RGet FSources) = AVal (VArr (map Some Ls)) /\ a' (RGet FSources) = AVal (VArr (map Some Ls)) /\
      a (RGet FNames) = AVal VUndef /\ a' (RGet FNames) = AVal VUndef /\
      a (RGet FMappings) = AVal (VStr ms) /\ a' (RGet FMappings) = AVal (VStr ms').
Proof.
  intros Nu Id C C' X X' Q Q' Rw Rw' B B'.
  destruct (end_line_edits nu c0 e md c1 t Nu C X Rw B) as (o & M & Ls & Ks & ms & es & S & Rd & Sh & _ & RA & A & P).
  destruct (end_line_edits nu c0' e' md c1' t' Nu C' X' Rw' B') as (o' & M' & Ls' & Ks' & ms' & es' & S' & Rd' & Sh' & _ & RA' & A' & P').
  assert (M' = M) as ->.
  { pose proof (reading_through _ _ _ _ Rd Q) as E. pose proof (reading_through _ _ _ _ Rd' Q') as E'. rewrite (idle_through nu md e e' Id) in E. congruence. }
  assert (Ls' = Ls) as ->.
  { rewrite <- Sh in Sh'. clear -Nu Sh'. revert Ls Sh'. induction Ls' as [|x Ls' IH]; intros [|y Ls] E; try discriminate; [reflexivity|]. injection E as E1 E2. f_equal; [apply Nu; exact E1|now apply IH]. }
  exists o, o', (text_of M), Ls, ms, ms', es, es'. split; [exact S|]. split; [exact S'|]. split; [exact RA|]. split; [exact RA'|]. split; [congruence|].
  intros l l' Hl Hl'. cbv zeta. destruct (P l Hl) as (P1 & P2 & P3 & P4 & _). destruct (P' l' Hl') as (R1 & R2 & R3 & R4 & _).
  split; [intro W; split; [now apply P1|now apply R1]|]. repeat split; assumption.
Qed.
