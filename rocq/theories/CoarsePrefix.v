(** A map by lines next to a map by columns, with prefixes around edits. *)
From Verif Require Import Base Tactics ModelString StringFacts ModelVlq ModelSm ModelSlm ModelSources ModelTree ModelWasm
  ModelJs ModelJsApi SpecText SpecMap SpecAttr SpecEdit SpecEffect SpecLineEdit SpecList SpecRun TextFacts EditFacts NodeFacts LeafFacts
  IdxFacts SpecResult ModelJsResult ResultProps SpecJs ModelEnd SpecEnd EndFacts MadeFacts EndProps EndMap SpecEdited EditedFacts EditedBuild EditedEnd
  SpecLineEdited LineEditedFacts LineEditedEnd SpecSplit SplitFacts SplitTree SplitEnd SplitLines AlikeEdit StageFacts SpecCoarse CoarseFacts CoarseEdit SpecJsListEdit JsListEdit.

(** The second text with some more characters. *)
Inductive longer : marked -> marked -> Prop :=
| longer_nil : longer [] []
| longer_keep x y M K : blanked x y -> longer M K -> longer (x :: M) (y :: K)
| longer_more x M K : longer M K -> longer (x :: M) K.
Lemma longer_blanked M K : Forall2 blanked M K -> longer M K.
Proof. induction 1; constructor; assumption. Qed.
Lemma longer_app A B C D : longer A B -> longer C D -> longer (A ++ C) (B ++ D).
Proof. intros H H'. induction H; cbn [app]; [exact H'| |]; constructor; assumption. Qed.
Lemma longer_front P M K : longer M K -> longer (P ++ M) K.
Proof. intro H. induction P as [|x P IH]; [exact H|]. now constructor. Qed.
Lemma longer_any M : longer M [].
Proof. induction M; now constructor. Qed.
Lemma longer_length M K : longer M K -> length K <= length M.
Proof. induction 1; cbn [length]; lia. Qed.
Lemma longer_same M K : longer M K -> text_of M = text_of K -> Forall2 blanked M K.
Proof.
  intros H T. assert (L : length M = length K) by (apply (f_equal (@length _)) in T; unfold text_of in T; now rewrite !map_length in T). clear T.
  induction H as [|x y M K B H IH|x M K H IH]; [constructor| |].
  - constructor; [exact B|]. apply IH. cbn [length] in L. lia.
  - apply longer_length in H. cbn [length] in L. lia.
Qed.
Lemma blank_front p c a K : blank_prefix p true ((c, a) :: K) = mark None p ++ blank_prefix p false ((c, a) :: K).
Proof. reflexivity. Qed.
Lemma longer_prefix p M K : longer M K -> forall b b' M', prefixed_at p b M M' -> (b' = true -> b = true) -> longer M' (blank_prefix p b' K).
Proof.
  assert (P : forall a M K, longer M K -> longer (mark a p ++ M) (mark None p ++ K)) by (intros a M0 K0 H; apply longer_app; [apply longer_blanked, mark_blanked|exact H]).
  induction 1 as [|x y M K B H IH|x M K H IH]; intros b b' M' R Hb.
  - apply longer_any.
  - destruct y as [d k]. inversion R as [| |? c a a' ? M1 R1]; subst. destruct B as [B1 B2]. cbn [fst snd] in *. subst d. cbn [blank_prefix].
    assert (Z : longer ((c, a) :: M1) ((c, k) :: blank_prefix p (N.eqb c NL) K)) by (constructor; [split; [reflexivity|exact B2]|eapply IH; [exact R1|tauto]]).
    destruct b'; [rewrite (Hb eq_refl); now apply P|]. now apply longer_front.
  - inversion R as [| |? c a a' ? M1 R1]; subst. destruct b'.
    + rewrite (Hb eq_refl). destruct K as [|[d k] K]; [apply longer_any|]. rewrite blank_front. apply P. apply longer_more. eapply IH; [exact R1|discriminate].
    + apply longer_front. apply longer_more. eapply IH; [exact R1|discriminate].
Qed.
Lemma mprefix_at p M : forall b, prefixed_at p b M (mprefix p b M).
Proof. induction M as [|[c a] M IH]; intro b; [constructor|]. cbn [mprefix]. constructor. apply IH. Qed.

Lemma below_reading nu e K : keeps_below nu e K -> forall M, reading nu e M -> longer M K.
Proof.
  induction 1 as [e K E|e h K E|p e K H IH| |e l K K' H IH H' IH']; intros M R.
  - apply longer_blanked. exact (keeps_reading nu e K (keeps_all nu e K E) M R).
  - apply longer_blanked. exact (keeps_reading nu _ _ (keeps_edit nu e h K E) M R).
  - inversion R as [? ? E| |? ? M0 ? N0 R0 A| |]; subst.
    + cbn [marks] in E. unb E as M0 EM. injection E as <-. eapply longer_prefix; [apply IH; constructor; exact EM|apply mprefix_at|tauto].
    + eapply longer_prefix; [apply IH; exact R0|exact A|tauto].
  - inversion R as [? ? E| | | |]; subst; [injection E as <-|]; constructor.
  - apply reading_cons_inv in R as (A & B & -> & RA & RB). apply longer_app; auto.
Qed.

Section Lift.
  Variable R : char * option target -> char * option target -> Prop.
  Hypothesis Rn : forall c b, R (c, None) (c, b).
  Hypothesis Rc : forall x y, R x y -> fst x = fst y.
  Lemma lift_mark a s : Forall2 R (mark None s) (mark a s).
  Proof. induction s as [|c s IH]; constructor; [apply Rn|exact IH]. Qed.
  Lemma lift_prefix p K N : Forall2 R K N -> forall b, Forall2 R (blank_prefix p b K) (mprefix p b N).
  Proof.
    induction 1 as [|[c a] [d a'] K N H F IH]; intro b; [constructor|]. cbn [blank_prefix mprefix]. pose proof (Rc _ _ H) as E. cbn [fst] in E. subst d.
    apply Forall2_app; [destruct b; [apply lift_mark|constructor]|]. constructor; [exact H|apply IH].
  Qed.
End Lift.
Lemma coarser_none c b : coarser (c, None) (c, b).
Proof. split; [reflexivity|exact I]. Qed.
Lemma coarser_char x y : coarser x y -> fst x = fst y.
Proof. now intros [H _]. Qed.
Lemma nearly_char x y : nearly_coarser x y -> fst x = fst y.
Proof. intros [[H _]|[H _]]; exact H. Qed.
Lemma line_prefix_inv nu md p e N : line_reading nu md (XPrefix p e) N -> exists M, line_reading nu md e M /\ N = mprefixed p M.
Proof.
  intro R. inversion R as [? ? E| |? ? M R0| |]; subst.
  - cbn [line_marks] in E. unb E as M EM. injection E as <-. exists M. split; [now constructor|reflexivity].
  - exists M. split; [exact R0|reflexivity].
Qed.
Lemma below_lines nu md e K : keeps_below nu e K -> part_ok md e -> by_lines nu md e -> forall N, line_reading nu md e N ->
  Forall2 nearly_coarser K N /\ (edits_in_lines e -> Forall2 coarser K N).
Proof.
  induction 1 as [e K E|e h K E|p e K H IH| |e l K K' H IH H' IH']; intros P B N R.
  - exact (keeps_lines nu md e K (keeps_all nu e K E) P B N R).
  - exact (keeps_lines nu md _ _ (keeps_edit nu e h K E) P B N R).
  - apply line_prefix_inv in R as (M & R & ->). destruct P as (_ & _ & _ & _ & _ & P). assert (P' : part_ok md e) by (destruct e; try exact P; destruct P).
    destruct (IH P' B M R) as [X Y]. split.
    + apply lift_prefix; [intros c b; left; apply coarser_none|exact nearly_char|exact X].
    + intro I. apply lift_prefix; [exact coarser_none|exact coarser_char|exact (Y I)].
  - inversion R as [? ? E| | | |]; subst; [injection E as <-|]; split; constructor.
  - apply line_cons_inv in R as (A & C & -> & RA & RC). destruct P as [P1 P2]. destruct B as [B1 B2].
    destruct (IH P1 B1 A RA) as [X1 X2]. destruct (IH' P2 B2 C RC) as [Y1 Y2]. split; [now apply Forall2_app|]. intros [I1 I2]. apply Forall2_app; auto.
Qed.

Lemma flip {A B} (R : A -> B -> Prop) l m : Forall2 (fun x y => R y x) m l -> Forall2 R l m.
Proof. induction 1; constructor; assumption. Qed.
Lemma blanked_prefix p M K : Forall2 blanked M K -> M <> [] -> ends_with NL (text_of M) = false -> forall b M', prefixed_at p b M M' -> Forall2 blanked M' (blank_prefix p b K).
Proof.
  induction 1 as [|x [d k] M K [B1 B2] F IH]; intros NE En b M' R; [now destruct NE|].
  inversion R as [| |? c a a' ? M1 R1]; subst. cbn [fst snd] in *. subst d. cbn [blank_prefix].
  apply Forall2_app; [destruct b; [apply mark_blanked|constructor]|]. constructor; [split; [reflexivity|exact B2]|].
  destruct M as [|y M].
  - inversion F; subst. cbn [text_of map fst ends_with] in En. rewrite En in R1. inversion R1; subst; constructor.
  - apply IH; [discriminate|exact En|exact R1].
Qed.
Lemma unedited_editless e : has_edit e = false -> editless e.
Proof.
  induction e as [s|v|v n|v n o|p e IH|e h IH|l IH|v n m o i] using jexpr_ind'; intro H; try exact I; [exact (IH H)|discriminate|].
  revert H. induction IH as [|x l Hx _ IHl]; intro H; [exact I|]. apply Bool.orb_false_elim in H as [H1 H2]. split; [exact (Hx H1)|exact (IHl H2)].
Qed.
Lemma below_exact nu md e K : keeps_below nu e K -> part_ok md e -> by_lines nu md e -> forall N, line_reading nu md e N -> forall M, reading nu e M -> unended e ->
  Forall2 blanked M K.
Proof.
  induction 1 as [e K E|e h K E|p e K H IH| |e l K K' H IH H' IH']; intros P B N RN M R U.
  - exact (keeps_reading nu e K (keeps_all nu e K E) M R).
  - exact (keeps_reading nu _ _ (keeps_edit nu e h K E) M R).
  - apply line_prefix_inv in RN as (N0 & RN & ->). destruct P as (_ & _ & _ & _ & _ & P). assert (P' : part_ok md e) by (destruct e; try exact P; destruct P).
    destruct U as [U1 U2].
    assert (Ex : forall M0, marks nu e = Some M0 -> Forall2 blanked (mprefixed p M0) (blank_prefix p true K)).
    { intros M0 EM. apply flip. apply lift_prefix; [intros c b; split; [reflexivity|now left]|intros x y [Q _]; now symmetry|].
      apply flip. exact (IH P' B N0 RN M0 (reading_exact nu e M0 EM) U1). }
    inversion R as [? ? E| |? ? M0 ? Nn R0 A| |]; subst.
    + cbn [marks] in E. unb E as M0 EM. injection E as <-. exact (Ex M0 EM).
    + destruct U2 as [U2|[U2 U3]]; [exfalso; rewrite (reading_editless nu e M0 R0 (unedited_editless e U2)) in Nn; discriminate|].
      pose proof (IH P' B N0 RN M0 R0 U1) as F.
      assert (T : text_of M0 = concat (leaf_texts e)).
      { rewrite (blanked_text _ _ F), (near_text _ _ (proj1 (below_lines nu md e K H P' B N0 RN))). exact (reading_text nu md e N0 RN P'). }
      eapply blanked_prefix; [exact F| |now rewrite T|exact A]. intros ->. apply U3. now rewrite <- T.
  - inversion R as [? ? E| | | |]; subst; [injection E as <-|]; constructor.
  - apply reading_cons_inv in R as (A & A' & -> & RA & RA'). apply line_cons_inv in RN as (C & C' & -> & RC & RC'). destruct P as [P1 P2]. destruct B as [B1 B2]. destruct U as [U1 U2].
    apply Forall2_app; eauto.
Qed.

Theorem coarse_prefixed nu c0 e K md md' c1 t : numbering nu -> keeps_below nu e K -> by_lines nu md' e -> reached_cache c0 -> (forall v, e <> XRaw v) ->
  edit_expr e -> line_edit_expr md' e -> build c0 e = (c1, t) -> in_order c1 e ->
  exists o o' T Ls Ln Ls' ms ms' es es', js_source_and_map true md t = Some (ResMap o) /\ js_source_and_map false md' t = Some (ResMap o') /\
    reads_as nu Ls Ln ms = Some es /\ reads_as nu Ls' [] ms' = Some es' /\
    (unended e -> T = text_of K) /\ (T = text_of K -> Forall2 agrees K (annotate es T)) /\ Forall2 nearly_coarser K (annotate_bytes es' (text_of K)) /\
    (edits_in_lines e -> Forall2 coarser K (annotate_bytes es' (text_of K))) /\
    forall l l', Forall quiet l -> Forall quiet l' ->
      let a q := snd (rstep (fst (rrun (c1, o) l)) q) in
      let a' q := snd (rstep (fst (rrun (c1, o') l')) q) in
      (~ starts_with BOM T -> a RSource = AText T) /\ (~ starts_with BOM (text_of K) -> a' RSource = AText (text_of K)) /\
      a (RGet FSources) = AVal (VArr (map Some Ls)) /\ a' (RGet FSources) = AVal (VArr (map Some Ls')) /\
      a (RGet FNames) = AVal (VArr (map Some Ln)) /\ a' (RGet FNames) = AVal VUndef /\
      a (RGet FMappings) = AVal (VStr ms) /\ a' (RGet FMappings) = AVal (VStr ms').
Proof.
  intros Hnu Ke By H0 Rw X X' B O.
  destruct (edited_end nu c0 e md c1 t Hnu H0 X Rw B) as (o & M & E & Ls & Ln & Ks & ms & es & S & Rd & _ & _ & _ & _ & _ & RA & _ & A & _ & _ & Q).
  destruct (end_line_edits nu c0 e md' c1 t Hnu H0 X' Rw B) as (o' & N & Ls' & Ks' & ms' & es' & S' & Rd' & _ & _ & RA' & A' & Q').
  exists o, o', (text_of M), Ls, Ln, Ls', ms, ms', es, es'. split; [exact S|]. split; [exact S'|]. split; [exact RA|]. split; [exact RA'|].
  pose proof (below_reading nu e K Ke M Rd) as Bl.
  assert (Po : part_ok md' e) by (destruct e; try exact X'; destruct X').
  destruct (below_lines nu md' e K Ke Po By N Rd') as [F1 F2]. pose proof (near_text _ _ F1) as T'.
  split; [intro U; apply blanked_text; exact (below_exact nu md' e K Ke Po By N Rd' M Rd U)|].
  split; [intro T; exact (blanked_agrees _ _ _ (longer_same _ _ Bl T) (A O))|].
  split; [rewrite T', A'; now apply near_carried|]. split; [intro I; rewrite T', A'; apply coarse_carried; exact (F2 I)|].
  intros l l' Hl Hl'. cbv zeta. destruct (Q l Hl) as (Q1 & Q2 & Q3 & Q4 & _). destruct (Q' l' Hl') as (P1 & P2 & P3 & P4 & _).
  split; [exact Q1|]. split; [rewrite T'; exact P1|]. repeat split; assumption.
Qed.
