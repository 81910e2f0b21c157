(** A map by lines next to a map by columns, with edits. *)
From Coq Require Import Permutation Sorted.
From Verif Require Import Base Tactics ModelString StringFacts ModelVlq ModelSm ModelSlm ModelSources ModelTree ModelWasm
  ModelJs ModelJsApi SpecText SpecMap SpecAttr SpecEdit SpecEffect SpecLineEdit SpecList SpecRun SortFacts TextFacts EditFacts NodeFacts LeafFacts
  SlmEdits IdxFacts SpecResult ModelJsResult ResultProps SpecJs ModelEnd SpecEnd EndFacts MadeFacts EndProps EndMap SpecEdited EditedFacts EditedBuild EditedEnd
  SpecLineEdited LineEditedFacts LineEditedEnd SpecSplit SplitFacts SplitTree SplitEnd SplitLines AlikeEdit StageFacts SpecCoarse CoarseFacts.

Definition subs_ok (e : edit) : Prop := (0 <= e_subf e < 16 /\ 0 <= e_subt e < 16)%Z.
Lemma jedits_subs h : Forall subs_ok (jedits h).
Proof.
  unfold jedits. induction h as [|c h IH]; cbn [flat_map]; [constructor|]. apply Forall_app. split; [|exact IH].
  destruct c as [a b t|p t|]; cbn [jedit_of]; repeat constructor; unfold jedit; cbn [e_subf e_subt]; apply Z.mod_pos_bound; reflexivity.
Qed.
Lemma places_own len o : ForallOrdPairs apart o -> Forall forward o -> Forall subs_ok o -> StronglySorted (fun a b => key_le a b = true) o ->
  places len o = map (own_place len) o.
Proof.
  intros HA HF HO HS. induction HS as [|x l H1 IH H2]; [reflexivity|].
  inversion HA as [|a1 l1 A1 A2]; subst. inversion HF as [|a2 l2 F1 F2]; subst. inversion HO as [|a3 l3 O1 O2]; subst. cbn [places map]. f_equal; [|auto].
  unfold own_place. f_equal.
  assert (Hle : Forall (fun e => (e_from x <= anchor e)%Z) l).
  { rewrite Forall_forall in *. intros e He. specialize (H2 _ He). specialize (A1 _ He). specialize (F2 _ He). specialize (O2 _ He).
    unfold key_le, apart, before, forward, subs_ok, anchor, e_hi, e_lo in *. lia. }
  assert (Hx : anchor x = e_from x) by (unfold anchor, forward in *; lia).
  unfold SpecText.place. cbn [fold_right]. rewrite Hx. unfold clamp. clear -Hle. induction Hle as [|e l He _ IHl]; cbn [fold_right]; lia.
Qed.
Lemma gplaces_clamp {A} (f : edit -> list A) len o :
  ForallOrdPairs apart o -> Forall forward o -> Forall subs_ok o -> StronglySorted (fun a b => key_le a b = true) o ->
  gplaces len (map (fun e => (e, f e)) o) = map (fun e => (clamp len (e_from e), f e)) o.
Proof.
  intros H1 H2 H3 H4. pose proof (places_own len o H1 H2 H3 H4) as P. clear H1 H2 H3 H4.
  induction o as [|e o IH]; [reflexivity|]. cbn [places map own_place] in P. injection P as P1 P2.
  cbn [map gplaces fst snd]. rewrite map_map. cbn [fst]. rewrite map_id. f_equal; [f_equal; exact P1|]. now apply IH.
Qed.

Section Two.
  Context {A B : Type}.
  Variable R : A -> B -> Prop.
  Lemma texts_two (ps : list (nat * list A)) (qs : list (nat * list B)) g : Forall2 (fun p q => fst p = fst q /\ Forall2 R (snd p) (snd q)) ps qs ->
    Forall2 R (texts_at ps g) (texts_at qs g).
  Proof.
    induction 1 as [|p q ps qs [H1 H2] _ IH]; [constructor|]. change (texts_at (p :: ps) g) with ((if Nat.eqb (fst p) g then snd p else []) ++ texts_at ps g).
    change (texts_at (q :: qs) g) with ((if Nat.eqb (fst q) g then snd q else []) ++ texts_at qs g). rewrite H1. apply Forall2_app; [|exact IH].
    destruct (Nat.eqb (fst q) g); [exact H2|constructor].
  Qed.
  Lemma woven_two (ps : list (nat * list A)) (qs : list (nat * list B)) keep s s' : Forall2 (fun p q => fst p = fst q /\ Forall2 R (snd p) (snd q)) ps qs ->
    Forall2 R s s' -> Forall2 R (woven ps keep s) (woven qs keep s').
  Proof.
    intros H Hs. unfold woven. apply Forall2_app.
    - generalize 0 as pos. induction Hs as [|c d s s' Hc Hs IH]; intro pos; [constructor|]. cbn [weave].
      apply Forall2_app; [now apply texts_two|]. apply Forall2_app; [|apply IH]. destruct (keep pos); repeat constructor. exact Hc.
    - assert (L : length s = length s') by (clear -Hs; induction Hs; cbn; congruence). rewrite L. now apply texts_two.
  Qed.
End Two.

Definition known_coarser (x : char * option target) (y : char * option (option target)) : Prop :=
  fst x = fst y /\ match snd x with Some (s, (l, _), _) => snd y = Some (Some (s, (l, 0%Z), None)) | None => True end.
Lemma kept_coarser es M L : ForallOrdPairs apart es -> Forall forward es -> Forall subs_ok es -> Forall2 coarser M L ->
  Forall2 known_coarser (kept_marked es M) (kept_lines es L).
Proof.
  intros H1 H2 H3 F. rewrite kept_lines_woven, <- gedited_kept. unfold gedited.
  assert (LL : length M = length L) by (clear -F; induction F; cbn; congruence).
  rewrite (gplaces_clamp (fun e => mark None (e_text e))).
  - apply woven_two.
    + rewrite LL. clear. induction (arrange key_le es) as [|e o IH]; constructor; [|exact IH]. cbn [fst snd blanks]. split; [reflexivity|].
      induction (e_text e) as [|c s IHs]; constructor; [split; [reflexivity|exact I]|exact IHs].
    + clear -F. induction F as [|[c a] [d b] M L [E H] F IH]; constructor; [|exact IH]. split; [exact E|]. cbn [fst snd] in *.
      destruct a as [[[s [l k]] n]|]; [|exact I]. now rewrite H.
  - eapply FOP_perm; eauto using EditFacts.apart_sym, arrange_perm.
  - eapply Permutation_Forall; [apply arrange_perm|exact H2].
  - eapply Permutation_Forall; [apply arrange_perm|exact H3].
  - apply key_le_sorted.
Qed.
Lemma known_kept K Q N : Forall2 known_coarser K Q -> Forall2 (kept_as eq) Q N -> Forall2 coarser K N.
Proof.
  intro F. revert N. induction F as [|x y K Q [E H] F IH]; intros N G; inversion G as [|? z ? N' [G1 G2] G3]; subst; constructor; [|now apply IH].
  split; [congruence|]. destruct (snd x) as [[[s [l k]] n]|]; [|exact I]. rewrite H in G2. now symmetry.
Qed.
Lemma known_near K Q N : Forall2 known_coarser K Q -> Forall2 (kept_as near) Q N -> Forall2 nearly_coarser K N.
Proof.
  intro F. revert N. induction F as [|x y K Q [E H] F IH]; intros N G; inversion G as [|? z ? N' [G1 G2] G3]; subst; constructor; [|now apply IH].
  unfold nearly_coarser, coarser, line_before. cbn [fst snd]. destruct (snd x) as [[[s [l k]] n]|] eqn:X; [|left; split; [congruence|exact I]]. rewrite H in G2. destruct G2 as [-> | ->].
  - left. split; [congruence|reflexivity].
  - right. split; [congruence|]. cbn [next_line]. now replace (l + 1 - 1)%Z with l by lia.
Qed.
Lemma near_carried K N : Forall2 nearly_coarser K N -> forall a, Forall2 nearly_coarser K (carried a N).
Proof.
  intro F. induction F as [|x [d b] K N H F IH]; intro a; cbn [carried]; constructor; [|apply IH].
  unfold nearly_coarser, coarser, line_before in *. cbn [fst snd] in *. destruct (snd x) as [[[s [l k]] n]|]; [|left; split; [tauto|exact I]].
  destruct b as [b|]; [exact H|]. exfalso. destruct H as [[_ H]|[_ H]]; discriminate H.
Qed.

Lemma marks_lines nu md e : forall M, marks nu e = Some M -> exists L, line_marks nu md e = Some L.
Proof.
  induction e as [s|v|v n|v n o|p e IH|e h IH|l IH|v n m o i] using jexpr_ind'; intros M EM; cbn [marks line_marks] in *; try (eexists; reflexivity).
  - destruct (marks nu e) as [M0|]; [|discriminate]. destruct (IH _ eq_refl) as (L & ->). eexists. reflexivity.
  - discriminate.
  - revert M EM. induction IH as [|x l Hx _ IH]; intros M EM; [eexists; reflexivity|].
    destruct (marks nu x) as [M0|]; [|discriminate]. cbn [bind] in EM. destruct (Hx _ eq_refl) as (L0 & ->). cbn [bind].
    match type of EM with bind ?y _ = _ => destruct y as [M1|] eqn:YM; [|discriminate] end. destruct (IH _ eq_refl) as (L1 & ->). eexists. reflexivity.
  - destruct md; [|eexists; reflexivity]. unfold map_says, reads_as, read_map, line_says in *. destruct (decode (jm_mappings m)) as [segs|]; [|destruct i; discriminate].
    eexists. reflexivity.
Qed.
Definition part_ok (md : bool) (e : jexpr) : Prop := match e with XStr s => plain s | _ => line_edit_expr md e end.
Lemma keeps_reading nu e K : keeps nu e K -> forall M, reading nu e M -> Forall2 blanked M K.
Proof.
  induction 1 as [e K E|e h K E| |e l K K' H IH H' IH']; intros M R.
  - pose proof (marks_editless nu e K E) as X. rewrite (reading_editless nu e M R X) in E. injection E as ->.
    clear. induction K as [|c M IH]; constructor; [split; [reflexivity|now right]|exact IH].
  - exact (reading_part nu _ e _ K M (expr_replaced h e) (marks_editless nu e K E) E R).
  - inversion R as [? ? E| | | |]; subst; [injection E as <-|]; constructor.
  - apply reading_cons_inv in R as (A & B & -> & RA & RB). apply Forall2_app; auto.
Qed.
Lemma keeps_lines nu md e K : keeps nu e K -> part_ok md e -> by_lines nu md e -> forall N, line_reading nu md e N ->
  Forall2 nearly_coarser K N /\ (edits_in_lines e -> Forall2 coarser K N).
Proof.
  induction 1 as [e K E|e h K E| |e l K K' H IH H' IH']; intros P B N R.
  - destruct (marks_lines nu md e K E) as (L & EL). rewrite (line_reading_editless nu md e N R (marks_editless nu e K E)) in EL. injection EL as ->.
    pose proof (line_reading_editless nu md e L R (marks_editless nu e K E)) as EL. pose proof (coarse_marks nu md e B K L E EL) as F. split; [|intros _; exact F].
    clear -F. induction F as [|x y K L H F IH]; constructor; [now left|exact IH].
  - destruct (marks_lines nu md e K E) as (L & EL). destruct P as (_ & _ & _ & Fw & Ap).
    destruct (line_part nu md _ e _ L N (expr_replaced h e) (marks_editless nu e K E) EL R) as [P1 P2].
    pose proof (kept_coarser (jedits h) K L Ap Fw (jedits_subs h) (coarse_marks nu md e B K L E EL)) as G.
    split; [exact (known_near _ _ _ G P1)|]. intros [I1 I2]. exact (known_kept _ _ _ G (P2 I1 I2)).
  - inversion R as [? ? E| | | |]; subst; [injection E as <-|]; split; constructor.
  - apply line_cons_inv in R as (A & C & -> & RA & RC). destruct P as [P1 P2]. destruct B as [B1 B2].
    destruct (IH P1 B1 A RA) as [X1 X2]. destruct (IH' P2 B2 C RC) as [Y1 Y2]. split; [now apply Forall2_app|]. intros [I1 I2]. apply Forall2_app; auto.
Qed.
Lemma near_text K N : Forall2 nearly_coarser K N -> text_of K = text_of N.
Proof.
  intro F. induction F as [|x y K N H F IH]; [reflexivity|]. unfold text_of in *. cbn [map]. rewrite IH. f_equal.
  destruct H as [[H _]|[H _]]; exact H.
Qed.

Theorem coarse_edited nu c0 e K md md' c1 t : numbering nu -> keeps nu e K -> by_lines nu md' e -> reached_cache c0 -> (forall v, e <> XRaw v) ->
  edit_expr e -> line_edit_expr md' e -> build c0 e = (c1, t) -> in_order c1 e ->
  exists o o' Ls Ln Ls' ms ms' es es', js_source_and_map true md t = Some (ResMap o) /\ js_source_and_map false md' t = Some (ResMap o') /\
    reads_as nu Ls Ln ms = Some es /\ reads_as nu Ls' [] ms' = Some es' /\
    Forall2 agrees K (annotate es (text_of K)) /\ Forall2 nearly_coarser K (annotate_bytes es' (text_of K)) /\
    (edits_in_lines e -> Forall2 coarser K (annotate_bytes es' (text_of K))) /\
    forall l l', Forall quiet l -> Forall quiet l' ->
      let a q := snd (rstep (fst (rrun (c1, o) l)) q) in
      let a' q := snd (rstep (fst (rrun (c1, o') l')) q) in
      (~ starts_with BOM (text_of K) -> a RSource = AText (text_of K) /\ a' RSource = AText (text_of K)) /\
      a (RGet FSources) = AVal (VArr (map Some Ls)) /\ a' (RGet FSources) = AVal (VArr (map Some Ls')) /\
      a (RGet FNames) = AVal (VArr (map Some Ln)) /\ a' (RGet FNames) = AVal VUndef /\
      a (RGet FMappings) = AVal (VStr ms) /\ a' (RGet FMappings) = AVal (VStr ms').
Proof.
  intros Hnu Ke By H0 Rw X X' B O.
  destruct (edited_end nu c0 e md c1 t Hnu H0 X Rw B) as (o & M & E & Ls & Ln & Ks & ms & es & S & Rd & _ & _ & _ & _ & _ & RA & _ & A & _ & _ & Q).
  destruct (end_line_edits nu c0 e md' c1 t Hnu H0 X' Rw B) as (o' & N & Ls' & Ks' & ms' & es' & S' & Rd' & _ & _ & RA' & A' & Q').
  exists o, o', Ls, Ln, Ls', ms, ms', es, es'. split; [exact S|]. split; [exact S'|]. split; [exact RA|]. split; [exact RA'|].
  pose proof (keeps_reading nu e K Ke M Rd) as Bl. pose proof (blanked_text _ _ Bl) as T.
  assert (Po : part_ok md' e) by (destruct e; try exact X'; destruct X').
  destruct (keeps_lines nu md' e K Ke Po By N Rd') as [F1 F2]. pose proof (near_text _ _ F1) as T'.
  split; [rewrite <- T; exact (blanked_agrees _ _ _ Bl (A O))|].
  split; [rewrite T', A'; now apply near_carried|]. split; [intro I; rewrite T', A'; apply coarse_carried; exact (F2 I)|].
  intros l l' Hl Hl'. cbv zeta. destruct (Q l Hl) as (Q1 & Q2 & Q3 & Q4 & _). destruct (Q' l' Hl') as (P1 & P2 & P3 & P4 & _).
  split; [intro W; split; [rewrite <- T; apply Q1; now rewrite T|rewrite T'; apply P1; now rewrite <- T']|]. repeat split; assumption.
Qed.
