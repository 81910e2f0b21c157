(** Rearranged expressions say the same about every character. *)
From Verif Require Import Base Tactics ModelString StringFacts ModelVlq ModelSm ModelSlm ModelSources ModelTree ModelWasm
  ModelJs ModelJsApi SpecText SpecMap SpecAttr SpecEdit SpecEffect SpecLineEdit SpecList SortFacts TextFacts EditFacts NodeFacts LeafFacts ParseFacts MapFacts LoadFacts GenFacts SmsProps NodeTree
  SlmFacts SlmMap SlmRead SlmReplace SlmTree SlmProps SlmEdits SlmWhole SlmLines
  IdxFacts JsFacts Utf16Facts JsTextProps SpecResult ModelJsResult ResultFacts ResultProps SpecJs ModelEnd SpecEnd EndFacts MadeFacts EndProps ContentFacts EndMap LineEnd
  SpecLeast LeastEnd SpecAlike.

Lemma mprefix_nil b M : mprefix [] b M = M.
Proof. revert b. induction M as [|[c a] M IH]; intro b; [reflexivity|]. cbn [mprefix]. rewrite IH. destruct b; reflexivity. Qed.
Lemma mprefix_mid p a q c R : ~ In NL q -> mprefix p true (mark a q ++ (c, a) :: R) = mark a p ++ mark a q ++ (c, a) :: mprefix p (N.eqb c NL) R.
Proof.
  assert (G : forall q, ~ In NL q -> mprefix p false (mark a q ++ (c, a) :: R) = mark a q ++ (c, a) :: mprefix p (N.eqb c NL) R).
  { induction q0 as [|d q0 IH]; intro H; [reflexivity|]. cbn [mark map app mprefix]. f_equal.
    replace (N.eqb d NL) with false; [apply IH; intro; apply H; now right|]. symmetry. apply N.eqb_neq. intros ->. apply H. now left. }
  intro H. destruct q as [|d q]; [reflexivity|]. cbn [mark map app mprefix]. f_equal. f_equal.
  replace (N.eqb d NL) with false; [apply G; intro; apply H; now right|]. symmetry. apply N.eqb_neq. intros ->. apply H. now left.
Qed.
Lemma mprefix_twice p q M : ~ In NL q -> forall b, mprefix p b (mprefix q b M) = mprefix (p ++ q) b M.
Proof.
  intro H. induction M as [|[c a] M IH]; intro b; [reflexivity|]. cbn [mprefix]. destruct b.
  - rewrite mprefix_mid by exact H. rewrite mark_app, <- app_assoc, IH. reflexivity.
  - cbn [app mprefix]. now rewrite IH.
Qed.
Lemma mprefix_ends p M : ends_with NL (text_of M) = true -> forall b, ends_with NL (text_of (mprefix p b M)) = true.
Proof.
  induction M as [|[c a] M IH]; intros H b; [exact H|]. cbn [mprefix]. rewrite text_app.
  change (text_of ((c, a) :: mprefix p (N.eqb c NL) M)) with ([c] ++ text_of (mprefix p (N.eqb c NL) M)).
  rewrite ends_with_tail by discriminate. destruct M as [|[d a'] M]; [exact H|].
  rewrite ends_with_tail; [apply IH; exact H|]. intro E. assert (G : ends_with NL (text_of (mprefix p (N.eqb c NL) ((d, a') :: M))) = true) by (apply IH; exact H).
  rewrite E in G. discriminate.
Qed.

Section Says.
  Variable f : jexpr -> option marked.
  Hypothesis f_str : forall v, f (XStr v) = Some (mark None v).
  Hypothesis f_raw : forall v, f (XRaw v) = Some (mark None v).
  Hypothesis f_prefix : forall p e, f (XPrefix p e) = let* M := f e in Some (mprefixed p M).
  Hypothesis f_none : f (XConcat []) = Some [].
  Hypothesis f_cons : forall x l, f (XConcat (x :: l)) = let* M := f x in let* N := f (XConcat l) in Some (M ++ N).
  Hypothesis f_original : forall v n M, f (XOriginal v n) = Some M -> text_of M = v.
  Hypothesis f_l2l : forall v n o M, f (XL2L v n o) = Some M -> text_of M = v.
  Hypothesis f_sms : forall v n m o i M, f (XSms v n m o i) = Some M -> text_of M = v.

  Lemma f_app a b : f (XConcat (a ++ b)) = let* M := f (XConcat a) in let* N := f (XConcat b) in Some (M ++ N).
  Proof.
    induction a as [|x a IH]; cbn [app]; [rewrite f_none; cbn [bind]; destruct (f (XConcat b)); reflexivity|].
    rewrite !f_cons, IH. destruct (f x) as [M|]; [|reflexivity]. cbn [bind].
    destruct (f (XConcat a)) as [A|]; [|reflexivity]. cbn [bind]. destruct (f (XConcat b)) as [B|]; [|reflexivity]. cbn [bind]. now rewrite app_assoc.
  Qed.
  Lemma f_ends e : ends_line e -> forall M, f e = Some M -> ends_with NL (text_of M) = true.
  Proof.
    induction e as [s|v|v n|v n o|p e IH|e h IH|l IH|v n m o i] using jexpr_ind'; intros X M E; cbn [ends_line] in X.
    - rewrite f_str in E. injection E as <-. now rewrite text_mark.
    - rewrite f_raw in E. injection E as <-. now rewrite text_mark.
    - now rewrite (f_original _ _ _ E).
    - now rewrite (f_l2l _ _ _ _ E).
    - rewrite f_prefix in E. unb E as M1 E1. injection E as <-. apply mprefix_ends. now apply IH.
    - destruct X.
    - revert M E. induction IH as [|x l Hx _ IHl]; intros M E; [destruct X|]. rewrite f_cons in E. unb E as M1 E1. unb E as M2 E2. injection E as <-.
      rewrite text_app. destruct l as [|y l].
      + rewrite f_none in E2. injection E2 as <-. cbn [text_of map]. rewrite app_nil_r. now apply Hx.
      + specialize (IHl X M2 E2). rewrite ends_with_tail; [exact IHl|]. intro Z. rewrite Z in IHl. discriminate.
    - now rewrite (f_sms _ _ _ _ _ _ E).
  Qed.
  Theorem alike_says e e' : alike e e' -> f e = f e'.
  Proof.
    induction 1 as [e|e e' _ IH|e e1 e2 _ IH1 _ IH2|p e e' _ IH|a e e' b _ IH|a m b|e| |s|s s'|e|p q e H|p s H|p a b H].
    - reflexivity.
    - now symmetry.
    - congruence.
    - now rewrite !f_prefix, IH.
    - now rewrite !f_app, !f_cons, IH.
    - rewrite f_app, f_cons. rewrite (f_app a (m ++ b)), f_app. reflexivity.
    - rewrite f_cons, f_none. cbn [bind]. destruct (f e) as [M|]; [|reflexivity]. cbn [bind]. now rewrite app_nil_r.
    - now rewrite f_raw, f_none.
    - now rewrite f_str, f_raw.
    - rewrite !f_cons, f_none, !f_raw. cbn [bind]. now rewrite app_nil_r, mark_app.
    - rewrite f_prefix. destruct (f e) as [M|]; [|reflexivity]. cbn [bind]. unfold mprefixed. now rewrite mprefix_nil.
    - rewrite !f_prefix. destruct (f e) as [M|]; [|reflexivity]. cbn [bind]. unfold mprefixed. now rewrite mprefix_twice.
    - rewrite f_prefix, !f_raw. cbn [bind]. unfold mprefixed. now rewrite mprefix_mark.
    - rewrite !f_cons, f_none, !f_prefix, f_app. pose proof (f_ends _ H) as G. destruct (f (XConcat a)) as [A|]; [|reflexivity]. cbn [bind].
      destruct (f (XConcat b)) as [B|]; [|reflexivity]. cbn [bind]. specialize (G A eq_refl). unfold mprefixed.
      rewrite app_nil_r, mprefix_ended; [reflexivity| |exact G]. intros ->. discriminate.
  Qed.
End Says.

Section Lists.
  Context {A : Type}.
  Variable h : jexpr -> list A.
  Hypothesis h_str : forall v, h (XStr v) = [].
  Hypothesis h_raw : forall v, h (XRaw v) = [].
  Hypothesis h_prefix : forall p e, h (XPrefix p e) = h e.
  Hypothesis h_concat : forall l, h (XConcat l) = flat_map h l.
  Theorem alike_lists e e' : alike e e' -> h e = h e'.
  Proof.
    induction 1 as [e|e e' _ IH|e e1 e2 _ IH1 _ IH2|p e e' _ IH|a e e' b _ IH|a m b|e| |s|s s'|e|p q e H|p s H|p a b H];
      rewrite ?h_prefix, ?h_concat, ?flat_map_app; cbn [flat_map]; rewrite ?h_prefix, ?h_concat, ?h_str, ?h_raw, ?flat_map_app, ?app_nil_r; try congruence; reflexivity.
  Qed.
End Lists.

Lemma alike_marks nu e e' : alike e e' -> marks nu e = marks nu e'.
Proof.
  apply alike_says; try reflexivity.
  - intros v n M E. injection E as <-. now rewrite tokens_text, tokens_concat.
  - intros v n o M E. injection E as <-. now rewrite lines_text.
  - intros v n m o i M E. cbn [marks] in E. destruct i as [im|]; unb E as es E1; [unb E as ei E2|]; injection E as <-.
    + change (text_of (retarget (through (Some (nu n)) ei) (annotate es v)) = v). rewrite text_retarget. unfold annotate. now rewrite EndMap.annotate_text.
    + unfold annotate. now rewrite EndMap.annotate_text.
Qed.
Lemma alike_line_marks nu md e e' : alike e e' -> line_marks nu md e = line_marks nu md e'.
Proof.
  apply alike_says; try reflexivity.
  - intros v n M E. injection E as <-. now rewrite lines_text.
  - intros v n o M E. injection E as <-. now rewrite lines_text.
  - intros v n m o i M E. cbn [line_marks] in E. destruct md; [|injection E as <-; now rewrite lines_text]. unfold line_says in E. unb E as segs E1. injection E as <-.
    now rewrite attribute_text, cut_lines_pieces, pieces_concat.
Qed.
Lemma alike_contents e e' : alike e e' -> contents_given e = contents_given e'.
Proof. apply alike_lists; reflexivity. Qed.
Lemma alike_uses nu md e e' : alike e e' -> line_uses nu md e = line_uses nu md e'.
Proof. apply alike_lists; reflexivity. Qed.
