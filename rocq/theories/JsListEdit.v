(** Programs that make line maps by hand, also of ReplaceSources. *)
From Verif Require Import Base Tactics ModelString StringFacts ModelVlq ModelSm ModelSlm ModelSources ModelTree ModelWasm
  ModelJs ModelJsApi SpecText SpecMap SpecAttr SpecEdit SpecEffect SpecLineEdit SpecList SortFacts TextFacts EditFacts NodeFacts LeafFacts ParseFacts MapFacts LoadFacts GenFacts SmsProps NodeTree
  SlmFacts SlmMap SlmRead SlmReplace SlmTree SlmProps SlmEdits SlmWhole SlmLines
  IdxFacts JsFacts Utf16Facts JsTextProps SpecResult ModelJsResult ResultFacts ResultProps SpecJs ModelEnd SpecEnd EndFacts MadeFacts EndProps ContentFacts EndMap LineEnd
  SpecEdited EditedFacts EditedBuild SpecLineEdited LineEditedFacts LineEditedEnd
  ModelJsList SpecJsList JsListFacts JsListProps SpecJsListEdit.

Lemma exact_or_edit op : (exists e cols md, op = LOf e cols md /\ has_edit e = true) \/ (forall e cols md, op = LOf e cols md -> has_edit e = false).
Proof.
  destruct op as [?|? ? ? ?|? ? ? ?|? ? ?|?|? ?|e cols md|? ? ? ?|? ? ? ?|? ?|?|?|?|? ?|?]; try (right; intros; discriminate).
  destruct (has_edit e) eqn:E; [left; eauto|right]. intros e0 c0 m0 H. now injection H as <- <- <-.
Qed.
Lemma edit_not_raw e : has_edit e = true -> (forall s, e <> XStr s) /\ (forall v, e <> XRaw v).
Proof. intro H. split; intros s ->; discriminate. Qed.

Lemma marks_text nu md e : line_edit_child md e -> forall M, line_marks nu md e = Some M -> text_of M = concat (leaf_texts e).
Proof.
  induction e as [s|v|v n|v n o|p e IH|e h IH|l IH|v n m o i] using jexpr_ind'; intros X M E; cbn [line_marks leaf_texts concat] in *; rewrite ?app_nil_r; try discriminate;
    try (injection E as <-; first [now rewrite text_mark|now rewrite lines_text]).
  - destruct X as (X1 & X2 & X3 & X4 & X5 & X6). assert (Xc : line_edit_child md e) by (destruct e; auto; destruct X6). unb E as M1 E1. injection E as <-.
    rewrite <- (IH Xc M1 E1) in *. apply mprefixed_text. intros ->. now apply X5.
  - apply line_edit_concat in X. revert M E. induction IH as [|x l Hx _ IHl]; intros M E; [injection E as <-; reflexivity|].
    inversion X as [|? ? U1 U2]; subst. unb E as M1 E1. unb E as M2 E2. injection E as <-. cbn [flat_map]. rewrite text_app, concat_app. f_equal; [now apply Hx|now apply IHl].
  - destruct md; [|injection E as <-; now rewrite lines_text]. unfold line_says in E. unb E as segs E1. injection E as <-.
    now rewrite attribute_text, cut_lines_pieces, pieces_concat.
Qed.
Lemma reading_text nu md e M : line_reading nu md e M -> line_edit_child md e -> text_of M = concat (leaf_texts e).
Proof.
  induction 1 as [e M E|e h M M' R IH Nr _|p e M R IH| |e l M N R IH R' IH']; intro X.
  - eapply marks_text; eauto.
  - destruct X as (X1 & _). assert (Xc : line_edit_child md e) by (destruct e; auto; destruct X1).
    cbn [leaf_texts concat]. rewrite app_nil_r, (near_text _ _ _ _ Nr), traced_text. f_equal. exact (IH Xc).
  - destruct X as (X1 & X2 & X3 & X4 & X5 & X6). assert (Xc : line_edit_child md e) by (destruct e; auto; destruct X6).
    cbn [leaf_texts concat]. rewrite app_nil_r, <- (IH Xc) in *. apply mprefixed_text. intros ->. now apply X5.
  - reflexivity.
  - apply (proj1 (line_edit_concat md (e :: l))) in X. inversion X as [|? ? X1 X2]; subst. cbn [leaf_texts flat_map]. rewrite text_app, concat_app. f_equal; [now apply IH|].
    apply IH'. exact (proj2 (line_edit_concat md l) X2).
Qed.

Section Edit.
  Variables (nu : jstr -> Z) (Hnu : numbering nu) (c1 : cache) (Hc1 : cache_ok c1).
  Theorem edit_step c ws T e cols md c' ws' out : cache_ok c -> Forall2 (wrel nu c1) ws T -> has_edit e = true -> line_edit_expr md e ->
    lstep (c, ws) (LOf e cols md) = (c', ws', out) -> grows c' c1 ->
    exists M U, may_say nu md e M U /\ Forall2 (wrel nu c1) ws' (T ++ [Some (mk_said true M U false (leaf_texts e) (on_lines md e /\ leaf_texts e <> []))]) /\ succeeds out = true.
  Proof.
    intros Hc H He X E G. cbn [lstep] in E. destruct (build c e) as [c2 t] eqn:Eb. destruct (edit_not_raw e He) as [N0 NR].
    destruct (build_made e c c2 t Hc Eb) as (_ & _ & F).
    assert (Xc : line_edit_child md e) by (destruct e; auto; destruct X).
    pose proof (made_tree c2 e t F N0) as NS. pose proof (made_mapped c2 e t F N0 NR) as NJ.
    assert (Ec : c2 = c') by (destruct t; try (destruct NJ); destruct (t_list_map _ _ _); now injection E as -> _ _). subst c2.
    pose proof (made_grows _ _ e G t F) as F1.
    destruct (made_line_edits nu Hnu c1 Hc1 md (line_given md e) e Xc (incl_refl _) t F1) as (M & RM & PM & D).
    destruct (egood_list _ _ _ _ _ _ _ _ NS D) as (lm & Elm & Ok & Pr & EM & _ & _).
    destruct (lused_given nu c1 _ lm Pr) as (U & Us & Ug).
    assert (Nm : Forall SpecSlm.named lm).
    { eapply Forall_impl; [|exact Pr]. intros n Hn. destruct n as [?|s|p|p|?|?]; try exact I; destruct Hn as (i & s & E1 & _); cbn; intros _; now rewrite E1. }
    assert (E' : (ws', out) = (ws ++ [WList (Some lm)], ODone)).
    { destruct t; try (destruct NJ); unfold t_list_map in *; change (list_map_alg cols md) with (list_map_alg false md) in E; rewrite Elm in E; injection E as <- <-; reflexivity. }
    injection E' as -> ->. exists M, U. split; [|split; [|reflexivity]].
    - split; [exact RM|]. split; [|exact Ug]. rewrite EM, shown_rename, <- (lused_shown c1 _ lm Ok Pr).
      clear - Us Hc1. induction Us as [|x y u' U' (s & E & K & _) _ IH]; [reflexivity|]. cbn [map]. rewrite IH, E. f_equal. symmetry. now apply (rho_known nu c1 Hc1).
    - apply F2_snoc; [exact H|]. unfold wrel. cbn [nodes_of]. unfold holds. cbn [sd_list sd_marks sd_uses sd_tidy]. split; [reflexivity|]. split; [exact Ok|]. split; [exact Nm|].
      split; [exact EM|]. split; [exists (lused lm); split; [apply same_refl|exact Us]|]. split; [exact PM|]. split; [discriminate|].
      unfold laid. cbn [sd_parts sd_marks sd_lines]. split; [symmetry; exact (reading_text nu md e M RM Xc)|]. intros [Hol Hne]. right. split; [exact Hne|]. intro HA.
      destruct (wparts_list md _ _ _ NS (made_whole nu Hnu c1 Hc1 md e Xc Hol t F1) HA) as (lm2 & E2 & [Gd _] & _). rewrite Elm in E2. now injection E2 as <-.
  Qed.
End Edit.

Theorem edit_run_spec nu c1 ops : numbering nu -> cache_ok c1 -> forall c ws T ws' outs, reached_cache c -> Forall2 (wrel nu c1) ws T -> all_edit_covered nu T ops ->
  lrun (c, ws) ops = (c1, ws', outs) -> exists T' oks, lmeans_all nu T ops T' oks /\ Forall2 (wrel nu c1) ws' T' /\ map succeeds outs = oks.
Proof.
  intros Hnu Hc1. induction ops as [|op ops IH]; intros c ws T ws' outs R H X E; cbn [lrun all_edit_covered] in *.
  - injection E as _ <- <-. exists T, []. split; [constructor|]. auto.
  - destruct X as [X1 X2]. destruct (lstep (c, ws) op) as [[c2 ws2] a] eqn:E1. destruct (lrun (c2, ws2) ops) as [[c3 ws3] out] eqn:E2. injection E as -> <- <-.
    pose proof (step_reached _ _ _ _ _ _ R E1) as R2. destruct (run_reached _ _ _ _ _ _ R2 E2) as [_ G].
    assert (S : exists T2, lmeans nu T op T2 (succeeds a) /\ Forall2 (wrel nu c1) ws2 T2).
    { destruct (exact_or_edit op) as [(e & cols & md & -> & He)|N].
      - cbn [edit_covered] in X1. rewrite He in X1. destruct (edit_step nu Hnu c1 Hc1 _ _ _ _ _ _ _ _ _ (reached_ok _ R) H He X1 E1 G) as (M & U & Ms & W & S). rewrite S.
        eexists. split; [apply means_edit; [exact He|exact Ms]|exact W].
      - destruct (lsays nu T op) as [T2 ok] eqn:L. exists T2.
        assert (X : covered nu T op).
        { destruct op as [?|? ? ? ?|? ? ? ?|? ? ?|?|? ?|e cols md|? ? ? ?|? ? ? ?|? ?|?|?|?|? ?|?]; try exact X1. cbn [edit_covered] in X1. now rewrite (N e cols md eq_refl) in X1. }
        destruct (step_spec nu Hnu c1 Hc1 _ _ _ _ _ _ _ _ _ (reached_ok _ R) H X E1 L G) as [W S]. rewrite S. split; [now apply means_exact|exact W]. }
    destruct S as (T2 & L & W). destruct (IH _ _ T2 _ _ R2 W (X2 _ _ L) E2) as (T3 & oks & L3 & W3 & S3).
    exists T3, (succeeds a :: oks). split; [econstructor; eauto|]. split; [exact W3|]. cbn [map]. now rewrite S3.
Qed.
Theorem edit_program nu c0 ops w outs : numbering nu -> reached_cache c0 -> all_edit_covered nu [] ops -> lrun (c0, []) ops = (w, outs) ->
  exists T, lmeans_all nu [] ops T (map succeeds outs) /\
  forall v x, usable T v = Some x -> let M := sd_marks x in
    exists o Ls ms es, lstep w (LResult v) = (w, OResult o) /\
      map nu Ls = firsts (map fst (sd_uses x)) /\ reads_as nu Ls [] ms = Some es /\ annotate_bytes es (text_of M) = carried None M /\
      forall l, Forall quiet l ->
        (~ starts_with BOM (text_of M) -> snd (rstep (fst (rrun (fst w, o) l)) RSource) = AText (text_of M)) /\
        snd (rstep (fst (rrun (fst w, o) l)) (RGet FSources)) = AVal (VArr (map Some Ls)) /\
        snd (rstep (fst (rrun (fst w, o) l)) (RGet FMappings)) = AVal (VStr ms) /\
        snd (rstep (fst (rrun (fst w, o) l)) (RGet FNames)) = AVal VUndef /\
        exists k, snd (rstep (fst (rrun (fst w, o) l)) (RGet FContents)) = AVal k /\
          lists k (map Some (flat_map (fun s => match first_use (sd_uses x) (nu s) with Some k => [k] | None => [] end) Ls)).
Proof.
  intros Hnu R X E. destruct w as [c1 ws]. destruct (run_reached _ _ _ _ _ _ R E) as [R1 _]. pose proof (reached_ok _ R1) as Hc1.
  destruct (edit_run_spec nu c1 ops Hnu Hc1 _ _ _ _ _ R (Forall2_nil _) X E) as (T & oks & L & H & S). exists T. split; [now rewrite S|].
  intros v x U M. unfold usable in U. pose proof (F2_nth _ _ _ v H) as N. destruct (nth_error T v) as [[y|]|]; try discriminate. destruct (sd_list y) eqn:Ey; [|discriminate]. injection U as ->.
  destruct (nth_error ws v) as [w|] eqn:Ew; [|contradiction]. unfold wrel in N.
  destruct w as [[q|]|[q|]|[q|]|[m|]]; cbn [nodes_of] in N; try contradiction; try (destruct N as (N1 & _); congruence).
  destruct N as (_ & A2 & A3 & A4 & (u & A5 & A5') & A6 & _). fold M in A4, A6.
  destruct (list_end nu c1 m M u (sd_uses x) Hnu R1 A2 A3 A4 A5 A5' A6) as (Ls & ms & es & B1 & B2 & B3 & _ & B4).
  exists (robj_new (list_result m) false), Ls, ms, es. split; [cbn [lstep]; now rewrite Ew|]. split; [exact B1|]. split; [exact B2|]. split; [exact B3|]. exact B4.
Qed.
(** Without ReplaceSources the meaning is the one of [lsays]. *)
Theorem means_says nu ops : Forall (fun op => forall e cols md, op = LOf e cols md -> has_edit e = false) ops -> forall T T' oks,
  lmeans_all nu T ops T' oks <-> lsays_all nu T ops = (T', oks).
Proof.
  induction 1 as [|op ops N _ IH]; intros T T' oks; cbn [lsays_all].
  - split; [inversion 1; reflexivity|intro H; injection H as <- <-; constructor].
  - destruct (lsays nu T op) as [T1 b] eqn:E. destruct (lsays_all nu T1 ops) as [T2 bs] eqn:E2. split.
    + inversion 1 as [|? ? ? T1' ok T2' oks' L1 L2]; subst. inversion L1 as [op' T1'' ok' N' E'|e cols md M U He _]; subst; [|specialize (N _ _ _ eq_refl); congruence].
      rewrite E in E'. injection E' as <- <-. apply IH in L2. rewrite E2 in L2. now injection L2 as <- <-.
    + intro H. injection H as <- <-. econstructor; [apply means_exact; [exact N|exact E]|]. now apply IH.
Qed.
