(** Programs of the JavaScript API: the maps they get, and what can be read off them at any later time. *)
From Verif Require Import Base Tactics ModelString StringFacts ModelVlq ModelSm ModelSlm ModelSources ModelTree ModelWasm
  ModelJs ModelJsApi SpecText SpecMap SpecAttr SpecEdit SpecEffect SpecLineEdit SpecList
  IdxFacts JsFacts SpecResult ModelJsResult ResultFacts ResultProps SpecJs ModelEnd SpecEnd EndFacts MadeFacts EndMap LineEnd SpecLeast LeastEnd
  SpecEdited EditedBuild EditedEnd SpecLineEdited LineEditedEnd ModelHeap ModelJsProg SpecProg ProgFacts ProgSteps ProgProps.

(** ** The cache of a program only grows *)
Definition extends (c c' : cache) : Prop := forall o, exists l, Forall quiet l /\ fst (rrun (c, o) l) = (c', o).
Lemma rrun_app l l' : forall w, fst (rrun w (l ++ l')) = fst (rrun (fst (rrun w l)) l').
Proof.
  induction l as [|x l IH]; intros w; [reflexivity|]. cbn [app rrun]. destruct (rstep w x) as [[c o] a]. specialize (IH (c, o)).
  destruct (rrun (c, o) l) as [w1 out1], (rrun (c, o) (l ++ l')) as [w2 out2]. exact IH.
Qed.
Lemma extends_refl c : extends c c.
Proof. intro o. exists []. split; [constructor|reflexivity]. Qed.
Lemma extends_trans a b c : extends a b -> extends b c -> extends a c.
Proof.
  intros H H' o. destruct (H o) as (l & Q & E). destruct (H' o) as (l' & Q' & E'). exists (l ++ l'). split; [now apply Forall_app|].
  now rewrite rrun_app, E.
Qed.
Lemma extends_add c s c' i : cache_add c s = (c', i) -> extends c c'.
Proof. intros E o. exists [ROther s true]. split; [now repeat constructor|]. cbn [rrun rstep]. rewrite E. reflexivity. Qed.
Lemma extends_addu c s c' i : cache_add_unchecked c s = (c', i) -> extends c c'.
Proof. intros E o. exists [ROther s false]. split; [now repeat constructor|]. cbn [rrun rstep]. rewrite E. reflexivity. Qed.
Lemma extends_list add : (forall c s c' i, add c s = (c', i) -> extends c c') -> forall l c c' is, add_list add c l = (c', is) -> extends c c'.
Proof.
  intro H. induction l as [|s l IH]; intros c c' is E; cbn [add_list] in E; [injection E as <- <-; apply extends_refl|].
  destruct (add c s) as [c1 i] eqn:E1. destruct (add_list add c1 l) as [c2 is2] eqn:E2. injection E as <- <-. eauto using extends_trans.
Qed.
Lemma extends_map c m c' d : pass_map c m = (c', d) -> extends c c'.
Proof.
  unfold pass_map. intro E. destruct (add_list cache_add c (jm_sources m)) as [c1 ss] eqn:E1.
  destruct (add_list cache_add_unchecked c1 (jm_contents m)) as [c2 ks] eqn:E2. destruct (add_list cache_add c2 (jm_names m)) as [c3 ns] eqn:E3.
  injection E as <- <-. pose proof (extends_list _ extends_add _ _ _ _ E1). pose proof (extends_list _ extends_addu _ _ _ _ E2).
  pose proof (extends_list _ extends_add _ _ _ _ E3). eauto using extends_trans.
Qed.
Lemma only_cache st st' : only_reads st st' -> js_cache st' = js_cache st.
Proof. intros (h & -> & _). reflexivity. Qed.
Lemma add_cache st i a st' : js_add st i a = Some st' -> js_cache st' = js_cache st.
Proof.
  intro E. unfold js_add in E. destruct (nth_error (js_objs st) i) as [b|]; [|discriminate]. destruct b as [| | | | |p g| |]; try discriminate.
  unb E as s E1. destruct (h_add (js_heap st) p s); try discriminate. injection E as <-. reflexivity.
Qed.
Lemma adds_cache l : forall st i st', js_adds st i l = Some st' -> js_cache st' = js_cache st.
Proof.
  induction l as [|a l IH]; intros st i st' E; cbn [js_adds] in E; [injection E as <-; reflexivity|].
  unb E as st1 E1. rewrite (IH _ _ _ E). eapply add_cache; eauto.
Qed.
Lemma source_frame d : forall st i st' s, source_from d st i = Some (st', s) -> js_cache st' = js_cache st /\ length (js_objs st') = length (js_objs st).
Proof.
  assert (K : forall st b st' s, read_source st b = Some (st', s) -> js_cache st' = js_cache st /\ length (js_objs st') = length (js_objs st)).
  { intros st b st' s E. destruct (source_only _ _ _ _ E) as (h & -> & _). auto. }
  induction d as [|d IH]; intros st i st' s E; cbn [source_from] in E; unb E as b Eb; destruct b as [| | | | | | |j [u|] n]; eauto; try discriminate;
    try (injection E as <- _; auto; fail).
  unb E as [st2 s2] E2. injection E as <- _. unfold set_obj. cbn [js_cache js_objs]. rewrite length_set_nth. eauto.
Qed.
Lemma size_frame d : forall st i st' s, size_from d st i = Some (st', s) -> js_cache st' = js_cache st /\ length (js_objs st') = length (js_objs st).
Proof.
  assert (K : forall st b st' s, read_size st b = Some (st', s) -> js_cache st' = js_cache st /\ length (js_objs st') = length (js_objs st)).
  { intros st b st' s E. destruct (size_only _ _ _ _ E) as (h & -> & _). auto. }
  induction d as [|d IH]; intros st i st' s E; cbn [size_from] in E; unb E as b Eb; destruct b as [| | | | | | |j [u|] [n|]]; eauto; try discriminate;
    try (injection E as <- _; unfold set_obj; cbn [js_cache js_objs]; rewrite ?length_set_nth; auto; fail).
  unb E as [st2 s2] E2. injection E as <- _. unfold set_obj. cbn [js_cache js_objs]. rewrite length_set_nth. eauto.
Qed.
Lemma extends_step st op st' a : jstep st op = Some (st', a) -> extends (js_cache st) (js_cache st').
Proof.
  intro E. assert (K : js_cache st' = js_cache st -> extends (js_cache st) (js_cache st')) by (intros ->; apply extends_refl).
  destruct op as [v|v n|v n o|pre x|x|l|v n m o inner|j|i x|i s e tx|i s tx|i|i|sk i|i cl md|s ck]; cbn [jstep] in E.
  - destruct (js_get (js_raws st) v); cbn [h_new] in E; injection E as <- _; apply extends_refl.
  - destruct (cache_add_unchecked (js_cache st) v) as [c1 vi] eqn:E1. destruct (cache_add c1 n) as [c2 ni] eqn:E2.
    assert (js_cache st' = c2) as ->.
    { destruct (jstr_eqb n BOOTSTRAP); [destruct (boot_get (js_boots st) vi); cbn [h_new] in E|]; injection E as <- _; reflexivity. }
    eauto using extends_trans, extends_add, extends_addu.
  - destruct (cache_add (js_cache st) n) as [c1 ni] eqn:E1. destruct (cache_add_unchecked c1 o) as [c2 oi] eqn:E2. injection E as <- _.
    cbn [new_obj h_new js_cache]. eauto using extends_trans, extends_add, extends_addu.
  - unb E as s E1. injection E as <- _. apply extends_refl.
  - unb E as s E1. injection E as <- _. apply extends_refl.
  - match type of E with (if ?g then _ else _) = _ => destruct g; [|discriminate] end. unb E as st2 E1. injection E as <- _.
    apply K. apply adds_cache in E1. exact E1.
  - destruct (cache_add_unchecked (js_cache st) v) as [c2 vi] eqn:E1. destruct (cache_add c2 n) as [c3 ni] eqn:E2. destruct (pass_map c3 m) as [c4 d] eqn:E3.
    apply extends_addu in E1. apply extends_add in E2. apply extends_map in E3.
    match type of E with (let '(_, _) := ?z in _) = _ => destruct z as [c5 x1] eqn:E5 end.
    assert (X5 : extends c4 c5).
    { destruct o; [injection E5 as <- _; apply extends_refl|]. destruct (cache_add_unchecked c4 (n0 :: o)) as [c7 oi] eqn:E7. injection E5 as <- _. eapply extends_addu; eauto. }
    match type of E with (let '(_, _) := ?z in _) = _ => destruct z as [c6 x2] eqn:E6 end.
    assert (X6 : extends c5 c6).
    { destruct inner as [im|]; [|injection E6 as <- _; apply extends_refl]. destruct (pass_map c5 im) as [c7 oi] eqn:E7. injection E6 as <- _. eapply extends_map; eauto. }
    injection E as <- _. cbn [new_obj h_new js_cache]. eapply extends_trans; [exact E1|]. eapply extends_trans; [exact E2|]. eapply extends_trans; [exact E3|].
    eapply extends_trans; [exact X5|exact X6].
  - destruct (Nat.ltb j (length (js_objs st))); [|discriminate]. injection E as <- _. apply extends_refl.
  - unb E as st2 E1. injection E as <- _. apply K. eapply add_cache; eauto.
  - unb E as b E1. destruct b; try discriminate. unb E as h E2. injection E as <- _. apply extends_refl.
  - unb E as b E1. destruct b; try discriminate. unb E as h E2. injection E as <- _. apply extends_refl.
  - apply K. unb E as [st2 s] E1. injection E as <- _. eapply source_frame; eauto.
  - apply K. unb E as [st2 s] E1. injection E as <- _. eapply size_frame; eauto.
  - apply K. unb E as [st2 s] E1. injection E as <- _. eapply only_cache, hash_only; eauto.
  - apply K. unb E as b E1. unb E as [st2 r] E2. injection E as <- _. eapply only_cache, map_only; eauto.
  - injection E as <- _. cbn [js_cache]. destruct ck.
    + destruct (cache_add (js_cache st) s) as [c i] eqn:E1. eapply extends_add; eauto.
    + destruct (cache_add_unchecked (js_cache st) s) as [c i] eqn:E1. eapply extends_addu; eauto.
Qed.
Lemma uses_quiet l : forall st o st2 o2, uses st o l = Some (st2, o2) -> exists l', Forall quiet l' /\ fst (rrun (js_cache st, o) l') = (js_cache st2, o2).
Proof.
  induction l as [|u l IH]; intros st o st2 o2 E; cbn [uses] in E.
  - injection E as <- <-. exists []. split; [constructor|reflexivity].
  - assert (Rd : match u with More _ => False | _ => True end -> uses st (snd (fst (rstep (js_cache st, o) (read_of u)))) l = Some (st2, o2) ->
      exists l', Forall quiet l' /\ fst (rrun (js_cache st, o) l') = (js_cache st2, o2)).
    { intros N E'. destruct (IH _ _ _ _ E') as (l' & Q & R). exists (read_of u :: l'). split.
      - constructor; [destruct u; exact I|exact Q].
      - change (read_of u :: l') with ([read_of u] ++ l'). rewrite rrun_app. cbn [rrun].
        assert (C : fst (fst (rstep (js_cache st, o) (read_of u))) = js_cache st).
        { destruct u; cbn [read_of rstep]; [destruct N|destruct (ro_get (js_cache st) o f)|destruct (ro_get_source o)]; reflexivity. }
        destruct (rstep (js_cache st, o) (read_of u)) as [[c o1] a1]. cbn [fst snd] in C, R |- *. rewrite C. exact R. }
    destruct u as [op|f|]; [|now apply Rd|now apply Rd]. unb E as [st1 a] E1. destruct (IH _ _ _ _ E) as (l' & Q & R).
    destruct (extends_step _ _ _ _ E1 o) as (l1 & Q1 & R1). exists (l1 ++ l'). split; [now apply Forall_app|]. now rewrite rrun_app, R1.
Qed.

(** ** Maps *)
Section Run.
  Context {c0 : cache} {ops : list jop} {st : jstate} (R0 : reached_cache c0) (Run : jrun (jstate_new c0) ops = Some st).

  Lemma run_result i e : denotes (meaning ops) (ArgObj i) e -> fresh_reads (meaning ops) i ->
    reached_cache (js_cache st) /\ exists t, made (js_cache st) e t /\
      forall c m o, js_source_and_map c m t = Some (ResMap o) -> exists st', jstep st (OMap i c m) = Some (st', NResult (ResMap o)) /\
        forall l st2 o2, uses st' o l = Some (st2, o2) -> exists l', Forall quiet l' /\ fst (rrun (js_cache st, o) l') = (js_cache st2, o2).
  Proof.
    intros D F. destruct (run_object R0 Run i e D F) as (R & t & Hm & _ & _ & A). split; [exact R|]. exists t. split; [exact Hm|].
    intros c m o E. specialize (A c m). rewrite E in A. destruct (jstep st (OMap i c m)) as [[st' a]|] eqn:Es; [|discriminate].
    cbn [option_map snd] in A. injection A as ->. exists st'. split; [reflexivity|]. intros l st2 o2 U. destruct (uses_quiet _ _ _ _ _ U) as (l' & Q & R').
    assert (C : js_cache st' = js_cache st).
    { cbn [jstep] in Es. unb Es as b E1. unb Es as [st3 r] E2. injection Es as <- _. eapply only_cache, map_only; eauto. }
    rewrite C in R'. eauto.
  Qed.

  Theorem run_map nu i e md : numbering nu -> denotes (meaning ops) (ArgObj i) e -> fresh_reads (meaning ops) i -> exact_expr e -> (forall v, e <> XRaw v) ->
    exists st' o M Ls Ln ms es, jstep st (OMap i true md) = Some (st', NResult (ResMap o)) /\ marks nu e = Some M /\
      NoDup Ls /\ NoDup Ln /\ incl Ls (sources_in e) /\ incl Ln (names_in e) /\
      reads_as nu Ls Ln ms = Some es /\ annotate es (text_of M) = M /\
      forall l st2 o2, uses st' o l = Some (st2, o2) ->
        (~ starts_with BOM (text_of M) -> snd (rstep (js_cache st2, o2) RSource) = AText (text_of M)) /\
        snd (rstep (js_cache st2, o2) (RGet FSources)) = AVal (VArr (map Some Ls)) /\
        snd (rstep (js_cache st2, o2) (RGet FNames)) = AVal (VArr (map Some Ln)) /\
        snd (rstep (js_cache st2, o2) (RGet FMappings)) = AVal (VStr ms) /\
        exists v, snd (rstep (js_cache st2, o2) (RGet FContents)) = AVal v /\ lists v (map Some (contents_of e Ls)).
  Proof.
    intros Hnu D F X NR. destruct (run_result i e D F) as (R & t & Hm & A).
    destruct (made_end nu e md _ t Hnu R X NR Hm) as (o & M & Ls & Ln & ms & es & J & EM & H1 & H2 & H3 & H4 & H5 & H6 & Q).
    destruct (A _ _ _ J) as (st' & Es & U). exists st', o, M, Ls, Ln, ms, es. split; [exact Es|]. split; [exact EM|]. repeat (split; [assumption|]).
    intros l st2 o2 Eu. destruct (U _ _ _ Eu) as (l' & Ql & El). specialize (Q l' Ql). rewrite El in Q. exact Q.
  Qed.
  Theorem run_lines nu i e md : numbering nu -> denotes (meaning ops) (ArgObj i) e -> fresh_reads (meaning ops) i -> line_expr md e -> (forall v, e <> XRaw v) ->
    exists st' o M Ls ms es, jstep st (OMap i false md) = Some (st', NResult (ResMap o)) /\ line_marks nu md e = Some M /\
      map nu Ls = firsts (map fst (line_uses nu md e)) /\
      reads_as nu Ls [] ms = Some es /\ annotate_bytes es (text_of M) = carried None M /\
      forall l st2 o2, uses st' o l = Some (st2, o2) ->
        (~ starts_with BOM (text_of M) -> snd (rstep (js_cache st2, o2) RSource) = AText (text_of M)) /\
        snd (rstep (js_cache st2, o2) (RGet FSources)) = AVal (VArr (map Some Ls)) /\
        snd (rstep (js_cache st2, o2) (RGet FMappings)) = AVal (VStr ms) /\
        snd (rstep (js_cache st2, o2) (RGet FNames)) = AVal VUndef /\
        exists v, snd (rstep (js_cache st2, o2) (RGet FContents)) = AVal v /\
          lists v (map Some (flat_map (fun s => match first_use (line_uses nu md e) (nu s) with Some k => [k] | None => [] end) Ls)).
  Proof.
    intros Hnu D F X NR. destruct (run_result i e D F) as (R & t & Hm & A).
    destruct (made_line_end nu e md _ t Hnu R X NR Hm) as (o & M & Ls & ms & es & J & EM & H1 & H2 & H3 & _ & Q).
    destruct (A _ _ _ J) as (st' & Es & U). exists st', o, M, Ls, ms, es. split; [exact Es|]. split; [exact EM|]. repeat (split; [assumption|]).
    intros l st2 o2 Eu. destruct (U _ _ _ Eu) as (l' & Ql & El). specialize (Q l' Ql). rewrite El in Q. exact Q.
  Qed.
  Theorem run_edited nu i e md : numbering nu -> denotes (meaning ops) (ArgObj i) e -> fresh_reads (meaning ops) i -> edit_expr e -> (forall v, e <> XRaw v) ->
    exists st' o M E Ls Ln Ks ms es, jstep st (OMap i true md) = Some (st', NResult (ResMap o)) /\ reading nu e M /\ marks nu (unedited e) = Some E /\
      NoDup Ls /\ NoDup Ln /\ incl Ls (sources_in e) /\ incl Ln (names_in e) /\
      reads_as nu Ls Ln ms = Some es /\
      Forall (fun x => within E (snd x)) (annotate es (text_of M)) /\
      (in_order (js_cache st) e -> Forall2 agrees M (annotate es (text_of M))) /\
      Forall2 (given_for e) Ls Ks /\ (lone_edits e -> Ks = map (first_content (contents_given e)) Ls) /\
      forall l st2 o2, uses st' o l = Some (st2, o2) ->
        (~ starts_with BOM (text_of M) -> snd (rstep (js_cache st2, o2) RSource) = AText (text_of M)) /\
        snd (rstep (js_cache st2, o2) (RGet FSources)) = AVal (VArr (map Some Ls)) /\
        snd (rstep (js_cache st2, o2) (RGet FNames)) = AVal (VArr (map Some Ln)) /\
        snd (rstep (js_cache st2, o2) (RGet FMappings)) = AVal (VStr ms) /\
        exists v, snd (rstep (js_cache st2, o2) (RGet FContents)) = AVal v /\ lists v (map Some (flat_map (fun k => match k with Some k => [k] | None => [] end) Ks)).
  Proof.
    intros Hnu D F X NR. destruct (run_result i e D F) as (R & t & Hm & A).
    destruct (made_edited_end nu e md _ t Hnu R X NR Hm) as (o & M & E & Ls & Ln & Ks & ms & es & J & EM & H0 & H1 & H2 & H3 & H4 & H5 & H6 & H7 & H8 & H9 & Q).
    destruct (A _ _ _ J) as (st' & Es & U). exists st', o, M, E, Ls, Ln, Ks, ms, es. split; [exact Es|]. split; [exact EM|]. repeat (split; [assumption|]).
    intros l st2 o2 Eu. destruct (U _ _ _ Eu) as (l' & Ql & El). specialize (Q l' Ql). rewrite El in Q. exact Q.
  Qed.
  Theorem run_line_edited nu i e md : numbering nu -> denotes (meaning ops) (ArgObj i) e -> fresh_reads (meaning ops) i -> line_edit_expr md e -> (forall v, e <> XRaw v) ->
    exists st' o M Ls Ks ms es, jstep st (OMap i false md) = Some (st', NResult (ResMap o)) /\ line_reading nu md e M /\
      map nu Ls = firsts (sources_shown M) /\ Forall2 (fun s k => In (s, k) (line_given md e)) Ls Ks /\
      reads_as nu Ls [] ms = Some es /\ annotate_bytes es (text_of M) = carried None M /\
      forall l st2 o2, uses st' o l = Some (st2, o2) ->
        (~ starts_with BOM (text_of M) -> snd (rstep (js_cache st2, o2) RSource) = AText (text_of M)) /\
        snd (rstep (js_cache st2, o2) (RGet FSources)) = AVal (VArr (map Some Ls)) /\
        snd (rstep (js_cache st2, o2) (RGet FMappings)) = AVal (VStr ms) /\
        snd (rstep (js_cache st2, o2) (RGet FNames)) = AVal VUndef /\
        exists v, snd (rstep (js_cache st2, o2) (RGet FContents)) = AVal v /\
          lists v (map Some (flat_map (fun k => match k with Some k => [k] | None => [] end) Ks)).
  Proof.
    intros Hnu D F X NR. destruct (run_result i e D F) as (R & t & Hm & A).
    destruct (made_line_edited nu e md _ t Hnu R X NR Hm) as (o & M & Ls & Ks & ms & es & J & EM & H1 & H2 & H3 & H4 & Q).
    destruct (A _ _ _ J) as (st' & Es & U). exists st', o, M, Ls, Ks, ms, es. split; [exact Es|]. split; [exact EM|]. repeat (split; [assumption|]).
    intros l st2 o2 Eu. destruct (U _ _ _ Eu) as (l' & Ql & El). specialize (Q l' Ql). rewrite El in Q. exact Q.
  Qed.
End Run.

(** Two programs, objects that stand for the same expression. *)
Theorem run_same c0 ops st i c0' ops' st' i' e md md' : reached_cache c0 -> reached_cache c0' ->
  jrun (jstate_new c0) ops = Some st -> jrun (jstate_new c0') ops' = Some st' ->
  denotes (meaning ops) (ArgObj i) e -> fresh_reads (meaning ops) i -> denotes (meaning ops') (ArgObj i') e -> fresh_reads (meaning ops') i' ->
  exact_expr e -> (forall v, e <> XRaw v) ->
  exists st1 o st1' o', jstep st (OMap i true md) = Some (st1, NResult (ResMap o)) /\ jstep st' (OMap i' true md') = Some (st1', NResult (ResMap o')) /\
    forall l l' st2 o2 st2' o2' q, uses st1 o l = Some (st2, o2) -> uses st1' o' l' = Some (st2', o2') -> (q = RSource \/ exists f, q = RGet f) ->
      snd (rstep (js_cache st2, o2) q) = snd (rstep (js_cache st2', o2') q).
Proof.
  intros R0 R0' Run Run' D F D' F' X NR. destruct (run_result R0 Run i e D F) as (R & t & Hm & A). destruct (run_result R0' Run' i' e D' F') as (R' & t' & Hm' & A').
  destruct (made_same e md md' _ _ t t' R R' X NR Hm Hm') as (o & o' & J & J' & Q).
  destruct (A _ _ _ J) as (st1 & Es & U). destruct (A' _ _ _ J') as (st1' & Es' & U'). exists st1, o, st1', o'. split; [exact Es|]. split; [exact Es'|].
  intros l l' st2 o2 st2' o2' q Eu Eu' Hq. destruct (U _ _ _ Eu) as (k & Qk & Ek). destruct (U' _ _ _ Eu') as (k' & Qk' & Ek').
  specialize (Q k k' q Qk Qk' Hq). rewrite Ek, Ek' in Q. exact Q.
Qed.

(** ** CachedSource *)
Lemma jrun_app l l' : forall st, jrun st (l ++ l') = let* st := jrun st l in jrun st l'.
Proof.
  induction l as [|op l IH]; intros st; [reflexivity|]. cbn [app jrun]. destruct (jstep st op) as [[st1 a]|]; [|reflexivity]. apply IH.
Qed.
Lemma add_same vs i x m j : nth_error (spec_add i vs x) m = Some (VSame j) <-> nth_error vs m = Some (VSame j).
Proof.
  unfold spec_add. rewrite nth_update. destruct (Nat.eqb i m); [|tauto]. destruct (nth_error vs m) as [v|]; [|cbn; split; discriminate].
  destruct v; cbn [option_map]; split; intro E; (exact E || discriminate).
Qed.
Lemma adds_same l : forall vs i m j, nth_error (fold_left (spec_add i) l vs) m = Some (VSame j) <-> nth_error vs m = Some (VSame j).
Proof. induction l as [|x l IH]; intros vs i m j; cbn [fold_left]; [tauto|]. rewrite IH. apply add_same. Qed.
Lemma call_same vs i k m j : nth_error (spec_call i vs k) m = Some (VSame j) <-> nth_error vs m = Some (VSame j).
Proof.
  unfold spec_call. rewrite nth_update. destruct (Nat.eqb i m); [|tauto]. destruct (nth_error vs m) as [v|]; [|cbn; split; discriminate].
  destruct v; cbn [option_map]; split; intro E; (exact E || discriminate).
Qed.
Lemma step_same vs op m j : nth_error (spec_step vs op) m = Some (VSame j) <-> nth_error vs m = Some (VSame j) \/ (op = ONewCached j /\ m = length vs).
Proof.
  assert (K : forall v, (forall j', v <> VSame j') -> nth_error (vs ++ [v]) m = Some (VSame j) <-> nth_error vs m = Some (VSame j)).
  { intros v N. split; intro E; [|now apply nth_old]. apply nth_snoc in E as [E|[_ E]]; [exact E|]. now destruct (N j). }
  destruct op; cbn [spec_step]; rewrite ?add_same, ?adds_same, ?call_same; try (rewrite K by discriminate);
    try (split; [auto|intros [E|[E _]]; [exact E|discriminate E]]).
  split.
  - intro E. apply nth_snoc in E as [E|[-> E]]; [auto|]. injection E as ->. auto.
  - intros [E|[E ->]]; [now apply nth_old|]. injection E as ->. apply nth_last.
Qed.
Lemma wraps_step vs op k m : wraps vs k m -> wraps (spec_step vs op) k m.
Proof. induction 1 as [|i j k E _ IH]; [constructor|]. econstructor; [|exact IH]. apply step_same. auto. Qed.
Definition read_in (ops : list jop) (k : nat) : Prop := In (OSource k) ops \/ In (OSize k) ops.
(** Not read yet. *)
Lemma run_unread c0 ops : reached_cache c0 -> forall st m j, jrun (jstate_new c0) ops = Some st -> nth_error (meaning ops) m = Some (VSame j) ->
  (forall k, read_in ops k -> ~ wraps (meaning ops) k m) -> memo st m = Some (j, None, None).
Proof.
  intro R. induction ops as [|op ops IH] using rev_ind; intros st m j Run Ev Q; [destruct m; discriminate Ev|].
  rewrite jrun_app in Run. unb Run as st1 E1. cbn [jrun] in Run. unb Run as [st2 a] E2. injection Run as <-.
  destruct (inv_run _ _ _ R E1) as (h0 & Iv). unfold meaning in Ev, Q. rewrite fold_left_app in Ev, Q. cbn [fold_left] in Ev, Q.
  fold (meaning ops) in Ev, Q. apply step_same in Ev as [Ev|[-> ->]].
  - apply (memo_step _ _ _ _ _ _ _ _ Iv E2); [|apply (IH _ _ _ E1 Ev)].
    + destruct op; try exact I; cbn [apart_from]; intro W; (eapply Q; [|apply wraps_step; exact W]);
        [left|right]; apply in_or_app; right; now left.
    + intros k Hk W. apply (Q k); [|now apply wraps_step]. destruct Hk; [left|right]; apply in_or_app; now left.
  - cbn [jstep] in E2. destruct (Nat.ltb j (length (js_objs st1))); [|discriminate]. injection E2 as <- _. unfold memo. cbn [js_objs].
    rewrite <- (iv_len _ _ _ Iv), nth_last. reflexivity.
Qed.
Lemma unread_source st vs h0 i : prog_inv st vs h0 -> (forall m j, wraps vs i m -> nth_error vs m = Some (VSame j) -> memo st m = Some (j, None, None)) ->
  forall d e, i <= d -> denotes vs (ArgObj i) e -> option_map snd (source_from d st i) = js_source (alone e) /\ option_map snd (size_from d st i) = js_size (alone e).
Proof.
  intro Iv. induction i as [i IH] using lt_wf_ind. intros M d e L D.
  assert (Hv : exists v, nth_error vs i = Some v) by (inversion D; subst; eauto). destruct Hv as (v & Ev).
  destruct (inv_obj Iv _ _ Ev) as (b & Eb). destruct (own_ptr b) as [p|] eqn:Op.
  - rewrite (source_own _ _ _ _ _ Eb Op), (size_own _ _ _ _ _ Eb Op).
    destruct (inv_answers _ _ _ _ _ _ _ Iv Eb Op D) as (t & Hm & -> & -> & _). apply (made_js_source _ _ _ _ _ Hm (alone_made e)).
  - destruct b as [| | | | | | |j t n]; try discriminate. destruct (inv_same Iv _ _ _ _ Eb) as (Ev' & Lj & _). rewrite Ev in Ev'. injection Ev' as ->.
    pose proof (M i j (wr_self _ _) Ev) as Mi. unfold memo in Mi. rewrite Eb in Mi. injection Mi as -> ->.
    assert (D' : denotes vs (ArgObj j) e) by (inversion D; subst; congruence).
    destruct d as [|d]; [lia|]. cbn [source_from size_from]. rewrite Eb. cbn [bind].
    destruct (IH j Lj (fun m j' W => M m j' (wr_in _ _ _ _ Ev W)) d e ltac:(lia) D') as (<- & <-).
    split; [destruct (source_from d st j) as [[? ?]|]; reflexivity|destruct (size_from d st j) as [[? ?]|]; reflexivity].
Qed.
Theorem run_cached c0 ops st i e : reached_cache c0 -> jrun (jstate_new c0) ops = Some st ->
  (forall k m, In (OSource k) ops \/ In (OSize k) ops -> wraps (meaning ops) k m -> wraps (meaning ops) i m -> fresh_reads (meaning ops) m) ->
  denotes (meaning ops) (ArgObj i) e ->
  option_map snd (jstep st (OSource i)) = option_map NText (js_source (alone e)) /\
  option_map snd (jstep st (OSize i)) = option_map NSize (js_size (alone e)).
Proof.
  intros R0 Run Q D. destruct (inv_run _ _ _ R0 Run) as (h0 & Iv).
  destruct (unread_source _ _ _ i Iv) with (d := i) (e := e) as (S1 & S2); [|lia|exact D|].
  - intros m j W Ev. apply (run_unread _ _ R0 _ _ _ Run Ev). intros k Hk W'. exact (Q k m Hk W' W j Ev).
  - cbn [jstep]. unfold source_of, size_of. rewrite <- S1, <- S2.
    split; [destruct (source_from i st i) as [[? ?]|]; reflexivity|destruct (size_from i st i) as [[? ?]|]; reflexivity].
Qed.
(** Read once: the text stays. *)
Lemma source_keeps d : forall st i st' s k j u n, source_from d st i = Some (st', s) -> memo st k = Some (j, Some u, n) -> exists n', memo st' k = Some (j, Some u, n').
Proof.
  induction d as [|d IH]; intros st i st' s k j u n E M; cbn [source_from] in E; unb E as b Eb; destruct b as [| | | | | | |j' [u'|] n'];
    try discriminate; try (injection E as <- _; eauto; fail); try (rewrite (memo_only _ _ _ (source_only _ _ _ _ E)); eauto; fail).
  unb E as [st2 s2] E2. injection E as <- _. destruct (Nat.eq_dec i k) as [<-|N]; [unfold memo in M; rewrite Eb in M; discriminate|].
  destruct (IH _ _ _ _ _ _ _ _ E2 M) as (n2 & M2). exists n2. unfold memo, set_obj. cbn [js_objs]. now apply memo_set.
Qed.
Lemma size_keeps d : forall st i st' s k j u n, size_from d st i = Some (st', s) -> memo st k = Some (j, Some u, n) -> exists n', memo st' k = Some (j, Some u, n').
Proof.
  assert (S : forall st i j u' k j' u n, nth_error (js_objs st) i = Some (BCached j (Some u') None) -> memo st k = Some (j', Some u, n) ->
    exists n', memo (set_obj st i (BCached j (Some u') (Some (length u')))) k = Some (j', Some u, n')).
  { intros st i j u' k j' u n Eb M. destruct (Nat.eq_dec i k) as [<-|N].
    - unfold memo in M. rewrite Eb in M. injection M as -> -> <-. eexists. unfold memo, set_obj. cbn [js_objs]. rewrite nth_set_nth, Nat.eqb_refl.
      pose proof (nth_lt _ _ _ Eb) as Lt. apply Nat.ltb_lt in Lt. rewrite Lt. reflexivity.
    - exists n. unfold memo, set_obj. cbn [js_objs]. now apply memo_set. }
  induction d as [|d IH]; intros st i st' s k j u n E M; cbn [size_from] in E; unb E as b Eb; destruct b as [| | | | | | |j' [u'|] [n'|]];
    try discriminate; try (rewrite (memo_only _ _ _ (size_only _ _ _ _ E)); eauto; fail); try (injection E as <- _; eauto; fail).
  unb E as [st2 s2] E2. injection E as <- _. destruct (Nat.eq_dec i k) as [<-|N]; [unfold memo in M; rewrite Eb in M; discriminate|].
  destruct (IH _ _ _ _ _ _ _ _ E2 M) as (n2 & M2). exists n2. unfold memo, set_obj. cbn [js_objs]. now apply memo_set.
Qed.
Lemma apart_dec vs k op : apart_from vs k op \/ exists i, op = OSource i \/ op = OSize i.
Proof. destruct op; try (left; exact I); right; eauto. Qed.
Lemma memo_source st vs h0 op st' a k j s n : prog_inv st vs h0 -> jstep st op = Some (st', a) -> memo st k = Some (j, Some s, n) -> exists n', memo st' k = Some (j, Some s, n').
Proof.
  intros Iv E M. destruct (apart_dec vs k op) as [Q|(i & [->| ->])]; [eauto using memo_step| |]; cbn [jstep] in E; unb E as [st2 x] E2; injection E as <- _.
  - eapply source_keeps; eauto.
  - eapply size_keeps; eauto.
Qed.
Lemma source_sets d st i st' s x : source_from d st i = Some (st', s) -> memo st i = Some x -> exists n, memo st' i = Some (fst (fst x), Some s, n).
Proof.
  intros E M. unfold memo in M. destruct (nth_error (js_objs st) i) as [b|] eqn:Eb; [|discriminate]. destruct b as [| | | | | | |j t n]; try discriminate.
  injection M as <-. cbn [fst]. destruct d; cbn [source_from] in E; rewrite Eb in E; cbn [bind] in E; destruct t as [t|]; try discriminate;
    try (injection E as <- <-; exists n; unfold memo; now rewrite Eb).
  unb E as [st2 s2] E2. injection E as <- <-. exists n. unfold memo, set_obj. cbn [js_objs]. rewrite nth_set_nth, Nat.eqb_refl.
  rewrite (proj2 (source_frame _ _ _ _ _ E2)). pose proof (nth_lt _ _ _ Eb) as Lt. apply Nat.ltb_lt in Lt. now rewrite Lt.
Qed.
Lemma source_again d st i j s n : memo st i = Some (j, Some s, n) -> source_from d st i = Some (st, s).
Proof.
  unfold memo. intro M. destruct d; cbn [source_from]; destruct (nth_error (js_objs st) i) as [b|]; try discriminate; destruct b; try discriminate;
    injection M as -> -> ->; reflexivity.
Qed.
Theorem cached_stays st vs h0 i st1 s ops st2 : prog_inv st vs h0 -> (exists x, memo st i = Some x) -> jstep st (OSource i) = Some (st1, NText s) -> jrun st1 ops = Some st2 ->
  option_map snd (jstep st2 (OSource i)) = Some (NText s).
Proof.
  intros Iv (x & M) E Run. destruct (inv_step _ _ _ _ _ _ Iv E) as (h1 & Iv1). cbn [spec_step] in Iv1.
  cbn [jstep] in E. unb E as [st3 s3] E3. injection E as <- <-. destruct (source_sets _ _ _ _ _ _ E3 M) as (n & M1).
  clear M E3 Iv st h0. revert st3 vs n h1 Iv1 M1 Run. induction ops as [|op ops IH]; intros st1 vs n h1 Iv M Run; cbn [jrun] in Run.
  - injection Run as <-. cbn [jstep]. unfold source_of. rewrite (source_again _ _ _ _ _ _ M). reflexivity.
  - unb Run as [st3 a] E3. destruct (memo_source _ _ _ _ _ _ _ _ _ _ Iv E3 M) as (n' & M'). destruct (inv_step _ _ _ _ _ _ Iv E3) as (h3 & Iv3). eauto.
Qed.
Theorem run_stays c0 ops st i j st1 s ops' st2 : reached_cache c0 -> jrun (jstate_new c0) ops = Some st -> nth_error (meaning ops) i = Some (VSame j) ->
  jstep st (OSource i) = Some (st1, NText s) -> jrun st1 ops' = Some st2 -> option_map snd (jstep st2 (OSource i)) = Some (NText s).
Proof.
  intros R0 Run Ev E Run'. destruct (inv_run _ _ _ R0 Run) as (h0 & Iv). apply (cached_stays st _ _ i st1 s ops' st2 Iv); auto.
  destruct (inv_cachedv Iv _ _ Ev) as (t & n & Eb). exists (j, t, n). unfold memo. now rewrite Eb.
Qed.
