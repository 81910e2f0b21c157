(** Expressions with edits: from the constructors to the values read off the returned object. *)
From Verif Require Import Base Tactics ModelString StringFacts ModelVlq ModelSm ModelSlm ModelSources ModelTree ModelWasm
  ModelJs ModelJsApi SpecText SpecMap SpecAttr SpecEdit SpecEffect SortFacts TextFacts EditFacts NodeFacts LeafFacts ParseFacts MapFacts GenFacts SmsProps ReplaceNode NodeTree
  IdxFacts EffectFacts EffectOrder JsFacts Utf16Facts JsTextProps SpecResult ModelJsResult ResultFacts ResultProps SpecJs ModelEnd SpecEnd EndFacts MadeFacts EndProps ContentFacts EndMap SpecEdited EditedFacts EditedBuild.

Lemma number_known c i s : known c i s -> i = Z.of_nat (number c s).
Proof. intros (k & -> & E). unfold number, cache_add. rewrite E. reflexivity. Qed.

(** ** Order *)
Lemma above_rename f a b : (forall s s', match a with Some (x, _, _) => x = s | None => False end -> match b with Some (x, _, _) => x = s' | None => False end ->
    (s' < s)%Z -> (f s' < f s)%Z) -> above (drop_name a) (drop_name b) = true -> above (drop_name (rename f a)) (drop_name (rename f b)) = true.
Proof.
  destruct a as [[[s [l c]] n]|]; [|discriminate]. destruct b as [[[s' [l' c']] n']|]; [|destruct n; reflexivity]. intros H.
  specialize (H s s' eq_refl eq_refl). cbn [rename drop_name above name_above].
  destruct (Z.ltb_spec s' s) as [L|L]; [intros _; rewrite (proj2 (Z.ltb_lt _ _) (H L)); reflexivity|].
  destruct (Z.eqb_spec s' s) as [->|Ne]; [|discriminate]. rewrite Z.eqb_refl, Z.ltb_irrefl. auto.
Qed.
Lemma rising_unname f (X : Z -> Prop) E : (forall i j, X i -> X j -> (i < j)%Z -> (f i < f j)%Z) -> Forall (source_in X) E -> rising (retarget (rename f) E) -> rising E.
Proof.
  intros Hf. induction 1 as [|x E Hx HE IH]; intro R; [constructor|]. cbn in R. inversion R as [|? ? R1 R2]; subst. constructor; [|now apply IH].
  unfold retarget in R1. rewrite Forall_map in R1. rewrite Forall_forall in *. intros y Hy Ny. specialize (R1 y Hy). cbn [snd] in R1. specialize (HE y Hy).
  destruct (above (drop_name (snd x)) (drop_name (snd y))) eqn:Ab; [|reflexivity]. exfalso.
  assert (Ab' := above_rename f (snd x) (snd y)). rewrite R1 in Ab'.
  - discriminate Ab'; [|exact Ab]. intros s s' H1 H2 L. apply Hf; [| |exact L]; unfold source_in in *.
    + destruct (snd y) as [[[z p] n]|]; [now subst|destruct H2].
    + destruct (snd x) as [[[z p] n]|]; [now subst|destruct H1].
  - destruct (snd y) as [[[z p] n]|]; [discriminate|now elim Ny].
Qed.
Lemma within_rename f E a : within E a -> within (retarget (rename f) E) (rename f a).
Proof.
  intros [->|(x & H & Ex)]; [now left|right]. exists (fst x, rename f (snd x)). split; [now apply (in_map (fun c => (fst c, rename f (snd c))))|].
  cbn [snd]. rewrite <- !rename_drop. now rewrite Ex.
Qed.
Lemma within_effective n E : Forall (fun x => within E (leaf_attr x)) (leaves n) -> Forall (fun x => within E (snd x)) (effective (map turn (leaves n))).
Proof.
  intro H. pose proof (effective_own n) as F.
  assert (K : Forall (fun x => within E (snd x)) (flat n)).
  { unfold flat, flat_leaves. apply Forall_flat_map. eapply Forall_impl; [|exact H]. intros [[[s src] pos] name] Hx. unfold flat_leaf, mark. apply Forall_map. apply Forall_forall. intros c _. exact Hx. }
  revert K F. generalize (effective (map turn (leaves n))) (flat n). intros R M K F. revert K. induction F as [|x y M R Hxy _ IH]; intro K; [constructor|]. inversion K as [|? ? K1 K2]; subst.
  constructor; [|now apply IH]. destruct Hxy as [_ [->|[Hin _]]]; [exact K1|]. apply in_map_iff in Hin as (z & Ez & Hz). injection Ez as Ez _. rewrite <- Ez. rewrite Forall_forall in H. now apply H.
Qed.
Lemma agrees_rename f M R : Forall2 agrees M R -> Forall2 agrees (retarget (rename f) M) (retarget (rename f) R).
Proof.
  induction 1 as [|x y M R [H1 H2] _ IH]; cbn; constructor; [|exact IH]. split; [exact H1|]. cbn [snd]. intro Hn. rewrite <- !rename_drop. rewrite H2; [reflexivity|].
  intro E. rewrite E in Hn. now elim Hn.
Qed.

(** ** Contents *)
Lemma lone_spine c e : edit_expr e -> lone e -> forall t, made c e t -> spine_tree (import t).
Proof.
  induction e as [s|v|v n|v n o|p e IH|e h IH|l IH|v n m o i] using jexpr_ind'; intros X H t E.
  - destruct X.
  - rewrite E. exact I.
  - destruct E as (vi & ni & -> & _). exact I.
  - destruct E as (ni & oi & -> & _). exact I.
  - destruct E as (t2 & -> & E). cbn [import spine_tree]. destruct X as [_ X]. exact (IH X H _ E).
  - destruct E as (t2 & -> & E). cbn [import spine_tree]. destruct X as [X _]. eapply IH; eauto.
  - destruct H.
  - destruct E as (vi & ni & d & oo & ii & -> & _). cbn [import]. destruct ii, oo as [[? ?]|]; exact I.
Qed.
Lemma lone_concat l : lone_edits (XConcat l) <-> Forall lone_edits l.
Proof.
  induction l as [|x r IH]; cbn [lone_edits] in *; [split; constructor|]. rewrite IH. split; [intros [H1 H2]; auto|]. intro H. now inversion H.
Qed.
Lemma edited_conts c1 e : cache_ok c1 -> edit_child e -> lone_edits e -> forall t, made c1 e t ->
  fresh_tree (import t) /\ Forall2 (pair_at c1) (tconts (import t)) (contents_given e).
Proof.
  intro Hc1. induction e as [s|v|v n|v n o|p e IH|e h IH|l IH|v n m o i] using jexpr_ind'; intros X Hl t Hm;
    try (match type of X with edit_child ?x => apply (made_conts c1 x Hc1 X t Hm) end).
  - destruct Hm as (t2 & -> & Hm). destruct X as (_ & X1).
    assert (Xc : edit_child e) by (destruct e; auto; destruct X1). destruct (IH Xc Hl t2 Hm) as [A B]. cbn [import fresh_tree tconts contents_given].
    split; [exact A|exact B].
  - destruct Hm as (t2 & -> & Hm). destruct X as (X1 & _). destruct Hl as [Hl1 Hl2].
    assert (Xc : edit_child e) by (destruct e; auto; destruct X1). destruct (IH Xc Hl2 t2 Hm) as [A B]. cbn [import fresh_tree tconts contents_given].
    split; [split; [exact A|]|exact B]. eapply lone_spine; eauto.
  - apply edit_concat in X. apply lone_concat in Hl. apply made_concat in Hm as (ts & -> & Hm).
    assert (Y : Forall fresh_tree (map import ts) /\ Forall2 (pair_at c1) (flat_map tconts (map import ts)) (flat_map contents_given l)).
    { revert ts Hm. induction IH as [|x l Hx _ IHl]; intros ts Hm; inversion Hm as [|? t3 ? ts3 M1 M2]; subst; [split; constructor|].
      inversion X as [|? ? X1 X2]; subst. inversion Hl as [|? ? L1 L2]; subst.
      destruct (Hx X1 L1 t3 M1) as [A1 A2]. destruct (IHl X2 L2 ts3 M2) as [B1 B2].
      cbn [map flat_map]. split; [constructor; auto|]. now apply Forall2_app. }
    destruct Y as [Y1 Y2]. cbn [import]. split; [apply fresh_concat; apply fresh_add; [constructor|exact Y1]|]. cbn [tconts contents_given]. rewrite tconts_add. exact Y2.
Qed.

(** The contents that are found, as strings. *)
Definition found_as (c1 : cache) (ct : list (Z * Z)) (i : Z) (k : option jstr) : Prop :=
  match al_get ct i, k with Some j, Some t => at_ c1 j t | None, None => True | _, _ => False end.
Lemma found_given c1 e ct is Ls : cache_ok c1 -> Forall (pair_idx (RG c1 (contents_given e))) ct -> Forall2 (known c1) is Ls ->
  exists Ks, Forall2 (found_as c1 ct) is Ks /\ Forall2 (given_for e) Ls Ks.
Proof.
  intros Hc H. induction 1 as [|i s is Ls K _ (Ks & I1 & I2)]; [exists []; split; constructor|].
  assert (X : exists k, found_as c1 ct i k /\ given_for e s k).
  { unfold found_as. destruct (al_get ct i) as [j|] eqn:Eg; [|exists None; now split].
    assert (Hin : In (i, j) ct).
    { clear - Eg. induction ct as [|[i' j'] ct IH]; [discriminate|]. cbn [al_get] in Eg. destruct (Z.eqb_spec i i') as [->|]; [injection Eg as ->; now left|right; auto]. }
    rewrite Forall_forall in H. destruct (H _ Hin) as (s' & k & Hk & K' & A). cbn [fst snd] in *. exists (Some k). split; [exact A|].
    cbn. replace s with s'; [exact Hk|]. eapply at_string; eapply known_at; eauto. }
  destruct X as (k & X1 & X2). exists (k :: Ks). split; constructor; auto.
Qed.
Lemma found_listed c1 ct is Ks : Forall2 (found_as c1 ct) is Ks ->
  Forall2 (at_ c1) (collect_contents is ct) (flat_map (fun k => match k with Some k => [k] | None => [] end) Ks).
Proof.
  induction 1 as [|i k is Ks H _ IH]; [constructor|]. cbn [collect_contents flat_map]. unfold found_as in H.
  destruct (al_get ct i), k; try contradiction; cbn [app]; [now constructor|exact IH].
Qed.
Lemma found_first c1 ct ps qs is Ls Ks : cache_ok c1 -> same_get ct ps -> Forall2 (pair_at c1) ps qs -> Forall2 (known c1) is Ls -> Forall2 (found_as c1 ct) is Ks ->
  Ks = map (first_content qs) Ls.
Proof.
  intros Hc S P. intros K. revert Ks. induction K as [|i s is Ls K _ IH]; intros Ks F; inversion F as [|? k ? Ks' F1 F2]; subst; [reflexivity|].
  cbn [map]. f_equal; [|now apply IH]. pose proof (first_at c1 i s ps qs Hc K P) as A. unfold found_as in F1. rewrite (S i) in F1.
  destruct (al_get ps i) as [j|], k as [t|], (first_content qs s) as [t'|]; try contradiction; [|reflexivity]. f_equal. eapply at_string; eauto.
Qed.

(** ** The whole way *)
Theorem made_edited_full nu e md c1 t : numbering nu -> reached_cache c1 -> edit_expr e -> (forall v, e <> XRaw v) -> made c1 e t ->
  exists o M E Ls Ln Ks ms es, js_source_and_map true md t = Some (ResMap o) /\ reading nu e M /\ plain (text_of M) /\ marks nu (unedited e) = Some E /\
    NoDup Ls /\ NoDup Ln /\ incl Ls (sources_in e) /\ incl Ln (names_in e) /\
    reads_as nu Ls Ln ms = Some es /\
    Forall (fun x => within E (snd x)) (annotate es (text_of M)) /\
    (in_order c1 e -> Forall2 agrees M (annotate es (text_of M))) /\
    Forall2 (given_for e) Ls Ks /\ (lone_edits e -> Ks = map (first_content (contents_given e)) Ls) /\
    forall l, Forall quiet l ->
      (~ starts_with BOM (text_of M) -> snd (rstep (fst (rrun (c1, o) l)) RSource) = AText (text_of M)) /\
      snd (rstep (fst (rrun (c1, o) l)) (RGet FSources)) = AVal (VArr (map Some Ls)) /\
      snd (rstep (fst (rrun (c1, o) l)) (RGet FNames)) = AVal (VArr (map Some Ln)) /\
      snd (rstep (fst (rrun (c1, o) l)) (RGet FMappings)) = AVal (VStr ms) /\
      exists v, snd (rstep (fst (rrun (c1, o) l)) (RGet FContents)) = AVal v /\ lists v (map Some (flat_map (fun k => match k with Some k => [k] | None => [] end) Ks)).
Proof.
  intros Hnu Hr1 X NR Hm. pose proof (reached_ok _ Hr1) as Hc1.
  assert (Xc : edit_child e) by (destruct e; auto; destruct X).
  assert (N0 : forall s, e <> XStr s) by (intros s ->; destruct X).
  destruct (made_edited c1 Hc1 md (sources_in e) (names_in e) (contents_given e) e Xc (incl_refl _) (incl_refl _) (incl_refl _) t Hm) as (L & E0 & U0 & T & HL & Pl & HS & HW & HA & HR).
  pose proof (made_tree c1 e t Hm N0) as NS. pose proof (made_mapped c1 e t Hm N0 NR) as NJ.
  assert (U : usable (import t)) by (destruct (import t); auto; destruct NS).
  destruct (has_node true md _ _ NS HL) as (n & En & EL). destruct (node_total true md (import t) U) as (n0 & En0 & _ & Sol). rewrite En in En0. injection En0 as <-. subst L.
  destruct (walk_total n None None Sol) as (cx & Ew & (W & _)). destruct W as [W _].
  destruct (emitted_effective n None None Sol) as (code & mp & es & Em & Ec & Er & Ea).
  unfold to_string_with_source_map in Em. rewrite Ew in Em. cbn [bind] in Em. unb Em as [g' m'] Eg. injection Em as <- <-. rename m' into mp.
  set (r := jr_from_with_generator (cx_code cx) (cx_map cx)).
  assert (Enr : node_result n = Some r) by (unfold node_result, to_string_with_generator; now rewrite Ew).
  assert (Ejr : jr_get_map r = Some (mk_jr (jr_s r) (Some mp) (Some g'), mp)) by (unfold jr_get_map; cbn; now rewrite Eg).
  assert (Idx : map_idx (PS c1 (sources_in e)) (PN c1 (names_in e)) (RG c1 (contents_given e)) mp /\ Forall (pair_idx (RG c1 (contents_given e))) (g_contents (cx_map cx))).
  { assert (Hg : gen_idx (PS c1 (sources_in e)) (PN c1 (names_in e)) (RG c1 (contents_given e)) (cx_map cx)).
    { eapply generator_idx; [eapply t_node_idx; [exact T|exact En]|]. unfold to_string_with_generator. rewrite Ew. reflexivity. }
    split; [|apply Hg]. eapply source_map_idx; [exact Hg|exact Eg]. }
  destruct Idx as ((I1 & I2 & I3) & I4).
  destruct (to_source_map_spec _ W) as (g2 & m2 & Eg2 & _ & Es & Enm & _). rewrite Eg in Eg2. injection Eg2 as <- <-.
  destruct W as (W1 & W2 & _).
  destruct (known_strings c1 (fun s => In s (sources_in e)) (map_sources mp) Hc1) as (Ls & KL & NL & IL); [rewrite Es; apply W1|exact I1|].
  destruct (known_strings c1 (fun s => In s (names_in e)) (map_names mp) Hc1) as (Ln & KN & NN & INm); [rewrite Enm; apply W2|exact I2|].
  destruct (found_given c1 e _ _ _ Hc1 I4 KL) as (Ks & FK & GK).
  destruct (HR nu Hnu) as [R1 R2]. change (flat_leaves (leaves n)) with (flat n) in *.
  set (M := retarget (rename (rho nu c1)) (flat n)) in *.
  assert (Tx : text_of M = cx_code cx) by (unfold M; rewrite text_retarget; congruence).
  assert (Ef : annotate (rename_entries (rho nu c1) es) (text_of M) = retarget (rename (rho nu c1)) (effective (map turn (leaves n)))) by (rewrite annotate_rename, Tx, Ea; reflexivity).
  exists (robj_new r true), M, (retarget (rename (rho nu c1)) E0), Ls, Ln, Ks, (map_mappings mp), (rename_entries (rho nu c1) es).
  split; [unfold js_source_and_map; destruct t; try (destruct NJ); rewrite En; cbn [bind]; rewrite Enr; reflexivity|].
  split; [exact R1|]. split; [unfold M; rewrite text_retarget; exact Pl|]. split; [exact R2|].
  split; [exact NL|]. split; [exact NN|]. split; [exact (proj1 (Forall_forall _ _) IL)|]. split; [exact (proj1 (Forall_forall _ _) INm)|].
  split.
  { unfold reads_as. rewrite <- (rho_map nu c1 Hc1 _ _ KL), <- (rho_map nu c1 Hc1 _ _ KN), read_map_rename, Er. reflexivity. }
  rewrite Ef. split; [|split].
  { unfold retarget at 2. apply Forall_map. eapply Forall_impl; [|apply within_effective; exact HW]. intros x Hx. cbn [snd]. now apply within_rename. }
  { intros (nu' & E & Hnu' & Em' & Ri & Ho). apply agrees_rename. apply effective_agrees. apply HA. destruct (HR nu' Hnu') as [_ R2']. rewrite Em' in R2'. injection R2' as ->.
    eapply rising_unname; [|exact HS|exact Ri]. intros i j (s & Is & Hs) (s' & Is' & Hs') Lt. rewrite (rho_known nu' c1 Hc1 _ _ Hs), (rho_known nu' c1 Hc1 _ _ Hs').
    apply Ho; auto. apply number_known in Hs, Hs'. lia. }
  split; [exact GK|]. split.
  { intro Lo. destruct (edited_conts c1 e Hc1 Xc Lo t Hm) as [Fr Cs]. eapply found_first; [exact Hc1| |exact Cs|exact KL|exact FK].
    intro k. rewrite (walk_contents _ _ _ _ _ _ Ew k). cbn [ctx_new cx_map gen_new g_contents app]. now apply (t_node_contents true md (import t)). }
  intros l Hl.
  assert (Res : resolvable c1 mp).
  { assert (B : forall i s, at_ c1 i s -> (i < Z.of_nat (length (ca_array c1)))%Z).
    { intros i s (k & -> & E). assert (k < length (ca_array c1)) by (apply nth_error_Some; congruence). lia. }
    unfold resolvable. rewrite !Forall_app. split; [|split].
    - eapply Forall_impl; [|exact I1]. intros i (s & _ & K). exact (B _ _ (known_at _ _ _ Hc1 K)).
    - eapply Forall_impl; [|exact I3]. intros i (s & _ & (s' & k & _ & _ & K)). eauto.
    - eapply Forall_impl; [|exact I2]. intros i (s & _ & K). exact (B _ _ (known_at _ _ _ Hc1 K)). }
  assert (Hq : forall f, Forall (fun op => ~ clears op /\ ~ wraps op /\ ~ assigns f op) l).
  { intro f. eapply Forall_impl; [|exact Hl]. intros op Ho. destruct op; cbn in *; try (destruct Ho); repeat split; auto. }
  assert (Pr : produced r true) by (econstructor; exact Enr).
  destruct (produced_map r true _ _ Pr Ejr) as [As _].
  split; [|split; [|split; [|split]]].
  - intro NB. rewrite source_kept by exact Hl. f_equal.
    assert (Hs : jr_s r = text_of M) by (cbn; congruence). rewrite Hs. apply plain_out; [unfold M; rewrite text_retarget; exact Pl|exact NB].
  - destruct (shows_map c1 r _ mp true FSources l Hr1 Ejr Res (Hq _)) as (v & Ev & Sh). rewrite Ev. inversion Sh as [l' St| | | | |]; subst. f_equal. f_equal. eapply stands_known; eauto.
  - destruct (shows_map c1 r _ mp true FNames l Hr1 Ejr Res (Hq _)) as (v & Ev & Sh). rewrite Ev. inversion Sh as [| | | |l' Ht St|Ht]; subst; [|discriminate]. f_equal. f_equal. eapply stands_known; eauto.
  - destruct (shows_map c1 r _ mp true FMappings l Hr1 Ejr Res (Hq _)) as (v & Ev & Sh). rewrite Ev. inversion Sh; subst. f_equal. f_equal.
    apply ascii_plain in As as [A1 A2]. now apply plain_out.
  - destruct (shows_map c1 r _ mp true FContents l Hr1 Ejr Res (Hq _)) as (v & Ev & Sh). exists v.
    assert (St : exists l', lists v l' /\ stands_for c1 (map_contents mp) l').
    { inversion Sh as [|s l' St|St| | |]; subst; [eexists; split; [constructor|exact St]|]. rewrite St. exists []. split; [constructor|constructor]. }
    destruct St as (l' & Li & St). rewrite (map_contents_gen _ _ _ Eg) in St. rewrite (stands_ats _ _ _ _ (found_listed _ _ _ _ FK) St) in Li. auto.
Qed.
Theorem made_edited_end nu e md c1 t : numbering nu -> reached_cache c1 -> edit_expr e -> (forall v, e <> XRaw v) -> made c1 e t ->
  exists o M E Ls Ln Ks ms es, js_source_and_map true md t = Some (ResMap o) /\ reading nu e M /\ marks nu (unedited e) = Some E /\
    NoDup Ls /\ NoDup Ln /\ incl Ls (sources_in e) /\ incl Ln (names_in e) /\
    reads_as nu Ls Ln ms = Some es /\
    Forall (fun x => within E (snd x)) (annotate es (text_of M)) /\
    (in_order c1 e -> Forall2 agrees M (annotate es (text_of M))) /\
    Forall2 (given_for e) Ls Ks /\ (lone_edits e -> Ks = map (first_content (contents_given e)) Ls) /\
    forall l, Forall quiet l ->
      (~ starts_with BOM (text_of M) -> snd (rstep (fst (rrun (c1, o) l)) RSource) = AText (text_of M)) /\
      snd (rstep (fst (rrun (c1, o) l)) (RGet FSources)) = AVal (VArr (map Some Ls)) /\
      snd (rstep (fst (rrun (c1, o) l)) (RGet FNames)) = AVal (VArr (map Some Ln)) /\
      snd (rstep (fst (rrun (c1, o) l)) (RGet FMappings)) = AVal (VStr ms) /\
      exists v, snd (rstep (fst (rrun (c1, o) l)) (RGet FContents)) = AVal v /\ lists v (map Some (flat_map (fun k => match k with Some k => [k] | None => [] end) Ks)).
Proof.
  intros Hnu Hr1 X NR Hm. destruct (made_edited_full nu e md c1 t Hnu Hr1 X NR Hm) as (o & M & E & Ls & Ln & Ks & ms & es & J & R & _ & Q). now exists o, M, E, Ls, Ln, Ks, ms, es.
Qed.
Theorem edited_end nu c0 e md c1 t : numbering nu -> reached_cache c0 -> edit_expr e -> (forall v, e <> XRaw v) -> build c0 e = (c1, t) ->
  exists o M E Ls Ln Ks ms es, js_source_and_map true md t = Some (ResMap o) /\ reading nu e M /\ marks nu (unedited e) = Some E /\
    NoDup Ls /\ NoDup Ln /\ incl Ls (sources_in e) /\ incl Ln (names_in e) /\
    reads_as nu Ls Ln ms = Some es /\
    Forall (fun x => within E (snd x)) (annotate es (text_of M)) /\
    (in_order c1 e -> Forall2 agrees M (annotate es (text_of M))) /\
    Forall2 (given_for e) Ls Ks /\ (lone_edits e -> Ks = map (first_content (contents_given e)) Ls) /\
    forall l, Forall quiet l ->
      (~ starts_with BOM (text_of M) -> snd (rstep (fst (rrun (c1, o) l)) RSource) = AText (text_of M)) /\
      snd (rstep (fst (rrun (c1, o) l)) (RGet FSources)) = AVal (VArr (map Some Ls)) /\
      snd (rstep (fst (rrun (c1, o) l)) (RGet FNames)) = AVal (VArr (map Some Ln)) /\
      snd (rstep (fst (rrun (c1, o) l)) (RGet FMappings)) = AVal (VStr ms) /\
      exists v, snd (rstep (fst (rrun (c1, o) l)) (RGet FContents)) = AVal v /\ lists v (map Some (flat_map (fun k => match k with Some k => [k] | None => [] end) Ks)).
Proof.
  intros Hnu Hr0 X NR Eb. apply made_edited_end; auto; [eapply reached_build; eauto|]. now apply (build_made e c0 c1 t (reached_ok _ Hr0) Eb).
Qed.
