(** Programs that use maps: what the maps of a CachedSource tell. *)
From Verif Require Import Base Tactics ModelString StringFacts ModelVlq ModelSm ModelSlm ModelSources ModelTree ModelWasm
  ModelJs ModelJsApi SpecText SpecMap SpecAttr SpecEdit SpecEffect SpecLineEdit SpecList
  IdxFacts JsFacts SpecResult ModelJsResult ResultFacts ResultProps SpecJs ModelEnd SpecEnd EndFacts MadeFacts EndMap LineEnd SpecLeast LeastEnd
  SpecEdited EditedBuild EditedOrder EditedEnd SpecLineEdited LineEditedEnd ModelHeap ModelJsProg SpecProg ProgFacts ProgSteps ProgProps ProgEnd
  SpecThrow ThrowProps ModelJsCached SpecCached CachedFacts CachedSteps CachedChain CachedOrigin.

(** ** Growing caches *)
Lemma made_sources c e : forall t, made c e t -> forall s, In s (sources_in e) -> exists i, known c i s.
Proof.
  induction e as [s|v|v n|v n o|p e IH|e h IH|l IH|v n m o i] using jexpr_ind'; intros t Hm s0 Hs; cbn [sources_in] in Hs.
  - destruct Hs.
  - destruct Hs.
  - destruct Hm as (vi & ni & _ & _ & K). destruct Hs as [<-|[]]. eauto.
  - destruct Hm as (ni & oi & _ & K & _). destruct Hs as [<-|[]]. eauto.
  - destruct Hm as (t' & _ & Hm). eauto.
  - destruct Hm as (t' & _ & Hm). eauto.
  - apply made_concat in Hm. destruct Hm as (ts & _ & F). clear t. induction F as [|x t l ts Hx F IHF]; [destruct Hs|].
    inversion IH as [|? ? I1 I2]; subst. apply in_app_iff in Hs. destruct Hs as [Hs|Hs]; [exact (I1 t Hx _ Hs)|exact (IHF I2 Hs)].
  - destruct Hm as (vi & ni & d & oo & ii & _ & _ & _ & (P & _) & _ & Pi).
    assert (F2 : forall is l, Forall2 (known c) is l -> In s0 l -> exists i, known c i s0).
    { intros is l F. induction F as [|k s is l K _ IHF]; intro Hi; [destruct Hi|]. destruct Hi as [<-|Hi]; eauto. }
    apply in_app_iff in Hs. destruct Hs as [Hs|Hs]; [exact (F2 _ _ P Hs)|]. destruct i as [i|]; [|destruct Hs]. destruct Pi as (d2 & _ & P2 & _). exact (F2 _ _ P2 Hs).
Qed.
Lemma in_order_back c c' e t : grows c c' -> made c e t -> in_order c' e -> in_order c e.
Proof.
  intros [_ G] Hm (nu & E & H1 & H2 & H3 & H4). exists nu, E. split; [exact H1|]. split; [exact H2|]. split; [exact H3|]. intros s s' Hs Hs' Lt. apply H4; auto.
  destruct (made_sources _ _ _ Hm _ Hs) as (i & k & _ & K). destruct (made_sources _ _ _ Hm _ Hs') as (i' & k' & _ & K').
  rewrite (number_index _ _ _ K), (number_index _ _ _ K') in Lt. now rewrite (number_index _ _ _ (G _ _ K)), (number_index _ _ _ (G _ _ K')).
Qed.

(** ** Classes of expressions *)
Definition answered (c : cache) (x : robj) (a : rop -> rans) : Prop :=
  exists l, Forall quiet l /\ forall q, a q = snd (rstep (fst (rrun (c, x) l)) q).
Lemma tells_mono nu c b md e (A A' : (rop -> rans) -> Prop) : (forall a, A' a -> A a) -> tells nu c b md e A -> tells nu c b md e A'.
Proof.
  intros H. unfold tells. destruct b; intros [T1 T2]; (split; intro X; [specialize (T1 X)|specialize (T2 X)]).
  - destruct T1 as (M & Ls & Ln & ms & es & H1 & H2 & H3 & H4 & H5 & H6 & H7 & Q). exists M, Ls, Ln, ms, es. repeat (split; [assumption|]). intros a Ha. exact (Q a (H a Ha)).
  - destruct T2 as (M & E & Ls & Ln & Ks & ms & es & H1 & H2 & H3 & H4 & H5 & H6 & H7 & H8 & H9 & H10 & H11 & Q). exists M, E, Ls, Ln, Ks, ms, es. repeat (split; [assumption|]). intros a Ha. exact (Q a (H a Ha)).
  - destruct T1 as (M & Ls & ms & es & H1 & H2 & H3 & H4 & Q). exists M, Ls, ms, es. repeat (split; [assumption|]). intros a Ha. exact (Q a (H a Ha)).
  - destruct T2 as (M & Ls & Ks & ms & es & H1 & H2 & H3 & H4 & H5 & Q). exists M, Ls, Ks, ms, es. repeat (split; [assumption|]). intros a Ha. exact (Q a (H a Ha)).
Qed.
Theorem class_tells nu c b md md' e c1 t : numbering nu -> covered b md e -> (b = false -> md' = md) -> reached_cache c1 -> made c1 e t -> grows c1 c ->
  exists x, js_source_and_map b md' t = Some (ResMap x) /\ tells nu c b md e (answered c1 x).
Proof.
  intros Hnu [NR Cv] Hmd R Hm G. unfold tells. destruct b.
  - assert (X : forall x x', js_source_and_map true md' t = Some (ResMap x) -> js_source_and_map true md' t = Some (ResMap x') -> x = x') by (intros x x' E E'; congruence).
    assert (T1 : exact_expr e -> exists x, js_source_and_map true md' t = Some (ResMap x) /\ tells_columns nu e (answered c1 x)).
    { intro Xe. destruct (made_end nu e md' _ t Hnu R Xe NR Hm) as (x & M & Ls & Ln & ms & es & J & EM & H1 & H2 & H3 & H4 & H5 & H6 & Q).
      exists x. split; [exact J|]. exists M, Ls, Ln, ms, es. repeat (split; [assumption|]). intros a (l & Ql & Ea). rewrite !Ea. exact (Q l Ql). }
    assert (T2 : edit_expr e -> exists x, js_source_and_map true md' t = Some (ResMap x) /\ tells_edited nu c e (answered c1 x)).
    { intro Xe. destruct (made_edited_end nu e md' _ t Hnu R Xe NR Hm) as (x & M & E & Ls & Ln & Ks & ms & es & J & EM & H0 & H1 & H2 & H3 & H4 & H5 & H6 & H7 & H8 & H9 & Q).
      exists x. split; [exact J|]. exists M, E, Ls, Ln, Ks, ms, es. repeat (split; [assumption|]). split; [intro O; exact (H7 (in_order_back _ _ _ _ G Hm O))|]. split; [exact H8|]. split; [exact H9|].
      intros a (l & Ql & Ea). rewrite !Ea. exact (Q l Ql). }
    assert (Ex : exists x, js_source_and_map true md' t = Some (ResMap x)) by (destruct Cv as [Cv|Cv]; [destruct (T1 Cv) as (x & J & _)|destruct (T2 Cv) as (x & J & _)]; eauto).
    destruct Ex as (x & J). exists x. split; [exact J|]. split; intro Xe; [destruct (T1 Xe) as (x' & J' & T)|destruct (T2 Xe) as (x' & J' & T)]; now rewrite (X _ _ J J').
  - rewrite (Hmd eq_refl) in *.
    assert (X : forall x x', js_source_and_map false md t = Some (ResMap x) -> js_source_and_map false md t = Some (ResMap x') -> x = x') by (intros x x' E E'; congruence).
    assert (T1 : line_expr md e -> exists x, js_source_and_map false md t = Some (ResMap x) /\ tells_lines nu md e (answered c1 x)).
    { intro Xe. destruct (made_line_end nu e md _ t Hnu R Xe NR Hm) as (x & M & Ls & ms & es & J & EM & H1 & H2 & H3 & _ & Q).
      exists x. split; [exact J|]. exists M, Ls, ms, es. repeat (split; [assumption|]). intros a (l & Ql & Ea). rewrite !Ea. exact (Q l Ql). }
    assert (T2 : line_edit_expr md e -> exists x, js_source_and_map false md t = Some (ResMap x) /\ tells_line_edited nu md e (answered c1 x)).
    { intro Xe. destruct (made_line_edited nu e md _ t Hnu R Xe NR Hm) as (x & M & Ls & Ks & ms & es & J & EM & H1 & H2 & H3 & H4 & Q).
      exists x. split; [exact J|]. exists M, Ls, Ks, ms, es. repeat (split; [assumption|]). intros a (l & Ql & Ea). rewrite !Ea. exact (Q l Ql). }
    assert (Ex : exists x, js_source_and_map false md t = Some (ResMap x)) by (destruct Cv as [Cv|Cv]; [destruct (T1 Cv) as (x & J & _)|destruct (T2 Cv) as (x & J & _)]; eauto).
    destruct Ex as (x & J). exists x. split; [exact J|]. split; intro Xe; [destruct (T1 Xe) as (x' & J' & T)|destruct (T2 Xe) as (x' & J' & T)]; now rewrite (X _ _ J J').
Qed.
Lemma result_text b md t x c : js_source_and_map b md t = Some (ResMap x) -> exists s x', rstep (c, x) RSource = (c, x', AText s).
Proof.
  intro E. assert (H : exists r nm, x = robj_new r nm).
  { unfold js_source_and_map in E. destruct t; try discriminate; (destruct b; [unb E as n En; unb E as r Er|unb E as l El]; injection E as <-; eauto). }
  destruct H as (r & nm & ->). cbn [rstep ro_get_source robj_new ro_source ro_wasm]. cbn. eauto.
Qed.

(** ** A moment of the program *)
Lemma moment js vs h0 j b p e : prog_inv js vs h0 -> nth_error (js_objs js) j = Some b -> own_ptr b = Some p -> denotes vs (ArgObj j) e ->
  exists t, made (js_cache js) e t /\ (exists s js', js_source t = Some s /\ source_of js j = Some (js', s)) /\
    (forall c m a, js_source_and_map c m t = Some a -> exists js', jstep js (OMap j c m) = Some (js', NResult a)) /\
    (forall c m js' a, jstep js (OMap j c m) = Some (js', a) -> option_map NResult (js_source_and_map c m t) = Some a).
Proof.
  intros Iv Eb Op D. destruct (inv_answers _ _ _ _ _ _ _ Iv Eb Op D) as (t & Hm & A1 & _ & A3). exists t. split; [exact Hm|]. split; [|split].
  - destruct (js_source_total t) as (s & Es & _). rewrite Es in A1. destruct (read_source js b) as [[js' s']|] eqn:Er; [|discriminate]. injection A1 as ->.
    exists s, js'. split; [exact Es|]. unfold source_of. now rewrite (source_own _ _ _ _ _ Eb Op).
  - intros c m a Ea. specialize (A3 c m). rewrite Ea in A3. destruct (read_map_of js b c m) as [[js' a']|] eqn:Er; [|discriminate]. injection A3 as ->.
    exists js'. cbn [jstep]. rewrite Eb. cbn [bind]. now rewrite Er.
  - intros c m js' a E. cbn [jstep] in E. rewrite Eb in E. cbn [bind] in E. unb E as [js2 r] E2. injection E as <- <-. specialize (A3 c m). rewrite E2 in A3. cbn in A3. now rewrite <- A3.
Qed.

Lemma settle st1 st r x a : nth_error (k_results st1) r = Some x -> evolves st1 st r -> later st r a -> answered (kcache st1) x a.
Proof.
  intros Ex Ev (l & st2 & Run & U & ->). destruct (evolves_trans _ _ _ _ Ev (run_evolves l _ _ _ Run U) x Ex) as (x' & l' & E' & Q & R).
  exists l'. split; [exact Q|]. intro q. unfold look. now rewrite E', R.
Qed.
(** A map that was made from the wrapped source at some moment. *)
Lemma made_map nu c b md e st1 vs h1 j bj p o' st2 t0 m : numbering nu -> covered b md e -> prog_inv (k_js st1) vs h1 ->
  nth_error (js_objs (k_js st1)) j = Some bj -> own_ptr bj = Some p -> denotes vs (ArgObj j) e -> grows (kcache st1) c ->
  cols o' = b -> (b = false -> mods o' = md) -> plain_map st1 j o' = Some (st2, t0, m) ->
  exists x, m = Some (length (k_results st1)) /\ t0 = TOf (length (k_results st1)) /\ nth_error (k_results st2) (length (k_results st1)) = Some x /\
    kcache st2 = kcache st1 /\ (exists s x', rstep (kcache st1, x) RSource = (kcache st1, x', AText s)) /\ tells nu c b md e (answered (kcache st2) x).
Proof.
  intros Hnu Cv Iv Eb Op D G Hc Hm Ep. destruct (moment _ _ _ _ _ _ _ Iv Eb Op D) as (t & Mt & _ & A & _).
  destruct (class_tells nu c b md (mods o') e _ t Hnu Cv Hm (iv_cache _ _ _ Iv) Mt G) as (x & J & T). rewrite <- Hc in J. destruct (A _ _ _ J) as (js' & Ej).
  destruct (plain_parts _ _ _ _ _ _ Ep) as (js & a & Ej' & Js & _ & P). rewrite Ej in Ej'. injection Ej' as <- <-. destruct P as (Rs & -> & ->).
  exists x. split; [reflexivity|]. split; [reflexivity|]. split; [rewrite Rs; apply nth_last|].
  assert (C : kcache st2 = kcache st1) by (rewrite Js; apply only_cache; eapply map_reads; eauto).
  split; [exact C|]. split; [eapply result_text; eauto|]. now rewrite C.
Qed.
Lemma plain_done st1 j o a js : jstep (k_js st1) (OMap j (cols o) (mods o)) = Some (js, NResult a) -> exists r, plain_map st1 j o = Some r.
Proof. intro E. unfold plain_map. rewrite E. cbn [bind]. destruct a; eauto. Qed.

Lemma plain_extends st i o st' t m : plain_map st i o = Some (st', t, m) -> extends (kcache st) (kcache st').
Proof. intro E. destruct (plain_parts _ _ _ _ _ _ E) as (js & b & Ej & -> & _). exact (extends_step _ _ _ _ Ej). Qed.
Lemma maps_extends st i o st' m : maps_to st i o st' m -> extends (kcache st) (kcache st').
Proof. intro H. induction H; [eapply plain_extends; eauto|apply extends_refl|assumption]. Qed.
Lemma both_extends st i o st' t m : both_to st i o st' t m -> extends (kcache st) (kcache st').
Proof.
  intro H. induction H as [i o st' t m N E|i j s n o m Eb G|i j s n o st' m Eb G H|i j n o js s m Eb G H|i j n o st1 t st2 s m Eb G H IH F].
  - eapply plain_extends; eauto.
  - apply extends_refl.
  - exact (maps_extends _ _ _ _ _ H).
  - rewrite (proj1 (set_text_cache _ _ _)). cbn [set_js k_js]. rewrite (proj1 (source_frame _ _ _ _ _ H)). apply extends_refl.
  - cbn [remember k_js]. rewrite (proj1 (set_text_cache _ _ _)). destruct (force_parts _ _ _ _ F) as (-> & _). exact IH.
Qed.
Lemma grows_run l st ops h0 st' : kinv st ops h0 -> krun st l = Some st' -> grows (kcache st) (kcache st').
Proof.
  revert st ops h0. induction l as [|op l IH]; intros st ops h0 Iv E; cbn [krun] in E; [injection E as <-; apply grows_refl|]. unb E as [st1 a] E1.
  destruct (kstep_inv _ _ _ _ _ _ Iv E1) as (h1 & Iv1). eapply grows_trans; [|eapply IH; eauto].
  assert (X : extends (kcache st) (kcache st1)).
  { destruct op as [op|i o|i o|k op].
    - cbn [kstep] in E1. unb E1 as [js b] E2. injection E1 as <- _. exact (extends_step _ _ _ _ E2).
    - destruct (step_both _ _ _ _ _ E1) as (t & m & _ & H). exact (both_extends _ _ _ _ _ _ H).
    - destruct (step_map _ _ _ _ _ E1) as (m & _ & H). exact (maps_extends _ _ _ _ _ H).
    - cbn [kstep] in E1. unb E1 as [s1 a1] E3. injection E1 as <- _. destruct (use_parts _ _ _ _ _ E3) as (N & x & c & x' & _ & Er & -> & _). exact (extends_rstep _ _ _ _ _ _ N Er). }
  exact (proj2 (extends_reached _ _ X (iv_cache _ _ _ Iv))).
Qed.

(** ** The calls *)
(** The options, as the specification reads them. *)
Lemma cols_by o : cols o = by_columns o.
Proof. destruct o as [|[[]|] ?]; reflexivity. Qed.
Lemma or_empty_is o : some_options o = or_empty o.
Proof. destruct o; reflexivity. Qed.
Lemma mods_by o : mods o = by_module o.
Proof. destruct o as [|? [[]|]]; reflexivity. Qed.

Section Cached.
  Context {nu : jstr -> Z} {c0 : cache} {ops since : list kop} {st : kstate} {n j : nat} {e : jexpr}
    (Hnu : numbering nu) (R0 : reached_cache c0) (Run : krun (kstate_new c0) ops = Some st)
    (Of : cached_of ops n j since) (Fr : fresh_reads (kmeaning ops) j) (Same : steadily ops j e since).

  Lemma here : nth_error (kmeaning ops) n = Some (VSame j).
  Proof. destruct Of as (ops1 & -> & ->). change (KOp (ONewCached j) :: since) with ([KOp (ONewCached j)] ++ since). rewrite app_assoc. apply same_more, same_step. auto. Qed.
  (** A moment since it was made. *)
  Lemma moments l l' st1 : ops = l ++ l' -> krun (kstate_new c0) l = Some st1 -> nth_error (kmeaning l) n = Some (VSame j) ->
    exists h1 b p, kinv st1 l h1 /\ denotes (kmeaning l) (ArgObj j) e /\
      nth_error (js_objs (k_js st1)) j = Some b /\ own_ptr b = Some p /\ grows (kcache st1) (kcache st).
  Proof.
    intros El R1 En. destruct (start_inv _ _ _ R0 R1) as (h1 & Iv1).
    assert (D : denotes (kmeaning l) (ArgObj j) e).
    { destruct Of as (ops1 & E & Hn). rewrite El in E. assert (Hl : exists l2, l = ops1 ++ KOp (ONewCached j) :: l2 /\ since = l2 ++ l').
      { destruct (app_eq_app _ _ _ _ E) as (m & [(E1 & E2)|(E1 & E2)]).
        - destruct m as [|x m]; [exfalso; rewrite app_nil_r in E1; subst l; assert (n < length (kmeaning ops1)) by (apply nth_error_Some; congruence); lia|].
          cbn [app] in E2. injection E2 as <- E2. eauto.
        - exfalso. assert (n < length (kmeaning l)) by (apply nth_error_Some; congruence). pose proof (kmeaning_lens l m) as Lm. rewrite <- E1 in Lm. lia. }
      destruct Hl as (l2 & -> & Es). apply (Same ops1 l2 l'); [|exact Es]. rewrite El, <- app_assoc, Es. reflexivity. }
    assert (F1 : fresh_reads (kmeaning l) j) by (rewrite El in Fr; eapply fresh_less; eauto).
    destruct (inv_fresh _ _ _ _ _ Iv1 D F1) as (b & p & Eb & Op). exists h1, b, p. split; [exact Iv1|]. split; [exact D|]. split; [exact Eb|]. split; [exact Op|].
    pose proof Run as Run'. rewrite El, krun_app, R1 in Run'. cbn [bind] in Run'. eapply grows_run; eauto.
  Qed.
  Lemma now : exists h1 b p, kinv st ops h1 /\ denotes (kmeaning ops) (ArgObj j) e /\
      nth_error (js_objs (k_js st)) j = Some b /\ own_ptr b = Some p /\ grows (kcache st) (kcache st).
  Proof. apply (moments ops [] st); [now rewrite app_nil_r|exact Run|exact here]. Qed.

  (** A map that a CachedSource around [j] remembers. *)
  Lemma entry b md k key m : covered b md e -> wraps (kmeaning ops) k n -> maps_get (k_maps st k) key = Some m ->
    (forall o', kin c0 ops n j k key o' -> cols o' = b /\ (b = false -> mods o' = md)) ->
    exists r, m = Some r /\ (untouched r ops -> forall st', evolves st st' r -> tells nu (kcache st) b md e (later st' r)).
  Proof.
    intros Cv W G Hk. destruct (proj2 (origins _ _ R0 _ Run _ _ here Fr _ W) _ _ G) as (l & op & l' & st1 & st2 & t0 & o' & El & R1 & En & Ep & Ev & Kn).
    destruct (moments _ _ _ El R1 En) as (h1 & bj & p & Iv1 & D & Eb & Op & Gr). destruct (Hk _ Kn) as [Hc Hm].
    destruct (made_map nu (kcache st) b md e _ _ _ _ _ _ _ _ _ _ Hnu Cv Iv1 Eb Op D Gr Hc Hm Ep) as (x & -> & _ & Ex & _ & _ & T).
    eexists. split; [reflexivity|]. intros U st' Ev'. refine (tells_mono _ _ _ _ _ _ _ _ T). intros a. apply settle; [exact Ex|].
    eapply evolves_trans; [|exact Ev']. apply Ev. rewrite El in U. apply untouched_app in U. destruct U as [_ U]. intros q Hq. apply U. now right.
  Qed.
  Lemma fresh_entry b md o' : covered b md e -> cols o' = b -> (b = false -> mods o' = md) ->
    exists st2 r s st3, plain_map st j o' = Some (st2, TOf r, Some r) /\ force st2 (TOf r) = Some (st3, s) /\
      forall st', evolves st2 st' r -> tells nu (kcache st) b md e (later st' r).
  Proof.
    intros Cv Hc Hm. destruct now as (h1 & bj & p & Iv1 & D & Eb & Op & Gr).
    destruct (moment _ _ _ _ _ _ _ Iv1 Eb Op D) as (t & Mt & _ & A & _). destruct (class_tells nu (kcache st) b md (mods o') e _ t Hnu Cv Hm (iv_cache _ _ _ Iv1) Mt Gr) as (x0 & J & _).
    rewrite <- Hc in J. destruct (A _ _ _ J) as (js' & Ej). destruct (plain_done _ _ _ _ _ Ej) as ([[st2 t0] m] & Ep).
    destruct (made_map nu (kcache st) b md e _ _ _ _ _ _ _ _ _ _ Hnu Cv Iv1 Eb Op D Gr Hc Hm Ep) as (x & -> & -> & Ex & C & (s & x' & Es) & T).
    exists st2, (length (k_results st)), s. eexists. split; [exact Ep|]. split.
    - cbn [force use_result]. rewrite Ex. cbn [bind]. rewrite C, Es. reflexivity.
    - intros st' Ev. refine (tells_mono _ _ _ _ _ _ _ _ T). intros a. now apply settle.
  Qed.
  Lemma fresh_tells b md o' st' m : covered b md e -> cols o' = b -> (b = false -> mods o' = md) -> @fresh_from st j st' m o' ->
    exists r, m = Some r /\ (untouched r ops -> tells nu (kcache st) b md e (later st' r)).
  Proof.
    intros Cv Hc Hm (st1 & t0 & Ep & Ev). destruct (fresh_entry b md o' Cv Hc Hm) as (st2 & r & s & st3 & Ep' & _ & T). rewrite Ep in Ep'. injection Ep' as <- _ ->. eauto.
  Qed.
  Lemma old_tells b md i key st' m : covered b md e -> @old_from st (kmeaning ops) n i m key -> (forall r, evolves st st' r) ->
    (forall k o', wraps (kmeaning ops) i k -> wraps (kmeaning ops) k n -> kin c0 ops n j k key o' -> cols o' = b /\ (b = false -> mods o' = md)) ->
    exists r, m = Some r /\ (untouched r ops -> tells nu (kcache st) b md e (later st' r)).
  Proof. intros Cv (k & Wi & Wk & G) Ev Hk. destruct (entry b md k key m Cv Wk G) as (r & -> & T); eauto. Qed.
  Lemma kin_cols k key o' : kin c0 ops n j k key o' -> cols key = true -> cols o' = true.
  Proof. intros [(-> & _)|(H & _)]; auto. Qed.

  (** The calls do not fail. *)
  Lemma source_ok k : wraps (kmeaning ops) k n -> exists js s, source_of (k_js st) k = Some (js, s).
  Proof.
    destruct now as (h1 & bj & p & Iv1 & D & Eb & Op & Gr). destruct (moment _ _ _ _ _ _ _ Iv1 Eb Op D) as (t & _ & (s0 & js0 & _ & Es) & _). unfold source_of in *.
    assert (K : forall d k, k <= d -> wraps (kmeaning ops) k n -> exists js s, source_from d (k_js st) k = Some (js, s)); [|intro W; apply K; [lia|exact W]].
    induction d as [|d IH]; intros i L W; destruct (member_cached Iv1 here i W) as (j' & t' & n' & Ei); destruct (inv_same Iv1 _ _ _ _ Ei) as (Ev & Lt & _); [lia|].
    cbn [source_from]. rewrite Ei. cbn [bind]. destruct t' as [u|]; [eauto|].
    assert (X : exists js s, source_from d (k_js st) j' = Some (js, s)).
    { destruct (inner_of Iv1 here _ _ _ _ Ei W) as [(-> & ->)|(_ & W')]; [|apply IH; [lia|exact W']]. rewrite (source_depth Iv1 Fr d j). eauto. }
    destruct X as (js & s & ->). cbn [bind]. eauto.
  Qed.
  Lemma maps_ok : (exists r, plain_map st j JUndef = Some r) -> forall k, wraps (kmeaning ops) k n -> forall o, exists st' m, maps_to st k o st' m.
  Proof.
    intros ([[st1 t1] m1] & Ep). destruct now as (h1 & bj & p & Iv1 & _). intro k. induction k as [k IH] using lt_wf_ind. intros W o.
    destruct (member_cached Iv1 here k W) as (j' & t' & n' & Ei). destruct (inv_same Iv1 _ _ _ _ Ei) as (Ev & Lt & _).
    destruct (maps_get (k_maps st k) (some_options o)) as [m|] eqn:G; [exists st, m; eapply mt_hit; eauto|].
    destruct (inner_of Iv1 here _ _ _ _ Ei W) as [(-> & ->)|(_ & W')].
    - eexists _, _. eapply mt_miss; eauto. eapply mt_plain; [exact (core_plain Iv1 Fr)|exact Ep].
    - destruct (IH _ Lt W' JUndef) as (st2 & m2 & H). eexists _, _. eapply mt_miss; eauto.
  Qed.
  Lemma both_ok o : (exists st1 t m st2 s, plain_map st j o = Some (st1, t, m) /\ force st1 t = Some (st2, s)) -> forall k, wraps (kmeaning ops) k n ->
    ~ @lost st (kmeaning ops) n k o \/ (exists r, plain_map st j JUndef = Some r) -> exists st' s m, both_to st k o st' (TNow s) m.
  Proof.
    intros (st1 & t1 & m1 & st2 & s2 & Ep & F). destruct now as (h1 & bj & p & Iv1 & _). intro k. induction k as [k IH] using lt_wf_ind. intros W L.
    destruct (member_cached Iv1 here k W) as (j' & t' & n' & Ei). destruct (inv_same Iv1 _ _ _ _ Ei) as (Ev & Lt & _).
    destruct t' as [u|], (maps_get (k_maps st k) o) as [m|] eqn:G.
    - exists st, u, m. eapply bt_hit; eauto.
    - destruct (inner_of Iv1 here _ _ _ _ Ei W) as [(-> & ->)|(Ne & W')].
      + eexists _, u, _. eapply bt_map; eauto. eapply mt_plain; [exact (core_plain Iv1 Fr)|exact Ep].
      + destruct L as [L|Ok].
        * destruct L. exists k, j', u, n'. split; [constructor|]. split; [exact W|]. split; [exact Ne|]. split; [now apply is_memo|exact G].
        * destruct (maps_ok Ok _ W' o) as (st3 & m3 & H). eexists _, u, _. eapply bt_map; eauto.
    - destruct (inner_of Iv1 here _ _ _ _ Ei W) as [(-> & ->)|(Ne & W')].
      + destruct now as (h2 & b2 & p2 & Iv2 & D & Eb & Op & Gr). destruct (moment _ _ _ _ _ _ _ Iv2 Eb Op D) as (t & _ & (s0 & js0 & _ & Es) & _). eexists _, s0, m. eapply bt_text; eauto.
      + destruct (source_ok _ W') as (js0 & s0 & Es). eexists _, s0, m. eapply bt_text; eauto.
    - destruct (inner_of Iv1 here _ _ _ _ Ei W) as [(-> & ->)|(Ne & W')].
      + eexists _, s2, _. eapply bt_both; eauto. eapply bt_plain; [exact (core_plain Iv1 Fr)|exact Ep].
      + destruct (IH _ Lt W') as (st3 & s3 & m3 & H); [destruct L as [L|Ok]; [left; intro L'; apply L; eapply lost_in; eauto|auto]|]. eexists _, s3, _. eapply bt_both; eauto. reflexivity.
  Qed.
  Lemma lost_inner k o : @lost st (kmeaning ops) n k o -> k <> n.
  Proof.
    intros (k' & _ & _ & _ & W & W' & Ne & _) ->. destruct now as (h1 & bj & p & Iv1 & _). apply Ne, (wraps_anti _ (iv_down _ _ _ Iv1)); assumption.
  Qed.

  Theorem cached_pair i o : wraps (kmeaning ops) i n -> covered (cols o) (mods o) e -> suits ops n i o ->
    exists st' s r, kstep st (KSourceAndMap i o) = Some (st', KPair (TNow s) (Some r)) /\
      (untouched r ops -> tells nu (kcache st) (cols o) (mods o) e (later st' r)).
  Proof.
    intros W Cv Su. destruct now as (h1 & bj & p & Iv1 & _).
    destruct (fresh_entry _ _ o Cv eq_refl (fun _ => eq_refl)) as (st2 & r0 & s0 & st3 & Ep & F & _).
    (* with columns, every default map will do; otherwise none was used *)
    assert (X : cols o = true \/ cols o = false /\ ~ @lost st (kmeaning ops) n i o /\
      forall k o', wraps (kmeaning ops) i k -> wraps (kmeaning ops) k n -> kin c0 ops n j k o o' -> o' = o).
    { destruct (cols o) eqn:Ec; [now left|right; split; [reflexivity|]].
      destruct Su as [Su|[(-> & S1 & S2)|Su]]; [rewrite <- cols_by in Su; congruence| |].
      - split; [intro L; exact (lost_inner _ _ L eq_refl)|]. intros k o' Wi Wk Kn. assert (k = n) as -> by (symmetry; apply (wraps_anti _ (iv_down _ _ _ Iv1)); assumption).
        destruct Kn as [(-> & _)|(_ & [Kn|[(k' & o2 & W2 & Hn & Hi & Eo)|(l & l' & st1 & i' & El & R1 & En & Wl & L)]])]; [reflexivity|congruence| |]; exfalso.
        + rewrite (Hn eq_refl) in *. rewrite or_empty_is in Eo. exact (S1 _ Hi Eo).
        + apply (S2 i'); [rewrite El; now apply wraps_more| |rewrite El; apply in_app_iff; right; now left].
          intros ->. destruct L as (k' & _ & _ & _ & V & V' & Ne & _). apply Ne. destruct (start_inv _ _ _ R0 R1) as (h3 & Iv3). apply (wraps_anti _ (iv_down _ _ _ Iv3)); assumption.
      - assert (Pl : plainly ops n o) by (intros k Wk; destruct (Su k Wk) as [P1 P2]; split; [intros o' Hi; rewrite or_empty_is; auto|exact P2]).
        assert (NL : forall l l' st1 i', ops = l ++ l' -> krun (kstate_new c0) l = Some st1 -> nth_error (kmeaning l) n = Some (VSame j) -> ~ @lost st1 (kmeaning l) n i' o).
        { intros l l' st1 i' El R1 En (k' & j' & u & n' & V & V' & Ne & M & G). rewrite El in Fr, Pl.
          destruct (proj1 (levels c0 n j o R0 Ec l st1 R1 En (fresh_less _ _ _ Fr) (plainly_less _ _ _ _ Pl) k' V' Ne)) as (m & G'); [eauto|congruence]. }
        split; [apply (NL ops []); [now rewrite app_nil_r|exact Run|exact here]|]. intros k o' Wi Wk Kn.
        destruct Kn as [(-> & _)|(_ & [Kn|[(k' & o2 & W2 & Hn & Hi & Eo)|(l & l' & st1 & i' & El & R1 & En & Wl & L)]])]; [reflexivity|congruence| |]; exfalso.
        + exact (proj1 (Pl _ W2) _ Hi Eo).
        + exact (NL _ _ _ _ El R1 En L). }
    assert (Ok : exists st1 t m st2 s, plain_map st j o = Some (st1, t, m) /\ force st1 t = Some (st2, s)) by eauto 8.
    destruct (both_ok o Ok i W) as (st' & s & m & H).
    { destruct X as [Hc|(_ & L & _)]; [right|now left]. rewrite Hc in Cv. destruct (fresh_entry true _ JUndef Cv eq_refl) as (? & ? & ? & ? & E & _); [discriminate|eauto]. }
    exists st', s. pose proof (both_step _ _ _ _ _ _ _ _ Iv1 H) as Ks. assert (Ev : forall r, evolves st st' r) by (intro r; eapply both_evolves; eauto).
    assert (T : exists r, m = Some r /\ (untouched r ops -> tells nu (kcache st) (cols o) (mods o) e (later st' r))); [|destruct T as (r & -> & T); eauto].
    destruct (both_born Iv1 here Fr _ _ _ _ _ H W) as [Hf|[Ho|(L & Hf)]].
    - exact (fresh_tells _ _ o _ _ Cv eq_refl (fun _ => eq_refl) Hf).
    - eapply old_tells; eauto. intros k o' Wi Wk Kn. destruct X as [Hc|(_ & _ & X)]; [|rewrite (X _ _ Wi Wk Kn); auto].
      rewrite Hc. split; [eapply kin_cols; eauto|discriminate].
    - destruct X as [Hc|(_ & X & _)]; [|contradiction]. rewrite Hc in *.
      destruct Hf as [Hf|[Ho|Ho]]; [apply (fresh_tells true (mods o) JUndef _ _ Cv eq_refl); [discriminate|exact Hf]| |]; (eapply old_tells; eauto); intros k o' _ _ Kn; (split; [|discriminate]); apply (kin_cols _ _ _ Kn).
      + destruct o; [reflexivity|exact Hc].
      + reflexivity.
  Qed.
  Theorem cached_map_of i o md : wraps (kmeaning ops) i n -> covered true md e ->
    by_columns o = true \/ (forall k, wraps (kmeaning ops) k i -> ~ In (KSourceAndMap k o) ops) ->
    exists st' r, kstep st (KMap i o) = Some (st', KMapped (Some r)) /\ (untouched r ops -> tells nu (kcache st) true md e (later st' r)).
  Proof.
    intros W Cv Su. destruct now as (h1 & bj & p & Iv1 & _). destruct (fresh_entry true md JUndef Cv eq_refl) as (? & ? & ? & ? & E & _); [discriminate|].
    destruct (maps_ok (ex_intro _ _ E) i W o) as (st' & m & H). exists st'. rewrite (map_step _ _ _ _ _ _ _ Iv1 H). assert (Ev : forall r, evolves st st' r) by (intro r; eapply maps_evolves; eauto).
    assert (T : exists r, m = Some r /\ (untouched r ops -> tells nu (kcache st) true md e (later st' r))); [|destruct T as (r & -> & T); eauto].
    destruct (maps_born Iv1 here Fr _ _ _ _ H W) as [Hf|[G|Ho]].
    - apply (fresh_tells true md JUndef _ _ Cv eq_refl); [discriminate|exact Hf].
    - destruct (entry true md i (some_options o) m Cv W G) as (r & -> & T); [|eauto]. intros o' Kn. split; [|discriminate].
      destruct (cols (some_options o)) eqn:Ec; [eapply kin_cols; eauto|]. destruct Kn as [(-> & k & Wk & Hi)|(Hc & _)]; [|exact Hc]. exfalso.
      assert (Eo : some_options o = o) by (destruct o; [discriminate|reflexivity]). rewrite Eo in *. destruct Su as [Su|Su]; [rewrite <- cols_by in Su; congruence|]. exact (Su _ Wk Hi).
    - eapply old_tells; eauto. intros k o' _ _ Kn. split; [eapply kin_cols; eauto|discriminate].
  Qed.

  (** The text. *)
  Section Text.
    Context (u : jstr) (P : jopt -> Prop)
      (Tx : forall c1 t, reached_cache c1 -> made c1 e t -> js_source t = Some u /\
        forall o x, P o -> js_source_and_map (cols o) (mods o) t = Some (ResMap x) -> snd (rstep (c1, x) RSource) = AText u).
    Lemma text_at st1 vs h1 b p s : prog_inv (k_js st1) vs h1 -> denotes vs (ArgObj j) e -> nth_error (js_objs (k_js st1)) j = Some b -> own_ptr b = Some p ->
      @read_text st1 j s \/ (exists i o, P o /\ @both_text st1 vs n j i o s) -> s = u.
    Proof.
      intros Iv D Eb Op H. destruct (moment _ _ _ _ _ _ _ Iv Eb Op D) as (t & Mt & (s' & js' & Es & Ej) & _ & B). destruct (Tx _ _ (iv_cache _ _ _ Iv) Mt) as [T1 T2].
      destruct H as [(js & E)|(i & o & Ho & _ & st2 & t0 & m & st3 & Ep & Ef)]; [congruence|].
      destruct (plain_parts _ _ _ _ _ _ Ep) as (js & a & Ea & Js & _ & Q). specialize (B _ _ _ _ Ea).
      assert (C : kcache st2 = kcache st1) by (rewrite Js; apply only_cache; eapply map_reads; eauto).
      destruct (js_source_and_map (cols o) (mods o) t) as [a'|] eqn:Ja; [|discriminate]. injection B as ->. destruct a as [v|x].
      - destruct Q as (_ & -> & _). cbn [force] in Ef. injection Ef as _ <-. clear - T1 Ja. unfold js_source_and_map in Ja.
        destruct t; try discriminate; try (destruct (cols o); [unb Ja as n En; unb Ja as r Er|unb Ja as l El]; discriminate). injection Ja as <-. cbn in T1. congruence.
      - destruct Q as (Rs & -> & _). destruct (force_parts _ _ _ _ Ef) as (_ & _ & y & y' & Ey & Er & _). rewrite Rs, nth_last in Ey. injection Ey as <-.
        specialize (T2 o x Ho Ja). rewrite C in Er. rewrite Er in T2. cbn [snd] in T2. congruence.
    Qed.
    Hypothesis (HP : forall k o, wraps (kmeaning ops) k n -> In (KSourceAndMap k o) ops -> P o).
    Lemma old_is s : @old_text st (kmeaning ops) n s -> s = u.
    Proof.
      intros (k & j' & n' & W & M). destruct (proj1 (origins _ _ R0 _ Run _ _ here Fr _ W) _ _ _ M) as (l & op & l' & st1 & El & R1 & En & H).
      destruct (moments _ _ _ El R1 En) as (h1 & bj & p & Iv1 & D & Eb & Op & Gr). apply (text_at _ _ _ _ _ _ Iv1 D Eb Op). destruct H as [H|(i & o & -> & H)]; [now left|].
      right. exists i, o. split; [|exact H]. apply (HP i); [rewrite El; apply wraps_more; exact (proj1 H)|]. rewrite El. apply in_app_iff. right. now left.
    Qed.
    Lemma now_is s : @read_text st j s \/ (exists i o, P o /\ @both_text st (kmeaning ops) n j i o s) -> s = u.
    Proof. destruct now as (h1 & bj & p & Iv1 & D & Eb & Op & Gr). exact (text_at _ _ _ _ _ _ Iv1 D Eb Op). Qed.
    Theorem cached_source i : wraps (kmeaning ops) i n -> exists st', kstep st (KOp (OSource i)) = Some (st', KDone (NText u)).
    Proof.
      intro W. destruct now as (h1 & bj & p & Iv1 & _). destruct (source_ok i W) as (js & s & Es). assert (s = u) as ->.
      { destruct (proj1 (source_born Iv1 here Fr _ _ _ _ Es) W) as [H|H]; [now apply old_is|apply now_is; now left]. }
      cbn [kstep jstep]. rewrite Es. cbn [bind]. eauto.
    Qed.
    Theorem cached_pair_text i o st' t m : wraps (kmeaning ops) i n -> P o -> kstep st (KSourceAndMap i o) = Some (st', KPair t m) -> t = TNow u.
    Proof.
      intros W Ho E. destruct now as (h1 & bj & p & Iv1 & _). destruct (step_both _ _ _ _ _ E) as (t1 & m1 & Ea & H). injection Ea as <- <-.
      assert (Ht : exists s, t = TNow s).
      { destruct (member_cached Iv1 here i W) as (j' & t' & n' & Ei). inversion H as [i1 o1 s1 t1 m1 N Ex|i1 j1 s1 n1 o1 m1 Eb1 G1|i1 j1 s1 n1 o1 s2 m1 Eb1 G1 H1|i1 j1 n1 o1 js1 s1 m1 Eb1 G1 H1|i1 j1 n1 o1 s3 t1 s2 s1 m1 Eb1 G1 H1 F1]; subst; eauto.
        destruct (N _ _ _ Ei). }
      destruct Ht as (s & ->). f_equal. destruct (proj1 (both_texts Iv1 here Fr _ _ _ _ _ H) W _ eq_refl) as [Hx|[Hx|Hx]]; [now apply old_is|apply now_is; now left|apply now_is; right; eauto].
    Qed.
  End Text.
End Cached.

(** Sources that are not CachedSources. *)
Section Fresh.
  Context {nu : jstr -> Z} {c0 : cache} {ops : list kop} {st : kstate} {i : nat} {e : jexpr}
    (Hnu : numbering nu) (R0 : reached_cache c0) (Run : krun (kstate_new c0) ops = Some st)
    (D : denotes (kmeaning ops) (ArgObj i) e) (F : fresh_reads (kmeaning ops) i).
  Lemma fresh_map o : covered (cols o) (mods o) e -> exists st' r, plain_map st i o = Some (st', TOf r, Some r) /\
    tells nu (kcache st) (cols o) (mods o) e (later st' r) /\ forall j t n, nth_error (js_objs (k_js st)) i <> Some (BCached j t n).
  Proof.
    intros Cv. destruct (start_inv _ _ _ R0 Run) as (h0 & Iv). destruct (inv_fresh _ _ _ _ _ Iv D F) as (b & p & Eb & Op).
    destruct (moment _ _ _ _ _ _ _ Iv Eb Op D) as (t & Mt & _ & A & _). destruct (class_tells nu (kcache st) _ _ (mods o) e _ t Hnu Cv (fun _ => eq_refl) (iv_cache _ _ _ Iv) Mt (grows_refl _)) as (x0 & J & _).
    destruct (A _ _ _ J) as (js' & Ej). destruct (plain_done _ _ _ _ _ Ej) as ([[st2 t0] m] & Ep).
    destruct (made_map nu (kcache st) _ _ e _ _ _ _ _ _ _ _ _ _ Hnu Cv Iv Eb Op D (grows_refl _) eq_refl (fun _ => eq_refl) Ep) as (x & -> & -> & Ex & C & _ & T).
    exists st2, (length (k_results st)). split; [exact Ep|]. split.
    - refine (tells_mono _ _ _ _ _ _ _ _ T). intros a. apply settle; [exact Ex|apply evolves_refl].
    - intros j t' n' E. rewrite Eb in E. injection E as ->. discriminate.
  Qed.
  Theorem fresh_pair o : covered (cols o) (mods o) e -> exists st' r, kstep st (KSourceAndMap i o) = Some (st', KPair (TOf r) (Some r)) /\
    kstep st (KMap i o) = Some (st', KMapped (Some r)) /\ tells nu (kcache st) (cols o) (mods o) e (later st' r).
  Proof.
    intros Cv. destruct (fresh_map o Cv) as (st' & r & Ep & T & N). destruct (start_inv _ _ _ R0 Run) as (h0 & Iv). exists st', r.
    split; [exact (both_step _ _ _ _ _ _ _ _ Iv (bt_plain _ _ _ _ _ _ N Ep))|]. split; [exact (map_step _ _ _ _ _ _ _ Iv (mt_plain _ _ _ _ _ _ N Ep))|exact T].
  Qed.
End Fresh.

(** ** Again *)
Lemma keeps_run l : forall st ops h0 st', kinv st ops h0 -> krun st l = Some st' -> keeps (k_js st) (k_js st').
Proof.
  induction l as [|op l IH]; intros st ops h0 st' Iv E; cbn [krun] in E; [injection E as <-; apply keeps_refl|]. unb E as [st1 a] E1.
  destruct (kstep_inv _ _ _ _ _ _ Iv E1) as (h1 & Iv1). eapply keeps_trans; [eapply step_keeps; eauto|eauto].
Qed.
Lemma get_run l : forall st i o m st', krun st l = Some st' -> maps_get (k_maps st i) o = Some m -> maps_get (k_maps st' i) o = Some m.
Proof. induction l as [|op l IH]; intros st i o m st' E G; cbn [krun] in E; [now injection E as <-|]. unb E as [st1 a] E1. eauto using get_keep. Qed.
Theorem pair_again c0 ops st i j o st1 t m l st2 : reached_cache c0 -> krun (kstate_new c0) ops = Some st -> nth_error (kmeaning ops) i = Some (VSame j) ->
  kstep st (KSourceAndMap i o) = Some (st1, KPair t m) -> krun st1 l = Some st2 -> kstep st2 (KSourceAndMap i o) = Some (st2, KPair t m).
Proof.
  intros R Run Ev E Run'. destruct (start_inv _ _ _ R Run) as (h0 & Iv). destruct (kstep_inv _ _ _ _ _ _ Iv E) as (h1 & Iv1). destruct (krun_inv _ _ _ _ _ Iv1 Run') as (h2 & Iv2).
  destruct (inv_cachedv Iv _ _ Ev) as (t0 & n & Eb). destruct (step_both _ _ _ _ _ E) as (t1 & m1 & Ea & H). injection Ea as <- <-.
  pose proof (wraps_under _ (iv_down _ _ _ Iv)) as Un.
  assert (X : exists j' s n', t = TNow s /\ memo (k_js st1) i = Some (j', Some s, n') /\ maps_get (k_maps st1 i) o = Some m).
  { inversion H as [i' o' st' t' m' N Ep|i' j' s n' o' m' Eb' G|i' j' s n' o' st' m' Eb' G H'|i' j' n' o' js s m' Eb' G H'|i' j' n' o' sa t' sb s m' Eb' G H' F]; subst.
    - destruct (N _ _ _ Eb).
    - exists j', s, n'. split; [reflexivity|]. split; [now apply is_memo|exact G].
    - exists j', s, n'. split; [reflexivity|]. split; [|apply remembered]. cbn [remember k_js]. rewrite (maps_memo _ _ _ _ _ i H'). now apply is_memo.
    - destruct (inv_same Iv _ _ _ _ Eb') as (_ & Lt & _). exists j', s, n'. split; [reflexivity|]. split.
      + rewrite memo_text, Nat.eqb_refl. cbn [set_js k_js]. rewrite (source_memo _ _ _ _ _ _ _ i Iv H'); [now rewrite (is_memo _ _ _ _ _ Eb')|]. intro W. apply Un in W. lia.
      + now rewrite (proj2 (proj2 (set_text_cache _ _ _))).
    - destruct (inv_same Iv _ _ _ _ Eb') as (_ & Lt & _). exists j', s, n'. split; [reflexivity|]. split; [|apply remembered].
      cbn [remember k_js]. rewrite memo_text, Nat.eqb_refl. destruct (force_parts _ _ _ _ F) as (-> & _).
      rewrite (proj1 (both_frame _ _ _ Iv _ _ _ _ _ H' i (fun W => Nat.lt_irrefl i (Nat.le_lt_trans _ _ _ (Un _ _ W) Lt)))). now rewrite (is_memo _ _ _ _ _ Eb'). }
  destruct X as (j' & s & n' & -> & M1 & G1). destruct (keeps_run _ _ _ _ _ Iv1 Run' _ _ _ _ M1) as (t2 & n2 & M2 & T2). rewrite (T2 _ eq_refl) in M2. pose proof (get_run _ _ _ _ _ _ Run' G1) as G2.
  apply (both_step _ _ _ _ _ _ _ _ Iv2). eapply bt_hit; [apply memo_is; exact M2|exact G2].
Qed.
Theorem map_again c0 ops st i j o st1 m l st2 : reached_cache c0 -> krun (kstate_new c0) ops = Some st -> nth_error (kmeaning ops) i = Some (VSame j) ->
  kstep st (KMap i o) = Some (st1, KMapped m) -> krun st1 l = Some st2 -> kstep st2 (KMap i o) = Some (st2, KMapped m).
Proof.
  intros R Run Ev E Run'. destruct (start_inv _ _ _ R Run) as (h0 & Iv). destruct (kstep_inv _ _ _ _ _ _ Iv E) as (h1 & Iv1). destruct (krun_inv _ _ _ _ _ Iv1 Run') as (h2 & Iv2).
  destruct (inv_cachedv Iv _ _ Ev) as (t0 & n & Eb). destruct (step_map _ _ _ _ _ E) as (m1 & Ea & H). injection Ea as <-.
  assert (G : maps_get (k_maps st1 i) (some_options o) = Some m).
  { inversion H as [i' o' st' t' m' N Ep|i' j' t' n' o' m' Eb' G|i' j' t' n' o' st' m' Eb' G H']; subst; [destruct (N _ _ _ Eb)|exact G|apply remembered]. }
  pose proof (get_run _ _ _ _ _ _ Run' G) as G2. assert (K : keeps (k_js st) (k_js st2)) by (eapply keeps_trans; [eapply step_keeps; eauto|eapply keeps_run; eauto]).
  destruct (K _ _ _ _ (is_memo _ _ _ _ _ Eb)) as (t2 & n2 & M2 & _). apply (map_step _ _ _ _ _ _ _ Iv2). eapply mt_hit; [apply memo_is; exact M2|exact G2].
Qed.

Lemma exact_text nu e M : numbering nu -> exact_expr e -> marks nu e = Some M -> js_source (alone e) = Some (text_of M) -> ~ starts_with BOM (text_of M) ->
  forall c1 t, reached_cache c1 -> made c1 e t -> js_source t = Some (text_of M) /\
    forall o x, cols o = true -> js_source_and_map (cols o) (mods o) t = Some (ResMap x) -> snd (rstep (c1, x) RSource) = AText (text_of M).
Proof.
  intros Hnu X EM Es NB c1 t R Hm. rewrite (proj1 (made_js_source _ _ _ _ _ Hm (alone_made e))). split; [exact Es|]. intros o x Ho J. rewrite Ho in J.
  assert (NR : forall v, e <> XRaw v) by (intros v ->; cbn [made] in Hm; subst t; discriminate).
  destruct (made_end nu e (mods o) _ t Hnu R X NR Hm) as (x' & M' & Ls & Ln & ms & es & J' & EM' & _ & _ & _ & _ & _ & _ & Q).
  rewrite EM in EM'. injection EM' as <-. rewrite J in J'. injection J' as <-. exact (proj1 (Q [] (Forall_nil _)) NB).
Qed.
