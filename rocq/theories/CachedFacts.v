(** Programs that use maps: what their calls keep. *)
From Verif Require Import Base Tactics ModelString StringFacts ModelVlq ModelSm ModelSlm ModelSources ModelTree ModelWasm
  ModelJs ModelJsApi SpecText SpecMap SpecAttr SpecEdit SpecEffect SpecLineEdit SpecList
  IdxFacts JsFacts SpecResult ModelJsResult ResultFacts ResultProps SpecJs ModelEnd SpecEnd EndFacts MadeFacts EndMap LineEnd SpecLeast LeastEnd
  SpecEdited EditedBuild EditedEnd SpecLineEdited LineEditedEnd ModelHeap ModelJsProg SpecProg ProgFacts ProgSteps ProgProps ProgEnd
  ModelJsCached SpecCached.

(** ** The string cache *)
Lemma extends_reached c c' : extends c c' -> reached_cache c -> reached_cache c' /\ grows c c'.
Proof.
  intros X R. destruct (X (mk_robj None None (fun _ => None) false false)) as (l & Q & E). clear X.
  revert E. generalize (mk_robj None None (fun _ => None) false false) at 2. generalize (mk_robj None None (fun _ => None) false false).
  revert c R. induction Q as [|q l Hq Q IH]; intros c R o o' E; cbn [rrun fst] in E.
  - injection E as -> _. split; [exact R|apply grows_refl].
  - destruct (rstep (c, o) q) as [[c1 o1] a] eqn:Es. destruct (rrun (c1, o1) l) as [w out] eqn:Er. cbn [fst] in E. subst w.
    assert (H1 : reached_cache c1 /\ grows c c1).
    { destruct q; try contradiction; cbn [rstep] in Es.
      - destruct (ro_get c o f). injection Es as <- _ _. split; [exact R|apply grows_refl].
      - destruct (ro_get_source o). injection Es as <- _ _. split; [exact R|apply grows_refl].
      - injection Es as <- _ _. destruct checked.
        + destruct (cache_add c s) as [c2 i] eqn:E2. split; [eapply reached_add; eauto|]. apply (add_known _ _ _ _ (reached_ok _ R) E2).
        + destruct (cache_add_unchecked c s) as [c2 i] eqn:E2. split; [eapply reached_addu; eauto|]. apply (addu_at _ _ _ _ (reached_ok _ R) E2). }
    destruct H1 as [R1 G1]. destruct (IH c1 R1 o1 o') as [R2 G2]; [now rewrite Er|]. split; [exact R2|eapply grows_trans; eauto].
Qed.
Lemma extends_all add : (forall c s c' i, add c s = (c', i) -> extends c c') -> forall l c c' is, add_all add c l = Some (c', is) -> extends c c'.
Proof.
  intros Ha. induction l as [|s l IH]; intros c c' is E; cbn [add_all] in E; [injection E as <- _; apply extends_refl|].
  destruct (add c (stored s)) as [c1 i] eqn:E1. unb E as [c2 is2] E2. injection E as <- _. eapply extends_trans; [eapply Ha; eauto|eapply IH; eauto].
Qed.
Lemma extends_pass add : (forall c s c' i, add c s = (c', i) -> extends c c') -> forall c v c' is, pass_list add c v = Some (c', is) -> extends c c'.
Proof. intros Ha c v c' is E. unfold pass_list in E. unb E as v1 E1. unb E as l El. eapply extends_all; eauto. Qed.
Lemma extends_wrap c o v n c' o' x : ro_wrap c o v n = (c', o', x) -> extends c c'.
Proof.
  intro E. unfold ro_wrap in E. destruct (cache_add_unchecked c v) as [c1 vi] eqn:E1. destruct (cache_add c1 n) as [c2 ni] eqn:E2.
  assert (X : extends c c2) by (eapply extends_trans; [eapply extends_addu; eauto|eapply extends_add; eauto]).
  destruct (ro_wasm_obj o) as [r|]; [injection E as <- _ _; exact X|].
  destruct (ro_get c2 o FSources) as [o1 s]. destruct (pass_list cache_add c2 s) as [[c3 ss]|] eqn:E3; [|injection E as <- _ _; exact X].
  assert (X3 : extends c c3) by (eapply extends_trans; [exact X|eapply (extends_pass _ extends_add); eauto]).
  destruct (ro_get c3 o1 FContents) as [o2 k]. destruct (pass_list cache_add_unchecked c3 k) as [[c4 ks]|] eqn:E4; [|injection E as <- _ _; exact X3].
  assert (X4 : extends c c4) by (eapply extends_trans; [exact X3|eapply (extends_pass _ extends_addu); eauto]).
  destruct (ro_get c4 o2 FMappings) as [o3 m]. destruct (let* m := m in as_string m) as [m'|]; [|injection E as <- _ _; exact X4].
  destruct (ro_get c4 o3 FNames) as [o4 nn]. destruct (pass_list cache_add c4 nn) as [[c5 ns]|] eqn:E5; [|injection E as <- _ _; exact X4].
  injection E as <- _ _. eapply extends_trans; [exact X4|eapply (extends_pass _ extends_add); eauto].
Qed.
Lemma extends_rstep c o op c' o' a : op <> RClear -> rstep (c, o) op = (c', o', a) -> extends c c'.
Proof.
  intros N E. destruct op; cbn [rstep] in E; try contradiction.
  - destruct (ro_get c o f). injection E as <- _ _. apply extends_refl.
  - injection E as <- _ _. apply extends_refl.
  - destruct (ro_get c o f) as [o1 [v|]]; injection E as <- _ _; apply extends_refl.
  - destruct (ro_get_source o). injection E as <- _ _. apply extends_refl.
  - injection E as <- _ _. apply extends_refl.
  - destruct (ro_wrap c o value name) as [[c1 o1] x] eqn:Ew. injection E as <- _ _. eapply extends_wrap; eauto.
  - injection E as <- _ _. destruct checked.
    + destruct (cache_add c s) as [c2 i] eqn:E2. eapply extends_add; eauto.
    + destruct (cache_add_unchecked c s) as [c2 i] eqn:E2. eapply extends_addu; eauto.
Qed.

(** ** The parts of a call *)
Notation kcache st := (js_cache (k_js st)).
Lemma map_reads js i c m js1 a : jstep js (OMap i c m) = Some (js1, a) -> only_reads js js1.
Proof. intro E. cbn [jstep] in E. unb E as b E1. unb E as [st3 r] E2. injection E as <- _. eapply map_only; eauto. Qed.
Lemma plain_parts st i o st' t m : plain_map st i o = Some (st', t, m) ->
  exists js a, jstep (k_js st) (OMap i (cols o) (mods o)) = Some (js, NResult a) /\ k_js st' = js /\ k_maps st' = k_maps st /\
    match a with
    | ResPlain v => k_results st' = k_results st /\ t = TNow v /\ m = None
    | ResMap x => k_results st' = k_results st ++ [x] /\ t = TOf (length (k_results st)) /\ m = Some (length (k_results st))
    end.
Proof.
  intro E. unfold plain_map in E. unb E as [js a] E1. destruct a as [| | | |[v|x]]; try discriminate; injection E as <- <- <-; exists js; eexists; (split; [exact E1|]); auto.
Qed.
Lemma use_parts st r op st' a : use_result st r op = Some (st', a) -> op <> RClear /\
  exists x c x', nth_error (k_results st) r = Some x /\ rstep (kcache st, x) op = (c, x', a) /\
    k_js st' = set_cache (k_js st) c /\ k_results st' = set_nth (k_results st) r x' /\ k_maps st' = k_maps st.
Proof.
  intro E. unfold use_result in E. assert (N : op <> RClear) by (intros ->; discriminate). split; [exact N|].
  destruct op; try contradiction; unb E as x Ex; destruct (rstep (kcache st, x) _) as [[c x'] a'] eqn:Er; injection E as <- <-; exists x, c, x'; auto.
Qed.
Lemma read_cache c x c' x' a : rstep (c, x) RSource = (c', x', a) -> c' = c.
Proof. intro E. cbn [rstep] in E. destruct (ro_get_source x). now injection E as <- _ _. Qed.
Lemma set_cache_same js : set_cache js (js_cache js) = js.
Proof. now destruct js. Qed.
Lemma force_parts st t st' s : force st t = Some (st', s) -> k_js st' = k_js st /\ k_maps st' = k_maps st /\
  match t with
  | TNow s' => st' = st /\ s = s'
  | TOf r => exists x x', nth_error (k_results st) r = Some x /\ rstep (kcache st, x) RSource = (kcache st, x', AText s) /\ k_results st' = set_nth (k_results st) r x'
  end.
Proof.
  intro E. destruct t as [s'|r]; cbn [force] in E; [injection E as <- <-; auto|]. unb E as [st1 a] E1. destruct (use_parts _ _ _ _ _ E1) as (_ & x & c & x' & Ex & Er & J & R & M).
  pose proof (read_cache _ _ _ _ _ Er) as ->. rewrite set_cache_same in J. destruct a; try discriminate. injection E as <- <-. split; [exact J|]. split; [exact M|]. exists x, x'. auto.
Qed.

Notation kinv st ops h0 := (prog_inv (k_js st) (kmeaning ops) h0).
Lemma inv_text st vs h0 i s : prog_inv (k_js st) vs h0 -> prog_inv (k_js (set_text st i s)) vs h0.
Proof.
  intro Iv. unfold set_text. destruct (nth_error (js_objs (k_js st)) i) as [b|] eqn:E; [|exact Iv]. destruct b; try exact Iv. cbn [set_js k_js]. eapply inv_cached; eauto.
Qed.
Lemma inv_map st vs h0 i o st' t m : prog_inv (k_js st) vs h0 -> plain_map st i o = Some (st', t, m) -> prog_inv (k_js st') vs h0.
Proof.
  intros Iv E. destruct (plain_parts _ _ _ _ _ _ E) as (js & a & Ej & <- & _). eapply only_inv; [eapply map_reads; eauto|exact Iv].
Qed.
Lemma inv_use st vs h0 r op st' a : prog_inv (k_js st) vs h0 -> use_result st r op = Some (st', a) -> prog_inv (k_js st') vs h0.
Proof.
  intros Iv E. destruct (use_parts _ _ _ _ _ E) as (N & x & c & x' & _ & Er & -> & _). destruct (extends_reached _ _ (extends_rstep _ _ _ _ _ _ N Er) (iv_cache _ _ _ Iv)) as [R G].
  exact (inv_grow Iv c R G).
Qed.
Lemma kmeaning_app ops op : kmeaning (ops ++ [op]) = match op with KOp op => spec_step (kmeaning ops) op | _ => kmeaning ops end.
Proof.
  unfold kmeaning, plain_ops, meaning. rewrite flat_map_app, fold_left_app. cbn [flat_map]. rewrite app_nil_r. now destruct op.
Qed.

(** ** The calls of map and sourceAndMap, step by step *)
Notation uncached js i := (forall j t n, nth_error (js_objs js) i <> Some (BCached j t n)).
Inductive maps_to (st : kstate) : nat -> jopt -> kstate -> option nat -> Prop :=
| mt_plain i o st' t m : uncached (k_js st) i -> plain_map st i o = Some (st', t, m) -> maps_to st i o st' m
| mt_hit i j t n o m : nth_error (js_objs (k_js st)) i = Some (BCached j t n) -> maps_get (k_maps st i) (some_options o) = Some m -> maps_to st i o st m
| mt_miss i j t n o st' m : nth_error (js_objs (k_js st)) i = Some (BCached j t n) -> maps_get (k_maps st i) (some_options o) = None ->
    maps_to st j JUndef st' m -> maps_to st i o (remember st' i (some_options o) m) m.
Inductive both_to (st : kstate) : nat -> jopt -> kstate -> ktext -> option nat -> Prop :=
| bt_plain i o st' t m : uncached (k_js st) i -> plain_map st i o = Some (st', t, m) -> both_to st i o st' t m
| bt_hit i j s n o m : nth_error (js_objs (k_js st)) i = Some (BCached j (Some s) n) -> maps_get (k_maps st i) o = Some m -> both_to st i o st (TNow s) m
| bt_map i j s n o st' m : nth_error (js_objs (k_js st)) i = Some (BCached j (Some s) n) -> maps_get (k_maps st i) o = None ->
    maps_to st j o st' m -> both_to st i o (remember st' i o m) (TNow s) m
| bt_text i j n o js s m : nth_error (js_objs (k_js st)) i = Some (BCached j None n) -> maps_get (k_maps st i) o = Some m ->
    source_of (k_js st) j = Some (js, s) -> both_to st i o (set_text (set_js st js) i s) (TNow s) m
| bt_both i j n o st1 t st2 s m : nth_error (js_objs (k_js st)) i = Some (BCached j None n) -> maps_get (k_maps st i) o = None ->
    both_to st j o st1 t m -> force st1 t = Some (st2, s) -> both_to st i o (remember (set_text st2 i s) i o m) (TNow s) m.
Lemma map_from_to d : forall st i o st' m, map_from d st i o = Some (st', m) -> maps_to st i o st' m.
Proof.
  induction d as [|d IH]; intros st i o st' m E; cbn [map_from] in E;
    (destruct (nth_error (js_objs (k_js st)) i) as [b|] eqn:Eb;
      [|unb E as [[st1 t] m1] E1; injection E as <- <-; eapply mt_plain; [rewrite Eb; discriminate|exact E1]];
     destruct b as [| | | | | | |j t n]; try (unb E as [[st1 t] m1] E1; injection E as <- <-; eapply mt_plain; [rewrite Eb; discriminate|exact E1]));
    cbv zeta in E; (destruct (maps_get (k_maps st i) (some_options o)) as [m1|] eqn:G; [injection E as <- <-; eapply mt_hit; eauto|]); [discriminate|].
  unb E as [st1 m1] E1. injection E as <- <-. eapply mt_miss; eauto.
Qed.
Lemma map_to_from st vs h0 : prog_inv (k_js st) vs h0 -> forall i o st' m, maps_to st i o st' m -> forall d, i <= d -> map_from d st i o = Some (st', m).
Proof.
  intros Iv i o st' m H. induction H as [i o st' t m N E|i j t n o m Eb G|i j t n o st' m Eb G H IH]; intros d L.
  - assert (K : map_from d st i o = let* (st, _, m) := plain_map st i o in Some (st, m)).
    { destruct d; cbn [map_from]; destruct (nth_error (js_objs (k_js st)) i) as [b|] eqn:Eb; try reflexivity; destruct b; try reflexivity; destruct (N _ _ _ eq_refl). }
    now rewrite K, E.
  - destruct d; cbn [map_from]; rewrite Eb; cbv zeta; now rewrite G.
  - destruct (inv_same Iv _ _ _ _ Eb) as (Ev & _). pose proof (iv_down _ _ _ Iv _ _ Ev) as Lt. destruct d as [|d]; [lia|]. cbn [map_from]. rewrite Eb. cbv zeta. rewrite G, IH by lia. reflexivity.
Qed.
Lemma both_from_to d : forall st i o st' t m, both_from d st i o = Some (st', t, m) -> both_to st i o st' t m.
Proof.
  induction d as [|d IH]; intros st i o st' t m E; cbn [both_from] in E;
    (destruct (nth_error (js_objs (k_js st)) i) as [b|] eqn:Eb; [|eapply bt_plain; [rewrite Eb; discriminate|exact E]];
     destruct b as [| | | | | | |j [u|] n]; try (eapply bt_plain; [rewrite Eb; discriminate|exact E]));
    destruct (maps_get (k_maps st i) o) as [m1|] eqn:G; try discriminate;
    try (injection E as <- <- <-; eapply bt_hit; eauto; fail);
    try (unb E as [st1 m2] E1; injection E as <- <- <-; eapply bt_map; eauto using map_from_to; fail);
    try (unb E as [js s] E1; injection E as <- <- <-; eapply bt_text; eauto; fail).
  unb E as [[st1 t1] m1] E1. unb E as [st2 s] E2. injection E as <- <- <-. eapply bt_both; eauto.
Qed.
Lemma both_to_from st vs h0 : prog_inv (k_js st) vs h0 -> forall i o st' t m, both_to st i o st' t m -> forall d, i <= d -> both_from d st i o = Some (st', t, m).
Proof.
  intros Iv i o st' t m H. induction H as [i o st' t m N E|i j s n o m Eb G|i j s n o st' m Eb G H|i j n o js s m Eb G H|i j n o st1 t st2 s m Eb G H IH F]; intros d L.
  - rewrite <- E. destruct d; cbn [both_from]; destruct (nth_error (js_objs (k_js st)) i) as [b|] eqn:Eb; try reflexivity; destruct b; try reflexivity; destruct (N _ _ _ eq_refl).
  - destruct d; cbn [both_from]; rewrite Eb; now rewrite G.
  - destruct d; cbn [both_from]; rewrite Eb, G; unfold map_of; rewrite (map_to_from _ _ _ Iv _ _ _ _ H) by lia; reflexivity.
  - destruct d; cbn [both_from]; rewrite Eb, G, H; reflexivity.
  - destruct (inv_same Iv _ _ _ _ Eb) as (Ev & _). pose proof (iv_down _ _ _ Iv _ _ Ev) as Lt. destruct d as [|d]; [lia|]. cbn [both_from]. rewrite Eb, G, IH by lia. cbn [bind]. rewrite F. reflexivity.
Qed.
Lemma step_map st i o st' a : kstep st (KMap i o) = Some (st', a) -> exists m, a = KMapped m /\ maps_to st i o st' m.
Proof. intro E. cbn [kstep] in E. unb E as [st1 m] E1. injection E as <- <-. exists m. split; [reflexivity|]. eapply map_from_to; exact E1. Qed.
Lemma step_both st i o st' a : kstep st (KSourceAndMap i o) = Some (st', a) -> exists t m, a = KPair t m /\ both_to st i o st' t m.
Proof. intro E. cbn [kstep] in E. unb E as [[st1 t] m] E1. injection E as <- <-. exists t, m. split; [reflexivity|]. eapply both_from_to; exact E1. Qed.
Lemma map_step st vs h0 i o st' m : prog_inv (k_js st) vs h0 -> maps_to st i o st' m -> kstep st (KMap i o) = Some (st', KMapped m).
Proof. intros Iv H. cbn [kstep]. unfold map_of. now rewrite (map_to_from _ _ _ Iv _ _ _ _ H). Qed.
Lemma both_step st vs h0 i o st' t m : prog_inv (k_js st) vs h0 -> both_to st i o st' t m -> kstep st (KSourceAndMap i o) = Some (st', KPair t m).
Proof. intros Iv H. cbn [kstep]. unfold both_of. now rewrite (both_to_from _ _ _ Iv _ _ _ _ _ H). Qed.

Lemma maps_inv st vs h0 : prog_inv (k_js st) vs h0 -> forall i o st' m, maps_to st i o st' m -> prog_inv (k_js st') vs h0.
Proof. intros Iv i o st' m H. induction H; eauto using inv_map. Qed.
Lemma both_inv st vs h0 : prog_inv (k_js st) vs h0 -> forall i o st' t m, both_to st i o st' t m -> prog_inv (k_js st') vs h0.
Proof.
  intros Iv i o st' t m H. induction H as [i o st' t m N E|i j s n o m Eb G|i j s n o st' m Eb G H|i j n o js s m Eb G H|i j n o st1 t st2 s m Eb G H IH F]; eauto using inv_map.
  - exact (maps_inv _ _ _ Iv _ _ _ _ H).
  - apply inv_text. cbn [set_js k_js]. exact (proj1 (source_inv _ _ _ _ _ _ _ Iv H)).
  - cbn [remember k_js]. apply inv_text. destruct (force_parts _ _ _ _ F) as (-> & _). exact IH.
Qed.
Theorem kstep_inv st ops h0 op st' a : kinv st ops h0 -> kstep st op = Some (st', a) -> exists h1, kinv st' (ops ++ [op]) h1.
Proof.
  intros Iv E. rewrite kmeaning_app. destruct op as [op|i o|i o|r op].
  - cbn [kstep] in E. unb E as [js b] E1. injection E as <- _. cbn [set_js k_js]. eapply inv_step; eauto.
  - exists h0. destruct (step_both _ _ _ _ _ E) as (t & m & _ & H). eapply both_inv; eauto.
  - exists h0. destruct (step_map _ _ _ _ _ E) as (m & _ & H). eapply maps_inv; eauto.
  - exists h0. cbn [kstep] in E. unb E as [st1 a1] E1. injection E as <- _. eapply inv_use; eauto.
Qed.
Lemma krun_app l l' : forall st, krun st (l ++ l') = let* st := krun st l in krun st l'.
Proof.
  induction l as [|op l IH]; intros st; [reflexivity|]. cbn [app krun]. destruct (kstep st op) as [[st1 a]|]; [|reflexivity]. apply IH.
Qed.
Theorem krun_inv l : forall st ops h0 st', kinv st ops h0 -> krun st l = Some st' -> exists h1, kinv st' (ops ++ l) h1.
Proof.
  induction l as [|op l IH]; intros st ops h0 st' Iv E; cbn [krun] in E; [injection E as <-; rewrite app_nil_r; eauto|].
  unb E as [st1 a] E1. destruct (kstep_inv _ _ _ _ _ _ Iv E1) as (h1 & Iv1). destruct (IH _ _ _ _ Iv1 E) as (h2 & Iv2). rewrite <- app_assoc in Iv2. eauto.
Qed.
Theorem start_inv c ops st : reached_cache c -> krun (kstate_new c) ops = Some st -> exists h0, kinv st ops h0.
Proof. intros R E. exact (krun_inv ops (kstate_new c) [] [] st (inv_start c R) E). Qed.
