(** Along a program: where what CachedSources remember comes from. *)
From Verif Require Import Base Tactics ModelString StringFacts ModelVlq ModelSm ModelSlm ModelSources ModelTree ModelWasm
  ModelJs ModelJsApi IdxFacts JsFacts ModelJsResult ResultFacts ResultProps ModelEnd SpecEnd EndFacts MadeFacts EndMap
  ModelHeap ModelJsProg SpecProg ProgFacts ProgSteps ProgProps ProgEnd ModelJsCached SpecCached CachedFacts CachedSteps CachedChain.

Lemma spec_len vs op : length vs <= length (spec_step vs op).
Proof.
  assert (H : forall l vs i, length (fold_left (spec_add i) l vs) = length vs).
  { clear. induction l as [|a l IH]; intros vs i; [reflexivity|]. cbn [fold_left]. rewrite IH. apply length_update. }
  destruct op; cbn [spec_step]; rewrite ?H; unfold spec_add, spec_call; rewrite ?app_length, ?length_update; cbn [length]; lia.
Qed.
Lemma kmeaning_len ops op : length (kmeaning ops) <= length (kmeaning (ops ++ [op])).
Proof. rewrite kmeaning_app. destruct op as [op| | |]; [apply spec_len|..]; lia. Qed.
Lemma kmeaning_lens ops ops' : length (kmeaning ops) <= length (kmeaning (ops ++ ops')).
Proof.
  induction ops' as [|op l IH] using rev_ind; [rewrite app_nil_r; lia|]. rewrite app_assoc. pose proof (kmeaning_len (ops ++ l) op). lia.
Qed.
Lemma same_step ops op m j : nth_error (kmeaning (ops ++ [op])) m = Some (VSame j) <-> nth_error (kmeaning ops) m = Some (VSame j) \/ (op = KOp (ONewCached j) /\ m = length (kmeaning ops)).
Proof.
  rewrite kmeaning_app. destruct op as [op| | |]; try (split; [auto|intros [H|(H & _)]; [exact H|discriminate]]). rewrite step_same.
  split; (intros [H|(H & H')]; [now left|]); right; split; congruence.
Qed.
Lemma same_more ops l m j : nth_error (kmeaning ops) m = Some (VSame j) -> nth_error (kmeaning (ops ++ l)) m = Some (VSame j).
Proof. intro E. induction l as [|op l IH] using rev_ind; [now rewrite app_nil_r|]. rewrite app_assoc. apply same_step. auto. Qed.
Lemma wraps_more ops l k m : wraps (kmeaning ops) k m -> wraps (kmeaning (ops ++ l)) k m.
Proof. induction 1 as [|i j k E _ IH]; [constructor|]. econstructor; [|exact IH]. now apply same_more. Qed.
Lemma fresh_less ops l j : fresh_reads (kmeaning (ops ++ l)) j -> fresh_reads (kmeaning ops) j.
Proof. intros F j' E. exact (F _ (same_more _ _ _ _ E)). Qed.
(** An older CachedSource around [n] was one already. *)
Lemma wraps_less ops op k n : (forall i j, nth_error (kmeaning (ops ++ [op])) i = Some (VSame j) -> j < i) ->
  wraps (kmeaning (ops ++ [op])) k n -> k < length (kmeaning ops) -> wraps (kmeaning ops) k n.
Proof.
  intros Dn W. induction W as [|i j k E _ IH]; intro L; [constructor|]. pose proof (Dn _ _ E) as Lt.
  apply same_step in E as [E|(_ & ->)]; [|lia]. econstructor; [exact E|]. apply IH. lia.
Qed.

Lemma no_object st i o : nth_error (js_objs (k_js st)) i = None -> plain_map st i o = None.
Proof. intro E. unfold plain_map. cbn [jstep]. now rewrite E. Qed.
Lemma absent_both st i o st' t m : both_to st i o st' t m -> nth_error (js_objs (k_js st)) i <> None.
Proof. intros H E. inversion H; subst; try congruence. rewrite no_object in * by exact E. discriminate. Qed.
Lemma absent_maps st i o st' m : maps_to st i o st' m -> nth_error (js_objs (k_js st)) i <> None.
Proof. intros H E. inversion H; subst; try congruence. rewrite no_object in * by exact E. discriminate. Qed.
Lemma maps_of_new c0 ops : forall st, reached_cache c0 -> krun (kstate_new c0) ops = Some st -> forall k, length (kmeaning ops) <= k -> k_maps st k = [].
Proof.
  induction ops as [|op ops IH] using rev_ind; intros st R Run k Lk; [cbn in Run; injection Run as <-; reflexivity|].
  rewrite krun_app in Run. destruct (krun (kstate_new c0) ops) as [st1|] eqn:E1; [|discriminate]. cbn [bind krun] in Run. unb Run as [st2 a] E2. injection Run as <-.
  destruct (start_inv _ _ _ R E1) as (h1 & Iv). pose proof (iv_len _ _ _ Iv) as Len. pose proof (kmeaning_len ops op) as Ll.
  pose proof (IH _ R eq_refl k ltac:(lia)) as K. destruct op as [op|i o|i o|r op].
  - cbn [kstep] in E2. unb E2 as [js b] E3. injection E2 as <- _. exact K.
  - destruct (step_both _ _ _ _ _ E2) as (t & m & _ & H). rewrite (proj2 (both_frame _ _ _ Iv _ _ _ _ _ H k ltac:(intro W; apply (wraps_under _ (iv_down _ _ _ Iv)) in W; apply (absent_both _ _ _ _ _ _ H), nth_error_None; lia))). exact K.
  - destruct (step_map _ _ _ _ _ E2) as (m & _ & H). rewrite (maps_frame _ _ _ Iv _ _ _ _ H k ltac:(intro W; apply (wraps_under _ (iv_down _ _ _ Iv)) in W; apply (absent_maps _ _ _ _ _ H), nth_error_None; lia)). exact K.
  - cbn [kstep] in E2. unb E2 as [s1 a1] E3. injection E2 as <- _. destruct (use_parts _ _ _ _ _ E3) as (_ & x & c & x' & _ & _ & _ & _ & ->). exact K.
Qed.

Definition made_text (c0 : cache) (ops : list kop) (n j : nat) (s : jstr) : Prop :=
  exists l op l' st1, ops = l ++ op :: l' /\ krun (kstate_new c0) l = Some st1 /\ nth_error (kmeaning l) n = Some (VSame j) /\
    (@read_text st1 j s \/ exists i o, op = KSourceAndMap i o /\ @both_text st1 (kmeaning l) n j i o s).
(** For options that ask for no columns: the map was made with these options, or somebody asked
    for a default map. *)
Definition kin (c0 : cache) (ops : list kop) (n j k : nat) (key o : jopt) : Prop :=
  (o = key /\ exists i, wraps (kmeaning ops) i k /\ In (KSourceAndMap i key) ops) \/
  (cols o = true /\ (cols key = true \/
    (exists k' o', wraps (kmeaning ops) k' n /\ (k = n -> k' = n) /\ In (KMap k' o') ops /\ some_options o' = key) \/
    exists l l' st1 i, ops = l ++ KSourceAndMap i key :: l' /\ krun (kstate_new c0) l = Some st1 /\ nth_error (kmeaning l) n = Some (VSame j) /\
      wraps (kmeaning l) i n /\ @lost st1 (kmeaning l) n i key)).
Definition origin (c0 : cache) (ops : list kop) (st : kstate) (n j k : nat) (key : jopt) (m : option nat) : Prop :=
  exists l op l' st1 st2 t0 o, ops = l ++ op :: l' /\ krun (kstate_new c0) l = Some st1 /\ nth_error (kmeaning l) n = Some (VSame j) /\
    plain_map st1 j o = Some (st2, t0, m) /\ (forall r, untouched r l' -> evolves st2 st r) /\ kin c0 ops n j k key o.

Lemma kin_more c0 ops op n j k key o : kin c0 ops n j k key o -> kin c0 (ops ++ [op]) n j k key o.
Proof.
  intros [(-> & i & W & Hi)|(Ho & [Hk|[(k' & o' & W & Hn & Hi & Eo)|(l & l' & st1 & i & -> & R & En & W & L)]])].
  - left. split; [reflexivity|]. exists i. split; [now apply wraps_more|]. apply in_app_iff. auto.
  - right. auto.
  - right. split; [exact Ho|]. right. left. exists k', o'. split; [now apply wraps_more|]. split; [exact Hn|]. split; [apply in_app_iff; auto|exact Eo].
  - right. split; [exact Ho|]. right. right. exists l, (l' ++ [op]), st1, i. split; [now rewrite <- app_assoc|]. auto.
Qed.
Theorem origins c0 ops : reached_cache c0 -> forall st, krun (kstate_new c0) ops = Some st -> forall n j, nth_error (kmeaning ops) n = Some (VSame j) -> fresh_reads (kmeaning ops) j ->
  forall k, wraps (kmeaning ops) k n ->
    (forall j' s n', memo (k_js st) k = Some (j', Some s, n') -> made_text c0 ops n j s) /\
    (forall key m, maps_get (k_maps st k) key = Some m -> origin c0 ops st n j k key m).
Proof.
  intro R. induction ops as [|op ops IH] using rev_ind; intros st Run n j En Fr k W; [destruct n; discriminate En|].
  assert (Iv' : exists h, kinv st (ops ++ [op]) h) by (eapply start_inv; eauto). destruct Iv' as (h2 & Iv2).
  rewrite krun_app in Run. destruct (krun (kstate_new c0) ops) as [st1|] eqn:E1; [|discriminate]. cbn [bind krun] in Run. unb Run as [st2 a] E2. injection Run as <-.
  destruct (start_inv _ _ _ R E1) as (h1 & Iv). pose proof (iv_len _ _ _ Iv) as Len. pose proof (iv_down _ _ _ Iv2) as Dn.
  pose proof (fresh_less _ _ _ Fr) as Fr1. pose proof (IH _ eq_refl) as IH'. clear IH.
  destruct (Nat.lt_ge_cases k (length (kmeaning ops))) as [Lk|Lk].
  2:{ (* it is new *)
    assert (Ek : exists j', nth_error (kmeaning (ops ++ [op])) k = Some (VSame j')) by (inversion W; subst; eauto). destruct Ek as (j' & Ek).
    apply same_step in Ek as [Ek|(-> & Hk)]; [assert (k < length (kmeaning ops)) by (apply nth_error_Some; congruence); lia|].
    pose proof (maps_of_new _ _ _ R E1 k Lk) as K. cbn [kstep] in E2. unb E2 as [js b] E3. injection E2 as <- _. cbn [jstep] in E3. destruct (Nat.ltb j' (length (js_objs (k_js st1)))); [|discriminate].
    injection E3 as <- _. split.
    - intros j2 s n2 M. apply memo_is in M. cbn [set_js k_js js_objs] in M. rewrite Hk, <- Len, nth_last in M. discriminate.
    - intros key m G. cbn [set_js k_maps] in G. rewrite K in G. discriminate. }
  pose proof (wraps_less _ _ _ _ Dn W Lk) as W1.
  assert (En1 : nth_error (kmeaning ops) n = Some (VSame j)).
  { apply same_step in En as [En|(_ & Hn)]; [exact En|]. apply (wraps_under _ (iv_down _ _ _ Iv)) in W1. lia. }
  specialize (IH' n j En1 Fr1).
  (* what is old *)
  assert (OldT : forall s, @old_text st1 (kmeaning ops) n s -> made_text c0 (ops ++ [op]) n j s).
  { intros s (k0 & j0 & n0 & W0 & M0). destruct (proj1 (IH' _ W0) _ _ _ M0) as (l & op1 & l' & st3 & -> & H). exists l, op1, (l' ++ [op]), st3. split; [now rewrite <- app_assoc|exact H]. }
  assert (NewT : forall s, @read_text st1 j s \/ (exists i o, op = KSourceAndMap i o /\ @both_text st1 (kmeaning ops) n j i o s) -> made_text c0 (ops ++ [op]) n j s).
  { intros s H. exists ops, op, [], st1. auto. }
  assert (OldM : forall k0 key0 m k key, wraps (kmeaning ops) k0 n -> maps_get (k_maps st1 k0) key0 = Some m ->
    (forall o, kin c0 ops n j k0 key0 o -> kin c0 (ops ++ [op]) n j k key o) -> origin c0 (ops ++ [op]) st2 n j k key m).
  { intros k0 key0 m k1 key W0 G Hk. destruct (proj2 (IH' _ W0) _ _ G) as (l & op1 & l' & st3 & st4 & t0 & o & -> & R3 & En3 & Ep & Ev & Kn).
    exists l, op1, (l' ++ [op]), st3, st4, t0, o. split; [now rewrite <- app_assoc|]. split; [exact R3|]. split; [exact En3|]. split; [exact Ep|]. split; [|auto].
    intros r U. apply untouched_app in U. destruct U as [U1 U2]. eapply evolves_trans; [exact (Ev r U1)|eapply step_evolves; eauto]. }
  assert (NewM : forall m o k key, @fresh_from st1 j st2 m o -> kin c0 (ops ++ [op]) n j k key o -> origin c0 (ops ++ [op]) st2 n j k key m).
  { intros m o k1 key (st3 & t0 & Ep & Ev) Kn. exists ops, op, [], st1, st3, t0, o. split; [reflexivity|]. auto 6. }
  assert (Same : forall key m, maps_get (k_maps st1 k) key = Some m -> origin c0 (ops ++ [op]) st2 n j k key m).
  { intros key m G. eapply OldM; eauto. intros o. apply kin_more. }
  assert (SameT : forall j' s n', memo (k_js st1) k = Some (j', Some s, n') -> made_text c0 (ops ++ [op]) n j s).
  { intros j' s n' M. apply OldT. exists k, j', n'. auto. }
  destruct (member_cached Iv En1 k W1) as (jk & tk & nk & Ebk). pose proof (is_memo _ _ _ _ _ Ebk) as Mk.
  destruct op as [op|i o|i o|r op].
  - cbn [kstep] in E2. unb E2 as [js b] E3. injection E2 as <- _. split; [|exact Same]. cbn [set_js k_js]. intros j' s n' M.
    destruct (apart_dec (kmeaning ops) k op) as [Q|(i & [->| ->])].
    + rewrite (memo_step _ _ _ _ _ _ _ _ Iv E3 Q Mk) in M. injection M as -> -> ->. eauto.
    + cbn [jstep] in E3. unb E3 as [js2 x] E4. injection E3 as <- _. destruct (proj2 (source_born Iv En1 Fr1 _ _ _ _ E4) _ _ _ _ W1 M) as [H|H]; auto.
    + cbn [jstep] in E3. unb E3 as [js2 x] E4. injection E3 as <- _. destruct (size_text _ _ _ _ _ _ _ _ _ _ _ Iv E4 Mk) as (n2 & M2). rewrite M2 in M. injection M as -> -> ->. eauto.
  - destruct (step_both _ _ _ _ _ E2) as (t & m0 & _ & H). split.
    + intros j' s n' M. destruct (proj2 (both_texts Iv En1 Fr1 _ _ _ _ _ H) _ _ _ _ W1 M) as [?|[?|?]]; [auto|auto|apply NewT; right; eauto].
    + intros key m G. assert (Hin : forall key, o = key -> In (KSourceAndMap i key) (ops ++ [KSourceAndMap i o])) by (intros key0 <-; apply in_app_iff; right; now left).
      destruct (both_new Iv En1 Fr1 _ _ _ _ _ H _ _ _ W1 G) as [Ho|(Wk & [(-> & Hf)|(Hl & Hk & Hf)])]; [auto| |].
      * destruct Hf as [Hf|(Ne & k0 & _ & W0 & G0)].
        -- eapply NewM; [exact Hf|]. left. split; [reflexivity|]. exists i. split; [now apply wraps_more|auto].
        -- eapply OldM; [exact W0|exact G0|]. intros o' [(-> & _)|(Ho & Kn)]; [left; split; [reflexivity|]; exists i; split; [now apply wraps_more|auto]|].
           destruct Kn as [Hc|[(k' & o2 & W2 & _ & Hi & Eo)|Hx]]; [right; auto| |].
           ++ right. split; [exact Ho|]. right. left. exists k', o2. split; [now apply wraps_more|]. split; [contradiction|]. split; [apply in_app_iff; auto|exact Eo].
           ++ apply (kin_more c0 ops (KSourceAndMap i o) n j k o o'). right. auto.
      * assert (Wi : wraps (kmeaning ops) i n) by (eapply wraps_trans; eauto).
        assert (Cols : forall o', cols o' = true -> kin c0 (ops ++ [KSourceAndMap i o]) n j k key o').
        { intros o' Hc. right. split; [exact Hc|]. destruct Hk as [->|[->| ->]].
          - right. right. exists ops, [], st1, i. auto.
          - destruct o as [|cc mm]; [left; reflexivity|]. right. right. exists ops, [], st1, i. auto.
          - left. reflexivity. }
        destruct Hf as [Hf|(Ne & Ho)]; [eapply NewM; [exact Hf|]; apply Cols; reflexivity|].
        destruct Ho as [(-> & k0 & _ & W0 & G0)|(k0 & _ & W0 & G0)]; (eapply OldM; [exact W0|exact G0|]); intros o' [(-> & _)|(Ho & _)]; auto.
        destruct (cols (some_options o)) eqn:Ec; [auto|]. assert (Eo : some_options o = o) by (destruct o; [discriminate|reflexivity]).
        left. split; [exact Eo|]. exists i. split; [now apply wraps_more|auto].
  - destruct (step_map _ _ _ _ _ E2) as (m0 & _ & H). split; [intros j' s n' M; rewrite (maps_memo _ _ _ _ _ k H) in M; eauto|].
    intros key m G. destruct (maps_new Iv En1 Fr1 _ _ _ _ H _ _ _ W1 G) as [Ho|(Wk & Hk & Hf)]; [auto|].
    assert (Cols : forall o', cols o' = true -> kin c0 (ops ++ [KMap i o]) n j k key o').
    { intros o' Hc. right. split; [exact Hc|]. destruct Hk as [(-> & ->)| ->]; [|left; reflexivity]. right. left. exists i, o. split; [now apply wraps_more|]. split; [auto|]. split; [apply in_app_iff; right; now left|reflexivity]. }
    destruct Hf as [Hf|(Ne & k0 & _ & W0 & G0)]; [eapply NewM; [exact Hf|]; apply Cols; reflexivity|]. eapply OldM; [exact W0|exact G0|]. intros o' [(-> & _)|(Ho & _)]; auto.
  - cbn [kstep] in E2. unb E2 as [s1 a1] E3. injection E2 as <- _. destruct (use_parts _ _ _ _ _ E3) as (_ & x & c & x' & _ & _ & J & _ & K). split; [rewrite J; exact SameT|]. rewrite K. exact Same.
Qed.

(** ** Only sourceAndMap with the same options *)
Definition plainly (ops : list kop) (n : nat) (o : jopt) : Prop := forall k, wraps (kmeaning ops) k n ->
  (forall o', In (KMap k o') ops -> some_options o' <> o) /\
  (k <> n -> ~ In (KOp (OSource k)) ops /\ forall o', In (KSourceAndMap k o') ops -> o' = o).
Lemma plainly_less ops l n o : plainly (ops ++ l) n o -> plainly ops n o.
Proof.
  intros P k W. destruct (P k (wraps_more _ _ _ _ W)) as [P1 P2]. split; [intros o' Hi; apply P1, in_app_iff; auto|]. intro Ne. destruct (P2 Ne) as [P3 P4].
  split; [intro Hi; apply P3, in_app_iff; auto|intros o' Hi; apply P4, in_app_iff; auto].
Qed.
Theorem levels c0 n j o : reached_cache c0 -> cols o = false -> forall ops st, krun (kstate_new c0) ops = Some st -> nth_error (kmeaning ops) n = Some (VSame j) -> fresh_reads (kmeaning ops) j ->
  plainly ops n o -> forall k, wraps (kmeaning ops) k n -> k <> n -> in_step st o k.
Proof.
  intros R Co ops. induction ops as [|op ops IH] using rev_ind; intros st Run En Fr Pl k W Nk; [destruct n; discriminate En|].
  assert (Iv' : exists h, kinv st (ops ++ [op]) h) by (eapply start_inv; eauto). destruct Iv' as (h2 & Iv2).
  rewrite krun_app in Run. destruct (krun (kstate_new c0) ops) as [st1|] eqn:E1; [|discriminate]. cbn [bind krun] in Run. unb Run as [st2 a] E2. injection Run as <-.
  destruct (start_inv _ _ _ R E1) as (h1 & Iv). pose proof (iv_len _ _ _ Iv) as Len. pose proof (iv_down _ _ _ Iv2) as Dn. pose proof (iv_down _ _ _ Iv) as Dn1.
  pose proof (fresh_less _ _ _ Fr) as Fr1. pose proof (IH _ eq_refl) as IH'. clear IH.
  destruct (Nat.lt_ge_cases k (length (kmeaning ops))) as [Lk|Lk].
  2:{ assert (Ek : exists j', nth_error (kmeaning (ops ++ [op])) k = Some (VSame j')) by (inversion W; subst; eauto). destruct Ek as (j' & Ek).
    apply same_step in Ek as [Ek|(-> & Hk)]; [assert (k < length (kmeaning ops)) by (apply nth_error_Some; congruence); lia|].
    pose proof (maps_of_new _ _ _ R E1 k Lk) as K. cbn [kstep] in E2. unb E2 as [js b] E3. injection E2 as <- _. cbn [jstep] in E3. destruct (Nat.ltb j' (length (js_objs (k_js st1)))); [|discriminate].
    injection E3 as <- _. split.
    - intros (j2 & s & n2 & M). apply memo_is in M. cbn [set_js k_js js_objs] in M. rewrite Hk, <- Len, nth_last in M. discriminate.
    - intros (m & G). cbn [set_js k_maps] in G. rewrite K in G. discriminate. }
  pose proof (wraps_less _ _ _ _ Dn W Lk) as W1.
  assert (En1 : nth_error (kmeaning ops) n = Some (VSame j)).
  { apply same_step in En as [En|(_ & Hn)]; [exact En|]. apply (wraps_under _ Dn1) in W1. lia. }
  specialize (IH' En1 Fr1 (plainly_less _ _ _ _ Pl)). pose proof (IH' k W1 Nk) as Lv.
  destruct (member_cached Iv En1 k W1) as (jk & tk & nk & Ebk). pose proof (is_memo _ _ _ _ _ Ebk) as Mk.
  assert (Up : forall i, wraps (kmeaning ops) i k -> wraps (kmeaning (ops ++ [op])) i n /\ i <> n).
  { intros i Wi. split; [apply wraps_more; eapply wraps_trans; eauto|]. intros ->. apply Nk, (wraps_anti _ Dn1); assumption. }
  assert (Last : In op (ops ++ [op])) by (apply in_app_iff; right; now left).
  destruct op as [op|i o'|i o'|r op].
  - cbn [kstep] in E2. unb E2 as [js b] E3. injection E2 as <- _. unfold in_step. cbn [set_js k_js k_maps].
    destruct (apart_dec (kmeaning ops) k op) as [Q|(i & [->| ->])].
    + rewrite (memo_step _ _ _ _ _ _ _ _ Iv E3 Q Mk), <- Mk. exact Lv.
    + cbn [jstep] in E3. unb E3 as [js2 x] E4. injection E3 as <- _. destruct (wraps_dec _ k Dn1 i) as [Wi|Wi].
      * destruct (Up _ Wi) as [Wn Nn]. destruct (Pl _ Wn) as [_ P]. destruct (P Nn) as [P3 _]. destruct (P3 Last).
      * rewrite (source_memo _ _ _ _ _ _ _ _ Iv E4 Wi). exact Lv.
    + cbn [jstep] in E3. unb E3 as [js2 x] E4. injection E3 as <- _. destruct (size_text _ _ _ _ _ _ _ _ _ _ _ Iv E4 Mk) as (n2 & M2). rewrite M2. unfold in_step in Lv. rewrite Mk in Lv.
      rewrite <- Lv. split; intros (? & ? & ? & [= -> -> ->]); eauto.
  - destruct (step_both _ _ _ _ _ E2) as (t & m0 & _ & H). destruct (wraps_dec _ k Dn1 i) as [Wi|Wi].
    + destruct (Up _ Wi) as [Wn Nn]. destruct (Pl _ Wn) as [_ P]. destruct (P Nn) as [_ P4]. rewrite (P4 _ Last) in H. exact (both_level Iv En1 _ _ _ _ _ H IH' k W1 Nk).
    + unfold in_step. destruct (both_frame _ _ _ Iv _ _ _ _ _ H k Wi) as [-> ->]. exact Lv.
  - destruct (step_map _ _ _ _ _ E2) as (m0 & _ & H). unfold in_step. rewrite (maps_memo _ _ _ _ _ k H). unfold in_step in Lv. rewrite Lv. split; intros (m & G); [eauto using maps_keep|].
    destruct (maps_new Iv En1 Fr1 _ _ _ _ H _ _ _ W1 G) as [Ho|(Wk & [(-> & ->)| ->] & _)]; [eauto| |discriminate].
    destruct (Up _ Wk) as [Wn _]. destruct (Pl _ Wn) as [P _]. destruct (P _ Last). reflexivity.
  - cbn [kstep] in E2. unb E2 as [s1 a1] E3. injection E2 as <- _. destruct (use_parts _ _ _ _ _ E3) as (_ & x & c & x' & _ & _ & J & _ & K). unfold in_step. rewrite J, K. exact Lv.
Qed.
