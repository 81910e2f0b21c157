(** Programs that use maps: what becomes of results and of what a CachedSource remembers. *)
From Verif Require Import Base Tactics ModelString StringFacts ModelVlq ModelSm ModelSlm ModelSources ModelTree ModelWasm
  ModelJs ModelJsApi IdxFacts JsFacts ModelJsResult ResultFacts ResultProps ModelEnd SpecEnd EndFacts MadeFacts EndMap
  ModelHeap ModelJsProg SpecProg ProgFacts ProgSteps ProgProps ProgEnd ModelJsCached SpecCached CachedFacts.

(** ** Results *)
Definition evolves (st st' : kstate) (r : nat) : Prop := forall x, nth_error (k_results st) r = Some x ->
  exists x' l, nth_error (k_results st') r = Some x' /\ Forall quiet l /\ fst (rrun (kcache st, x) l) = (kcache st', x').
Lemma evolves_refl st r : evolves st st r.
Proof. intros x E. exists x, []. auto. Qed.
Lemma evolves_trans a b c r : evolves a b r -> evolves b c r -> evolves a c r.
Proof.
  intros H K x E. destruct (H x E) as (x1 & l1 & E1 & Q1 & R1). destruct (K x1 E1) as (x2 & l2 & E2 & Q2 & R2).
  exists x2, (l1 ++ l2). split; [exact E2|]. split; [now apply Forall_app|]. now rewrite rrun_app, R1.
Qed.
Lemma evolves_more st st' r : extends (kcache st) (kcache st') -> (forall x, nth_error (k_results st) r = Some x -> nth_error (k_results st') r = Some x) -> evolves st st' r.
Proof. intros X K x E. destruct (X x) as (l & Q & R). exists x, l. auto. Qed.
Lemma evolves_plain st i o st' t m r : plain_map st i o = Some (st', t, m) -> evolves st st' r.
Proof.
  intro E. destruct (plain_parts _ _ _ _ _ _ E) as (js & a & Ej & J & _ & P). apply evolves_more.
  - rewrite J. exact (extends_step _ _ _ _ Ej).
  - intros x Ex. destruct a as [v|y]; destruct P as (-> & _); [exact Ex|]. now apply nth_old.
Qed.
Lemma evolves_use st r op st' a k : use_result st r op = Some (st', a) -> (k = r -> quiet op) -> evolves st st' k.
Proof.
  intros E Q. destruct (use_parts _ _ _ _ _ E) as (N & x & c & x' & Ex & Er & J & R & _). intros y Ey.
  assert (C : kcache st' = c) by now rewrite J. destruct (Nat.eq_dec k r) as [->|Ne].
  - rewrite Ex in Ey. injection Ey as <-. exists x', [op]. split; [|split; [constructor; auto|]].
    + rewrite R, nth_set_nth, Nat.eqb_refl. pose proof (nth_lt _ _ _ Ex) as Lt. apply Nat.ltb_lt in Lt. now rewrite Lt.
    + cbn [rrun]. rewrite Er. cbn [fst snd]. now rewrite C.
  - destruct (extends_rstep _ _ _ _ _ _ N Er y) as (l & Ql & Rl). exists y, l. split; [|split; [exact Ql|now rewrite C]].
    rewrite R, nth_set_nth. assert (B : Nat.eqb r k = false) by (apply Nat.eqb_neq; congruence). now rewrite B.
Qed.
Lemma evolves_force st t st' s r : force st t = Some (st', s) -> evolves st st' r.
Proof.
  destruct t as [u|k]; cbn [force]; intro E; [injection E as <- _; apply evolves_refl|]. unb E as [st1 a] E1. destruct a; try discriminate. injection E as <- _.
  eapply evolves_use; [exact E1|]. intros _. exact I.
Qed.
Lemma set_text_cache st i s : kcache (set_text st i s) = kcache st /\ k_results (set_text st i s) = k_results st /\ k_maps (set_text st i s) = k_maps st.
Proof. unfold set_text. destruct (nth_error (js_objs (k_js st)) i) as [b|]; [destruct b|]; auto. Qed.
Lemma evolves_text st i s r : evolves st (set_text st i s) r.
Proof. destruct (set_text_cache st i s) as (C & R & _). apply evolves_more; [rewrite C; apply extends_refl|now rewrite R]. Qed.
Lemma evolves_remember st i o m r : evolves st (remember st i o m) r.
Proof. apply evolves_more; [apply extends_refl|auto]. Qed.
Lemma quiet_use r op : untouched r [KUse r op] -> quiet op.
Proof. intro U. specialize (U op (or_introl eq_refl)). destruct op; try contradiction; exact I. Qed.
Lemma maps_evolves st i o st' m r : maps_to st i o st' m -> evolves st st' r.
Proof.
  intro H. induction H as [i o st' t m N E|i j t n o m Eb G|i j t n o st' m Eb G H IH]; [eapply evolves_plain; eauto|apply evolves_refl|].
  eapply evolves_trans; [exact IH|apply evolves_remember].
Qed.
Lemma source_cache st j js s : source_of (k_js st) j = Some (js, s) -> forall r, evolves st (set_js st js) r.
Proof.
  intros E r. apply evolves_more; [|auto]. cbn [set_js k_js]. rewrite (proj1 (source_frame _ _ _ _ _ E)). apply extends_refl.
Qed.
Lemma both_evolves st i o st' t m r : both_to st i o st' t m -> evolves st st' r.
Proof.
  intro H. induction H as [i o st' t m N E|i j s n o m Eb G|i j s n o st' m Eb G H|i j n o js s m Eb G H|i j n o st1 t st2 s m Eb G H IH F].
  - eapply evolves_plain; eauto.
  - apply evolves_refl.
  - eapply evolves_trans; [eapply maps_evolves; eauto|apply evolves_remember].
  - eapply evolves_trans; [eapply source_cache; eauto|apply evolves_text].
  - eapply evolves_trans; [exact IH|]. eapply evolves_trans; [eapply evolves_force; eauto|]. eapply evolves_trans; [apply evolves_text|apply evolves_remember].
Qed.
Theorem step_evolves st op st' a r : kstep st op = Some (st', a) -> untouched r [op] -> evolves st st' r.
Proof.
  intros E U. destruct op as [op|i o|i o|k op].
  - cbn [kstep] in E. unb E as [js b] E1. injection E as <- _. apply evolves_more; [exact (extends_step _ _ _ _ E1)|auto].
  - destruct (step_both _ _ _ _ _ E) as (t & m & _ & H). eapply both_evolves; eauto.
  - destruct (step_map _ _ _ _ _ E) as (m & _ & H). eapply maps_evolves; eauto.
  - cbn [kstep] in E. unb E as [st1 a1] E1. injection E as <- _. eapply evolves_use; [exact E1|]. intros ->. now apply (quiet_use k).
Qed.
Lemma untouched_app r a b : untouched r (a ++ b) <-> untouched r a /\ untouched r b.
Proof.
  split; [intro H; split; intros op Hi; apply H, in_app_iff; auto|]. intros [H K] op Hi. apply in_app_iff in Hi. destruct Hi as [Hi|Hi]; [exact (H op Hi)|exact (K op Hi)].
Qed.
Theorem run_evolves l : forall st st' r, krun st l = Some st' -> untouched r l -> evolves st st' r.
Proof.
  induction l as [|op l IH]; intros st st' r E U; cbn [krun] in E; [injection E as <-; apply evolves_refl|]. unb E as [st1 a] E1.
  change (op :: l) with ([op] ++ l) in U. apply untouched_app in U. destruct U as [U1 U2]. eapply evolves_trans; [eapply step_evolves; eauto|eauto].
Qed.

(** ** What a CachedSource remembers *)
Lemma memo_is js i j t n : memo js i = Some (j, t, n) -> nth_error (js_objs js) i = Some (BCached j t n).
Proof. unfold memo. destruct (nth_error (js_objs js) i) as [b|]; [|discriminate]. destruct b; try discriminate. now intros [= -> -> ->]. Qed.
Lemma is_memo js i j t n : nth_error (js_objs js) i = Some (BCached j t n) -> memo js i = Some (j, t, n).
Proof. unfold memo. now intros ->. Qed.
Lemma memo_plain st i o st' t m k : plain_map st i o = Some (st', t, m) -> memo (k_js st') k = memo (k_js st) k.
Proof. intro E. destruct (plain_parts _ _ _ _ _ _ E) as (js & a & Ej & -> & _). apply memo_only. eapply map_reads; eauto. Qed.
Lemma memo_objs js js' i x : (match nth_error (js_objs js) i with Some (BCached j t n) => Some (j, t, n) | _ => None end) = x -> js_objs js' = js_objs js -> memo js' i = x.
Proof. unfold memo. intros H E. now rewrite E. Qed.
Lemma objs_set js i b : js_objs (set_obj js i b) = set_nth (js_objs js) i b.
Proof. reflexivity. Qed.
Lemma nth_set_same {A} (l : list A) i x y : nth_error l i = Some y -> nth_error (set_nth l i x) i = Some x.
Proof. intro E. rewrite nth_set_nth, Nat.eqb_refl. pose proof (nth_lt _ _ _ E) as Lt. apply Nat.ltb_lt in Lt. now rewrite Lt. Qed.
Lemma nth_set_other {A} (l : list A) i x k : k <> i -> nth_error (set_nth l i x) k = nth_error l k.
Proof. intro N. rewrite nth_set_nth. assert (B : Nat.eqb i k = false) by (apply Nat.eqb_neq; congruence). now rewrite B. Qed.
Lemma memo_text st i s k : memo (k_js (set_text st i s)) k = if Nat.eqb k i then match memo (k_js st) i with Some (j, _, n) => Some (j, Some s, n) | None => None end else memo (k_js st) k.
Proof.
  unfold set_text. destruct (Nat.eqb_spec k i) as [->|N].
  - destruct (nth_error (js_objs (k_js st)) i) as [b|] eqn:Eb; [|unfold memo; now rewrite Eb].
    destruct b; try (unfold memo; now rewrite Eb). unfold memo. cbn [set_js k_js]. rewrite objs_set. rewrite (nth_set_same _ _ _ _ Eb), Eb. reflexivity.
  - destruct (nth_error (js_objs (k_js st)) i) as [b|] eqn:Eb; [|reflexivity]. destruct b; try reflexivity. unfold memo. cbn [set_js k_js]. rewrite objs_set. now rewrite nth_set_other.
Qed.
Lemma get_remember st k o0 m0 i o m : maps_get (k_maps (remember st k o0 m0) i) o = Some m ->
  maps_get (k_maps st i) o = Some m \/ i = k /\ o = o0 /\ m = m0.
Proof.
  cbn [remember k_maps]. destruct (Nat.eqb_spec i k) as [->|N]; [|auto]. cbn [maps_get]. destruct (jopt_eqb o o0) eqn:E; [|auto].
  apply jopt_eqb_eq in E. intros [= <-]. auto.
Qed.
Lemma jopt_eqb_refl o : jopt_eqb o o = true.
Proof. destruct o as [|[[]|] [[]|]]; reflexivity. Qed.
Lemma remembered st i o m : maps_get (k_maps (remember st i o m) i) o = Some m.
Proof. cbn [remember k_maps]. rewrite Nat.eqb_refl. cbn [maps_get]. now rewrite jopt_eqb_refl. Qed.
Lemma keep_remember st i o m k o' m' : maps_get (k_maps st i) o = None -> maps_get (k_maps st k) o' = Some m' -> maps_get (k_maps (remember st i o m) k) o' = Some m'.
Proof.
  intros N G. cbn [remember k_maps]. destruct (Nat.eqb_spec k i) as [->|]; [|exact G]. cbn [maps_get]. destruct (jopt_eqb o' o) eqn:E; [|exact G].
  apply jopt_eqb_eq in E. subst. congruence.
Qed.
Lemma plain_maps st i o st' t m : plain_map st i o = Some (st', t, m) -> k_maps st' = k_maps st.
Proof. intro E. destruct (plain_parts _ _ _ _ _ _ E) as (js & b & _ & _ & K & _). exact K. Qed.

(** [wraps] *)
Lemma wraps_trans vs i j k : wraps vs i j -> wraps vs j k -> wraps vs i k.
Proof. induction 1 as [|i j' j E _ IH]; [auto|]. intro W. econstructor; [exact E|auto]. Qed.
Lemma wraps_under vs : (forall i j, nth_error vs i = Some (VSame j) -> j < i) -> forall i k, wraps vs i k -> k <= i.
Proof. intros Dn i k W. induction W as [|i j k E _ IH]; [lia|]. apply Dn in E. lia. Qed.
Lemma wraps_anti vs : (forall i j, nth_error vs i = Some (VSame j) -> j < i) -> forall i k, wraps vs i k -> wraps vs k i -> i = k.
Proof. intros Dn i k W W'. apply (wraps_under _ Dn) in W, W'. lia. Qed.
Lemma wraps_dec vs n : (forall i j, nth_error vs i = Some (VSame j) -> j < i) -> forall i, wraps vs i n \/ ~ wraps vs i n.
Proof.
  intros Dn i. induction i as [i IH] using lt_wf_ind. destruct (Nat.eq_dec i n) as [->|Ne]; [left; constructor|].
  destruct (nth_error vs i) as [v|] eqn:E; [|right; intro W; inversion W; subst; congruence].
  destruct v as [| | | |j]; try (right; intro W; inversion W; subst; congruence).
  destruct (IH j (Dn _ _ E)) as [W|W]; [left; econstructor; eauto|]. right. intro W'. inversion W' as [|i' j' k' E' W2]; subst; [congruence|]. rewrite E in E'. injection E' as <-. auto.
Qed.
Lemma wraps_next vs i j n : nth_error vs i = Some (VSame j) -> wraps vs i n -> i = n \/ wraps vs j n.
Proof. intros E W. inversion W as [|i' j' k' E' W2]; subst; [auto|]. rewrite E in E'. injection E' as <-. auto. Qed.

(** Which objects are affected. *)
Lemma maps_memo st i o st' m k : maps_to st i o st' m -> memo (k_js st') k = memo (k_js st) k.
Proof. intro H. induction H; [eapply memo_plain; eauto|reflexivity|assumption]. Qed.
Lemma maps_frame st vs h0 : prog_inv (k_js st) vs h0 -> forall i o st' m, maps_to st i o st' m -> forall k, ~ wraps vs i k -> k_maps st' k = k_maps st k.
Proof.
  intros Iv i o st' m H. induction H as [i o st' t m N E|i j t n o m Eb G|i j t n o st' m Eb G H IH]; intros k W; [now rewrite (plain_maps _ _ _ _ _ _ E)|reflexivity|].
  destruct (inv_same Iv _ _ _ _ Eb) as (Ev & _). cbn [remember k_maps]. destruct (Nat.eqb_spec k i) as [->|Ne]; [destruct W; constructor|].
  apply IH. intro W'. apply W. econstructor; eauto.
Qed.
Lemma maps_keep st i o st' m k o' m' : maps_to st i o st' m -> maps_get (k_maps st k) o' = Some m' -> maps_get (k_maps st' k) o' = Some m'.
Proof.
  intro H. revert k o' m'. induction H as [i o st' t m N E|i j t n o m Eb G|i j t n o st' m Eb G H IH]; intros k o' m' G'; [now rewrite (plain_maps _ _ _ _ _ _ E)|exact G'|].
  pose proof (IH _ _ _ G') as G2. cbn [remember k_maps]. destruct (Nat.eqb_spec k i) as [->|Ne]; [|exact G2]. cbn [maps_get].
  destruct (jopt_eqb o' (some_options o)) eqn:Eo; [|exact G2]. apply jopt_eqb_eq in Eo. subst. congruence.
Qed.
Lemma both_frame st vs h0 : prog_inv (k_js st) vs h0 -> forall i o st' t m, both_to st i o st' t m -> forall k, ~ wraps vs i k ->
  memo (k_js st') k = memo (k_js st) k /\ k_maps st' k = k_maps st k.
Proof.
  intros Iv i o st' t m H. induction H as [i o st' t m N E|i j s n o m Eb G|i j s n o st' m Eb G H|i j n o js s m Eb G H|i j n o st1 t st2 s m Eb G H IH F]; intros k W.
  - split; [eapply memo_plain; eauto|now rewrite (plain_maps _ _ _ _ _ _ E)].
  - auto.
  - destruct (inv_same Iv _ _ _ _ Eb) as (Ev & _). split; [exact (maps_memo _ _ _ _ _ k H)|]. cbn [remember k_maps]. destruct (Nat.eqb_spec k i) as [->|Ne]; [destruct W; constructor|].
    apply (maps_frame _ _ _ Iv _ _ _ _ H). intro W'. apply W. econstructor; eauto.
  - destruct (inv_same Iv _ _ _ _ Eb) as (Ev & _). rewrite memo_text. destruct (set_text_cache (set_js st js) i s) as (_ & _ & ->). cbn [set_js k_js k_maps].
    destruct (Nat.eqb_spec k i) as [->|Ne]; [destruct W; constructor|]. split; [|reflexivity]. apply (source_memo _ _ _ _ _ _ _ _ Iv H). intro W'. apply W. econstructor; eauto.
  - destruct (inv_same Iv _ _ _ _ Eb) as (Ev & _). cbn [remember k_js k_maps]. rewrite memo_text. destruct (set_text_cache st2 i s) as (_ & _ & ->). destruct (force_parts _ _ _ _ F) as (-> & -> & _).
    destruct (Nat.eqb_spec k i) as [->|Ne]; [destruct W; constructor|]. apply IH. intro W'. apply W. econstructor; eauto.
Qed.
Lemma both_maps_keep st i o st' t m k o' m' : both_to st i o st' t m -> maps_get (k_maps st k) o' = Some m' -> maps_get (k_maps st' k) o' = Some m'.
Proof.
  intro H. revert k o' m'.
  assert (Kr : forall s i o m k o' m', maps_get (k_maps st i) o = None -> maps_get (k_maps st k) o' = Some m' -> maps_get (k_maps s k) o' = Some m' -> maps_get (k_maps (remember s i o m) k) o' = Some m').
  { clear. intros s i o m k o' m' No G G'. cbn [remember k_maps]. destruct (Nat.eqb_spec k i) as [->|]; [|exact G']. cbn [maps_get]. destruct (jopt_eqb o' o) eqn:Eo; [|exact G'].
    apply jopt_eqb_eq in Eo. subst. congruence. }
  induction H as [i o st' t m N E|i j s n o m Eb G|i j s n o st' m Eb G H|i j n o js s m Eb G H|i j n o st1 t st2 s m Eb G H IH F]; intros k o' m' G'.
  - now rewrite (plain_maps _ _ _ _ _ _ E).
  - exact G'.
  - apply Kr; eauto using maps_keep.
  - destruct (set_text_cache (set_js st js) i s) as (_ & _ & ->). exact G'.
  - apply Kr; auto. destruct (set_text_cache st2 i s) as (_ & _ & ->). destruct (force_parts _ _ _ _ F) as (_ & -> & _). auto.
Qed.
Lemma get_keep st op st' a i o m : kstep st op = Some (st', a) -> maps_get (k_maps st i) o = Some m -> maps_get (k_maps st' i) o = Some m.
Proof.
  intros E G. destruct op as [op|k o0|k o0|k op].
  - cbn [kstep] in E. unb E as [js b] E1. injection E as <- _. exact G.
  - destruct (step_both _ _ _ _ _ E) as (t & m1 & _ & H). eapply both_maps_keep; eauto.
  - destruct (step_map _ _ _ _ _ E) as (m1 & _ & H). eapply maps_keep; eauto.
  - cbn [kstep] in E. unb E as [st1 a1] E1. injection E as <- _. destruct (use_parts _ _ _ _ _ E1) as (_ & x & c & x' & _ & _ & _ & _ & ->). exact G.
Qed.

(** A CachedSource stays around the same object, and what it remembers stays. *)
Definition keeps (js js' : jstate) : Prop := forall k j t n, memo js k = Some (j, t, n) ->
  exists t' n', memo js' k = Some (j, t', n') /\ forall s, t = Some s -> t' = Some s.
Lemma keeps_refl js : keeps js js.
Proof. intros k j t n M. eauto. Qed.
Lemma keeps_same js js' : (forall k, memo js' k = memo js k) -> keeps js js'.
Proof. intros H k j t n M. rewrite H. eauto. Qed.
Lemma keeps_trans a b c : keeps a b -> keeps b c -> keeps a c.
Proof. intros H K k j t n M. destruct (H _ _ _ _ M) as (t1 & n1 & M1 & T1). destruct (K _ _ _ _ M1) as (t2 & n2 & M2 & T2). eauto 6. Qed.
Lemma keeps_text st i j n s : memo (k_js st) i = Some (j, None, n) -> keeps (k_js st) (k_js (set_text st i s)).
Proof.
  intros M0 k j' t n' M. rewrite memo_text. destruct (Nat.eqb_spec k i) as [->|]; [|eauto]. rewrite M in *. injection M0 as -> -> ->. exists (Some s), n. split; [reflexivity|discriminate].
Qed.
Lemma source_keep vs h0 d st i st' s : prog_inv st vs h0 -> source_from d st i = Some (st', s) -> keeps st st'.
Proof.
  intros Iv E k j t n M. destruct t as [u|].
  - destruct (source_keeps _ _ _ _ _ _ _ _ _ E M) as (n' & M'). eauto.
  - destruct (source_inv _ _ _ _ _ _ _ Iv E) as (_ & _ & _ & K). destruct (K _ _ _ _ (memo_is _ _ _ _ _ M)) as (t' & n' & Eb). exists t', n'. split; [now apply is_memo|discriminate].
Qed.
Lemma size_text vs h0 d : forall st i st' s k j t n, prog_inv st vs h0 -> size_from d st i = Some (st', s) -> memo st k = Some (j, t, n) -> exists n', memo st' k = Some (j, t, n').
Proof.
  assert (S : forall st st2 i j t n n2 k j' t' n', nth_error (js_objs st) i = Some (BCached j t n) -> (exists n1, memo st2 k = Some (j', t', n1)) -> memo st k = Some (j', t', n') ->
    (forall j1 t1 n1, nth_error (js_objs st) i = Some (BCached j1 t1 n1) -> exists t2 n3, nth_error (js_objs st2) i = Some (BCached j1 t2 n3)) ->
    exists n1, memo (set_obj st2 i (BCached j t n2)) k = Some (j', t', n1)).
  { intros st st2 i j t n n2 k j' t' n' Eb (n1 & M2) M Sh. destruct (Sh _ _ _ Eb) as (t2 & n3 & Eb2). unfold memo, set_obj. cbn [js_objs]. destruct (Nat.eq_dec i k) as [<-|Ne].
    - rewrite (nth_set_same _ _ _ _ Eb2). apply memo_is in M. rewrite Eb in M. injection M as -> -> ->. eauto.
    - rewrite nth_set_other by congruence. exists n1. exact M2. }
  induction d as [|d IH]; intros st i st' s k j t n Iv E M; cbn [size_from] in E; unb E as b Eb; destruct b as [| | | | | | |j' [u|] [n'|]];
    try discriminate; try (injection E as <- _; eauto; fail); try (rewrite (memo_only _ _ _ (size_only _ _ _ _ E)); eauto; fail);
    try (injection E as <- _; eapply S; eauto; fail).
  unb E as [st2 s2] E2. injection E as <- _. eapply S; eauto. destruct (size_inv _ _ _ _ _ _ _ Iv E2) as (_ & _ & _ & K). eauto.
Qed.
Lemma both_keeps st vs h0 : prog_inv (k_js st) vs h0 -> forall i o st' t m, both_to st i o st' t m -> keeps (k_js st) (k_js st').
Proof.
  intros Iv i o st' t m H. induction H as [i o st' t m N E|i j s n o m Eb G|i j s n o st' m Eb G H|i j n o js s m Eb G H|i j n o st1 t st2 s m Eb G H IH F].
  - apply keeps_same. intro k. eapply memo_plain; eauto.
  - apply keeps_refl.
  - apply keeps_same. intro k. exact (maps_memo _ _ _ _ _ k H).
  - destruct (inv_same Iv _ _ _ _ Eb) as (Ev & Lt & _). eapply keeps_trans; [eapply source_keep; eauto|]. apply (keeps_text (set_js st js) i j n). cbn [set_js k_js].
    rewrite (source_memo _ _ _ _ _ _ _ i Iv H); [now apply is_memo|]. intro W. apply (wraps_under _ (iv_down _ _ _ Iv)) in W. lia.
  - destruct (inv_same Iv _ _ _ _ Eb) as (Ev & Lt & _). destruct (force_parts _ _ _ _ F) as (J & _). eapply keeps_trans; [exact IH|]. rewrite <- J. apply (keeps_text st2 i j n). rewrite J.
    rewrite (proj1 (both_frame _ _ _ Iv _ _ _ _ _ H i (fun W => Nat.lt_irrefl i (Nat.le_lt_trans _ _ _ (wraps_under _ (iv_down _ _ _ Iv) _ _ W) Lt)))). now apply is_memo.
Qed.
Theorem step_keeps st ops h0 op st' a : kinv st ops h0 -> kstep st op = Some (st', a) -> keeps (k_js st) (k_js st').
Proof.
  intros Iv E. destruct op as [op|k o|k o|k op].
  - cbn [kstep] in E. unb E as [js b] E1. injection E as <- _. cbn [set_js k_js]. destruct (apart_dec (kmeaning ops) 0 op) as [_|(i & [->| ->])].
    + intros i j t n M. destruct (apart_dec (kmeaning ops) i op) as [Q|(i' & [->| ->])]; [rewrite (memo_step _ _ _ _ _ _ _ _ Iv E1 Q M); eauto| |]; cbn [jstep] in E1; unb E1 as [js2 x] E2; injection E1 as <- _.
      * exact (source_keep _ _ _ _ _ _ _ Iv E2 _ _ _ _ M).
      * destruct (size_text _ _ _ _ _ _ _ _ _ _ _ Iv E2 M) as (n' & M'). eauto.
    + cbn [jstep] in E1. unb E1 as [js2 x] E2. injection E1 as <- _. exact (source_keep _ _ _ _ _ _ _ Iv E2).
    + cbn [jstep] in E1. unb E1 as [js2 x] E2. injection E1 as <- _. intros i' j t n M. destruct (size_text _ _ _ _ _ _ _ _ _ _ _ Iv E2 M) as (n' & M'). eauto.
  - destruct (step_both _ _ _ _ _ E) as (t & m & _ & H). eapply both_keeps; eauto.
  - destruct (step_map _ _ _ _ _ E) as (m & _ & H). apply keeps_same. intro i. exact (maps_memo _ _ _ _ _ i H).
  - cbn [kstep] in E. unb E as [st1 a1] E1. injection E as <- _. destruct (use_parts _ _ _ _ _ E1) as (_ & x & c & x' & _ & _ & -> & _). apply keeps_same. reflexivity.
Qed.
