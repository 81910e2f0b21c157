(** CachedSources around CachedSources: where the texts and maps that they remember come from. *)
From Verif Require Import Base Tactics ModelString StringFacts ModelVlq ModelSm ModelSlm ModelSources ModelTree ModelWasm
  ModelJs ModelJsApi IdxFacts JsFacts ModelJsResult ResultFacts ResultProps ModelEnd SpecEnd EndFacts MadeFacts EndMap
  ModelHeap ModelJsProg SpecProg ProgFacts ProgSteps ProgProps ProgEnd ModelJsCached SpecCached CachedFacts CachedSteps.

Notation empty_options := (JObj None None).
(** ** One call *)
Section Chain.
  Context {st : kstate} {vs : list sobj} {h0 : heap} (Iv : prog_inv (k_js st) vs h0) {n j : nat} (En : nth_error vs n = Some (VSame j)) (Fr : fresh_reads vs j).

  Definition fresh_from (st' : kstate) (m : option nat) (o : jopt) : Prop :=
    exists st1 t0, plain_map st j o = Some (st1, t0, m) /\ forall r, evolves st1 st' r.
  Definition old_from (i : nat) (m : option nat) (key : jopt) : Prop := exists k, wraps vs i k /\ wraps vs k n /\ maps_get (k_maps st k) key = Some m.
  Lemma old_in i j' m key : nth_error vs i = Some (VSame j') -> old_from j' m key -> old_from i m key.
  Proof. intros E (k & W & H). exists k. split; [econstructor; eauto|exact H]. Qed.
  Lemma fresh_on st' st'' m o : fresh_from st' m o -> (forall r, evolves st' st'' r) -> fresh_from st'' m o.
  Proof. intros (st1 & t0 & E & H) K. exists st1, t0. split; [exact E|]. intro r. eapply evolves_trans; eauto. Qed.
  Lemma core_plain : uncached (k_js st) j.
  Proof. intros j' t' n' E. destruct (inv_same Iv _ _ _ _ E) as (Ev & _). exact (Fr _ Ev). Qed.
  Lemma core_out : ~ wraps vs j n.
  Proof. intro W. apply (wraps_under _ (iv_down _ _ _ Iv)) in W. pose proof (iv_down _ _ _ Iv _ _ En). lia. Qed.
  Lemma member_cached i : wraps vs i n -> exists j' t' n', nth_error (js_objs (k_js st)) i = Some (BCached j' t' n').
  Proof.
    intro W. assert (H : exists j', nth_error vs i = Some (VSame j')) by (inversion W; subst; eauto). destruct H as (j' & Ev).
    destruct (inv_cachedv Iv _ _ Ev) as (t & m & Eb). eauto.
  Qed.
  Lemma inner_of i j' t n' : nth_error (js_objs (k_js st)) i = Some (BCached j' t n') -> wraps vs i n -> i = n /\ j' = j \/ i <> n /\ wraps vs j' n.
  Proof.
    intros Eb W. destruct (inv_same Iv _ _ _ _ Eb) as (Ev & _). destruct (Nat.eq_dec i n) as [->|Ne]; [left; split; congruence|].
    right. split; [exact Ne|]. destruct (wraps_next _ _ _ _ Ev W); [contradiction|assumption].
  Qed.
  Lemma maps_core o st' m : maps_to st j o st' m -> exists t, plain_map st j o = Some (st', t, m).
  Proof.
    pose proof core_plain as NC. intro H. inversion H as [i o' s t m' N E|i j' t n' o' m' Eb G|i j' t n' o' s m' Eb G H']; subst; [eauto| |]; destruct (NC _ _ _ Eb).
  Qed.
  Lemma both_core o st' t m : both_to st j o st' t m -> plain_map st j o = Some (st', t, m).
  Proof.
    pose proof core_plain as NC. intro H. inversion H as [i o' s t' m' N E|i j' s n' o' m' Eb G|i j' s n' o' s' m' Eb G H'|i j' n' o' js s m' Eb G H'|i j' n' o' s1 t1 s2 s m' Eb G H' F]; subst;
      [assumption|..]; destruct (NC _ _ _ Eb).
  Qed.

  (** map *)
  Lemma maps_born i o st' m : maps_to st i o st' m -> wraps vs i n ->
    fresh_from st' m JUndef \/ maps_get (k_maps st i) (some_options o) = Some m \/ old_from i m empty_options.
  Proof.
    intro H. induction H as [i o st' t m N E|i j' t n' o m Eb G|i j' t n' o st' m Eb G H IH]; intro W.
    - destruct (member_cached i W) as (? & ? & ? & Eb). destruct (N _ _ _ Eb).
    - auto.
    - destruct (inv_same Iv _ _ _ _ Eb) as (Ev & _). destruct (inner_of _ _ _ _ Eb W) as [(-> & ->)|(_ & W')].
      + left. destruct (maps_core _ _ _ H) as (t0 & E). exists st', t0. split; [exact E|]. intro r. apply evolves_remember.
      + destruct (IH W') as [Hf|[Ho|Ho]]; [left; eapply fresh_on; [exact Hf|intro r; apply evolves_remember]| |]; right; right; (eapply old_in; [exact Ev|]); [|exact Ho].
        exists j'. split; [constructor|auto].
  Qed.
  Lemma maps_new i o st' m : maps_to st i o st' m -> forall k key m', wraps vs k n -> maps_get (k_maps st' k) key = Some m' ->
    maps_get (k_maps st k) key = Some m' \/
    wraps vs i k /\ (key = some_options o /\ k = i \/ key = empty_options) /\ (fresh_from st' m' JUndef \/ k <> n /\ old_from i m' empty_options).
  Proof.
    intro H. induction H as [i o st' t m N E|i j' t n' o m Eb G|i j' t n' o st' m Eb G H IH]; intros k key m' W Gk.
    - left. now rewrite <- (plain_maps _ _ _ _ _ _ E).
    - now left.
    - destruct (inv_same Iv _ _ _ _ Eb) as (Ev & _). destruct (get_remember _ _ _ _ _ _ _ Gk) as [G'|(-> & -> & ->)].
      + destruct (IH _ _ _ W G') as [Ho|(W' & Hk & Hf)]; [now left|]. right. split; [econstructor; eauto|]. split; [destruct Hk as [[Hk _]|Hk]; right; exact Hk|].
        destruct Hf as [Hf|(Ne & Hf)]; [left; eapply fresh_on; [exact Hf|intro r; apply evolves_remember]|right; split; [exact Ne|eapply old_in; eauto]].
      + right. split; [constructor|]. split; [now left|]. destruct (inner_of _ _ _ _ Eb W) as [(-> & ->)|(Ne & W')].
        * left. destruct (maps_core _ _ _ H) as (t0 & E). exists st', t0. split; [exact E|]. intro r. apply evolves_remember.
        * destruct (maps_born _ _ _ _ H W') as [Hf|[Ho|Ho]]; [left; eapply fresh_on; [exact Hf|intro r; apply evolves_remember]| |]; right; (split; [exact Ne|]); (eapply old_in; [exact Ev|]); [|exact Ho].
          exists j'. split; [constructor|auto].
  Qed.

  (** sourceAndMap; a CachedSource that knows its text and not this map asks for the default map. *)
  Definition lost (i : nat) (o : jopt) : Prop :=
    exists k j' u n', wraps vs i k /\ wraps vs k n /\ k <> n /\ memo (k_js st) k = Some (j', Some u, n') /\ maps_get (k_maps st k) o = None.
  Lemma lost_in i j' o : nth_error vs i = Some (VSame j') -> lost j' o -> lost i o.
  Proof. intros E (k & j1 & u & n1 & W & H). exists k, j1, u, n1. split; [econstructor; eauto|exact H]. Qed.
  Lemma maps_old i j' o st' m : nth_error vs i = Some (VSame j') -> maps_to st j' o st' m -> wraps vs j' n ->
    fresh_from st' m JUndef \/ old_from i m (some_options o) \/ old_from i m empty_options.
  Proof.
    intros E H W. destruct (maps_born _ _ _ _ H W) as [Hf|[Ho|Ho]]; [auto|right; left|right; right; eapply old_in; eauto]. exists j'. split; [econstructor; [exact E|constructor]|auto].
  Qed.
  Lemma both_born i o st' t m : both_to st i o st' t m -> wraps vs i n ->
    fresh_from st' m o \/ old_from i m o \/ lost i o /\ (fresh_from st' m JUndef \/ old_from i m (some_options o) \/ old_from i m empty_options).
  Proof.
    intro H. induction H as [i o st' t m N E|i j' s n' o m Eb G|i j' s n' o st' m Eb G H|i j' n' o js s m Eb G H|i j' n' o st1 t st2 s m Eb G H IH F]; intro W.
    - destruct (member_cached i W) as (? & ? & ? & Eb). destruct (N _ _ _ Eb).
    - right. left. exists i. split; [constructor|auto].
    - destruct (inv_same Iv _ _ _ _ Eb) as (Ev & _). destruct (inner_of _ _ _ _ Eb W) as [(-> & ->)|(Ne & W')].
      + left. destruct (maps_core _ _ _ H) as (t0 & E). exists st', t0. split; [exact E|]. intro r. apply evolves_remember.
      + right. right. split; [exists i, j', s, n'; split; [constructor|]; split; [exact W|]; split; [exact Ne|]; split; [now apply is_memo|exact G]|].
        destruct (maps_old _ _ _ _ _ Ev H W') as [Hf|Ho]; [left; eapply fresh_on; [exact Hf|intro r; apply evolves_remember]|right; exact Ho].
    - right. left. exists i. split; [constructor|auto].
    - assert (Ev : forall r, evolves st1 (remember (set_text st2 i s) i o m) r).
      { intro r. eapply evolves_trans; [eapply evolves_force; eauto|]. eapply evolves_trans; [apply evolves_text|apply evolves_remember]. }
      destruct (inv_same Iv _ _ _ _ Eb) as (Evs & _). destruct (inner_of _ _ _ _ Eb W) as [(-> & ->)|(Ne & W')].
      + left. exists st1, t. split; [exact (both_core _ _ _ _ H)|exact Ev].
      + destruct (IH W') as [Hf|[Ho|(Hl & [Hf|Ho])]]; [left; eapply fresh_on; eauto|right; left; eapply old_in; eauto| |]; right; right; (split; [eapply lost_in; eauto|]);
          [left; eapply fresh_on; eauto|right; destruct Ho; [left|right]; eapply old_in; eauto].
  Qed.
  Lemma both_new i o st' t m : both_to st i o st' t m -> forall k key m', wraps vs k n -> maps_get (k_maps st' k) key = Some m' ->
    maps_get (k_maps st k) key = Some m' \/
    wraps vs i k /\ (key = o /\ (fresh_from st' m' o \/ k <> n /\ old_from i m' o) \/
      lost i o /\ (key = o \/ key = some_options o \/ key = empty_options) /\
      (fresh_from st' m' JUndef \/ k <> n /\ (key = o /\ old_from i m' (some_options o) \/ old_from i m' empty_options))).
  Proof.
    intro H. induction H as [i o st' t m N E|i j' s n' o m Eb G|i j' s n' o st' m Eb G H|i j' n' o js s m Eb G H|i j' n' o st1 t st2 s m Eb G H IH F]; intros k key m' W Gk.
    - left. now rewrite <- (plain_maps _ _ _ _ _ _ E).
    - now left.
    - destruct (inv_same Iv _ _ _ _ Eb) as (Ev & _).
      assert (L : wraps vs i n -> i <> n -> lost i o).
      { intros Wi Ne. exists i, j', s, n'. split; [constructor|]. split; [exact Wi|]. split; [exact Ne|]. split; [now apply is_memo|exact G]. }
      destruct (get_remember _ _ _ _ _ _ _ Gk) as [G'|(-> & -> & ->)].
      + destruct (maps_new _ _ _ _ H _ _ _ W G') as [Ho|(W' & Hk & Hf)]; [now left|]. right. split; [econstructor; eauto|]. right.
        assert (Wi : wraps vs i n) by (econstructor; [exact Ev|eapply wraps_trans; eauto]). pose proof (wraps_trans _ _ _ _ W' W) as Wj.
        split; [apply L; [exact Wi|]; intros ->; rewrite En in Ev; injection Ev as <-; exact (core_out Wj)|].
        split; [destruct Hk as [[Hk _]|Hk]; auto|]. destruct Hf as [Hf|(Ne & Ho)]; [left; eapply fresh_on; [exact Hf|intro r; apply evolves_remember]|right; split; [exact Ne|right; eapply old_in; eauto]].
      + right. split; [constructor|]. destruct (inner_of _ _ _ _ Eb W) as [(-> & ->)|(Ne & W')].
        * left. split; [reflexivity|]. left. destruct (maps_core _ _ _ H) as (t0 & E). exists st', t0. split; [exact E|]. intro r. apply evolves_remember.
        * right. split; [auto|]. split; [auto|]. destruct (maps_old _ _ _ _ _ Ev H W') as [Hf|[Ho|Ho]]; [left; eapply fresh_on; [exact Hf|intro r; apply evolves_remember]|right; auto|right; auto].
    - left. destruct (set_text_cache (set_js st js) i s) as (_ & _ & K). now rewrite K in Gk.
    - assert (Ev : forall r, evolves st1 (remember (set_text st2 i s) i o m) r).
      { intro r. eapply evolves_trans; [eapply evolves_force; eauto|]. eapply evolves_trans; [apply evolves_text|apply evolves_remember]. }
      destruct (inv_same Iv _ _ _ _ Eb) as (Evs & _). destruct (get_remember _ _ _ _ _ _ _ Gk) as [G'|(-> & -> & ->)].
      + destruct (set_text_cache st2 i s) as (_ & _ & K). rewrite K in G'. destruct (force_parts _ _ _ _ F) as (_ & K' & _). rewrite K' in G'.
        destruct (IH _ _ _ W G') as [Ho|(W' & [(-> & Hf)|(Hl & Hk & Hf)])]; [now left| |]; right; (split; [econstructor; eauto|]).
        * left. split; [reflexivity|]. destruct Hf as [Hf|(Ne & Ho)]; [left; eapply fresh_on; eauto|right; split; [exact Ne|eapply old_in; eauto]].
        * right. split; [eapply lost_in; eauto|]. split; [exact Hk|]. destruct Hf as [Hf|(Ne & [(Ho1 & Ho)|Ho])]; [left; eapply fresh_on; eauto|right..]; (split; [exact Ne|]); [left; split; [exact Ho1|]|right]; eapply old_in; eauto.
      + right. split; [constructor|]. destruct (inner_of _ _ _ _ Eb W) as [(-> & ->)|(Ne & W')].
        * left. split; [reflexivity|]. left. exists st1, t. split; [exact (both_core _ _ _ _ H)|exact Ev].
        * destruct (both_born _ _ _ _ _ H W') as [Hf|[Ho|(Hl & Hf)]]; [left; split; [reflexivity|]; left; eapply fresh_on; eauto|left; split; [reflexivity|right; split; [exact Ne|eapply old_in; eauto]]|].
          right. split; [eapply lost_in; eauto|]. split; [auto|]. destruct Hf as [Hf|[Ho|Ho]]; [left; eapply fresh_on; eauto|right..]; (split; [exact Ne|]); [left; split; [reflexivity|]|right]; eapply old_in; eauto.
  Qed.

  (** Texts. *)
  Definition old_text (s : jstr) : Prop := exists k j' n', wraps vs k n /\ memo (k_js st) k = Some (j', Some s, n').
  Definition read_text (s : jstr) : Prop := exists js, source_of (k_js st) j = Some (js, s).
  Definition both_text (i : nat) (o : jopt) (s : jstr) : Prop :=
    wraps vs i n /\ exists st1 t m st2, plain_map st j o = Some (st1, t, m) /\ force st1 t = Some (st2, s).
  Lemma source_depth d d' : source_from d (k_js st) j = source_from d' (k_js st) j.
  Proof.
    pose proof core_plain as N. destruct d, d'; cbn [source_from]; destruct (nth_error (js_objs (k_js st)) j) as [b|]; try reflexivity; cbn [bind]; destruct b; try reflexivity; destruct (N _ _ _ eq_refl).
  Qed.
  Lemma source_born d : forall i js' s, source_from d (k_js st) i = Some (js', s) ->
    (wraps vs i n -> old_text s \/ read_text s) /\
    forall k j' u n', wraps vs k n -> memo js' k = Some (j', Some u, n') -> old_text u \/ read_text u.
  Proof.
    assert (Old : forall js' k j' u n', wraps vs k n -> memo js' k = memo (k_js st) k -> memo js' k = Some (j', Some u, n') -> old_text u \/ read_text u).
    { intros js' k j' u n' W E M. rewrite E in M. left. exists k, j', n'. auto. }
    induction d as [|d IH]; intros i js' s E; cbn [source_from] in E; unb E as b Eb.
    - assert (B : (wraps vs i n -> old_text s \/ read_text s) /\ forall k, memo js' k = memo (k_js st) k).
      { destruct b as [| | | | | | |j' [u|] n']; try discriminate; try (split; [intro W; destruct (member_cached i W) as (? & ? & ? & Eb'); rewrite Eb in Eb'; discriminate|intro k; exact (memo_only _ _ _ (source_only _ _ _ _ E))]).
        injection E as <- <-. split; [|reflexivity]. intro W. left. exists i, j', n'. split; [exact W|now apply is_memo]. }
      destruct B as [B1 B2]. split; [exact B1|]. intros k j' u n' W M. eapply Old; eauto.
    - destruct b as [| | | | | | |j' [u|] n'];
        try (split; [intro W; destruct (member_cached i W) as (? & ? & ? & Eb'); rewrite Eb in Eb'; discriminate|intros k j1 u n1 W M; eapply Old; [exact W|exact (memo_only _ _ _ (source_only _ _ _ _ E))|exact M]]).
      + injection E as <- <-. split; [intro W; left; exists i, j', n'; split; [exact W|now apply is_memo]|]. intros k j1 u1 n1 W M. eapply Old; eauto.
      + unb E as [js2 s2] E2. injection E as <- <-. destruct (IH _ _ _ E2) as [B1 B2].
        assert (Wi : wraps vs i n -> old_text s2 \/ read_text s2).
        { intro W. destruct (inner_of _ _ _ _ Eb W) as [(-> & ->)|(_ & W')]; [|auto]. right. exists js2. unfold source_of. rewrite (source_depth j d). exact E2. }
        split; [exact Wi|]. intros k j1 u1 n1 W M. unfold memo, set_obj in M. cbn [js_objs] in M. destruct (Nat.eq_dec k i) as [->|Ne].
        * destruct (source_inv _ _ _ _ _ _ _ Iv E2) as (_ & _ & _ & Sh). destruct (Sh _ _ _ _ Eb) as (t3 & n3 & Eb3). rewrite (nth_set_same _ _ _ _ Eb3) in M. injection M as _ <- _. auto.
        * rewrite nth_set_other in M by exact Ne. exact (B2 _ _ _ _ W M).
  Qed.
  Lemma both_texts i o st' t m : both_to st i o st' t m ->
    (wraps vs i n -> forall s, t = TNow s -> old_text s \/ read_text s \/ both_text i o s) /\
    forall k j' u n', wraps vs k n -> memo (k_js st') k = Some (j', Some u, n') -> old_text u \/ read_text u \/ both_text i o u.
  Proof.
    assert (Old : forall i o js' k j' u n', wraps vs k n -> memo js' k = memo (k_js st) k -> memo js' k = Some (j', Some u, n') -> old_text u \/ read_text u \/ both_text i o u).
    { intros i0 o0 js' k j' u n' W E M. rewrite E in M. left. exists k, j', n'. auto. }
    intro H. induction H as [i o st' t m N E|i j' s n' o m Eb G|i j' s n' o st' m Eb G H|i j' n' o js s m Eb G H|i j' n' o st1 t st2 s m Eb G H IH F].
    - split; [intro W; destruct (member_cached i W) as (? & ? & ? & Eb); destruct (N _ _ _ Eb)|]. intros k j' u n' W M. eapply Old; [exact W|eapply memo_plain; eauto|exact M].
    - split; [intros W s' [= <-]; left; exists i, j', n'; split; [exact W|now apply is_memo]|]. intros k j1 u1 n1 W M. eapply Old; eauto.
    - split; [intros W s' [= <-]; left; exists i, j', n'; split; [exact W|now apply is_memo]|]. intros k j1 u1 n1 W M. eapply Old; [exact W|exact (maps_memo _ _ _ _ _ k H)|exact M].
    - destruct (source_born _ _ _ _ H) as [B1 B2].
      assert (Wi : wraps vs i n -> old_text s \/ read_text s).
      { intro W. destruct (inner_of _ _ _ _ Eb W) as [(-> & ->)|(_ & W')]; [|auto]. right. exists js. exact H. }
      split; [intros W s' [= <-]; destruct (Wi W); auto|]. intros k j1 u1 n1 W M. rewrite memo_text in M. destruct (Nat.eqb_spec k i) as [->|Ne].
      + destruct (memo (k_js (set_js st js)) i) as [[[j2 t2] n2]|]; [|discriminate]. injection M as _ <- _. destruct (Wi W); auto.
      + destruct (B2 _ _ _ _ W M); auto.
    - destruct IH as [B1 B2]. destruct (inv_same Iv _ _ _ _ Eb) as (Evs & _).
      assert (Up : forall u, both_text j' o u -> both_text i o u) by (intros u (W & X); split; [econstructor; eauto|exact X]).
      assert (Wi : wraps vs i n -> old_text s \/ read_text s \/ both_text i o s).
      { intro W. destruct (inner_of _ _ _ _ Eb W) as [(-> & ->)|(_ & W')].
        - right. right. split; [exact W|]. exists st1, t, m, st2. split; [exact (both_core _ _ _ _ H)|exact F].
        - assert (Ht : t = TNow s).
          { inversion H as [i1 o1 s1 t1 m1 N E|i1 j1 s1 n1 o1 m1 Eb1 G1|i1 j1 s1 n1 o1 s2 m1 Eb1 G1 H1|i1 j1 n1 o1 js1 s1 m1 Eb1 G1 H1|i1 j1 n1 o1 s3 t1 s2 s1 m1 Eb1 G1 H1 F1]; subst;
              [destruct (member_cached _ W') as (? & ? & ? & Eb'); destruct (N _ _ _ Eb')|..]; cbn [force] in F; injection F as _ ->; reflexivity. }
          destruct (B1 W' _ Ht) as [?|[?|?]]; auto. }
      split; [intros W s' [= <-]; auto|]. intros k j1 u1 n1 W M. cbn [remember k_js] in M. rewrite memo_text in M. destruct (force_parts _ _ _ _ F) as (J & _). rewrite J in M. destruct (Nat.eqb_spec k i) as [->|Ne].
      + destruct (memo (k_js st1) i) as [[[j2 t2] n2]|]; [|discriminate]. injection M as _ <- _. auto.
      + destruct (B2 _ _ _ _ W M) as [?|[?|?]]; auto.
  Qed.

  (** Text and map together. *)
  Definition in_step (s : kstate) (o : jopt) (k : nat) : Prop :=
    (exists j' u n', memo (k_js s) k = Some (j', Some u, n')) <-> (exists m, maps_get (k_maps s k) o = Some m).
  Lemma in_step_same s s' o k : memo (k_js s') k = memo (k_js s) k /\ k_maps s' k = k_maps s k -> in_step s o k -> in_step s' o k.
  Proof. unfold in_step. intros [E1 E2]. now rewrite E1, E2. Qed.
  Lemma both_level i o st' t m : both_to st i o st' t m -> (forall k, wraps vs k n -> k <> n -> in_step st o k) -> forall k, wraps vs k n -> k <> n -> in_step st' o k.
  Proof.
    intros H L. pose proof H as H0. induction H as [i o st' t m N E|i j' s n' o m Eb G|i j' s n' o st' m Eb G H|i j' n' o js s m Eb G H|i j' n' o st1 t st2 s m Eb G H IH F];
      intros k W Ne; (destruct (wraps_dec vs k (iv_down _ _ _ Iv) i) as [Wi|Wi];
        [|exact (in_step_same _ _ _ _ (both_frame _ _ _ Iv _ _ _ _ _ H0 k Wi) (L _ W Ne))]); pose proof (wraps_trans _ _ _ _ Wi W) as Win.
    - destruct (member_cached i Win) as (? & ? & ? & Eb). destruct (N _ _ _ Eb).
    - auto.
    - assert (Nei : i <> n) by (intros ->; apply Ne, (wraps_anti _ (iv_down _ _ _ Iv)); assumption).
      destruct (proj1 (L _ Win Nei)) as (m0 & G0); [exists j', s, n'; now apply is_memo|congruence].
    - assert (Nei : i <> n) by (intros ->; apply Ne, (wraps_anti _ (iv_down _ _ _ Iv)); assumption).
      destruct (proj2 (L _ Win Nei)) as (j1 & u1 & n1 & M); [eauto|]. apply memo_is in M. congruence.
    - destruct (inv_same Iv _ _ _ _ Eb) as (Evs & Lt & _). destruct (force_parts _ _ _ _ F) as (J & K & _). destruct (set_text_cache st2 i s) as (_ & _ & K').
      unfold in_step. cbn [remember k_js k_maps]. rewrite memo_text, K', J, K. destruct (Nat.eqb_spec k i) as [->|Nk].
      + assert (M1 : memo (k_js st1) i = Some (j', None, n')).
        { rewrite (proj1 (both_frame _ _ _ Iv _ _ _ _ _ H i (fun W' => Nat.lt_irrefl i (Nat.le_lt_trans _ _ _ (wraps_under _ (iv_down _ _ _ Iv) _ _ W') Lt)))). now apply is_memo. }
        rewrite M1. split; [intros _; exists m; cbn [maps_get]; now rewrite jopt_eqb_refl|intros _; eauto].
      + apply (IH L H k W Ne).
  Qed.
End Chain.
