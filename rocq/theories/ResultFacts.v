(** The objects returned by sourceAndMap over time. *)
From Verif Require Import Base Tactics ModelString ModelVlq ModelSm ModelSlm ModelSources ModelTree ModelWasm ModelJs ModelJsApi
  ModelJsResult SpecResult JsFacts.

Lemma field_eqb_eq a b : field_eqb a b = true <-> a = b.
Proof. destruct a, b; cbn; split; congruence. Qed.
Lemma field_eqb_refl a : field_eqb a a = true.
Proof. destruct a; reflexivity. Qed.
Lemma upd_same fs f v : upd fs f v f = Some v.
Proof. unfold upd. now rewrite field_eqb_refl. Qed.
Lemma upd_other fs f g v : f <> g -> upd fs f v g = fs g.
Proof. unfold upd. intro H. destruct (field_eqb f g) eqn:E; [|reflexivity]. apply field_eqb_eq in E. contradiction. Qed.
Lemma shown_shown f v : shown f (shown f v) = shown f v.
Proof. destruct f, v as [[|]|[|]|]; reflexivity. Qed.

(** What the object holds for a property without the wasm object. *)
Definition plain_names (o : robj) (f : field) : bool := negb (ro_names o) && field_eqb f FNames.
Definition held (o : robj) (f : field) : option jval :=
  match ro_fields o f with
  | Some w => Some w
  | None => if plain_names o f then Some VUndef else None
  end.

Lemma get_held c o f w : held o f = Some w -> ro_get c o f = (o, Some (shown f w)).
Proof.
  unfold held, ro_get. fold (plain_names o f). destruct (ro_fields o f) as [v|]; [congruence|].
  destruct (plain_names o f); [|discriminate]. intro H. injection H as <-. destruct f; reflexivity.
Qed.
Lemma get_holds c o f o1 v : ro_get c o f = (o1, Some v) -> exists w, held o1 f = Some w /\ v = shown f w.
Proof.
  unfold ro_get. fold (plain_names o f). destruct (ro_fields o f) as [w|] eqn:Ef.
  - intro H. injection H as <- <-. exists w. unfold held. now rewrite Ef.
  - destruct (plain_names o f) eqn:Ep.
    + intro H. injection H as <- <-. exists VUndef. unfold held. rewrite Ef, Ep. destruct f; auto.
    + destruct (ro_wasm o) as [r|]; [|discriminate]. destruct (jr_get_map r) as [[r' m]|]; [|discriminate].
      destruct (raw_value c m f) as [w|]; [|discriminate]. intro H. injection H as <- <-.
      exists w. unfold held. cbn. now rewrite upd_same.
Qed.

(** A read changes only the property read and the wasm object. *)
Lemma get_frame c o f o1 v : ro_get c o f = (o1, v) ->
  ro_names o1 = ro_names o /\ ro_modified o1 = ro_modified o /\ ro_source o1 = ro_source o /\
  (forall g, held o g <> None -> held o1 g = held o g) /\ (forall g, g <> f -> held o1 g = held o g).
Proof.
  unfold ro_get. fold (plain_names o f). destruct (ro_fields o f) as [w|] eqn:Ef; [intro H; injection H as <- <-; auto 6|].
  destruct (plain_names o f) eqn:Ep; [intro H; injection H as <- <-; auto 6|].
  destruct (ro_wasm o) as [r|]; [|intro H; injection H as <- <-; auto 6].
  destruct (jr_get_map r) as [[r' m]|]; [|intro H; injection H as <- <-; auto 6].
  destruct (raw_value c m f) as [w|]; intro H; injection H as <- <-; [|auto 6].
  split; [reflexivity|]. split; [reflexivity|]. split; [reflexivity|].
  assert (K : forall g, g <> f -> held (set_field (set_wasm o (Some r')) f w) g = held o g).
  { intros g Hg. unfold held. cbn [set_field set_wasm ro_fields]. rewrite upd_other by congruence. reflexivity. }
  split; [|exact K]. intros g Hg. destruct (field_eqb g f) eqn:E; [|apply K; intros ->; now rewrite field_eqb_refl in E].
  apply field_eqb_eq in E. subst g. exfalso. apply Hg. unfold held. rewrite Ef, Ep. reflexivity.
Qed.

(** Wrapping: which property reads it made. *)
Lemma wrap_frame c o value name c1 o1 x : ro_wrap c o value name = (c1, o1, x) ->
  ro_names o1 = ro_names o /\ ro_modified o1 = ro_modified o /\ ro_source o1 = ro_source o /\
  (forall g, held o g <> None -> held o1 g = held o g).
Proof.
  unfold ro_wrap. destruct (cache_add_unchecked c value) as [c2 vi]. destruct (cache_add c2 name) as [c3 ni].
  destruct (ro_wasm_obj o) as [r|]; [intro H; injection H as <- <- <-; auto|].
  destruct (ro_get c3 o FSources) as [oa s] eqn:Ea. pose proof (get_frame _ _ _ _ _ Ea) as (A1 & A2 & A3 & A4 & _).
  destruct (pass_list cache_add c3 s) as [[c4 ss]|]; [|intro H; injection H as <- <- <-; auto].
  destruct (ro_get c4 oa FContents) as [ob k] eqn:Eb. pose proof (get_frame _ _ _ _ _ Eb) as (B1 & B2 & B3 & B4 & _).
  assert (B5 : forall g, held o g <> None -> held ob g = held o g) by (intros g Hg; rewrite B4; rewrite A4; auto).
  destruct (pass_list cache_add_unchecked c4 k) as [[c5 ks]|]; [|intro H; injection H as <- <- <-; repeat split; congruence || auto].
  destruct (ro_get c5 ob FMappings) as [oc m] eqn:Ec. pose proof (get_frame _ _ _ _ _ Ec) as (C1 & C2 & C3 & C4 & _).
  assert (C5 : forall g, held o g <> None -> held oc g = held o g) by (intros g Hg; rewrite C4; rewrite B5; auto).
  destruct (let* m0 := m in as_string m0) as [ms|]; [|intro H; injection H as <- <- <-; repeat split; congruence || auto].
  destruct (ro_get c5 oc FNames) as [od n] eqn:Ed. pose proof (get_frame _ _ _ _ _ Ed) as (D1 & D2 & D3 & D4 & _).
  assert (D5 : forall g, held o g <> None -> held od g = held o g) by (intros g Hg; rewrite D4; rewrite C5; auto).
  destruct (pass_list cache_add c5 n) as [[c6 ns]|]; intro H; injection H as <- <- <-; repeat split; congruence || auto.
Qed.

Definition leaves_alone (f : field) (op : rop) : Prop :=
  match op with RSet g _ | RMutate g _ => g <> f | _ => True end.

Lemma step_held f w c o op c1 o1 a : held o f = Some w -> leaves_alone f op -> rstep (c, o) op = (c1, o1, a) ->
  held o1 f = Some w.
Proof.
  intros Hh Hl. assert (Hn : held o f <> None) by congruence. destruct op as [g|g v|g h| |s|value name|s ck|]; cbn [rstep leaves_alone] in *.
  - destruct (ro_get c o g) as [o2 v] eqn:E. intro H. injection H as <- <- <-.
    apply get_frame in E as (_ & _ & _ & K & _). rewrite K; auto.
  - intro H. injection H as <- <- <-. unfold ro_set, held in *.
    destruct (negb (ro_names (set_field o g v)) && field_eqb g FNames); cbn [set_modified set_field ro_fields];
      rewrite upd_other by exact Hl; exact Hh.
  - destruct (ro_get c o g) as [o2 v] eqn:E. apply get_frame in E as (N & _ & _ & K & _). specialize (K f Hn). rewrite Hh in K.
    destruct v as [v|]; intro H; injection H as <- <- <-; [|exact K].
    destruct (ro_fields o2 g); [|exact K]. unfold held in *. cbn [set_field ro_fields]. rewrite upd_other by exact Hl. exact K.
  - unfold ro_get_source. destruct (ro_source o) as [s|]; [intro H; injection H as <- <- <-; exact Hh|].
    destruct (ro_wasm o) as [r|]; intro H; injection H as <- <- <-; exact Hh.
  - intro H; injection H as <- <- <-; exact Hh.
  - destruct (ro_wrap c o value name) as [[c2 o2] x] eqn:E. intro H. injection H as <- <- <-.
    apply wrap_frame in E as (_ & _ & _ & K). rewrite K; auto.
  - destruct ck; intro H; injection H as <- <- <-; exact Hh.
  - intro H; injection H as <- <- <-; exact Hh.
Qed.
Lemma run_held f w : forall l c o c1 o1 out, held o f = Some w -> Forall (leaves_alone f) l ->
  rrun (c, o) l = (c1, o1, out) -> held o1 f = Some w.
Proof.
  induction l as [|op l IH]; intros c o c1 o1 out Hh Hl E; cbn [rrun] in E; [congruence|].
  destruct (rstep (c, o) op) as [[c2 o2] a] eqn:E1. destruct (rrun (c2, o2) l) as [[c3 o3] out2] eqn:E2.
  injection E as <- <- <-. apply Forall_cons_iff in Hl as [H1 H2]. eapply IH; [|exact H2|exact E2]. eapply step_held; eauto.
Qed.

(** A property that was read once keeps its value, whatever happens to the wasm object and
    the cache. *)
Theorem read_stable c o f v l : Forall (leaves_alone f) l -> snd (rstep (c, o) (RGet f)) = AVal v ->
  snd (rstep (fst (rrun (fst (rstep (c, o) (RGet f))) l)) (RGet f)) = AVal v.
Proof.
  intros Hl. cbn [rstep]. destruct (ro_get c o f) as [o1 v1] eqn:E. destruct v1 as [v1|]; [|discriminate].
  cbn [answer fst snd]. intro H. injection H as ->. destruct (get_holds _ _ _ _ _ E) as (w & Hw & ->).
  destruct (rrun (c, o1) l) as [[c2 o2] out] eqn:E2. cbn [fst]. cbn [rstep].
  rewrite (get_held c2 o2 f w) by (eapply run_held; eauto). reflexivity.
Qed.
Theorem assigned_stable c o f v l : Forall (leaves_alone f) l ->
  snd (rstep (fst (rrun (fst (rstep (c, o) (RSet f v))) l)) (RGet f)) = AVal (shown f v).
Proof.
  intro Hl. cbn [rstep fst]. destruct (rrun (c, ro_set o f v) l) as [[c2 o2] out] eqn:E2. cbn [fst rstep].
  rewrite (get_held c2 o2 f v); [reflexivity|]. eapply run_held; [|exact Hl|exact E2].
  unfold ro_set, held. destruct (negb (ro_names (set_field o f v)) && field_eqb f FNames);
    cbn [set_modified set_field ro_fields]; now rewrite upd_same.
Qed.

(** ** Growth of the cache *)
Lemma cache_at_grows c c' i s : grows c c' -> cache_at c i = Some s -> cache_at c' i = Some s.
Proof.
  intros [[l El] _]. unfold cache_at. destruct (Z.ltb_spec i 0); [auto|]. rewrite El, app_length.
  destruct (Z.ltb_spec i (Z.of_nat (length (ca_array c)))); [|discriminate].
  destruct (Z.ltb_spec i (Z.of_nat (length (ca_array c) + length l))); [|lia].
  rewrite nth_error_app1 by lia. auto.
Qed.
Lemma cache_resolve_grows c c' : grows c c' -> forall is l, cache_resolve c is = Some l -> cache_resolve c' is = Some l.
Proof.
  intro G. induction is as [|i is IH]; cbn [cache_resolve]; [auto|]. intros l E.
  destruct (cache_at c i) as [s|] eqn:E1; [|discriminate]. cbn [bind] in E. rewrite (cache_at_grows _ _ _ _ G E1). cbn [bind].
  destruct (cache_resolve c is) as [r|]; [|discriminate]. rewrite (IH r eq_refl). exact E.
Qed.
Lemma raw_value_grows c c' m f v : grows c c' -> raw_value c m f = Some v -> raw_value c' m f = Some v.
Proof.
  intros G. destruct f; cbn [raw_value]; auto; intro E;
    match type of E with context [cache_resolve c ?l] => destruct (cache_resolve c l) as [x|] eqn:E1; [|discriminate];
      rewrite (cache_resolve_grows _ _ G _ _ E1); exact E end.
Qed.
Lemma add_grows c s c' i : cache_ok c -> cache_add c s = (c', i) -> cache_ok c' /\ grows c c' /\ nth_error (ca_array c') i = Some s.
Proof. intros H E. destruct (cache_do_spec c (CAdd s) c' i H E) as (A & B & C & _). auto. Qed.
Lemma addu_grows c s c' i : cache_ok c -> cache_add_unchecked c s = (c', i) -> cache_ok c' /\ grows c c' /\ nth_error (ca_array c') i = Some s.
Proof. intros H E. destruct (cache_do_spec c (CAddUnchecked s) c' i H E) as (A & B & C & _). auto. Qed.
Lemma add_all_spec add : (forall c s c' i, cache_ok c -> add c s = (c', i) -> cache_ok c' /\ grows c c' /\ nth_error (ca_array c') i = Some s) ->
  forall l c c' is, cache_ok c -> add_all add c l = Some (c', is) -> cache_ok c' /\ grows c c' /\ cache_resolve c' is = Some (map (fun s => Some (stored s)) l).
Proof.
  intro Ha. induction l as [|s l IH]; intros c c' is Hc E; cbn [add_all] in E; [|destruct (add c (stored s)) as [c1 i] eqn:E1].
  - injection E as <- <-. split; [exact Hc|]. split; [apply grows_refl|reflexivity].
  - destruct (Ha _ _ _ _ Hc E1) as (O1 & G1 & N1). destruct (add_all add c1 l) as [[c2 js]|] eqn:E2; [|discriminate].
    cbn [bind] in E. injection E as <- <-. destruct (IH _ _ _ O1 E2) as (O2 & G2 & R2).
    split; [exact O2|]. split; [eapply grows_trans; eauto|]. cbn [cache_resolve].
    rewrite (cache_at_grows _ _ _ _ G2 (cache_at_nth _ _ _ N1)). cbn [bind]. rewrite R2. reflexivity.
Qed.
Definition pass_list_spec add (Ha : forall c s c' i, cache_ok c -> add c s = (c', i) -> cache_ok c' /\ grows c c' /\ nth_error (ca_array c') i = Some s)
  c v c' is (Hc : cache_ok c) (E : pass_list add c v = Some (c', is)) :
  cache_ok c' /\ grows c c' /\ exists w l, v = Some w /\ as_list w = Some l /\ cache_resolve c' is = Some (map (fun s => Some (stored s)) l).
Proof.
  unfold pass_list in E. destruct v as [w|]; [|discriminate]. cbn [bind] in E. destruct (as_list w) as [l|] eqn:El; [|discriminate].
  cbn [bind] in E. destruct (add_all_spec add Ha _ _ _ _ Hc E) as (A & B & C). eauto 9.
Qed.

(** Invariants over histories. *)
Lemma run_keeps (P : rop -> Prop) (Q : cache -> robj -> Prop) :
  (forall c o op c1 o1 a, Q c o -> P op -> rstep (c, o) op = (c1, o1, a) -> Q c1 o1) ->
  forall l c o, Q c o -> Forall P l -> Q (fst (fst (rrun (c, o) l))) (snd (fst (rrun (c, o) l))).
Proof.
  intro S. induction l as [|op l IH]; intros c o H HP; cbn [rrun]; [exact H|].
  apply Forall_cons_iff in HP as [H1 H2]. destruct (rstep (c, o) op) as [[c1 o1] a] eqn:E.
  specialize (IH c1 o1 (S _ _ _ _ _ _ H H1 E) H2). destruct (rrun (c1, o1) l) as [[c2 o2] out]. exact IH.
Qed.

(** ** The invariant *)
Section Life.
  Variables (r0 : js_result) (m : source_map) (names : bool) (c0 : cache).
  Definition expected (f : field) : option jval :=
    if negb names && field_eqb f FNames then Some VUndef else raw_value c0 m f.
  Hypothesis Hall : forall f, expected f <> None.
  Hypothesis Hm : exists r', jr_get_map r0 = Some (r', m).

  Definition sound (r : js_result) : Prop :=
    (exists r', jr_get_map r = Some (r', m)) /\ jr_s r = jr_s r0 /\ exists k, jr_reads k r0 = Some r.
  Lemma sound_read r r' m' : sound r -> jr_get_map r = Some (r', m') -> m' = m /\ sound r'.
  Proof.
    intros ((r1 & E1) & Es & k & Ek) E. assert (m' = m) by congruence. subst m'. split; [reflexivity|].
    assert (Ek' : jr_reads (S k) r0 = Some r').
    { revert Ek. clear -E. revert r0. induction k as [|k IH]; intros r0 Ek; cbn [jr_reads] in *.
      - injection Ek as <-. rewrite E. reflexivity.
      - destruct (jr_get_map r0) as [[r1 m1]|]; [|discriminate]. cbn [bind] in *. apply IH. exact Ek. }
    revert E. unfold jr_get_map at 1. destruct (jr_map r) as [m1|] eqn:Em.
    - intro E. injection E as <- Em1. split; [|split; [exact Es|eauto]]. exists r. unfold jr_get_map. rewrite Em, Em1. reflexivity.
    - destruct (jr_gen r) as [g|]; [|discriminate]. cbn [bind]. destruct (gen_to_source_map g) as [[g1 m1]|]; [|discriminate].
      cbn [bind]. intro E. injection E as <- Em1. split; [|split; [exact Es|eauto]]. eexists. rewrite Em1. reflexivity.
  Qed.

  Record inv (c : cache) (o : robj) : Prop := mk_inv {
    inv_ok : cache_ok c;
    inv_grows : grows c0 c;
    inv_names : ro_names o = names;
    inv_wasm : forall r, ro_wasm o = Some r -> sound r }.
  (** What a read answers. *)
  Definition peek (o : robj) (f : field) : option jval :=
    match held o f with
    | Some w => Some (shown f w)
    | None => match ro_wasm o with Some _ => option_map (shown f) (expected f) | None => None end
    end.
  Lemma get_spec c o f : inv c o ->
    exists o1, ro_get c o f = (o1, peek o f) /\ inv c o1 /\
      (forall g, peek o1 g = peek o g) /\ (ro_wasm o = None -> o1 = o) /\ (ro_wasm o <> None -> ro_wasm o1 <> None).
  Proof.
    intro I. unfold peek at 1. destruct (held o f) as [w|] eqn:Eh.
    { exists o. rewrite (get_held _ _ _ _ Eh). auto 8. }
    unfold held in Eh; destruct (ro_fields o f) eqn:Ef; [discriminate|]; destruct (plain_names o f) eqn:Ep; [discriminate|].
    assert (Ee : expected f = raw_value c0 m f).
    { unfold expected. unfold plain_names in Ep. rewrite (inv_names _ _ I) in Ep. now rewrite Ep. }
    unfold ro_get. fold (plain_names o f). rewrite Ef, Ep. destruct (ro_wasm o) as [r|] eqn:Ew.
    2: { exists o. auto 8. }
    destruct (inv_wasm _ _ I r Ew) as ((r' & Er) & Es & Ek). rewrite Er.
    destruct (sound_read r r' m) as [_ Sr]; [split; eauto|exact Er|].
    destruct (raw_value c0 m f) as [v|] eqn:Ev; [|exfalso; eapply Hall; exact Ee].
    rewrite (raw_value_grows _ _ _ _ _ (inv_grows _ _ I) Ev). rewrite Ee. cbn [option_map].
    eexists. split; [reflexivity|].
    assert (Hd : forall g, held (set_field (set_wasm o (Some r')) f v) g = if field_eqb f g then Some v else held o g).
    { intro g. unfold held. cbn [set_field set_wasm ro_fields]. unfold upd. destruct (field_eqb f g); reflexivity. }
    split; [|split; [|split]].
    - constructor; [apply I|apply I|apply I|]. cbn. intros r1 H. injection H as <-. exact Sr.
    - intro g. unfold peek. rewrite Hd. cbn [set_field set_wasm ro_wasm]. rewrite Ew. destruct (field_eqb f g) eqn:E; [|reflexivity].
      apply field_eqb_eq in E. subst g. unfold held. rewrite Ef, Ep, Ee. reflexivity.
    - discriminate.
    - discriminate.
  Qed.

  (** The second way of ro_wrap in terms of what the properties show. *)
  Definition wrap_fields (c : cache) (p : field -> option jval) (value : jstr) (vi ni : nat) : cache * option sms :=
    match pass_list cache_add c (p FSources) with
    | None => (c, None)
    | Some (c, ss) =>
        match pass_list cache_add_unchecked c (p FContents) with
        | None => (c, None)
        | Some (c, ks) =>
            match (let* m := p FMappings in as_string m) with
            | None => (c, None)
            | Some ms =>
                match pass_list cache_add c (p FNames) with
                | None => (c, None)
                | Some (c, ns) =>
                    (c, Some (sms_new (from_js value) (Z.of_nat vi) (Z.of_nat ni) (mk_smc ss ks ns (from_js ms)) None))
                end
            end
        end
    end.
  Lemma inv_cache c c' o : inv c o -> cache_ok c' -> grows c c' -> inv c' o.
  Proof. intros I O G. constructor; [exact O|eapply grows_trans; [apply I|exact G]|apply I|apply I]. Qed.
  Lemma pass_add_ok c o v c' is : inv c o -> pass_list cache_add c v = Some (c', is) -> inv c' o.
  Proof.
    intros I E. destruct (pass_list_spec _ add_grows _ _ _ _ (inv_ok _ _ I) E) as (A & B & _). eapply inv_cache; eauto.
  Qed.
  Lemma pass_addu_ok c o v c' is : inv c o -> pass_list cache_add_unchecked c v = Some (c', is) -> inv c' o.
  Proof.
    intros I E. destruct (pass_list_spec _ addu_grows _ _ _ _ (inv_ok _ _ I) E) as (A & B & _). eapply inv_cache; eauto.
  Qed.
  Lemma wrap_spec c o value name : inv c o ->
    exists c3 vi ni, inv c3 o /\ grows c c3 /\
    match ro_wasm_obj o with
    | Some r => ro_wrap c o value name = (c3, set_wasm o None, sms_new_wasmmap (from_js value) (Z.of_nat vi) (Z.of_nat ni) r)
    | None => exists o', ro_wrap c o value name =
                (fst (wrap_fields c3 (peek o) value vi ni), o', snd (wrap_fields c3 (peek o) value vi ni)) /\
                inv (fst (wrap_fields c3 (peek o) value vi ni)) o' /\ (forall g, peek o' g = peek o g) /\
                (ro_wasm o = None -> o' = o)
    end.
  Proof.
    intro I. unfold ro_wrap. destruct (cache_add_unchecked c value) as [c2 vi] eqn:E2. destruct (cache_add c2 name) as [c3 ni] eqn:E3.
    destruct (addu_grows _ _ _ _ (inv_ok _ _ I) E2) as (O2 & G2 & _). destruct (add_grows _ _ _ _ O2 E3) as (O3 & G3 & _).
    assert (I3 : inv c3 o) by (eapply inv_cache; [exact I|exact O3|eapply grows_trans; eauto]).
    exists c3, vi, ni. split; [exact I3|]. split; [eapply grows_trans; eauto|].
    destruct (ro_wasm_obj o) as [r|]; [reflexivity|]. unfold wrap_fields.
    destruct (get_spec c3 o FSources I3) as (oa & -> & Ia & Pa & Wa & _).
    destruct (pass_list cache_add c3 (peek o FSources)) as [[c4 ss]|] eqn:E4; [|exists oa; auto].
    pose proof (pass_add_ok _ _ _ _ _ Ia E4) as I4. clear I3 Ia.
    destruct (get_spec c4 oa FContents I4) as (ob & -> & Ib & Pb & Wb & _). rewrite (Pa FContents).
    assert (Wb' : ro_wasm o = None -> ob = o) by (intro H; rewrite (Wa H) in *; auto).
    assert (Pb' : forall g, peek ob g = peek o g) by (intro g; now rewrite Pb).
    destruct (pass_list cache_add_unchecked c4 (peek o FContents)) as [[c5 ks]|] eqn:E5; [|exists ob; auto].
    pose proof (pass_addu_ok _ _ _ _ _ Ib E5) as I5. clear I4 Ib.
    destruct (get_spec c5 ob FMappings I5) as (oc & -> & Ic & Pc & Wc & _). rewrite (Pb' FMappings).
    assert (Wc' : ro_wasm o = None -> oc = o) by (intro H; rewrite (Wb' H) in *; auto).
    assert (Pc' : forall g, peek oc g = peek o g) by (intro g; now rewrite Pc).
    destruct (let* m0 := peek o FMappings in as_string m0) as [ms|]; [|exists oc; auto].
    destruct (get_spec c5 oc FNames Ic) as (od & -> & Id & Pd & Wd & _). rewrite (Pc' FNames).
    assert (Wd' : ro_wasm o = None -> od = o) by (intro H; rewrite (Wc' H) in *; auto).
    assert (Pd' : forall g, peek od g = peek o g) by (intro g; now rewrite Pd).
    destruct (pass_list cache_add c5 (peek o FNames)) as [[c6 ns]|] eqn:E6; [|exists od; auto].
    exists od. split; [reflexivity|]. split; [|auto]. eapply pass_add_ok; eauto.
  Qed.

  Lemma step_inv c o op c1 o1 a : inv c o -> ~ clears op -> rstep (c, o) op = (c1, o1, a) -> inv c1 o1.
  Proof.
    intros I Hc. destruct op as [g|g v|g h| |s|value name|s ck|]; cbn [rstep clears] in *; [| | | | | | |tauto].
    - destruct (get_spec c o g I) as (o2 & -> & I2 & _). intro H. injection H as <- <- <-. exact I2.
    - intro H. injection H as <- <- <-. unfold ro_set.
      destruct (negb (ro_names (set_field o g v)) && field_eqb g FNames); constructor; apply I.
    - destruct (get_spec c o g I) as (o2 & -> & I2 & _). destruct (peek o g); intro H; injection H as <- <- <-; [|exact I2].
      destruct (ro_fields o2 g); [|exact I2]. constructor; apply I2.
    - unfold ro_get_source. destruct (ro_source o) as [s|]; [intro H; injection H as <- <- <-; exact I|].
      destruct (ro_wasm o) as [r|] eqn:Ew; intro H; injection H as <- <- <-; [|exact I]. constructor; try apply I.
      cbn [ro_wasm]. intros r1 H. apply (inv_wasm _ _ I). congruence.
    - intro H. injection H as <- <- <-. constructor; apply I.
    - destruct (wrap_spec c o value name I) as (c3 & vi & ni & I3 & G3 & W). destruct (ro_wasm_obj o) as [r|].
      + rewrite W. intro H. injection H as <- <- <-. constructor; try apply I3. discriminate.
      + destruct W as (o' & -> & I' & _). intro H. injection H as <- <- <-. exact I'.
    - intro H. injection H as <- <- <-. destruct ck.
      + destruct (cache_add c s) as [c2 i] eqn:E. destruct (add_grows _ _ _ _ (inv_ok _ _ I) E) as (A & B & _). eapply inv_cache; eauto.
      + destruct (cache_add_unchecked c s) as [c2 i] eqn:E. destruct (addu_grows _ _ _ _ (inv_ok _ _ I) E) as (A & B & _). eapply inv_cache; eauto.
  Qed.

  (** Nothing but what the map says is shown for f. *)
  Definition pristine (o : robj) (f : field) : Prop := forall v, peek o f = Some v -> option_map (shown f) (expected f) = Some v.
  Lemma peek_alive o f : ro_wasm o <> None -> pristine o f -> exists v, peek o f = Some v /\ option_map (shown f) (expected f) = Some v.
  Proof.
    intros W P. assert (exists v, peek o f = Some v) as [v Hv]; [|exists v; auto].
    unfold peek. destruct (held o f) as [w|]; [eauto|]. destruct (ro_wasm o); [|contradiction].
    pose proof (Hall f) as H. destruct (expected f); [cbn; eauto|contradiction].
  Qed.

  Lemma step_pristine f c o op c1 o1 a : inv c o -> ~ clears op -> ~ assigns f op -> pristine o f ->
    rstep (c, o) op = (c1, o1, a) -> pristine o1 f.
  Proof.
    intros I Hc Ha P. destruct op as [g|g v|g h| |s|value name|s ck|]; cbn [rstep clears assigns] in *; [| | | | | | |tauto].
    - destruct (get_spec c o g I) as (o2 & -> & _ & Pk & _). intro H. injection H as <- <- <-. intros v Hv. apply P. now rewrite <- Pk.
    - intro H. injection H as <- <- <-. intros w Hw. apply P. revert Hw. unfold ro_set.
      destruct (negb (ro_names (set_field o g v)) && field_eqb g FNames); unfold peek, held; cbn [set_modified set_field ro_fields ro_wasm];
        rewrite upd_other by exact Ha; auto.
    - destruct (get_spec c o g I) as (o2 & -> & _ & Pk & _).
      assert (P2 : pristine o2 f) by (intros v Hv; apply P; now rewrite <- Pk).
      destruct (peek o g); intro H; injection H as <- <- <-; [|exact P2].
      destruct (ro_fields o2 g); [|exact P2]. intros v Hv. apply P2. revert Hv. unfold peek, held. cbn [set_field ro_fields ro_wasm].
      rewrite upd_other by exact Ha; auto.
    - unfold ro_get_source. destruct (ro_source o) as [s|]; [intro H; injection H as <- <- <-; exact P|].
      destruct (ro_wasm o) as [r|] eqn:Ew; intro H; injection H as <- <- <-; [|exact P]. intros v Hv. apply P. revert Hv.
      unfold peek, held. cbn [ro_fields ro_wasm]. now rewrite Ew.
    - intro H. injection H as <- <- <-. exact P.
    - destruct (wrap_spec c o value name I) as (c3 & vi & ni & I3 & G3 & W). destruct (ro_wasm_obj o) as [r|].
      + rewrite W. intro H. injection H as <- <- <-. intros v Hv. apply P. revert Hv. unfold peek.
        change (held (set_wasm o None) f) with (held o f). destruct (held o f); [auto|discriminate].
      + destruct W as (o' & -> & _ & Pk & _). intro H. injection H as <- <- <-. intros v Hv. apply P. now rewrite <- Pk.
    - intro H. injection H as <- <- <-. exact P.
  Qed.
  Lemma step_alive c o op c1 o1 a : inv c o -> ~ clears op -> ~ wraps op -> ro_wasm o <> None ->
    rstep (c, o) op = (c1, o1, a) -> ro_wasm o1 <> None.
  Proof.
    intros I Hc Ha W. destruct op as [g|g v|g h| |s|value name|s ck|]; cbn [rstep clears wraps] in *; [| | | | |tauto| |tauto].
    - destruct (get_spec c o g I) as (o2 & -> & _ & _ & _ & K). intro H. injection H as <- <- <-. auto.
    - intro H. injection H as <- <- <-. unfold ro_set.
      destruct (negb (ro_names (set_field o g v)) && field_eqb g FNames); exact W.
    - destruct (get_spec c o g I) as (o2 & -> & _ & _ & _ & K). destruct (peek o g); intro H; injection H as <- <- <-; auto.
      destruct (ro_fields o2 g); auto.
    - unfold ro_get_source. destruct (ro_source o) as [s|]; [intro H; injection H as <- <- <-; exact W|].
      destruct (ro_wasm o) as [r|] eqn:Ew; intro H; injection H as <- <- <-; [discriminate|congruence].
    - intro H. injection H as <- <- <-. exact W.
    - intro H. injection H as <- <- <-. exact W.
  Qed.

  Lemma new_inv : cache_ok c0 -> inv c0 (robj_new r0 names).
  Proof.
    intro O. constructor; [exact O|apply grows_refl|reflexivity|]. intros r H. injection H as <-.
    split; [exact Hm|]. split; [reflexivity|]. exists 0. reflexivity.
  Qed.
  Lemma new_pristine f : pristine (robj_new r0 names) f.
  Proof.
    intros v. unfold peek, held, plain_names, expected. cbn [robj_new ro_fields ro_names ro_wasm].
    destruct (negb names && field_eqb f FNames); cbn [option_map]; auto.
  Qed.
  Lemma step_get c o f : inv c o -> snd (rstep (c, o) (RGet f)) = answer AVal (peek o f).
  Proof. intro I. cbn [rstep]. destruct (get_spec c o f I) as (o1 & -> & _). reflexivity. Qed.

  Lemma present f l : cache_ok c0 -> Forall (fun op => ~ clears op /\ ~ wraps op /\ ~ assigns f op) l ->
    exists v, snd (rstep (fst (rrun (c0, robj_new r0 names) l)) (RGet f)) = AVal v /\ option_map (shown f) (expected f) = Some v.
  Proof.
    intros O Hl.
    pose proof (run_keeps (fun op => ~ clears op /\ ~ wraps op /\ ~ assigns f op)
      (fun c o => inv c o /\ ro_wasm o <> None /\ pristine o f)) as K. cbn beta in K.
    assert (S : forall c o op c1 o1 a, inv c o /\ ro_wasm o <> None /\ pristine o f -> ~ clears op /\ ~ wraps op /\ ~ assigns f op ->
       rstep (c, o) op = (c1, o1, a) -> inv c1 o1 /\ ro_wasm o1 <> None /\ pristine o1 f).
    { intros c o op c1 o1 a (I & W & P) (H1 & H2 & H3) E. split; [eapply step_inv; eauto|]. split; [eapply step_alive; eauto|].
      eapply step_pristine; eauto. }
    specialize (K S l c0 (robj_new r0 names)). destruct K as (I & W & P).
    { split; [now apply new_inv|]. split; [discriminate|apply new_pristine]. }
    { exact Hl. }
    destruct (rrun (c0, robj_new r0 names) l) as [[c o] out]. cbn [fst snd] in *.
    destruct (peek_alive o f W P) as (v & H1 & H2). exists v. rewrite step_get, H1 by exact I. auto.
  Qed.
End Life.
