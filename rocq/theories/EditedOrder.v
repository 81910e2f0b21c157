(** The numbers StringCache gives out, and bundles of edited modules. *)
From Verif Require Import Base Tactics ModelString StringFacts ModelVlq ModelSm ModelSlm ModelSources ModelTree ModelWasm
  ModelJs ModelJsApi SpecText SpecMap SpecAttr SpecEdit SpecEffect SortFacts TextFacts EditFacts NodeFacts LeafFacts ParseFacts MapFacts GenFacts SmsProps ReplaceNode NodeTree
  IdxFacts EffectFacts EffectOrder JsFacts Utf16Facts JsTextProps SpecResult ModelJsResult ResultFacts ResultProps SpecJs ModelEnd SpecEnd EndFacts MadeFacts EndProps ContentFacts EndMap SpecEdited EditedFacts EditedBuild EditedEnd.

(** ** Numbers *)
Inductive passes : cache -> list jstr -> cache -> Prop :=
| passes_nil c : passes c [] c
| passes_add c s l c' : passes (fst (cache_add c s)) l c' -> passes c (s :: l) c'
| passes_addu c s l c' : passes (fst (cache_add_unchecked c s)) l c' -> passes c l c'.
Lemma passes_app c l c' l' c2 : passes c l c' -> passes c' l' c2 -> passes c (l ++ l') c2.
Proof. induction 1; intro H2; [exact H2|apply passes_add; auto|eapply passes_addu; eauto]. Qed.
Lemma passes_one c s c' i : cache_add c s = (c', i) -> passes c [s] c'.
Proof. intro E. apply passes_add. rewrite E. apply passes_nil. Qed.
Lemma passes_oneu c s c' i : cache_add_unchecked c s = (c', i) -> passes c [] c'.
Proof. intro E. apply (passes_addu c s). rewrite E. apply passes_nil. Qed.
Lemma passes_list l : forall c c' is, add_list cache_add c l = (c', is) -> passes c l c'.
Proof.
  induction l as [|s l IH]; intros c c' is E; cbn [add_list] in E; [injection E as <- <-; apply passes_nil|].
  destruct (cache_add c s) as [c2 i] eqn:E1. destruct (add_list cache_add c2 l) as [c3 js] eqn:E2. injection E as <- <-. apply passes_add. rewrite E1. eauto.
Qed.
Lemma passes_listu l : forall c c' is, add_list cache_add_unchecked c l = (c', is) -> passes c [] c'.
Proof.
  induction l as [|s l IH]; intros c c' is E; cbn [add_list] in E; [injection E as <- <-; apply passes_nil|].
  destruct (cache_add_unchecked c s) as [c2 i] eqn:E1. destruct (add_list cache_add_unchecked c2 l) as [c3 js] eqn:E2. injection E as <- <-. apply (passes_addu c s). rewrite E1. eauto.
Qed.
Lemma passes_map c m c' d : pass_map c m = (c', d) -> passes c (jm_sources m ++ jm_names m) c'.
Proof.
  unfold pass_map. intro E. destruct (add_list cache_add c (jm_sources m)) as [c2 ss] eqn:E1. destruct (add_list cache_add_unchecked c2 (jm_contents m)) as [c3 ks] eqn:E2.
  destruct (add_list cache_add c3 (jm_names m)) as [c4 ns] eqn:E3. injection E as <- <-.
  eapply passes_app; [eapply passes_list; exact E1|]. eapply (passes_app _ []); [eapply passes_listu; exact E2|eapply passes_list; exact E3].
Qed.
Lemma build_passes e : forall c c' t, build c e = (c', t) -> passes c (strings_of e) c'.
Proof.
  induction e as [s|v|v n|v n o|p e IH|e h IH|l IH|v n m o i] using jexpr_ind'; intros c c' t E; cbn [build strings_of] in *.
  - injection E as <- <-. apply passes_nil.
  - injection E as <- <-. apply passes_nil.
  - destruct (cache_add_unchecked c v) as [c2 vi] eqn:E1. destruct (cache_add c2 n) as [c3 ni] eqn:E2. injection E as <- <-.
    eapply (passes_app _ []); [eapply passes_oneu; exact E1|eapply passes_one; exact E2].
  - destruct (cache_add c n) as [c2 ni] eqn:E1. destruct (cache_add_unchecked c2 o) as [c3 oi] eqn:E2. injection E as <- <-.
    change [n] with ([n] ++ []). eapply passes_app; [eapply passes_one; exact E1|eapply passes_oneu; exact E2].
  - destruct (build c e) as [c2 t2] eqn:E1. injection E as <- <-. eauto.
  - destruct (build c e) as [c2 t2] eqn:E1. injection E as <- <-. eauto.
  - match type of E with context [?f c l] => set (go := f) in E end. destruct (go c l) as [c2 ts] eqn:E1. injection E as <- <-.
    revert c c2 ts E1. induction IH as [|x l Hx _ IHl]; intros c c2 ts E1; cbn [go] in E1; [injection E1 as <- <-; apply passes_nil|].
    destruct (build c x) as [c3 t3] eqn:E3. fold go in E1. destruct (go c3 l) as [c4 ts4] eqn:E4. injection E1 as <- <-. cbn [flat_map]. eapply passes_app; eauto.
  - destruct (cache_add_unchecked c v) as [c2 vi] eqn:E1. destruct (cache_add c2 n) as [c3 ni] eqn:E2. destruct (pass_map c3 m) as [c4 d] eqn:E3.
    match type of E with (let '(_, _) := ?z in _) = _ => destruct z as [c5 oo] eqn:E5 end.
    match type of E with (let '(_, _) := ?z in _) = _ => destruct z as [c6 ii] eqn:E6 end. injection E as <- <-.
    eapply (passes_app _ []); [eapply passes_oneu; exact E1|]. eapply (passes_app _ [n]); [eapply passes_one; exact E2|]. rewrite app_assoc. eapply passes_app; [eapply passes_map; exact E3|].
    eapply (passes_app _ [] c5).
    + destruct o as [|x o]; [injection E5 as <- <-; apply passes_nil|]. destruct (cache_add_unchecked c4 (x :: o)) as [c7 oi] eqn:E7. injection E5 as <- <-. eapply passes_oneu; exact E7.
    + destruct i as [im|]; [|injection E6 as <- <-; apply passes_nil]. destruct (pass_map c5 im) as [c7 id] eqn:E7. injection E6 as <- <-. eapply passes_map; exact E7.
Qed.

Lemma index_add c s s' : cache_index_of (fst (cache_add c s)) s' =
  if list_eq_dec N.eq_dec s' s then match cache_index_of c s with Some i => Some i | None => Some (length (ca_array c)) end else cache_index_of c s'.
Proof.
  unfold cache_add. destruct (cache_index_of c s) as [i|] eqn:E; cbn [fst].
  - destruct (list_eq_dec N.eq_dec s' s) as [->|]; [exact E|reflexivity].
  - unfold cache_index_of. cbn [ca_set js_get]. destruct (list_eq_dec N.eq_dec s' s) as [->|Ne].
    + now rewrite (proj2 (jstr_eqb_eq s s) eq_refl).
    + destruct (jstr_eqb s' s) eqn:Eq; [apply jstr_eqb_eq in Eq; congruence|reflexivity].
Qed.
Lemma length_add c s : length (ca_array c) <= length (ca_array (fst (cache_add c s))) /\
  (cache_index_of c s = None -> length (ca_array (fst (cache_add c s))) = S (length (ca_array c))).
Proof. unfold cache_add. destruct (cache_index_of c s) eqn:E; cbn; [split; [lia|discriminate]|]. rewrite app_length. cbn. split; lia. Qed.
Lemma passes_keep c l c' s k : passes c l c' -> cache_index_of c s = Some k -> cache_index_of c' s = Some k.
Proof.
  induction 1 as [c|c s0 l c' _ IH|c s0 l c' _ IH]; intro H; [exact H| |apply IH; exact H]. apply IH. rewrite index_add.
  destruct (list_eq_dec N.eq_dec s s0) as [->|]; [now rewrite H|exact H].
Qed.
Lemma passes_new c l c' s : passes c l c' -> In s l -> unseen c s -> exists k, cache_index_of c' s = Some k /\ length (ca_array c) <= k.
Proof.
  induction 1 as [c|c s0 l c' P IH|c s0 l c' P IH]; intros Hin Hu; [destruct Hin| |].
  - destruct (list_eq_dec N.eq_dec s s0) as [->|Ne].
    + exists (length (ca_array c)). split; [|lia]. eapply passes_keep; [exact P|]. rewrite index_add, Hu. now destruct (list_eq_dec N.eq_dec s0 s0).
    + destruct Hin as [->|Hin]; [congruence|]. destruct IH as (k & Hk & Hl); [exact Hin| |].
      * unfold unseen. rewrite index_add. destruct (list_eq_dec N.eq_dec s s0); [congruence|exact Hu].
      * exists k. split; [exact Hk|]. pose proof (length_add c s0). lia.
  - destruct IH as (k & Hk & Hl); [exact Hin|exact Hu|]. exists k. split; [exact Hk|]. cbn in Hl. rewrite app_length in Hl. lia.
Qed.
Lemma number_index c s k : cache_index_of c s = Some k -> number c s = k.
Proof. intro E. unfold number, cache_add. now rewrite E. Qed.
Lemma first_cons x l s s' : s <> x -> s' <> x -> comes_first (x :: l) s s' <-> comes_first l s s'.
Proof.
  intros H1 H2. split; intros (a & b & E & Hn).
  - destruct a as [|y a]; cbn in E; [injection E as -> _; congruence|]. injection E as -> E. exists a, b. split; [exact E|]. intro H. apply Hn. now right.
  - exists (x :: a), b. rewrite E. split; [reflexivity|]. intros [H|H]; [congruence|auto].
Qed.
Lemma passes_order c l c' s s' : passes c l c' -> In s l -> In s' l -> unseen c s -> unseen c s' ->
  number c' s < number c' s' <-> s <> s' /\ comes_first l s s'.
Proof.
  induction 1 as [c|c s0 l c' P IH|c s0 l c' P IH]; intros I1 I2 U1 U2; [destruct I1| |].
  - assert (V : forall x, x <> s0 -> unseen c x -> unseen (fst (cache_add c s0)) x).
    { intros x Nx Ux. unfold unseen. rewrite index_add. destruct (list_eq_dec N.eq_dec x s0); [congruence|exact Ux]. }
    assert (W : unseen c s0 -> number c' s0 = length (ca_array c)).
    { intro U. apply number_index. eapply passes_keep; [exact P|]. rewrite index_add, U. now destruct (list_eq_dec N.eq_dec s0 s0). }
    assert (Z : forall x, x <> s0 -> In x (s0 :: l) -> unseen c x -> unseen c s0 -> length (ca_array c) < number c' x).
    { intros x Nx Ix Ux U. destruct Ix as [Ix|Ix]; [congruence|]. destruct (passes_new _ _ _ x P Ix (V x Nx Ux)) as (k & Hk & Hl).
      rewrite (number_index _ _ _ Hk). pose proof (proj2 (length_add c s0) U). lia. }
    destruct (list_eq_dec N.eq_dec s s0) as [->|N1]; destruct (list_eq_dec N.eq_dec s' s0) as [->|N2].
    + split; [lia|]. intros [H _]. congruence.
    + rewrite (W U1). split; [|intros _; apply Z; auto]. intros _. split; [congruence|]. exists [], l. split; [reflexivity|intros []].
    + rewrite (W U2). pose proof (Z s N1 I1 U1 U2) as Hz. split; [lia|]. intros [_ (a & b & E & Hn)]. exfalso.
      destruct a as [|y a]; cbn in E; [congruence|]. injection E as -> _. apply Hn. now left.
    + rewrite first_cons by assumption. apply IH; auto; [destruct I1; [congruence|assumption]|destruct I2; [congruence|assumption]].
  - apply IH; auto.
Qed.
Theorem build_order c0 e c1 t s s' : build c0 e = (c1, t) -> In s (strings_of e) -> In s' (strings_of e) -> unseen c0 s -> unseen c0 s' ->
  number c1 s < number c1 s' <-> s <> s' /\ comes_first (strings_of e) s s'.
Proof. intros E. apply passes_order. now apply build_passes in E. Qed.

(** ** A numbering that follows the cache *)
Lemma cache_numbering c : cache_ok c -> exists nu, numbering nu /\ forall s k, cache_index_of c s = Some k -> nu s = Z.of_nat k.
Proof.
  intro Hc. destruct numbers as (nu0 & H0).
  set (f := fun z => if (z <? 0)%Z then (2 * z)%Z else (- 2 * z - 1)%Z).
  assert (Hf : forall a b, f a = f b -> a = b) by (intros a b; unfold f; destruct (Z.ltb_spec a 0), (Z.ltb_spec b 0); lia).
  assert (Hn : forall a, (f a < 0)%Z) by (intro a; unfold f; destruct (Z.ltb_spec a 0); lia).
  exists (fun s => match cache_index_of c s with Some k => Z.of_nat k | None => f (nu0 s) end). split.
  - intros a b E. destruct (cache_index_of c a) as [k|] eqn:Ea, (cache_index_of c b) as [k'|] eqn:Eb.
    + apply Nat2Z.inj in E. subst k'. apply Hc in Ea, Eb. congruence.
    + pose proof (Hn (nu0 b)). lia.
    + pose proof (Hn (nu0 a)). lia.
    + now apply Hf, H0 in E.
  - intros s k E. now rewrite E.
Qed.

(** ** Bundles *)
Lemma module_edit e : module_of e -> edit_expr e /\ lone e /\ lone_edits e /\ strings_of e = sources_in e.
Proof.
  induction e as [s|v|v n|v n o|p e IH|e h IH|l IH|v n m o i] using jexpr_ind'; intro H.
  - destruct H.
  - repeat split; exact H.
  - repeat split; apply H.
  - repeat split; exact H.
  - destruct H as (H1 & H2). destruct (IH H2) as (A & B & C & D). repeat split; auto.
  - destruct H as (H1 & H2). destruct (IH H1) as (A & B & C & D). repeat split; auto; apply H2.
  - destruct H.
  - destruct H.
Qed.
Lemma piece_edit e : piece e -> edit_child e /\ lone_edits e /\ strings_of e = sources_in e.
Proof.
  intro H. destruct e; try (apply module_edit in H as (A & _ & C & D); split; [exact A|split; [exact C|exact D]]).
  split; [exact H|]. split; [exact I|reflexivity].
Qed.
Lemma module_rising nu e : module_of e -> exists E, marks nu (unedited e) = Some E /\ rising E /\ incl (files E) (map nu (sources_in e)).
Proof.
  induction e as [s|v|v n|v n o|p e IH|e h IH|l IH|v n m o i] using jexpr_ind'; intro H.
  - destruct H.
  - exists (mark None v). split; [reflexivity|]. split; [apply rising_mark|]. intros x Hx. apply in_flat_map in Hx as (y & Hy & Hx). apply in_map_iff in Hy as (ch & <- & _). destruct Hx.
  - eexists. split; [reflexivity|]. assert (A : forall p c, ple p (advance p c)) by (intros p c; pose proof (advance_lt p c); unfold plt, ple in *; lia).
    split; [now apply tokens_rising|]. intros x Hx. apply in_flat_map in Hx as (y & Hy & Hx). cbn beta in Hx. destruct (tokens_after _ _ A _ _ _ Hy) as [E|(q & E & _)]; destruct y as [ch a]; cbn [snd] in *; subst a; [destruct Hx|].
    destruct Hx as [<-|[]]. now left.
  - eexists. split; [reflexivity|]. split; [apply lines_rising|]. intros x Hx. apply in_flat_map in Hx as (y & Hy & Hx). cbn beta in Hx. destruct (lines_after _ _ _ _ Hy) as (q & E & _). destruct y as [ch a]; cbn [snd] in *; subst a.
    destruct Hx as [<-|[]]. now left.
  - destruct H as (_ & H1). destruct (IH H1) as (E & A & B & C). exists (mprefixed p E). cbn [unedited marks]. rewrite A. split; [reflexivity|].
    split; [now apply mprefix_rising|]. intros x Hx. apply C. apply in_flat_map in Hx as (y & Hy & Hx). destruct (mprefix_targets _ _ _ _ Hy) as (z & Hz & Ez).
    apply in_flat_map. exists z. split; [exact Hz|]. cbn beta in *. destruct y, z. cbn [snd] in Ez. now subst.
  - destruct H as (H1 & _). exact (IH H1).
  - destruct H.
  - destruct H.
Qed.
Lemma piece_rising nu e : piece e -> exists E, marks nu (unedited e) = Some E /\ rising E /\ incl (files E) (map nu (sources_in e)).
Proof.
  intro H. destruct e; try (now apply module_rising). exists (mark None s). split; [reflexivity|]. split; [apply rising_mark|].
  intros x Hx. apply in_flat_map in Hx as (y & Hy & Hx). apply in_map_iff in Hy as (ch & <- & _). destruct Hx.
Qed.
Lemma pieces_rising nu l : Forall piece l -> ForallOrdPairs (fun s s' => (nu s < nu s')%Z) (flat_map sources_in l) ->
  exists E, marks nu (unedited (XConcat l)) = Some E /\ rising E /\ incl (files E) (map nu (flat_map sources_in l)).
Proof.
  induction 1 as [|x l Hx _ IH]; intro Ho; [exists []; split; [reflexivity|]; split; [constructor|intros y []]|].
  cbn [flat_map] in Ho. apply FOP_app in Ho as (Ho1 & Ho2 & Ho3). destruct (IH Ho2) as (E2 & A2 & B2 & C2). destruct (piece_rising nu x Hx) as (E1 & A1 & B1 & C1).
  exists (E1 ++ E2). cbn [unedited map marks] in A2 |- *. rewrite A1. cbn [bind]. rewrite A2. split; [reflexivity|]. split.
  - apply rising_files; [exact B1|exact B2|]. intros s t Hs Ht. apply C1, in_map_iff in Hs as (a & <- & Ha). apply C2, in_map_iff in Ht as (b & <- & Hb).
    rewrite Forall_forall in Ho3. specialize (Ho3 a Ha). rewrite Forall_forall in Ho3. now apply Ho3.
  - cbn [flat_map]. unfold files. rewrite flat_map_app, map_app. apply incl_app; [apply incl_appl; exact C1|apply incl_appr; exact C2].
Qed.
Lemma strings_pieces l : Forall piece l -> flat_map strings_of l = flat_map sources_in l.
Proof. induction 1 as [|x l Hx _ IH]; [reflexivity|]. cbn [flat_map]. rewrite IH. f_equal. now apply piece_edit. Qed.
Lemma nodup_pairs l : NoDup l -> forall l0, (forall x, In x l0 -> ~ In x l) -> ForallOrdPairs (fun s s' => In s (l0 ++ l) /\ In s' (l0 ++ l) /\ s <> s' /\ comes_first (l0 ++ l) s s') l.
Proof.
  induction 1 as [|x l Hx Hl IH]; intros l0 H0; [constructor|]. constructor.
  - apply Forall_forall. intros y Hy. split; [apply in_or_app; right; now left|]. split; [apply in_or_app; right; now right|]. split; [congruence|].
    exists l0, l. split; [reflexivity|]. intro Hin. apply (H0 y Hin). now right.
  - assert (IH' := IH (l0 ++ [x])). rewrite <- app_assoc in IH'. apply IH'. intros y Hy Hyl. apply in_app_or in Hy as [Hy|[->|[]]]; [|contradiction]. apply (H0 y Hy). now right.
Qed.
Lemma FOP_mono {A} (P Q : A -> A -> Prop) l : (forall x y, In x l -> In y l -> P x y -> Q x y) -> ForallOrdPairs P l -> ForallOrdPairs Q l.
Proof.
  induction 2 as [|x l Hx Hl IH]; constructor; [|apply IH; intros; apply H; auto; now right]. rewrite Forall_forall in *. intros y Hy. apply H; [now left|now right|auto].
Qed.
Theorem modules_in_order c0 ps c1 t : reached_cache c0 -> Forall piece ps -> NoDup (sources_in (XConcat ps)) -> Forall (unseen c0) (sources_in (XConcat ps)) ->
  build c0 (XConcat ps) = (c1, t) -> edit_expr (XConcat ps) /\ lone_edits (XConcat ps) /\ in_order c1 (XConcat ps).
Proof.
  intros Hr Hp Nd Un Eb. cbn [sources_in] in Nd, Un.
  assert (K := strings_pieces ps Hp).
  split; [apply edit_concat; eapply Forall_impl; [|exact Hp]; intros x Hx; now apply piece_edit|].
  split; [apply lone_concat; eapply Forall_impl; [|exact Hp]; intros x Hx; now apply piece_edit|].
  pose proof (reached_ok _ (reached_build _ _ _ _ Hr Eb)) as Hc1. destruct (cache_numbering c1 Hc1) as (nu & Hnu & Hk).
  assert (Sn : forall s, In s (flat_map sources_in ps) -> nu s = Z.of_nat (number c1 s)).
  { intros s Hs. rewrite Forall_forall in Un. destruct (passes_new c0 _ c1 s (build_passes _ _ _ _ Eb)) as (k & E & _); [cbn [strings_of]; now rewrite K|now apply Un|].
    rewrite (Hk _ _ E). now rewrite (number_index _ _ _ E). }
  destruct (pieces_rising nu ps Hp) as (E & A & B & _).
  { eapply FOP_mono; [|apply (nodup_pairs _ Nd [])]; [|intros x []]. cbn [app]. intros s s' Hs Hs' (_ & _ & Ne & Cf).
    rewrite (Sn s Hs), (Sn s' Hs'). apply Nat2Z.inj_lt. rewrite Forall_forall in Un. apply (build_order c0 (XConcat ps) c1 t s s' Eb); cbn [strings_of]; rewrite ?K; auto. }
  exists nu, E. split; [exact Hnu|]. split; [exact A|]. split; [exact B|]. cbn [sources_in]. intros s s' Hs Hs' Lt. rewrite (Sn s Hs), (Sn s' Hs'). lia.
Qed.
