(** From the arguments of the constructors to the values read off the returned object. *)
From Verif Require Import Base Tactics ModelString StringFacts ModelVlq ModelSm ModelSlm ModelSources ModelTree ModelWasm
  ModelJs ModelJsApi SpecText SpecMap SpecAttr SortFacts TextFacts NodeFacts LeafFacts ParseFacts MapFacts GenFacts SmsProps NodeTree
  IdxFacts JsFacts Utf16Facts JsTextProps SpecResult ModelJsResult ResultFacts ResultProps SpecJs ModelEnd SpecEnd EndFacts MadeFacts EndProps ContentFacts.

(** ** The cache after building *)
Lemma cache_run_snoc o : forall l c c1 is, cache_run c l = (c1, is) -> exists is', cache_run c (l ++ [o]) = (fst (cache_do c1 o), is').
Proof.
  induction l as [|x l IH]; intros c c1 is E; cbn [cache_run app] in *.
  - injection E as <- <-. destruct (cache_do c o) as [c2 i]. eexists. reflexivity.
  - destruct (cache_do c x) as [c2 i]. destruct (cache_run c2 l) as [c3 js] eqn:E2. injection E as <- <-.
    destruct (IH _ _ _ E2) as (is' & ->). eexists. reflexivity.
Qed.
Lemma reached_do c o c' i : reached_cache c -> cache_do c o = (c', i) -> reached_cache c'.
Proof. intros (h & is & E) Ed. destruct (cache_run_snoc o _ _ _ _ E) as (is' & E'). rewrite Ed in E'. cbn in E'. eexists _, _. exact E'. Qed.
Lemma reached_add c s c' i : reached_cache c -> cache_add c s = (c', i) -> reached_cache c'.
Proof. intros H E. exact (reached_do c (CAdd s) c' i H E). Qed.
Lemma reached_addu c s c' i : reached_cache c -> cache_add_unchecked c s = (c', i) -> reached_cache c'.
Proof. intros H E. exact (reached_do c (CAddUnchecked s) c' i H E). Qed.
Lemma reached_list add : (forall c s c' i, reached_cache c -> add c s = (c', i) -> reached_cache c') ->
  forall l c c' is, reached_cache c -> add_list add c l = (c', is) -> reached_cache c'.
Proof.
  intro Ha. induction l as [|s l IH]; intros c c' is H E; cbn [add_list] in E; [now injection E as <- <-|].
  destruct (add c s) as [c1 i] eqn:E1. destruct (add_list add c1 l) as [c2 js] eqn:E2. injection E as <- <-. eauto.
Qed.
Lemma reached_map c m c' d : reached_cache c -> pass_map c m = (c', d) -> reached_cache c'.
Proof.
  intros H E. unfold pass_map in E.
  destruct (add_list cache_add c (jm_sources m)) as [c1 ss] eqn:E1. destruct (add_list cache_add_unchecked c1 (jm_contents m)) as [c2 ks] eqn:E2.
  destruct (add_list cache_add c2 (jm_names m)) as [c3 ns] eqn:E3. injection E as <- <-.
  eapply reached_list; [exact reached_add| |exact E3]. eapply reached_list; [exact reached_addu| |exact E2]. eapply reached_list; [exact reached_add|exact H|exact E1].
Qed.
Lemma reached_build e : forall c c' t, reached_cache c -> build c e = (c', t) -> reached_cache c'.
Proof.
  induction e as [s|v|v n|v n o|p e IH|e h IH|l IH|v n m o i] using jexpr_ind'; intros c c' t H E; cbn [build] in E.
  - now injection E as <- <-.
  - now injection E as <- <-.
  - destruct (cache_add_unchecked c v) as [c2 vi] eqn:E1. destruct (cache_add c2 n) as [c3 ni] eqn:E2. injection E as <- <-. eauto using reached_add, reached_addu.
  - destruct (cache_add c n) as [c2 ni] eqn:E1. destruct (cache_add_unchecked c2 o) as [c3 oi] eqn:E2. injection E as <- <-. eauto using reached_add, reached_addu.
  - destruct (build c e) as [c2 t2] eqn:E1. injection E as <- <-. eauto.
  - destruct (build c e) as [c2 t2] eqn:E1. injection E as <- <-. eauto.
  - match type of E with context [?f c l] => set (go := f) in E end. destruct (go c l) as [c2 ts] eqn:E1. injection E as <- <-.
    revert c c2 ts H E1. induction IH as [|x l Hx _ IHl]; intros c c2 ts H E1; cbn [go] in E1; [now injection E1 as <- <-|].
    destruct (build c x) as [c3 t3] eqn:E3. fold go in E1. destruct (go c3 l) as [c4 ts4] eqn:E4. injection E1 as <- <-. eauto.
  - destruct (cache_add_unchecked c v) as [c2 vi] eqn:E1. destruct (cache_add c2 n) as [c3 ni] eqn:E2. destruct (pass_map c3 m) as [c4 d] eqn:E3.
    assert (H4 : reached_cache c4) by eauto using reached_add, reached_addu, reached_map.
    match type of E with (let '(_, _) := ?z in _) = _ => destruct z as [c5 oo] eqn:E5 end.
    assert (H5 : reached_cache c5).
    { destruct o as [|x o]; [now injection E5 as <- <-|]. destruct (cache_add_unchecked c4 (x :: o)) as [c6 oi] eqn:E6. injection E5 as <- <-. eauto using reached_addu. }
    match type of E with (let '(_, _) := ?z in _) = _ => destruct z as [c6 ii] eqn:E6 end. injection E as <- <-.
    destruct i as [im|]; [|now injection E6 as <- <-]. destruct (pass_map c5 im) as [c7 id] eqn:E7. injection E6 as <- <-. eauto using reached_map.
Qed.

(** ** Texts *)
Lemma text_app a b : text_of (a ++ b) = text_of a ++ text_of b.
Proof. apply map_app. Qed.
Lemma text_mark a s : text_of (mark a s) = s.
Proof. unfold text_of, mark. rewrite map_map. apply map_id. Qed.
Lemma mprefix_all X p M : Forall X p -> Forall X (text_of M) -> forall b, Forall X (text_of (mprefix p b M)).
Proof.
  intros Hp. induction M as [|[c a] M IH]; intros H b; [constructor|]. inversion H as [|? ? H1 H2]; subst. cbn [mprefix]. rewrite text_app. apply Forall_app.
  split; [destruct b; [now rewrite text_mark|constructor]|]. constructor; auto.
Qed.
Lemma annotate_text es s : forall p, text_of (annotate_from es p s) = s.
Proof. induction s as [|c s IH]; intro p; [reflexivity|]. cbn. f_equal. apply IH. Qed.
Lemma tokens_text adv n ts : forall p, text_of (mark_tokens adv n p ts) = concat ts.
Proof. induction ts as [|t ts IH]; intro p; [reflexivity|]. cbn [mark_tokens concat]. now rewrite text_app, text_mark, IH. Qed.
Lemma lines_text n s : forall l, text_of (mark_lines n l s) = s.
Proof. induction s as [|c s IH]; intro l; [reflexivity|]. cbn. f_equal. apply IH. Qed.
Lemma marks_plain nu e : exact_child e -> forall M, marks nu e = Some M -> plain (text_of M).
Proof.
  induction e as [s|v|v n|v n o|p e IH|e h IH|l IH|v n m o i] using jexpr_ind'; intros X M E; cbn [marks] in E.
  - injection E as <-. rewrite text_mark. apply X.
  - injection E as <-. rewrite text_mark. apply X.
  - injection E as <-. rewrite tokens_text, tokens_concat. apply is_ascii_plain, X.
  - injection E as <-. rewrite lines_text. exact X.
  - unbind E. injection E as <-. destruct X as [X1 X2]. unfold mprefixed. apply mprefix_all; [exact X1|]. apply IH; [|exact E0]. destruct e; auto. destruct X2.
  - destruct X.
  - apply exact_concat in X. revert M E. induction IH as [|x l Hx _ IHl]; intros M E; [injection E as <-; constructor|].
    inversion X as [|? ? X1 X2]; subst. unbind E. unbind E. injection E as <-. rewrite text_app. apply Forall_app. split; [now apply Hx|]. now apply IHl.
  - destruct X as [X _]. destruct i as [im|]; unbind E; [unbind E|]; injection E as <-.
    + change (plain (text_of (retarget (through (Some (nu n)) v1) (annotate v0 v)))). rewrite text_retarget. unfold annotate. now rewrite annotate_text.
    + unfold annotate. now rewrite annotate_text.
Qed.

(** ** The source of a result *)
Lemma source_kept r names l c0 : Forall quiet l ->
  snd (rstep (fst (rrun (c0, robj_new r names) l)) RSource) = AText (to_js (jr_s r)).
Proof.
  intro H.
  set (Q := fun (_ : cache) (o : robj) => (exists r', ro_wasm o = Some r' /\ jr_s r' = jr_s r) /\ (ro_source o = None \/ ro_source o = Some (to_js (jr_s r)))).
  assert (S : forall c o op c1 o1 a, Q c o -> quiet op -> rstep (c, o) op = (c1, o1, a) -> Q c1 o1).
  { intros c o op c1 o1 a [(r1 & W1 & W2) Hs] Ho E. destruct op as [f| | | | | |s b|]; try destruct Ho; cbn [rstep] in E.
    - destruct (ro_get c o f) as [o2 v] eqn:Eg. injection E as <- <- _. unfold ro_get in Eg. destruct (ro_fields o f); [injection Eg as <- _; split; eauto|].
      destruct (_ && _); [injection Eg as <- _; split; eauto|]. rewrite W1 in Eg. destruct (jr_get_map r1) as [[r2 m]|] eqn:Em; [|injection Eg as <- _; split; eauto].
      assert (Er : jr_s r2 = jr_s r1).
      { unfold jr_get_map in Em. destruct (jr_map r1); [now injection Em as <- _|]. unbind Em. unbind Em. destruct v1. injection Em as <- _. reflexivity. }
      destruct (raw_value c m f) as [w|]; injection Eg as <- _; (split; [exists r2; split; [reflexivity|congruence]|exact Hs]).
    - destruct (ro_get_source o) as [o2 s] eqn:Eg. injection E as <- <- _. unfold ro_get_source in Eg. destruct (ro_source o) as [s0|] eqn:Es.
      + injection Eg as <- _. split; [eauto|]. rewrite Es. exact Hs.
      + rewrite W1 in Eg. injection Eg as <- _. split; [exists r1; auto|]. right. cbn. now rewrite W2.
    - injection E as <- <- _. split; eauto. }
  assert (H0 : Q c0 (robj_new r names)) by (split; [exists r; auto|now left]).
  pose proof (run_keeps quiet Q S l c0 (robj_new r names) H0 H) as [(r1 & W1 & W2) Hs].
  destruct (rrun (c0, robj_new r names) l) as [[c o] out]. cbn [fst snd] in *. cbn [rstep]. unfold ro_get_source.
  destruct Hs as [->| ->]; [rewrite W1|]; cbn; [now rewrite W2|reflexivity].
Qed.

(** ** Contents *)
Lemma numbers : exists nu, numbering nu.
Proof.
  set (nu := fix nu (l : jstr) : Z := match l with [] => 0%Z | x :: r => (2 ^ Z.of_N x * (2 * nu r + 1))%Z end).
  exists nu.
  assert (P : forall l, (0 <= nu l)%Z).
  { induction l as [|x r IH]; cbn [nu]; [lia|]. apply Z.mul_nonneg_nonneg; [apply Z.pow_nonneg; lia|]. fold nu. lia. }
  assert (Q : forall x r, (0 < nu (x :: r))%Z).
  { intros x r. cbn [nu]. fold nu. apply Z.mul_pos_pos; [apply Z.pow_pos_nonneg; lia|]. pose proof (P r). lia. }
  assert (D : forall m y u v, (0 <= m)%Z -> (0 <= y)%Z -> (2 ^ m * (2 * u + 1) = 2 ^ y * (2 * v + 1))%Z -> (m <= y)%Z).
  { intros m y u v Hm Hy E. destruct (Z.le_gt_cases m y) as [L|L]; [exact L|]. exfalso.
    replace m with (y + (1 + (m - y - 1)))%Z in E by lia. rewrite Z.pow_add_r in E by lia. rewrite <- Z.mul_assoc in E.
    apply Z.mul_reg_l in E; [|apply Z.pow_nonzero; lia]. rewrite Z.pow_add_r in E by lia. change (2 ^ 1)%Z with 2%Z in E. rewrite <- Z.mul_assoc in E. lia. }
  intro a. induction a as [|x a IH]; intros [|y b] E; [reflexivity|pose proof (Q y b); cbn [nu] in *; lia|pose proof (Q x a); cbn [nu] in *; lia|].
  cbn [nu] in E. fold nu in E.
  assert (Exy : Z.of_N x = Z.of_N y) by (pose proof (D _ _ _ _ (N2Z.is_nonneg x) (N2Z.is_nonneg y) E); symmetry in E; pose proof (D _ _ _ _ (N2Z.is_nonneg y) (N2Z.is_nonneg x) E); lia).
  apply N2Z.inj in Exy. subst y. f_equal. apply IH. apply Z.mul_reg_l in E; [lia|apply Z.pow_nonzero; lia].
Qed.
Definition pair_at (c1 : cache) (p : Z * Z) (q : jstr * jstr) : Prop := known c1 (fst p) (fst q) /\ at_ c1 (snd p) (snd q).
Lemma zip_at c1 is l ks kl : Forall2 (known c1) is l -> Forall2 (at_ c1) ks kl -> Forall2 (pair_at c1) (zipz is ks) (zip l kl).
Proof.
  intro H. revert ks kl. induction H as [|i s is l H1 _ IH]; intros ks kl K; [constructor|]. destruct K as [|j k ks kl K1 K2]; constructor; [split; auto|now apply IH].
Qed.
Lemma tconts_add : forall ts acc, flat_map tconts (fold_left concat_add ts acc) = flat_map tconts acc ++ flat_map tconts ts.
Proof.
  induction ts as [|t ts IH]; intro acc; cbn [fold_left flat_map]; [now rewrite app_nil_r|]. rewrite IH, app_assoc. f_equal.
  destruct t; cbn [concat_add]; rewrite flat_map_app; cbn [flat_map]; rewrite ?app_nil_r; reflexivity.
Qed.
Lemma fresh_add : forall ts acc, Forall fresh_tree acc -> Forall fresh_tree ts -> Forall fresh_tree (fold_left concat_add ts acc).
Proof.
  induction ts as [|t ts IH]; intros acc H H'; [exact H|]. inversion H' as [|? ? H1 H2]; subst. cbn [fold_left]. apply IH; [|exact H2].
  destruct t; cbn [concat_add]; apply Forall_app; (split; [exact H|]); try (constructor; [exact H1|constructor]). now apply fresh_concat.
Qed.
Lemma passed_fresh c1 m d : cache_ok c1 -> sound_map m -> passed c1 m d -> fresh_cell (mk_cell (Some d) None).
Proof. intros Hc (N & _) (A & _). exists d. split; [reflexivity|]. eapply known_nodup; eauto. Qed.
Lemma made_conts c1 e : cache_ok c1 -> exact_child e -> forall t, made c1 e t ->
  fresh_tree (import t) /\ Forall2 (pair_at c1) (tconts (import t)) (contents_given e).
Proof.
  intro Hc1. induction e as [s|v|v n|v n o|p e IH|e h IH|l IH|v n m o i] using jexpr_ind'; intros X t Hm.
  - rewrite Hm. split; [exact I|constructor].
  - rewrite Hm. split; [exact I|constructor].
  - destruct Hm as (vi & ni & -> & A & K). split; [exact I|]. constructor; [|constructor]. split; cbn; auto.
  - destruct Hm as (ni & oi & -> & K & A). split; [exact I|]. constructor; [|constructor]. split; cbn; auto.
  - destruct Hm as (t2 & -> & Hm). destruct X as [X1 X2].
    assert (Xc : exact_child e) by (destruct e; auto; destruct X2). exact (IH Xc t2 Hm).
  - destruct X.
  - apply exact_concat in X. apply made_concat in Hm as (ts & -> & Hm).
    assert (Y : Forall fresh_tree (map import ts) /\ Forall2 (pair_at c1) (flat_map tconts (map import ts)) (flat_map contents_given l)).
    { revert ts Hm. induction IH as [|x l Hx _ IHl]; intros ts Hm; inversion Hm as [|? t3 ? ts3 M1 M2]; subst; [split; constructor|].
      inversion X as [|? ? X1 X2]; subst.
      destruct (Hx X1 t3 M1) as [A1 A2]. destruct (IHl X2 ts3 M2) as [B1 B2].
      cbn [map flat_map]. split; [constructor; auto|]. now apply Forall2_app. }
    destruct Y as [Y1 Y2]. cbn [import]. split; [apply fresh_concat; apply fresh_add; [constructor|exact Y1]|]. cbn [tconts contents_given]. rewrite tconts_add. exact Y2.
  - destruct X as (Xv & Xm & Xi). destruct Hm as (vi & ni & d & oo & ii & -> & _ & K & Pm & A5 & A6).
    pose proof (passed_fresh c1 m d Hc1 Xm Pm) as Fm. destruct Pm as (P1 & P2 & _).
    destruct i as [im|].
    + destruct A6 as (id & -> & Pi).
      pose proof (passed_fresh c1 im id Hc1 Xi Pi) as Fi. destruct Pi as (Q1 & Q2 & _).
      assert (Z : fresh_sms (sms_set_inner (match oo with Some (_, oi) => sms_set_original (sms_new (from_js v) vi ni d None) oi
        | None => sms_new (from_js v) vi ni d None end) id None)) by (destruct oo as [[? ?]|]; repeat split; assumption).
      split; [exact Z|]. cbn [import tconts contents_given]. clear Z Fm Fi. unfold sms_conts. destruct o as [|x o].
      * rewrite A5. apply (Forall2_app (l1 := zipz _ _)); [now apply zip_at|]. now apply zip_at.
      * destruct A5 as (oi & -> & Ao). apply Forall2_app; [now apply zip_at|]. apply Forall2_app; [|now apply zip_at].
        constructor; [|constructor]. split; [exact K|exact Ao].
    + rewrite A6. cbn [import tconts contents_given].
      assert (Z : fresh_sms (match oo with Some (_, oi) => sms_set_original (sms_new (from_js v) vi ni d None) oi
        | None => sms_new (from_js v) vi ni d None end)) by (destruct oo as [[? ?]|]; repeat split; assumption).
      split; [exact Z|]. clear Z. destruct oo as [[? ?]|]; (apply Forall2_app; [now apply zip_at|constructor]).
Qed.
Lemma first_at c1 i s ps qs : cache_ok c1 -> known c1 i s -> Forall2 (pair_at c1) ps qs ->
  match al_get ps i, first_content qs s with Some j, Some k => at_ c1 j k | None, None => True | _, _ => False end.
Proof.
  intros Hc K. induction 1 as [|[i' j] [s' k] ps qs [H1 H2] _ IH]; [exact I|]. cbn [al_get first_content fst snd] in *.
  destruct (Z.eqb_spec i i') as [->|N]; destruct (list_eq_dec N.eq_dec s s') as [->|N']; auto.
  - exfalso. apply N'. eapply at_string; eapply known_at; eauto.
  - exfalso. apply N. eapply known_index; eauto.
Qed.
Lemma collected_at c1 ps qs is l : cache_ok c1 -> Forall2 (pair_at c1) ps qs -> Forall2 (known c1) is l ->
  Forall2 (at_ c1) (collect_contents is ps) (flat_map (fun s => match first_content qs s with Some k => [k] | None => [] end) l).
Proof.
  intros Hc H. induction 1 as [|i s is l K _ IH]; [constructor|]. cbn [collect_contents flat_map]. pose proof (first_at c1 i s ps qs Hc K H) as F.
  destruct (al_get ps i), (first_content qs s); try contradiction; cbn [app]; [now constructor|exact IH].
Qed.
Lemma stands_ats c is ks l' : Forall2 (at_ c) is ks -> stands_for c is l' -> l' = map Some ks.
Proof.
  intros H. revert l'. induction H as [|i k is ks (n & -> & E) _ IH]; intros l' St; inversion St as [|? ? ? ? S1 S2]; subst; [reflexivity|].
  cbn. f_equal; [|now apply IH]. destruct y as [s'|]; [|lia]. destruct S1 as (k' & Ek & E'). apply Nat2Z.inj in Ek. congruence.
Qed.

(** ** The whole way *)
Lemma known_strings c1 (X : jstr -> Prop) is : cache_ok c1 -> NoDup is -> Forall (fun i => exists s, X s /\ known c1 i s) is ->
  exists l, Forall2 (known c1) is l /\ NoDup l /\ Forall X l.
Proof.
  intros Hc. induction is as [|i is IH]; intros N H; [exists []; repeat constructor|]. inversion N as [|? ? N1 N2]; subst. inversion H as [|? ? (s & Hs & K) H2]; subst.
  destruct (IH N2 H2) as (l & A & B & C). exists (s :: l). split; [constructor; auto|]. split; [|constructor; auto]. constructor; [|exact B].
  intro Hin. apply N1. clear - A Hin K. induction A as [|j t is l K2 _ IH]; [destruct Hin|]. destruct Hin as [->|Hin]; [left; eapply known_index; eauto|right; auto].
Qed.
Lemma stands_known c is l l' : cache_ok c -> Forall2 (known c) is l -> stands_for c is l' -> l' = map Some l.
Proof.
  intros Hc H. revert l'. induction H as [|i s is l K _ IH]; intros l' St; inversion St as [|? ? ? ? S1 S2]; subst; [reflexivity|]. cbn. f_equal; [|now apply IH].
  apply known_at in K; [|exact Hc]. destruct K as (k & -> & E). destruct y as [s'|]; [|lia]. destruct S1 as (k' & Ek & E'). apply Nat2Z.inj in Ek. congruence.
Qed.
Lemma node_contents_of n file root s g g' mp ps : to_string_with_generator n file root = Some (s, g) ->
  gen_to_source_map g = Some (g', mp) -> same_get (nconts n) ps -> map_contents mp = collect_contents (map_sources mp) ps.
Proof.
  intros Eg Em H. unfold gen_to_source_map, serialize_mappings in Em. unb Em as [g1 ms] E1. unb E1 as st E2. injection E1 as <- <-. injection Em as _ <-.
  cbn [map_contents map_sources gen_set_mappings g_contents]. apply collect_same. unfold to_string_with_generator in Eg. unb Eg as cx Ew. injection Eg as _ <-.
  intro k. rewrite (walk_contents _ _ _ _ _ _ Ew k). cbn [ctx_new cx_map gen_new g_contents app]. apply H.
Qed.
(** The node of an expression. *)
Lemma node_of nu e md c t : numbering nu -> cache_ok c -> exact_expr e -> (forall v, e <> XRaw v) -> made c e t ->
  match t with JStr _ | JRaw _ => False | _ => True end /\
  exists n M, t_node true md (import t) = Some n /\ marks nu e = Some M /\ Forall solid (leaves n) /\
    node_idx (PS c (sources_in e)) (PN c (names_in e)) (RG c (contents_given e)) n /\ M = retarget (rename (rho nu c)) (flat n) /\ plain (text_of M) /\
    fresh_tree (import t) /\ Forall2 (pair_at c) (tconts (import t)) (contents_given e).
Proof.
  intros Hnu Hc X NR Hm.
  assert (Xc : exact_child e) by (destruct e; auto; destruct X).
  assert (N0 : forall s, e <> XStr s) by (intros s ->; destruct X).
  destruct (made_good nu Hnu c Hc md (sources_in e) (names_in e) (contents_given e) e Xc (incl_refl _) (incl_refl _) (incl_refl _) t Hm) as (M & EM & D & T & M0 & A & E0).
  pose proof (made_tree c e t Hm N0) as NS. split; [exact (made_mapped c e t Hm N0 NR)|].
  assert (D' : dense (import t)) by now apply dense_of_child.
  assert (A' : attributed true md (import t) M0) by (destruct (import t); auto; destruct NS).
  destruct (dense_node true md (import t) D') as (n & En & _ & Sol).
  assert (Flat : flat n = M0) by (apply attributed_flat in A' as (n' & En' & <-); congruence). subst M0.
  exists n, M. split; [exact En|]. split; [exact EM|]. split; [exact Sol|]. split; [eapply t_node_idx; [exact T|exact En]|]. split; [exact E0|].
  split; [eapply marks_plain; eauto|]. exact (made_conts c e Hc Xc t Hm).
Qed.
Theorem made_end nu e md c1 t : numbering nu -> reached_cache c1 -> exact_expr e -> (forall v, e <> XRaw v) -> made c1 e t ->
  exists o M Ls Ln ms es, js_source_and_map true md t = Some (ResMap o) /\ marks nu e = Some M /\
    NoDup Ls /\ NoDup Ln /\ incl Ls (sources_in e) /\ incl Ln (names_in e) /\
    reads_as nu Ls Ln ms = Some es /\ annotate es (text_of M) = M /\
    forall l, Forall quiet l ->
      (~ starts_with BOM (text_of M) -> snd (rstep (fst (rrun (c1, o) l)) RSource) = AText (text_of M)) /\
      snd (rstep (fst (rrun (c1, o) l)) (RGet FSources)) = AVal (VArr (map Some Ls)) /\
      snd (rstep (fst (rrun (c1, o) l)) (RGet FNames)) = AVal (VArr (map Some Ln)) /\
      snd (rstep (fst (rrun (c1, o) l)) (RGet FMappings)) = AVal (VStr ms) /\
      exists v, snd (rstep (fst (rrun (c1, o) l)) (RGet FContents)) = AVal v /\ lists v (map Some (contents_of e Ls)).
Proof.
  intros Hnu Hr1 X NR Hm. pose proof (reached_ok _ Hr1) as Hc1.
  assert (Xc : exact_child e) by (destruct e; auto; destruct X).
  assert (N0 : forall s, e <> XStr s) by (intros s ->; destruct X).
  destruct (made_good nu Hnu c1 Hc1 md (sources_in e) (names_in e) (contents_given e) e Xc (incl_refl _) (incl_refl _) (incl_refl _) t Hm) as (M & EM & D & T & M0 & A & E0).
  pose proof (made_tree c1 e t Hm N0) as NS. pose proof (made_mapped c1 e t Hm N0 NR) as NJ.
  assert (D' : dense (import t)) by now apply dense_of_child.
  assert (A' : attributed true md (import t) M0) by (destruct (import t); auto; destruct NS).
  destruct (dense_node true md (import t) D') as (n & En & _ & Sol).
  assert (Flat : flat n = M0) by (apply attributed_flat in A' as (n' & En' & <-); congruence).
  destruct (walk_sorted n None None (Forall_impl _ solid_ok Sol)) as (cx & Ew & ((W & _) & _)). destruct W as [W _].
  destruct (emitted_exact n None None (Forall_impl _ solid_ok Sol)) as (code & mp & es & Em & Ec & Er & Ea).
  unfold to_string_with_source_map in Em. rewrite Ew in Em. cbn [bind] in Em. unbind Em. destruct v as [g' m']. injection Em as <- <-. rename E into Eg. rename m' into mp.
  set (r := jr_from_with_generator (cx_code cx) (cx_map cx)).
  assert (Enr : node_result n = Some r) by (unfold node_result, to_string_with_generator; now rewrite Ew).
  assert (Ejr : jr_get_map r = Some (mk_jr (jr_s r) (Some mp) (Some g'), mp)) by (unfold jr_get_map; cbn; now rewrite Eg).
  assert (Idx : map_idx (PS c1 (sources_in e)) (PN c1 (names_in e)) (RG c1 (contents_given e)) mp).
  { eapply source_map_idx; [|exact Eg]. eapply generator_idx; [eapply t_node_idx; [exact T|exact En]|]. unfold to_string_with_generator. rewrite Ew. reflexivity. }
  destruct Idx as (I1 & I2 & I3).
  destruct (to_source_map_spec _ W) as (g2 & m2 & Eg2 & _ & Es & Enm & _). rewrite Eg in Eg2. injection Eg2 as <- <-.
  destruct W as (W1 & W2 & _).
  destruct (known_strings c1 (fun s => In s (sources_in e)) (map_sources mp) Hc1) as (Ls & KL & NL & IL); [rewrite Es; apply W1|exact I1|].
  destruct (known_strings c1 (fun s => In s (names_in e)) (map_names mp) Hc1) as (Ln & KN & NN & INm); [rewrite Enm; apply W2|exact I2|].
  exists (robj_new r true), M, Ls, Ln, (map_mappings mp), (rename_entries (rho nu c1) es).
  split; [unfold js_source_and_map; destruct t; try (destruct NJ); rewrite En; cbn [bind]; rewrite Enr; reflexivity|].
  split; [exact EM|]. split; [exact NL|]. split; [exact NN|]. split; [exact (proj1 (Forall_forall _ _) IL)|]. split; [exact (proj1 (Forall_forall _ _) INm)|].
  split.
  { unfold reads_as. rewrite <- (rho_map nu c1 Hc1 _ _ KL), <- (rho_map nu c1 Hc1 _ _ KN), read_map_rename, Er. reflexivity. }
  assert (Tx : text_of M = cx_code cx) by (rewrite E0, text_retarget, Ec, Flat; reflexivity).
  split; [rewrite annotate_rename, E0; f_equal; rewrite <- E0, Tx, Ea; exact Flat|].
  intros l Hl.
  assert (Res : resolvable c1 mp).
  { assert (B : forall i s, at_ c1 i s -> (i < Z.of_nat (length (ca_array c1)))%Z).
    { intros i s (k & -> & E). assert (k < length (ca_array c1)) by (apply nth_error_Some; congruence). lia. }
    unfold resolvable. rewrite !Forall_app. split; [|split].
    - eapply Forall_impl; [|exact I1]. intros i (s & _ & K). exact (B _ _ (known_at _ _ _ Hc1 K)).
    - eapply Forall_impl; [|exact I3]. intros i (s & _ & (s' & k & _ & _ & K)). eauto.
    - eapply Forall_impl; [|exact I2]. intros i (s & _ & K). exact (B _ _ (known_at _ _ _ Hc1 K)). }
  assert (Hq : forall f, Forall (fun op => ~ clears op /\ ~ wraps op /\ ~ assigns f op) l).
  { intro f. eapply Forall_impl; [|exact Hl]. intros op Ho. destruct op; cbn in *; try (destruct Ho); repeat split; auto. }
  assert (Pr : produced r true) by (econstructor; exact Enr).
  destruct (produced_map r true _ _ Pr Ejr) as [As _].
  split; [|split; [|split; [|split]]].
  - intro NB. rewrite source_kept by exact Hl. f_equal.
    assert (Hs : jr_s r = text_of M) by (cbn; congruence). rewrite Hs. apply plain_out; [eapply marks_plain; eauto|exact NB].
  - destruct (shows_map c1 r _ mp true FSources l Hr1 Ejr Res (Hq _)) as (v & Ev & Sh). rewrite Ev. inversion Sh as [l' St| | | | |]; subst. f_equal. f_equal. eapply stands_known; eauto.
  - destruct (shows_map c1 r _ mp true FNames l Hr1 Ejr Res (Hq _)) as (v & Ev & Sh). rewrite Ev. inversion Sh as [| | | |l' Ht St|Ht]; subst; [|discriminate]. f_equal. f_equal. eapply stands_known; eauto.
  - destruct (shows_map c1 r _ mp true FMappings l Hr1 Ejr Res (Hq _)) as (v & Ev & Sh). rewrite Ev. inversion Sh; subst. f_equal. f_equal.
    apply ascii_plain in As as [A1 A2]. now apply plain_out.
  - destruct (shows_map c1 r _ mp true FContents l Hr1 Ejr Res (Hq _)) as (v & Ev & Sh). exists v.
    assert (St : exists l', lists v l' /\ stands_for c1 (map_contents mp) l').
    { inversion Sh as [|s l' St|St| | |]; subst; [eexists; split; [constructor|exact St]|]. rewrite St. exists []. split; [constructor|constructor]. }
    destruct St as (l' & Li & St). destruct (made_conts c1 e Hc1 Xc t Hm) as [Fr Cs].
    assert (Ek : map_contents mp = collect_contents (map_sources mp) (tconts (import t))).
    { eapply (map_contents_of true md (import t) n None None (cx_code cx) (cx_map cx)); [exact Fr|exact En| |exact Eg]. unfold to_string_with_generator. now rewrite Ew. }
    rewrite Ek in St. rewrite (stands_ats _ _ _ _ (collected_at _ _ _ _ _ Hc1 Cs KL) St) in Li. auto.
Qed.
Theorem end_to_end nu c0 e md c1 t : numbering nu -> reached_cache c0 -> exact_expr e -> (forall v, e <> XRaw v) -> build c0 e = (c1, t) ->
  exists o M Ls Ln ms es, js_source_and_map true md t = Some (ResMap o) /\ marks nu e = Some M /\
    NoDup Ls /\ NoDup Ln /\ incl Ls (sources_in e) /\ incl Ln (names_in e) /\
    reads_as nu Ls Ln ms = Some es /\ annotate es (text_of M) = M /\
    forall l, Forall quiet l ->
      (~ starts_with BOM (text_of M) -> snd (rstep (fst (rrun (c1, o) l)) RSource) = AText (text_of M)) /\
      snd (rstep (fst (rrun (c1, o) l)) (RGet FSources)) = AVal (VArr (map Some Ls)) /\
      snd (rstep (fst (rrun (c1, o) l)) (RGet FNames)) = AVal (VArr (map Some Ln)) /\
      snd (rstep (fst (rrun (c1, o) l)) (RGet FMappings)) = AVal (VStr ms) /\
      exists v, snd (rstep (fst (rrun (c1, o) l)) (RGet FContents)) = AVal v /\ lists v (map Some (contents_of e Ls)).
Proof.
  intros Hnu Hr0 X NR Eb. apply made_end; auto; [eapply reached_build; eauto|]. now apply (build_made e c0 c1 t (reached_ok _ Hr0) Eb).
Qed.
