(** Results whose map is given to a new SourceMapSource as it is: proofs. *)
From Verif Require Import Base Tactics ModelString StringFacts ModelVlq ModelSm ModelSlm ModelSources ModelTree ModelWasm
  ModelJs ModelJsApi SpecText SpecMap SpecAttr SpecLeast SortFacts TextFacts MapFacts NodeFacts LeafFacts ParseFacts GenFacts LoadFacts SmsProps NodeTree LeastFacts Refeed
  IdxFacts JsFacts Utf16Facts JsTextProps SpecResult ModelJsResult ResultFacts ResultProps SpecJs ModelEnd SpecEnd EndFacts MadeFacts EndProps ContentFacts EndMap LineEnd LeastEnd
  ModelAgain SpecAgain AgainProps.

(** ** The node for a result, as the cache grows *)
Definition node_for (nu : jstr -> Z) (c : cache) (n : smnode) (M : marked) (Cs : list (jstr * jstr)) : Prop :=
  Forall solid (leaves n) /\ node_idx (listed c) (listed c) (content_listed c) n /\ M = retarget (rename (rho nu c)) (flat n) /\
  exists ps, same_get (nconts n) ps /\ Forall2 (pair_at c) ps Cs.

Lemma leaves_listed P Q R n : node_idx P Q R n -> forall src pos name, opt_all P src -> opt_all Q name ->
  Forall (fun x : leaf => let '(_, s, _, nm) := x in opt_all P s /\ opt_all Q nm) (leaves_in src pos name n).
Proof.
  induction n as [s|po sr nm ch ct IH] using smnode_ind'; intros H src pos name Hs Hn; cbn [leaves_in].
  - constructor; [auto|constructor].
  - apply node_idx_node in H as (H1 & H2 & _ & H3). apply Forall_flat_map. rewrite Forall_forall in *. intros x Hx. apply IH; auto.
Qed.
Lemma flat_listed P R n : node_idx P P R n -> Forall (fun x : char * option target => good_for P (snd x)) (flat n).
Proof.
  intro H. unfold flat, flat_leaves. apply Forall_flat_map. eapply Forall_impl; [|apply (leaves_listed P P R n H None None None); exact I].
  intros [[[s src] pos] nm] [Hs Hm]. unfold flat_leaf, mark. apply Forall_map. apply Forall_forall. intros c _. cbn.
  destruct src as [z|]; [|exact I]. destruct pos as [[l k]|]; [|exact I]. cbn in *. split; [exact Hs|]. destruct nm; [exact Hm|exact I].
Qed.
Lemma rename_grows nu c c' (P : Z -> Prop) R n : cache_ok c -> cache_ok c' -> grows c c' -> (forall i, P i -> listed c i) -> node_idx P P R n ->
  retarget (rename (rho nu c')) (flat n) = retarget (rename (rho nu c)) (flat n).
Proof.
  intros Hc Hc' G HP Hn. apply flat_listed in Hn. rewrite Forall_forall in Hn. apply EndFacts.retarget_ext. intros ch t Ht. specialize (Hn _ Ht). cbn [snd] in Hn.
  assert (E : forall i, P i -> rho nu c' i = rho nu c i).
  { intros i Hi. destruct (HP i Hi) as (s & _ & K). rewrite (rho_known nu c Hc i s K). apply rho_known; [exact Hc'|]. eapply known_grows; eauto. }
  destruct t as [[[s p] nm]|]; [|reflexivity]. cbn in *. destruct Hn as [H1 H2]. rewrite (E _ H1). destruct nm as [k|]; cbn; [now rewrite (E _ H2)|reflexivity].
Qed.
Lemma listed_grows c c' i : grows c c' -> listed c i -> listed c' i.
Proof. intros G (s & _ & K). exists s. split; [exact I|]. eapply known_grows; eauto. Qed.
Lemma content_listed_grows c c' i j : grows c c' -> content_listed c i j -> content_listed c' i j.
Proof. intros G (s & k & _ & K1 & K2). exists s, k. split; [exact I|]. split; [eapply known_grows; eauto|eapply at_grows; eauto]. Qed.
Lemma pairs_grow c c' ps Cs : grows c c' -> Forall2 (pair_at c) ps Cs -> Forall2 (pair_at c') ps Cs.
Proof. intros G H. induction H as [|p q ps Cs [H1 H2] _ IH]; constructor; [|exact IH]. split; [eapply known_grows; eauto|eapply at_grows; eauto]. Qed.
Lemma node_for_grows nu c c' n M Cs : cache_ok c -> cache_ok c' -> grows c c' -> node_for nu c n M Cs -> node_for nu c' n M Cs.
Proof.
  intros Hc Hc' G (H1 & H2 & H3 & ps & H4 & H5). split; [exact H1|]. split; [|split].
  - eapply node_idx_mono; [| | |exact H2]; intros; eauto using listed_grows, content_listed_grows.
  - rewrite H3. symmetry. eapply (rename_grows nu c c'); eauto.
  - exists ps. split; [exact H4|]. eapply pairs_grow; eauto.
Qed.

(** ** What is read off its result *)
Lemma node_shows nu c n M Cs : numbering nu -> reached_cache c -> node_for nu c n M Cs -> plain (text_of M) -> ~ starts_with BOM (text_of M) ->
  exists r m segs, node_result n = Some r /\ displays c (robj_new r true) (text_of M) m /\ map nu (jm_sources m) = firsts (srcs_of M) /\ map nu (jm_names m) = firsts (names_of M) /\
    jm_contents m = contents_from Cs (jm_sources m) /\ map_says nu m = Some (least M) /\ decode (jm_mappings m) = Some segs /\ jm_mappings m = spelled segs.
Proof.
  intros Hn R (H1 & H2 & H3 & ps & H4 & H5) Pl NB.
  destruct (node_least nu c n M ps Cs Hn R H1 H2 H3 H4 H5) as (r & Ls & Ln & ms & segs & Er & A1 & A2 & Rd & D & S & Q).
  exists r, (mk_jmap Ls (contents_from Cs Ls) Ln ms), segs. split; [exact Er|]. split; [|auto 8].
  intros l Hl. destruct (Q l Hl) as (Q1 & Q2 & Q3 & Q4 & Q5). rewrite (plain_out _ Pl NB) in Q1. auto.
Qed.
Lemma shows_same nu M Cs m m' segs segs' : numbering nu -> map nu (jm_sources m) = firsts (srcs_of M) -> map nu (jm_names m) = firsts (names_of M) ->
  jm_contents m = contents_from Cs (jm_sources m) -> map_says nu m = Some (least M) -> decode (jm_mappings m) = Some segs -> jm_mappings m = spelled segs ->
  map nu (jm_sources m') = firsts (srcs_of M) -> map nu (jm_names m') = firsts (names_of M) ->
  jm_contents m' = contents_from Cs (jm_sources m') -> map_says nu m' = Some (least M) -> decode (jm_mappings m') = Some segs' -> jm_mappings m' = spelled segs' -> m' = m.
Proof.
  intros Hn A1 A2 A3 A4 A5 A6 B1 B2 B3 B4 B5 B6.
  assert (Hinj : forall a b, map nu a = map nu b -> a = b).
  { induction a as [|x a IH]; intros [|y b] E; try discriminate; [reflexivity|]. injection E as E1 E2. f_equal; [now apply Hn|auto]. }
  destruct m as [Ls K Ln ms], m' as [Ls' K' Ln' ms']. cbn [jm_sources jm_names jm_contents jm_mappings] in *. unfold map_says in *. cbn [jm_sources jm_names jm_mappings] in *.
  assert (Ls = Ls') by (apply Hinj; congruence). subst Ls'. assert (Ln = Ln') by (apply Hinj; congruence). subst Ln'.
  assert (Hms : ms' = ms) by (unfold reads_as in A4, B4; eapply (spelled_unique (map nu Ls) (map nu Ln)); eauto; rewrite ?A1, ?A2; apply firsts_nodup).
  congruence.
Qed.

(** ** Reads leave the result as it was, or with its map made *)
Lemma quiet_state r names l c0 : reached_cache c0 -> Forall quiet l ->
  let w := fst (rrun (c0, robj_new r names) l) in
  reached_cache (fst w) /\ grows c0 (fst w) /\ ro_modified (snd w) = false /\
  (ro_wasm (snd w) = Some r \/ exists r' mp, jr_get_map r = Some (r', mp) /\ ro_wasm (snd w) = Some r').
Proof.
  intros R0 H.
  set (Q := fun (c : cache) (o : robj) => reached_cache c /\ grows c0 c /\ ro_modified o = false /\
    (ro_wasm o = Some r \/ exists r' mp, jr_get_map r = Some (r', mp) /\ ro_wasm o = Some r')).
  assert (S : forall c o op c1 o1 a, Q c o -> quiet op -> rstep (c, o) op = (c1, o1, a) -> Q c1 o1).
  { intros c o op c1 o1 a (Rc & G & Md & W) Ho E. destruct op as [f| | | | | |s b|]; try destruct Ho; cbn [rstep] in E.
    - destruct (ro_get c o f) as [o2 v] eqn:Eg. injection E as <- <- _. split; [exact Rc|]. split; [exact G|].
      unfold ro_get in Eg. destruct (ro_fields o f); [injection Eg as <- _; auto|].
      destruct (_ && _); [injection Eg as <- _; auto|]. destruct (ro_wasm o) as [r1|] eqn:W1; [|injection Eg as <- _; rewrite W1; auto].
      destruct (jr_get_map r1) as [[r2 m]|] eqn:Em; [|injection Eg as <- _; rewrite W1; auto].
      assert (K : Some r2 = Some r \/ exists r' mp, jr_get_map r = Some (r', mp) /\ Some r2 = Some r').
      { destruct W as [W|(r' & mp & E' & W)]; injection W as ->; [right; eauto|]. right. exists r', mp. split; [exact E'|].
        unfold jr_get_map in Em, E'. destruct (jr_map r) as [m0|] eqn:Er.
        - injection E' as <- <-. rewrite Er in Em. now injection Em as <- _.
        - unbind E'. unbind E'. destruct v1 as [g' m']. injection E' as <- <-. cbn in Em. now injection Em as <- _. }
      destruct (raw_value c m f) as [w|]; injection Eg as <- _; (split; [exact Md|exact K]).
    - destruct (ro_get_source o) as [o2 s] eqn:Eg. injection E as <- <- _. split; [exact Rc|]. split; [exact G|]. unfold ro_get_source in Eg. destruct (ro_source o) as [s0|] eqn:Es.
      + injection Eg as <- _. auto.
      + destruct (ro_wasm o) as [r1|] eqn:W1; injection Eg as <- _; [|rewrite W1; auto]. split; [exact Md|]. cbn [ro_wasm]. exact W.
    - injection E as <- <- _. destruct b.
      + destruct (cache_add c s) as [c2 i] eqn:Ea. cbn [fst]. destruct (add_known _ _ _ _ (reached_ok _ Rc) Ea) as (_ & G' & _).
        split; [eapply reached_add; eauto|]. split; [eapply grows_trans; eauto|auto].
      + destruct (cache_add_unchecked c s) as [c2 i] eqn:Ea. cbn [fst]. destruct (addu_at _ _ _ _ (reached_ok _ Rc) Ea) as (_ & G' & _).
        split; [eapply reached_addu; eauto|]. split; [eapply grows_trans; eauto|auto]. }
  exact (run_keeps quiet Q S l c0 (robj_new r names) (conj R0 (conj (grows_refl c0) (conj eq_refl (or_introl eq_refl)))) H).
Qed.

(** ** The new source *)
Definition same_list (g g' : generator) : Prop := ml_list (g_mappings g') = ml_list (g_mappings g) /\ g_contents g' = g_contents g.
Lemma direct_node nu c n M Cs : numbering nu -> reached_cache c -> node_for nu c n M Cs -> (N.of_nat (length M) < 2147483648)%N ->
  exists g mp g1, node_result n = Some (jr_from_with_generator (text_of M) g) /\ gen_to_source_map g = Some (g1, mp) /\
    forall g', g' = g \/ g' = g1 -> exists n', sm_from_string (text_of M) g' = Some n' /\ node_for nu c n' M Cs.
Proof.
  intros Hn R (H1 & H2 & H3 & ps & H4 & H5) Sz. pose proof (Forall_impl _ solid_ok H1) as Ok.
  assert (Lm : length M = length (flat n)) by (rewrite H3; apply map_length). rewrite Lm in Sz.
  assert (Tx : text_of M = text_of (flat n)) by (rewrite H3; apply text_retarget).
  destruct (walk_fine n Ok Sz) as (code & g & E1 & E2 & E3 & W & S & B & F).
  destruct (to_source_map_spec g (proj1 W)) as (g1 & mp & Em & Eg1 & _).
  assert (Il : ml_list (g_mappings g1) = ml_list (g_mappings g)).
  { rewrite Eg1. cbn [g_mappings gen_set_mappings]. rewrite ml_sort_isort by apply W. apply isort_id. exact S. }
  assert (Kc : same_get (g_contents g) (nconts n)).
  { unfold to_string_with_generator in E1. unb E1 as cx Ew. injection E1 as _ <-. intro k. rewrite (walk_contents _ _ _ _ _ _ Ew k). reflexivity. }
  pose proof (generator_idx _ _ _ n None None code g H2 E1) as Gi.
  exists g, mp, g1. split; [unfold node_result; rewrite E1, Tx, <- E2; reflexivity|]. split; [exact Em|].
  assert (Hg : forall g', gen_wf g' -> ml_list (g_mappings g') = ml_list (g_mappings g) -> g_contents g' = g_contents g -> gen_idx (listed c) (listed c) (content_listed c) g' ->
    exists n', sm_from_string (text_of M) g' = Some n' /\ node_for nu c n' M Cs).
  { intros g' W' L' C' I'. assert (O : ordered g') by (split; [|split; [|exact W']]; rewrite L'; [now apply before_vsorted|exact F]).
    destruct (ordered_node (text_of M) g' O) as (n' & En & _ & S' & Fl). exists n'. split; [exact En|]. split; [exact S'|]. split; [eapply from_string_idx; eauto|].
    split; [rewrite Fl, L', Tx, <- E2, E3; exact H3|]. exists ps. split; [|exact H5]. rewrite (from_string_contents _ _ _ En), C'. intro k. rewrite (Kc k). apply H4. }
  intros g' [-> | ->].
  - apply Hg; auto. apply W.
  - apply Hg; [rewrite Eg1; apply gen_wf_sort, W|exact Il|rewrite Eg1; reflexivity|]. eapply source_map_idx; [exact Gi|exact Em].
Qed.
Lemma wrap_direct nu c n M Cs r l name : numbering nu -> reached_cache c -> node_for nu c n M Cs -> (N.of_nat (length M) < 2147483648)%N -> plain (text_of M) ->
  node_result n = Some r -> Forall quiet l ->
  exists c1 o1 x, rstep (fst (rrun (c, robj_new r true) l)) (RWrap (text_of M) name) = (c1, o1, ASms x) /\ reached_cache c1 /\
    forall k, exists x1, sms_calls k x = Some x1 /\ exists n' x2, sms_node x1 = Some (x2, n') /\ node_for nu c1 n' M Cs.
Proof.
  intros Hn R Nf Sz Pl Er Hl. destruct (direct_node nu c n M Cs Hn R Nf Sz) as (g & mp & g1 & Er' & Em & Hg). rewrite Er' in Er. injection Er as <-.
  pose proof (quiet_state (jr_from_with_generator (text_of M) g) true l c R Hl) as Qs. cbv zeta in Qs. destruct (fst (rrun (c, robj_new (jr_from_with_generator (text_of M) g) true) l)) as [c' o]. cbn [fst snd] in Qs.
  destruct Qs as (R' & G & Md & W). cbn [rstep]. unfold ro_wrap.
  destruct (cache_add_unchecked c' (text_of M)) as [c2 vi] eqn:E2. destruct (cache_add c2 name) as [c3 ni] eqn:E3.
  pose proof (reached_addu _ _ _ _ R' E2) as R2. pose proof (reached_add _ _ _ _ R2 E3) as R3.
  destruct (addu_at _ _ _ _ (reached_ok _ R') E2) as (_ & G2 & _). destruct (add_known _ _ _ _ (reached_ok _ R2) E3) as (_ & G3 & _).
  assert (G' : grows c c3) by (eapply grows_trans; [exact G|]; eapply grows_trans; eauto).
  assert (K : exists g' d, (g' = g \/ g' = g1) /\ exists r', ro_wasm_obj o = Some r' /\
    sms_new_wasmmap (from_js (text_of M)) (Z.of_nat vi) (Z.of_nat ni) r' = Some (mk_sms (text_of M) (Z.of_nat vi) (Z.of_nat ni) (mk_cell d (Some g')) None None false)).
  { unfold ro_wasm_obj. rewrite Md, (plain_in _ Pl). destruct W as [W|(r' & mp' & E' & W)].
    - exists g, None. split; [auto|]. eexists. split; [exact W|]. reflexivity.
    - unfold jr_get_map in E'. cbn [jr_from_with_generator jr_map jr_gen bind jr_s] in E'. rewrite Em in E'. injection E' as <- <-.
      exists g1, (Some (content_of mp)). split; [auto|]. eexists. split; [exact W|]. reflexivity. }
  destruct K as (g' & d & Hg' & r' & Ew & Ex). rewrite Ew, Ex. eexists c3, _, _. split; [reflexivity|]. split; [exact R3|].
  destruct (Hg g' Hg') as (n' & En & Nf'). pose proof (node_for_grows nu c c3 n' M Cs (reached_ok _ R) (reached_ok _ R3) G' Nf') as Nf3.
  set (x := mk_sms (text_of M) (Z.of_nat vi) (Z.of_nat ni) (mk_cell d (Some g')) None None false).
  assert (En' : sms_node x = Some (x, n')) by (unfold sms_node, cell_get_generator; cbn [x sms_map ce_gen bind sms_inner sms_value]; rewrite En; reflexivity).
  assert (Ec : forall k, sms_calls k x = Some x).
  { destruct (direct_node nu c3 n' M Cs Hn R3 Nf3 Sz) as (g2 & _ & _ & E4 & _).
    induction k as [|k IH]; [reflexivity|]. cbn [sms_calls]. unfold sms_source_and_map. rewrite En'. cbn [bind]. rewrite E4. cbn [bind]. exact IH. }
  intro k. exists x. split; [apply Ec|]. exists n', x. auto.
Qed.

(** ** Any number of times *)
Section Direct.
  Context {nu : jstr -> Z} {e : jexpr} {M : marked} (Hn : numbering nu) (X : exact_expr e) (NR : forall v, e <> XRaw v)
    (EM : marks nu e = Some M) (NB : ~ starts_with BOM (text_of M)) (Sz : (N.of_nat (length M) < 2147483648)%N).
  Definition holds_on (Cs : list (jstr * jstr)) (w : cache * robj) : Prop :=
    reached_cache (fst w) /\ exists n r, node_result n = Some r /\ snd w = robj_new r true /\ node_for nu (fst w) n M Cs.
  Lemma again_on Cs w w' : plain (text_of M) -> again (text_of M) w w' -> holds_on Cs w -> holds_on Cs w'.
  Proof.
    intros Pl H. induction H as [|w l name c1 o1 x k x1 x2 o2 w' Hl E Ek Es H IH]; intro Hw; [exact Hw|]. apply IH. clear IH H.
    destruct w as [c o]. destruct Hw as (R & n & r & Er & Eo & Nf). cbn [fst snd] in *. subst o.
    destruct (wrap_direct nu c n M Cs r l name Hn R Nf Sz Pl Er Hl) as (c1' & o1' & x' & E' & R1 & Hk). rewrite E in E'. injection E' as <- <- <-.
    destruct (Hk k) as (x1' & Ek' & n' & x2' & En & Nf'). rewrite Ek in Ek'. injection Ek' as <-.
    unfold sms_source_and_map in Es. rewrite En in Es. cbn [bind] in Es. unb Es as r' Er'. injection Es as _ <-.
    split; [exact R1|]. exists n', r'. auto.
  Qed.
  Theorem made_direct c0 md c1 t : reached_cache c0 -> build c0 e = (c1, t) ->
    exists o m, js_source_and_map true md t = Some (ResMap o) /\ displays c1 o (text_of M) m /\
      forall c2 o2, again (text_of M) (c1, o) (c2, o2) -> displays c2 o2 (text_of M) m /\
        forall l name, Forall quiet l -> exists c3 o3 x, rstep (fst (rrun (c2, o2) l)) (RWrap (text_of M) name) = (c3, o3, ASms x) /\
          forall k, exists x1 x2 o4, sms_calls k x = Some x1 /\ sms_source_and_map x1 = Some (x2, o4).
  Proof.
    intros R B. assert (Xc : exact_child e) by (clear - X; destruct e; auto; destruct X). pose proof (marks_plain nu e Xc M EM) as Pl. pose proof (reached_build _ _ _ _ R B) as R1.
    pose proof (build_made _ _ _ _ (reached_ok _ R) B) as Hm.
    destruct (node_of nu e md c1 t Hn (reached_ok _ R1) X NR (proj2 (proj2 Hm))) as (NJ & n & M' & En & EM' & Sol & Ni & E0 & _ & Fr & Cs). rewrite EM in EM'. injection EM' as <-.
    assert (Nf : node_for nu c1 n M (contents_given e)).
    { split; [exact Sol|]. split; [exact (node_listed _ _ _ _ _ Ni)|]. split; [exact E0|]. eexists. split; [exact (t_node_contents true md _ Fr n En)|exact Cs]. }
    destruct (node_shows nu c1 n M _ Hn R1 Nf Pl NB) as (r & m & segs & Er & Sh & A1 & A2 & A3 & A4 & A5 & A6).
    exists (robj_new r true), m. split; [unfold js_source_and_map; destruct t; try (destruct NJ); rewrite En; cbn [bind]; rewrite Er; reflexivity|]. split; [exact Sh|].
    intros c2 o2 Ag. apply (again_on (contents_given e)) in Ag; [|exact Pl|split; [exact R1|exists n, r; auto]].
    destruct Ag as (R2 & n2 & r2 & Er2 & Eo & Nf2). cbn [fst snd] in *. subst o2. split.
    - destruct (node_shows nu c2 n2 M _ Hn R2 Nf2 Pl NB) as (r' & m' & segs' & Er' & Sh' & B1 & B2 & B3 & B4 & B5 & B6). rewrite Er2 in Er'. injection Er' as <-.
      rewrite (shows_same nu M (contents_given e) m m' segs segs') in Sh'; auto.
    - intros l name Hl. destruct (wrap_direct nu c2 n2 M _ r2 l name Hn R2 Nf2 Sz Pl Er2 Hl) as (c3 & o3 & x & E & R3 & Hk). exists c3, o3, x. split; [exact E|].
      intro k. destruct (Hk k) as (x1 & Ek & n' & x2 & En' & Nf'). exists x1, x2. destruct (direct_node nu c3 n' M _ Hn R3 Nf' Sz) as (g & _ & _ & Er' & _).
      eexists. split; [exact Ek|]. unfold sms_source_and_map. rewrite En'. cbn [bind]. rewrite Er'. reflexivity.
  Qed.
End Direct.
