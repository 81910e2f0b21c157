(** The output of a source given to a SourceMapSource. *)
From Verif Require Import Base Tactics ModelString ModelVlq ModelSm ModelSlm ModelSources ModelTree ModelWasm
  SpecMap SpecAttr SortFacts LeafFacts ReplaceNode MapFacts ParseFacts GenFacts LoadFacts MapProps NodeFacts SmsNode SmsProps NodeTree.

Lemma ssorted_snoc {A} (R : A -> A -> Prop) l x : StronglySorted R l -> Forall (fun y => R y x) l ->
  StronglySorted R (l ++ [x]).
Proof.
  intro S. induction S as [|y l S IH F]; intro H; cbn [app]; [repeat constructor|].
  inversion H as [|? ? H1 H2]; subst. constructor; [now apply IH|].
  apply Forall_app. split; [exact F|]. repeat constructor. exact H1.
Qed.

(** ** Places of the entries a walk adds, for any chunks *)
Definition placed (cx : ctx) (k : nat) : Prop :=
  g_skip (cx_map cx) = true /\ vsorted (ml_list (g_mappings (cx_map cx))) /\
  (0 < fst (cx_pos cx) /\ snd (cx_pos cx) <= N.of_nat k)%N /\
  Forall (fun m => ple (vplace m) (zpos (cx_pos cx)) /\ (0 < fst (m_gen m) /\ snd (m_gen m) <= N.of_nat k)%N)
    (ml_list (g_mappings (cx_map cx))).

Lemma placed_add cx k src name pos : placed cx k ->
  exists g, gen_add_mapping (cx_map cx) (mk_mapping (cx_pos cx) src name pos) = Some g /\
    forall act ls lp ln code, placed (mk_ctx g act ls lp ln code (cx_pos cx)) k.
Proof.
  intros (H1 & H2 & H3 & H4). rewrite gen_add_mapping_eq by (left; exact H1). eexists. split; [reflexivity|].
  intros act ls lp ln code. unfold placed. cbn [cx_map cx_pos g_mappings gen_set_mappings].
  rewrite ml_add_list. split; [destruct src, name; exact H1|]. split; [|split; [exact H3|]].
  - apply ssorted_snoc; [exact H2|]. eapply Forall_impl; [|exact H4]. intros y [P _].
    unfold vplace in *. rewrite view_mk. exact P.
  - apply Forall_app. split; [exact H4|]. constructor; [|constructor]. cbn [m_gen].
    split; [|exact H3]. unfold vplace. rewrite view_mk. unfold ple. cbn. lia.
Qed.

Lemma placed_move cx k gp act ls lp ln code : placed cx k ->
  plt (zpos (cx_pos cx)) (zpos gp) -> (0 < fst gp /\ snd gp <= N.of_nat (S k))%N ->
  placed (mk_ctx (cx_map cx) act ls lp ln code gp) (S k).
Proof.
  intros (H1 & H2 & H3 & H4) Hp Hg. split; [exact H1|]. split; [exact H2|]. split; [exact Hg|].
  cbn [cx_map cx_pos]. eapply Forall_impl; [|exact H4]. intros m [A B].
  split; [unfold ple, plt in *; lia|lia].
Qed.

Lemma placed_other cx k act ls lp ln code : placed cx k ->
  placed (mk_ctx (cx_map cx) act ls lp ln code (cx_pos cx)) k.
Proof. exact (fun H => H). Qed.

Lemma chunk_loop_placed src pos name n : forall s cx b k, placed cx k ->
  exists cx', chunk_loop cx src pos name n b s = Some cx' /\ placed cx' (k + length s).
Proof.
  induction s as [|c s IH]; intros cx b k H.
  - exists cx. rewrite Nat.add_0_r. auto.
  - cbn [chunk_loop length]. rewrite <- (Nat.add_succ_comm k (length s)).
    pose proof H as (_ & _ & H3 & _).
    destruct (N.eqb c NL).
    + set (gp := ((fst (cx_pos cx) + 1)%N, 0%N)).
      assert (G : forall act ls lp ln code, placed (mk_ctx (cx_map cx) act ls lp ln code gp) (S k)).
      { intros. apply placed_move; auto; unfold gp, plt, zpos; cbn [fst snd]; lia. }
      destruct (b + 1 =? n); [cbn [bind]; apply IH, G|].
      destruct (cx_active cx).
      * destruct (placed_add _ _ src name pos (G true (cx_last_src cx) (cx_last_pos cx) (cx_last_name cx) (cx_code cx))) as (g & Eg & Hg).
        cbn [cx_map cx_pos] in Eg. rewrite Eg. cbn [bind]. apply IH, Hg.
      * cbn [bind]. apply IH, G.
    + cbn [bind]. apply IH, placed_move; auto; unfold plt, zpos; cbn [fst snd]; lia.
Qed.

Lemma process_leaf_placed cx x k : placed cx k ->
  exists cx', process_leaf cx x = Some cx' /\ placed cx' (k + length (flat_leaf x)).
Proof.
  destruct x as [[[s src] pos] name]. intro H. cbn [process_leaf flat_leaf]. unfold process_chunk.
  unfold mark. rewrite map_length.
  destruct (is_some src && is_some pos).
  - set (d := negb _ || _ || _).
    assert (G : exists g, (if d then gen_add_mapping (cx_map cx) (mk_mapping (cx_pos cx) src name pos)
                   else Some (cx_map cx)) = Some g /\
              forall act ls lp ln code, placed (mk_ctx g act ls lp ln code (cx_pos cx)) k).
    { destruct d; [now apply placed_add|]. eauto. }
    clearbody d. destruct G as (g & Eg & Hg). rewrite Eg. cbn [bind]. now apply chunk_loop_placed.
  - destruct (cx_active cx).
    + destruct (placed_add cx k None None None H) as (g & Eg & Hg). rewrite Eg. cbn [bind]. now apply chunk_loop_placed.
    + cbn [bind]. now apply chunk_loop_placed.
Qed.

Theorem walk_placed n file root :
  exists cx, walk n (ctx_new file root true) = Some cx /\ placed cx (length (flat n)).
Proof.
  destruct (walk_inv (fun cx done => placed cx (length (flat_leaves done)))) with
    (n := n) (src := @None Z) (pos := @None pos2) (name := @None Z)
    (cx := ctx_new file root true) (done := @nil leaf) as (cx & E & H).
  - intros cx done x H. destruct (process_leaf_placed cx x _ H) as (cx' & E & H').
    exists cx'. split; auto. unfold flat_leaves in *. rewrite flat_map_app, app_length. cbn [flat_map].
    now rewrite app_nil_r.
  - intros cx done s c H. exact H.
  - repeat split; cbn; try lia; constructor.
  - exists cx. auto.
Qed.

(** The generator of any node, given to the reader together with the text. *)
Theorem refeed_node n file root : (N.of_nat (length (flat n)) < 2147483648)%N ->
  exists code g n', to_string_with_generator n file root = Some (code, g) /\
    code = text_of (flat n) /\ sm_from_string code g = Some n' /\ flat n' = flat n.
Proof.
  intro Hl. destruct (generator_exact n file root) as (code & g & E & C & A).
  destruct (walk_placed n file root) as (cx & Ew & (_ & S & _ & F)).
  assert (Eg : g = cx_map cx).
  { unfold to_string_with_generator in E. rewrite Ew in E. now injection E. }
  subst g.
  destruct (from_string_flat code (cx_map cx)) as (ch & Ef & Hf).
  - exact S.
  - eapply Forall_impl; [|exact F]. intros m [_ Hm]. unfold small_col. lia.
  - eapply Forall_impl; [|exact F]. intros m [_ Hm]. lia.
  - exists code, (cx_map cx). eexists. split; [exact E|]. split; [exact C|]. split; [exact Ef|].
    rewrite <- A, <- Hf. apply fleaves_flat.
Qed.

(** ** At most one entry without and one with a source per place, if no mapped chunk is empty *)
Definition before (a b : mapping) : Prop :=
  plt (vplace a) (vplace b) \/ (vplace a = vplace b /\ m_src a = None /\ m_src b <> None).
Definition lax (cx : ctx) : Prop :=
  g_skip (cx_map cx) = true /\ StronglySorted before (ml_list (g_mappings (cx_map cx))) /\
  Forall (fun m => ple (vplace m) (zpos (cx_pos cx))) (ml_list (g_mappings (cx_map cx))).
Definition tight (cx : ctx) : Prop :=
  lax cx /\ Forall (fun m => plt (vplace m) (zpos (cx_pos cx)) \/
    (vplace m = zpos (cx_pos cx) /\ m_src m = None /\ cx_active cx = false)) (ml_list (g_mappings (cx_map cx))).

Lemma lax_move cx gp act ls lp ln code : lax cx -> plt (zpos (cx_pos cx)) (zpos gp) ->
  tight (mk_ctx (cx_map cx) act ls lp ln code gp).
Proof.
  intros (A & B & C) H. split; [split; [exact A|split; [exact B|]]|];
    (eapply Forall_impl; [|exact C]); intros m Hm; cbn [cx_pos cx_active] in *.
  - unfold ple, plt in *. lia.
  - left. unfold ple, plt in *. lia.
Qed.

Lemma tight_add cx src name pos : tight cx -> (is_some src = true \/ cx_active cx = true) ->
  exists g, gen_add_mapping (cx_map cx) (mk_mapping (cx_pos cx) src name pos) = Some g /\
    forall act ls lp ln code,
      lax (mk_ctx g act ls lp ln code (cx_pos cx)) /\
      (src = None -> act = false -> tight (mk_ctx g act ls lp ln code (cx_pos cx))).
Proof.
  intros ((A & B & C) & D) Hs. rewrite gen_add_mapping_eq by (left; exact A). eexists. split; [reflexivity|].
  assert (W : forall act ls lp ln code, lax (mk_ctx (gen_set_mappings (opt_nam (opt_src (cx_map cx) src) name)
     (ml_add (g_mappings (cx_map cx)) (mk_mapping (cx_pos cx) src name pos))) act ls lp ln code (cx_pos cx))).
  { intros act ls lp ln code. unfold lax. cbn [cx_map cx_pos g_mappings gen_set_mappings]. rewrite ml_add_list.
    split; [destruct src, name; exact A|]. split.
    - apply ssorted_snoc; [exact B|]. eapply Forall_impl; [|exact D]. intros y [P|(P & Q & R)].
      + left. unfold vplace in *. rewrite view_mk. exact P.
      + right. unfold vplace in *. rewrite view_mk. cbn [fst m_src]. split; [exact P|]. split; [exact Q|].
        destruct Hs as [Hs|Hs]; [|congruence]. destruct src; [discriminate|discriminate Hs].
    - apply Forall_app. split; [exact C|]. constructor; [|constructor].
      unfold vplace. rewrite view_mk. unfold ple. cbn. lia. }
  intros act ls lp ln code. split; [apply W|]. intros -> ->. split; [apply W|].
  cbn [cx_map cx_pos cx_active m_src m_name opt_src opt_nam g_mappings gen_set_mappings]. rewrite ml_add_list. apply Forall_app. split.
  - eapply Forall_impl; [|exact D]. intros y [P|(P & Q & _)]; auto.
  - constructor; [|constructor]. right. unfold vplace. rewrite view_mk. auto.
Qed.

Lemma chunk_loop_tight src pos name : forall s cx b n,
  lax cx -> (s = [] -> tight cx) -> b + blen s = n ->
  (cx_active cx = true -> is_some src = true) ->
  exists cx', chunk_loop cx src pos name n b s = Some cx' /\ tight cx'.
Proof.
  induction s as [|c s IH]; intros cx b n HW HS Hb HA.
  - exists cx. split; [reflexivity|auto].
  - cbn [chunk_loop]. cbn [blen] in Hb.
    destruct (N.eqb c NL) eqn:Ec.
    + apply N.eqb_eq in Ec. assert (E1 : len_utf8 c = 1) by (rewrite Ec; reflexivity).
      set (gp := ((fst (cx_pos cx) + 1)%N, 0%N)).
      assert (Hgp : plt (zpos (cx_pos cx)) (zpos gp)) by (unfold gp, plt, zpos; cbn [fst snd]; lia).
      destruct (Nat.eqb_spec (b + 1) n) as [En|En].
      * assert (s = []). { destruct s as [|d s]; auto. exfalso.
          assert (0 < blen (d :: s)) by (apply blen_pos; congruence). lia. }
        subst s. cbn [bind chunk_loop]. eexists. split; [reflexivity|]. now apply lax_move.
      * assert (Hs : s <> []) by (intros ->; cbn in Hb; lia).
        destruct (cx_active cx) eqn:Ea.
        -- pose proof (lax_move cx gp true (cx_last_src cx) (cx_last_pos cx) (cx_last_name cx) (cx_code cx) HW Hgp) as G.
           destruct (tight_add _ src name pos G) as (g & Eg & Hg); auto.
           cbn [cx_map cx_pos] in Eg. rewrite Eg. cbn [bind].
           destruct (Hg true (cx_last_src cx) (cx_last_pos cx) (cx_last_name cx) (cx_code cx)) as [C1 _].
           apply IH; auto; [congruence|lia].
        -- cbn [bind].
           pose proof (lax_move cx gp false (cx_last_src cx) (cx_last_pos cx) (cx_last_name cx) (cx_code cx) HW Hgp) as G.
           apply IH; [apply G|intros; exact G|lia|cbn; discriminate].
    + cbn [bind]. set (gp := (fst (cx_pos cx), (snd (cx_pos cx) + 1)%N)).
      assert (Hgp : plt (zpos (cx_pos cx)) (zpos gp)) by (unfold gp, plt, zpos; cbn [fst snd]; lia).
      pose proof (lax_move cx gp (cx_active cx) (cx_last_src cx) (cx_last_pos cx) (cx_last_name cx) (cx_code cx) HW Hgp) as G.
      apply IH; [apply G|intros; exact G|lia|exact HA].
Qed.

Lemma process_leaf_tight cx x : leaf_ok x -> tight cx ->
  exists cx', process_leaf cx x = Some cx' /\ tight cx'.
Proof.
  destruct x as [[[s src] pos] name]. intros Hok HS. cbn [process_leaf]. unfold process_chunk.
  destruct (is_some src && is_some pos) eqn:Es.
  - destruct src as [s0|]; [|discriminate]. destruct pos as [[l0 c0]|]; [|discriminate].
    destruct Hok as [Hne Hl].
    set (d := negb _ || _ || _).
    assert (G : exists g, (if d then gen_add_mapping (cx_map cx)
                   (mk_mapping (cx_pos cx) (Some s0) name (Some (l0, c0))) else Some (cx_map cx)) = Some g /\
              forall act ls lp ln code, lax (mk_ctx g act ls lp ln code (cx_pos cx))).
    { destruct d.
      - destruct (tight_add cx (Some s0) name (Some (l0, c0)) HS) as (g & Eg & Hg); auto.
        exists g. split; auto. intros act ls lp ln code. exact (proj1 (Hg act ls lp ln code)).
      - exists (cx_map cx). split; auto. intros. apply HS. }
    clearbody d. destruct G as (g & Eg & Hg). unfold pos2 in *. rewrite Eg. cbn [bind].
    apply chunk_loop_tight; auto; congruence.
  - destruct (cx_active cx) eqn:Ea.
    + destruct (tight_add cx None None None HS) as (g & Eg & Hg); auto.
      rewrite Eg. cbn [bind].
      destruct (Hg false None (cx_last_pos cx) (cx_last_name cx) (cx_code cx ++ s)) as [C1 C2].
      apply chunk_loop_tight; auto. cbn. discriminate.
    + cbn [bind]. apply chunk_loop_tight; auto; cbn.
      * apply HS.
      * intros _. destruct HS as [HW HF]. split; [exact HW|]. cbn in *. rewrite Ea in HF. exact HF.
      * discriminate.
Qed.

Theorem walk_tight n file root : Forall leaf_ok (leaves n) ->
  exists cx, walk n (ctx_new file root true) = Some cx /\ tight cx.
Proof.
  intro Hok.
  assert (H1 : forall cx (done : list leaf) x, leaf_ok x -> tight cx ->
            exists cx', process_leaf cx x = Some cx' /\ tight cx')
    by (intros cx done x Hx H; now apply process_leaf_tight).
  assert (H2 : forall cx (done : list leaf) s c, tight cx -> tight (process_source_content cx s c))
    by (intros cx done s c H; exact H).
  assert (H3 : tight (ctx_new file root true)).
  { split; [split; [reflexivity|split]|]; cbn; repeat constructor. }
  destruct (walk_inv_ok leaf_ok (fun cx _ => tight cx) H1 H2 n None None None _ [] Hok H3)
    as (cx & E & H). exists cx. auto.
Qed.

(** ** The order after reading the emitted string is the same *)
Definition coarse (a b : mapping) : comparison :=
  cmp_then (pos_cmp (m_gen a) (m_gen b)) (opt_cmp (fun _ _ => Eq) (m_src a) (m_src b)).

Lemma coarse_sym a b : coarse b a = CompOpp (coarse a b).
Proof.
  unfold coarse, pos_cmp, cmp_then.
  rewrite (N.compare_antisym (fst (m_gen a)) (fst (m_gen b))), (N.compare_antisym (snd (m_gen a)) (snd (m_gen b))).
  destruct (N.compare (fst (m_gen a)) (fst (m_gen b))); cbn; auto.
  destruct (N.compare (snd (m_gen a)) (snd (m_gen b))); cbn; auto.
  destruct (m_src a), (m_src b); reflexivity.
Qed.

Lemma before_coarse a b : before a b -> coarse a b = Lt.
Proof.
  unfold before, coarse, vplace, view, plt. cbn [fst snd]. intros [H|(H & A & B)].
  - assert (E : pos_cmp (m_gen a) (m_gen b) = Lt) by (apply pos_cmp_lt_iff; lia). now rewrite E.
  - injection H as H1 H2. assert (E : pos_cmp (m_gen a) (m_gen b) = Eq).
    { unfold pos_cmp, cmp_then. replace (fst (m_gen b)) with (fst (m_gen a)) by lia.
      replace (snd (m_gen b)) with (snd (m_gen a)) by lia. now rewrite !N.compare_refl. }
    rewrite E. cbn. rewrite A. destruct (m_src b); [reflexivity|congruence].
Qed.

Lemma ssorted_any {A} (R : A -> A -> Prop) l : StronglySorted R l ->
  forall x y, In x l -> In y l -> x = y \/ R x y \/ R y x.
Proof.
  induction 1 as [|z l S IH F]; intros x y Hx Hy; [destruct Hx|]. rewrite Forall_forall in F.
  destruct Hx as [<-|Hx], Hy as [<-|Hy]; auto.
Qed.

Lemma before_unique l x y : StronglySorted before l -> In x l -> In y l -> coarse x y = Eq -> x = y.
Proof.
  intros S Hx Hy E. destruct (ssorted_any _ _ S x y Hx Hy) as [H|[H|H]]; auto; apply before_coarse in H.
  - congruence.
  - rewrite coarse_sym, E in H. discriminate.
Qed.

Lemma before_sorted l : StronglySorted before l -> StronglySorted (cle coarse) l.
Proof.
  induction 1 as [|x l S IH F]; constructor; auto. eapply Forall_impl; [|exact F].
  intros y H. unfold cle. rewrite before_coarse by auto. discriminate.
Qed.

Lemma load_one_coarse sources names ra rb a b : cle raw_cmp ra rb ->
  load_one sources names ra = Some a -> load_one sources names rb = Some b -> cle coarse a b.
Proof.
  intros H Ha Hb. pose proof (load_one_place _ _ _ _ Ha) as Pa. pose proof (load_one_place _ _ _ _ Hb) as Pb.
  unfold cle, coarse, raw_cmp, pos_cmp, cmp_then in *. rewrite Pa, Pb. cbn [fst snd].
  assert (E : N.compare (rm_line ra + 1) (rm_line rb + 1) = N.compare (rm_line ra) (rm_line rb)).
  { destruct (N.compare_spec (rm_line ra) (rm_line rb)); [apply N.compare_eq_iff|apply N.compare_lt_iff|apply N.compare_gt_iff]; lia. }
  rewrite E. destruct (N.compare (rm_line ra) (rm_line rb)); auto.
  destruct (N.compare (rm_col ra) (rm_col rb)); auto.
  unfold load_one in Ha, Hb.
  destruct (rm_orig ra) as [[[[? ?] ?] ?]|], (rm_orig rb) as [[[[? ?] ?] ?]|]; cbn [opt_cmp] in H.
  - unbind Ha. unbind Ha. unbind Hb. unbind Hb. injection Ha as <-. injection Hb as <-. cbn. discriminate.
  - congruence.
  - unbind Hb. unbind Hb. injection Ha as <-. injection Hb as <-. cbn. discriminate.
  - injection Ha as <-. injection Hb as <-. cbn. discriminate.
Qed.

Lemma load_all_coarse sources names l ms : StronglySorted (cle raw_cmp) l ->
  all_some (map (load_one sources names) l) = Some ms -> StronglySorted (cle coarse) ms.
Proof.
  intro Hs. revert ms. induction Hs as [|x l Hs IH Hx]; intros ms H; cbn [map all_some] in H.
  - injection H as <-. constructor.
  - unbind H. unbind H. injection H as <-. constructor; [now apply IH|].
    apply all_some_rel in E0. clear IH Hs.
    induction E0 as [|y m l ms Hy Hr IH]; [constructor|]. inv Hx. constructor; [|now apply IH].
    eapply load_one_coarse; [|exact E|exact Hy]. assumption.
Qed.

Theorem from_source_map_coarse sources contents mappings names file root check segs es g :
  (check = true -> NoDup sources /\ NoDup names) ->
  decode mappings = Some segs -> Forall small segs ->
  all_some (map (resolve sources names) segs) = Some es ->
  from_source_map sources contents mappings names file root check = Some g ->
  StronglySorted (cle coarse) (ml_list (g_mappings g)).
Proof.
  intros Hn Hd Hs Hr Hg. unfold from_source_map in Hg.
  assert (E1 : (if check then dedup [] sources else sources) = sources).
  { destruct check; auto. apply dedup_id; [now apply Hn|intros x []]. }
  assert (E2 : (if check then dedup [] names else names) = names).
  { destruct check; auto. apply dedup_id; [now apply Hn|intros x []]. }
  rewrite E1, E2 in Hg. rewrite (parse_mappings_decode _ _ Hd Hs) in Hg. cbn [bind] in Hg.
  destruct (load_sources_spec check sources (gen_new file root true) contents (gen_new_wf1 _ _ _) [] eq_refl)
    as (W & L & K & F & R & N & S). cbn zeta in *.
  set (g0 := load_sources check (gen_new file root true) sources contents) in *.
  assert (Hl : exists ms, all_some (map (load_one sources names) (map raw_of segs)) = Some ms).
  { unfold decode in Hd. apply decode_lines_line in Hd.
    clear -Hr Hs Hd. revert es Hr. induction segs as [|s segs IH]; intros es Hr; cbn [map all_some] in Hr.
    - exists []. auto.
    - unbind Hr. unbind Hr. injection Hr as <-. inv Hs. inv Hd.
      destruct (IH H4 H2 _ E0) as (ms & Em).
      destruct (load_one_resolve sources names s v H1 H3 E) as (m & El & Evm).
      exists (m :: ms). cbn [map all_some]. rewrite El. cbn [bind]. rewrite Em. reflexivity. }
  destruct Hl as (ms & Em).
  destruct (all_some_perm _ _ _ _ (isort_perm raw_cmp (map raw_of segs)) Em) as (ms' & Em' & Pm).
  destruct (load_mappings_spec sources names _ g0 ms' W K Em') as (g' & G1 & G2 & G3 & G4 & G5).
  rewrite G1 in Hg. injection Hg as <-. rewrite G4, L. cbn [app].
  eapply load_all_coarse; [|exact Em'].
  apply isort_sorted; [apply (good_sym _ good_raw)|apply (good_le _ good_raw)].
Qed.

Lemma emitted_small g g1 m segs : gen_wf g -> gen_fits g -> gen_to_source_map g = Some (g1, m) ->
  decode (map_mappings m) = Some segs -> Forall small segs.
Proof.
  intros W (Ff & Fs & Fn) E Hd.
  destruct (to_source_map_spec g W) as (g1' & m' & E' & _ & Es & En & _ & _ & _ & Hread).
  rewrite E in E'. injection E' as <- <-. unfold read_map in Hread. rewrite Hd in Hread. cbn [bind] in Hread.
  set (l := isort mapping_cmp (ml_list (g_mappings g))) in *.
  assert (Pl : Permutation (ml_list (g_mappings g)) l) by apply isort_perm.
  destruct W as (W1 & W2 & W3 & W4).
  assert (Vl : Forall valid l).
  { eapply Permutation_Forall; [exact Pl|]. eapply Forall_impl; [|exact W3]. intros x Hx; apply Hx. }
  assert (Fl : Forall fits l) by (eapply Permutation_Forall; eauto).
  apply all_some_rel in Hread.
  assert (Ls : (Z.of_nat (length (map_sources m)) <= u32_max)%Z) by (rewrite Es, map_length; auto).
  assert (Ln : (Z.of_nat (length (map_names m)) <= u32_max)%Z) by (rewrite En, map_length; auto).
  clearbody l. clear -Hread Vl Fl Ls Ln. remember (map view l) as es eqn:Ees.
  revert l Vl Fl Ees. induction Hread as [|s e segs es H _ IH]; intros l Vl Fl Ees; constructor.
  - destruct l as [|x l]; [discriminate|]. injection Ees as -> ->. inv Vl. inv Fl.
    eapply resolve_small; eauto.
  - destruct l as [|x l]; [discriminate|]. injection Ees as -> ->. inv Vl. inv Fl. apply (IH l); auto.
Qed.

Theorem roundtrip_list g g1 m contents file root : gen_wf g -> gen_fits g ->
  StronglySorted before (ml_list (g_mappings g)) -> gen_to_source_map g = Some (g1, m) ->
  exists g2, from_source_map (map_sources m) contents (map_mappings m) (map_names m) file root true = Some g2 /\
    gen_wf1 g2 /\ ml_list (g_mappings g2) = ml_list (g_mappings g).
Proof.
  intros W F B E1.
  destruct (to_source_map_spec g W) as (g1' & m' & E1' & _ & Es & En & _ & _ & _ & Hread).
  rewrite E1 in E1'. injection E1' as <- <-. unfold read_map in Hread. unbind Hread. rename v into segs.
  assert (Hd : decode (map_mappings m) = Some segs) by assumption.
  pose proof (emitted_small g g1 m segs W F E1 Hd) as Hs.
  assert (N1 : NoDup (map_sources m) /\ NoDup (map_names m)) by (rewrite Es, En; split; apply W).
  destruct (from_source_map_spec (map_sources m) contents (map_mappings m) (map_names m) file root true segs _
    (fun _ => N1) Hd Hs Hread) as (g2 & E2 & W2 & P & V & _).
  exists g2. split; [exact E2|]. split; [exact W2|]. symmetry.
  apply (sorted_perm_unique coarse coarse_sym).
  - intros x y Hx Hy. now apply (before_unique (ml_list (g_mappings g))).
  - now apply before_sorted.
  - eapply from_source_map_coarse; [|exact Hd|exact Hs|exact Hread|exact E2]. auto.
  - apply perm_view; [|exact V|].
    + destruct W as (_ & _ & W3 & _). eapply Forall_impl; [|exact W3]. intros x Hx; apply Hx.
    + rewrite P. apply Permutation_map, isort_perm.
Qed.

(** ** Sources *)
Lemma sms_plain_node c m x g n : cell_get_generator (sms_map x) = Some (sms_map x, g) -> sms_inner x = None ->
  sm_from_string (sms_value x) g = Some n -> t_node c m (TSms x) = Some n.
Proof.
  intros E1 E2 E3. unfold t_node. cbn [fold_tree node_alg a_sms]. unfold sms_node. rewrite E1. cbn [bind].
  rewrite E2. cbn [bind]. rewrite E3. reflexivity.
Qed.

Theorem fed_unread c m t M : attributed c m t M -> (N.of_nat (length M) < 2147483648)%N ->
  exists n r, t_node c m t = Some n /\ node_result n = Some r /\ jr_s r = text_of M /\
    forall vi name, exists x, sms_new_wasmmap (jr_s r) vi name r = Some x /\
      forall c' m', attributed c' m' (TSms x) M.
Proof.
  intros A L. apply attributed_flat in A as (n & E & <-).
  destruct (refeed_node n None None L) as (code & g & n' & E1 & E2 & E3 & E4).
  exists n, (jr_from_with_generator code g). split; [exact E|].
  split; [unfold node_result; rewrite E1; reflexivity|]. split; [exact E2|].
  intros vi name. eexists. split; [reflexivity|]. intros c' m'. apply attributed_flat. exists n'.
  split; [|exact E4]. eapply sms_plain_node; [reflexivity|reflexivity|exact E3].
Qed.

Lemma before_vsorted l : StronglySorted before l -> vsorted l.
Proof.
  induction 1 as [|x l S IH F]; constructor; auto. eapply Forall_impl; [|exact F].
  intros y [H|[H _]]; [unfold plt, ple in *; lia|]. rewrite H. unfold ple. lia.
Qed.

(** The walk over fine chunks in one place. *)
Lemma walk_fine n : Forall leaf_ok (leaves n) -> (N.of_nat (length (flat n)) < 2147483648)%N ->
  exists code g, to_string_with_generator n None None = Some (code, g) /\ code = text_of (flat n) /\
    annotate (map view (ml_list (g_mappings g))) code = flat n /\
    gen_wf1 g /\ msorted (ml_list (g_mappings g)) /\ StronglySorted before (ml_list (g_mappings g)) /\
    Forall small_col (ml_list (g_mappings g)).
Proof.
  intros Hok L. destruct (generator_exact n None None) as (code & g & E & C & A).
  destruct (walk_sorted n None None Hok) as (cx & Ew & ((W & S & _) & _)).
  destruct (walk_tight n None None Hok) as (cx' & Ew' & ((_ & B & _) & _)).
  destruct (walk_placed n None None) as (cx'' & Ew'' & (_ & _ & _ & F)).
  rewrite Ew in Ew', Ew''. injection Ew' as <-. injection Ew'' as <-.
  assert (Eg : g = cx_map cx).
  { unfold to_string_with_generator in E. rewrite Ew in E. now injection E. }
  subst g. exists code, (cx_map cx). repeat (split; [assumption|]).
  eapply Forall_impl; [|exact F]. intros x [_ Hx]. unfold small_col. lia.
Qed.

Lemma fed_ordered c m x g g0 M : cell_get_generator (sms_map x) = Some (mk_cell (ce_data (sms_map x)) (Some g), g) -> sms_inner x = None ->
  gen_wf g -> ml_list (g_mappings g) = ml_list (g_mappings g0) ->
  StronglySorted before (ml_list (g_mappings g0)) -> Forall small_col (ml_list (g_mappings g0)) ->
  annotate (map view (ml_list (g_mappings g0))) (sms_value x) = M -> emits c m (TSms x) M.
Proof.
  intros Ec Ei W El B F A.
  assert (O : ordered g).
  { split; [|split; [|exact W]]; rewrite El; [now apply before_vsorted|exact F]. }
  destruct (ordered_node (sms_value x) g O) as (n & En & _ & S & Fl).
  assert (Et : t_node c m (TSms x) = Some n).
  { unfold t_node. cbn [fold_tree node_alg a_sms]. unfold sms_node. rewrite Ec. cbn [bind].
    rewrite Ei. cbn [bind]. rewrite En. reflexivity. }
  apply attributed_emits.
  - intros n' E'. rewrite Et in E'. injection E' as <-. eapply Forall_impl; [apply solid_ok|exact S].
  - apply attributed_flat. exists n. split; [exact Et|]. rewrite Fl, El. exact A.
Qed.

(** With non-empty mapped chunks it does not matter whether the map was read before, nor
    whether it goes through its fields. *)
Theorem fed_read c m t M : attributed c m t M -> chunks leaf_ok c m t -> (N.of_nat (length M) < 2147483648)%N ->
  exists n r, t_node c m t = Some n /\ node_result n = Some r /\ jr_s r = text_of M /\
    (forall k, exists r', jr_reads k r = Some r' /\ forall vi name, exists x,
       sms_new_wasmmap (jr_s r) vi name r' = Some x /\ forall c' m', emits c' m' (TSms x) M) /\
    (exists r' mp, jr_get_map r = Some (r', mp) /\
       forall g, jr_gen r = Some g -> gen_fits g -> forall vi name contents c' m',
       emits c' m' (TSms (sms_new (jr_s r) vi name
         (mk_smc (map_sources mp) contents (map_names mp) (map_mappings mp)) None)) M).
Proof.
  intros A Hok L. apply attributed_flat in A as (n & E & <-). specialize (Hok n E).
  destruct (walk_fine n Hok L) as (code & g & E1 & E2 & E3 & W & S & B & F).
  destruct (to_source_map_spec g (proj1 W)) as (g1 & mp & Em & Eg1 & _).
  assert (Il : ml_list (g_mappings g1) = ml_list (g_mappings g)).
  { rewrite Eg1. cbn [g_mappings gen_set_mappings]. rewrite ml_sort_isort by apply W.
    apply isort_id. exact S. }
  exists n, (jr_from_with_generator code g). split; [exact E|].
  split; [unfold node_result; rewrite E1; reflexivity|]. split; [exact E2|]. split.
  - intro k. destruct k as [|k].
    + exists (jr_from_with_generator code g). split; [reflexivity|]. intros vi name. eexists. split; [reflexivity|].
      intros c' m'. eapply (fed_ordered c' m' (sms_new_with_generator code vi name g) g g); eauto. apply W.
    + exists (mk_jr code (Some mp) (Some g1)). split.
      * cbn [jr_reads]. unfold jr_get_map at 1. cbn [jr_from_with_generator jr_map jr_gen bind jr_s]. rewrite Em. cbn [bind].
        clear. induction k as [|k IH]; [reflexivity|]. exact IH.
      * intros vi name. eexists. split; [reflexivity|]. intros c' m'.
        eapply (fed_ordered c' m' (sms_new code vi name (content_of mp) (Some g1)) g1 g); eauto.
        rewrite Eg1. apply gen_wf_sort, W.
  - exists (mk_jr code (Some mp) (Some g1)), mp. split.
    + unfold jr_get_map. cbn [jr_from_with_generator jr_map jr_gen bind jr_s]. rewrite Em. reflexivity.
    + intros g' Hg' Fg vi name contents c' m'. injection Hg' as <-.
      destruct (roundtrip_list g g1 mp contents None None (proj1 W) Fg B Em) as (g2 & G1 & G2 & G3).
      eapply (fed_ordered c' m' (sms_new code vi name _ None) g2 g); auto; [|apply G2].
      unfold cell_get_generator. cbn [sms_new sms_map ce_gen ce_data bind sc_sources sc_contents sc_names sc_mappings].
      rewrite G1. reflexivity.
Qed.
