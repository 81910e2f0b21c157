(** from_string_with_source_map_generator (SourceMapSource): the chunks of a text with a
    generator. *)
From Verif Require Import Base Tactics ModelString StringFacts ModelVlq ModelSm ModelSlm ModelSources
  SortFacts SpecText TextFacts SpecMap SpecAttr MapFacts GenFacts NodeFacts LeafFacts.
From Verif Require Export SpecSorted.

(** ** Lines *)
Definition ltext (x : fline) : str := fst (fst x).
Definition line_ok (x : fline) : Prop := snd (fst x) = true /\ flag_ok (ltext x) (snd x).
(** Every line but the last one ends with its only newline. *)
Fixpoint shaped (l : list str) : Prop :=
  match l with
  | [] => True
  | x :: r => (exists a, ~ In NL a /\ (x = a ++ [NL] \/ (x = a /\ r = []))) /\ shaped r
  end.

Lemma substr_mid a b c : ss_substr (a ++ b ++ c) (blen a) (blen a + blen b) = Some b.
Proof.
  unfold ss_substr. rewrite !blen_app. rewrite !Nat.min_l by lia.
  rewrite (proj2 (Nat.leb_le _ _)) by lia. cbn [bind]. rewrite split_at_bytes_app. cbn [bind].
  replace (blen a + blen b - blen a) with (blen b) by lia. now rewrite split_at_bytes_app.
Qed.

Lemma flag_snoc s c f : flag_ok s f -> flag_ok (s ++ [c]) (if 1 <? len_utf8 c then false else f).
Proof.
  intros H E. destruct (Nat.ltb_spec 1 (len_utf8 c)) as [|Hc]; [discriminate|].
  rewrite forallb_app, (H E). cbn. rewrite andb_true_r.
  unfold len_utf8 in Hc. unfold is_ascii. destruct (c <? 128)%N; [reflexivity|].
  destruct (c <? 2048)%N; [lia|]. destruct (c <? 65536)%N; lia.
Qed.

Lemma lines_loop_spec : forall rest dn cur sbc, ~ In NL cur -> flag_ok cur sbc ->
  exists ls, lines_loop (dn ++ cur ++ rest) rest (blen dn + blen cur) (blen dn) sbc = Some ls /\
    concat (map ltext ls) = cur ++ rest /\ Forall line_ok ls /\ shaped (map ltext ls).
Proof.
  induction rest as [|c rest IH]; intros dn cur sbc Hc Hf; cbn [lines_loop].
  - rewrite app_nil_r. destruct (Nat.eqb_spec (blen dn) (blen (dn ++ cur))) as [E|E].
    + rewrite blen_app in E. destruct cur as [|x cur].
      * exists []. cbn. auto.
      * assert (0 < blen (x :: cur)) by (apply blen_pos; discriminate). lia.
    + pose proof (substr_mid dn cur []) as Hs. rewrite app_nil_r in Hs. rewrite blen_app.
      rewrite Hs. cbn [bind]. exists [(cur, true, sbc)]. split; [reflexivity|].
      split; [cbn; now rewrite app_nil_r|]. split; [repeat constructor; auto|].
      cbn. split; auto. exists cur. auto.
  - set (sbc' := if 1 <? len_utf8 c then false else sbc).
    destruct (N.eqb_spec c NL) as [->|Hne].
    + assert (Hs : ss_substr (dn ++ cur ++ NL :: rest) (blen dn) (blen dn + blen cur + 1) = Some (cur ++ [NL])).
      { rewrite <- (substr_mid dn (cur ++ [NL]) rest). rewrite <- app_assoc. f_equal.
        rewrite blen_app. change (blen [NL]) with 1. lia. }
      rewrite Hs. cbn [bind].
      destruct (IH (dn ++ cur ++ [NL]) [] true) as (ls & E & Hcat & Hok & Hsh); [intros []|intros _; reflexivity|].
      rewrite !blen_app in E. change (blen [NL]) with 1 in E. change (blen []) with 0 in E.
      change (len_utf8 NL) with 1.
      replace (dn ++ cur ++ NL :: rest) with ((dn ++ cur ++ [NL]) ++ [] ++ rest)
        by (rewrite <- !app_assoc; reflexivity).
      replace (blen dn + (blen cur + 1) + 0) with (blen dn + blen cur + 1) in E by lia.
      replace (blen dn + (blen cur + 1)) with (blen dn + blen cur + 1) in E by lia.
      rewrite E. cbn [bind]. eexists. split; [reflexivity|]. cbn [map concat ltext fst].
      rewrite Hcat, <- app_assoc. split; [reflexivity|]. split.
      * constructor; auto. split; [reflexivity|]. cbn [ltext fst snd]. subst sbc'.
        now apply flag_snoc.
      * cbn [shaped]. split; auto. exists cur. auto.
    + destruct (IH dn (cur ++ [c]) sbc') as (ls & E & Hcat & Hok & Hsh).
      * rewrite in_app_iff. cbn. intuition.
      * now apply flag_snoc.
      * rewrite <- app_assoc in E. cbn [app] in E. rewrite blen_app in E.
        assert (Hb : blen [c] = len_utf8 c) by (cbn [blen]; lia). rewrite Hb in E.
        rewrite Nat.add_assoc in E. rewrite E. exists ls. rewrite Hcat, <- app_assoc. auto.
Qed.

Lemma lines_of code : exists ls, lines_loop code code 0 0 true = Some ls /\
  concat (map ltext ls) = code /\ Forall line_ok ls /\ shaped (map ltext ls).
Proof. apply (lines_loop_spec code [] [] true); [intros []|intros _; reflexivity]. Qed.

Lemma split_or_all_spec s pos f : (pos < 2147483648)%Z -> flag_ok s f ->
  exists rf, split_or_all s pos f = Some (firstn (Z.to_nat pos) s, skipn (Z.to_nat pos) s, rf) /\
    flag_ok (skipn (Z.to_nat pos) s) rf.
Proof.
  intros Hp Hf. destruct (split_str_or_all_spec s pos f Hp Hf) as (lf & rf & E & _ & F).
  assert (Hq : split_string_slice s pos f = split_str s pos f).
  { destruct f; [apply split_string_slice_fast; auto|].
    now rewrite split_string_slice_chars, split_str_chars by auto. }
  unfold split_str_or_all in E. unfold split_or_all. rewrite Hq.
  destruct (split_str s pos f) as [[l r x y|p t z]|]; cbn [bind] in *; try discriminate.
  - injection E as E1 E2 E3 E4. subst. eauto.
  - injection E as E1 E2 E3 E4. exists true. rewrite <- E1, <- E2. split; [reflexivity|]. intros _. reflexivity.
Qed.

(** ** The state of the loop *)
Definition st_ok (st : fs_st) : Prop :=
  flag_ok (ltext (fs_line st)) (snd (fs_line st)) /\ Forall line_ok (fs_iter st) /\
  (snd (fst (fs_line st)) = false -> ltext (fs_line st) = [] /\ fs_iter st = []).
Definition st_left (st : fs_st) : str := ltext (fs_line st) ++ flat_map ltext (fs_iter st).

Lemma next_of_ok it nl it' : Forall line_ok it -> next_of it = (nl, it') ->
  (flag_ok (ltext nl) (snd nl) /\ Forall line_ok it' /\
  (snd (fst nl) = false -> ltext nl = [] /\ it' = [])) /\
  ltext nl ++ flat_map ltext it' = flat_map ltext it.
Proof.
  intros H E. destruct it as [|x it]; injection E as <- <-.
  - split; [|reflexivity]. split; [intros _; reflexivity|]. split; [constructor|]. auto.
  - inv H. split; [|reflexivity]. split; [apply H2|]. split; auto. destruct H2. congruence.
Qed.

Lemma add_mapping_leaves acc m t :
  all_leaves (add_mapping_with_code acc m t) =
  all_leaves acc ++
  match t with
  | [] => []
  | _ => [match m with
          | Some m => match m_src m with
                      | Some _ => (t, m_src m, m_orig m, m_name m)
                      | None => (t, None, None, None)
                      end
          | None => (t, None, None, None)
          end]
  end.
Proof.
  unfold add_mapping_with_code. destruct m as [m|]; [destruct (m_src m) as [s|]|];
    [rewrite add_node_leaves|rewrite add_str_leaves..]; destruct t; reflexivity.
Qed.

(** What may be said about the chunks of all mapping lists. *)
Section Text.
  Variable P : leaf -> Prop.
  Hypothesis P_none : forall t, t <> [] -> P (t, None, None, None).
  Definition P_map (m : mapping) : Prop :=
    forall t, t <> [] -> m_src m <> None -> P (t, m_src m, m_orig m, m_name m).

  Definition inv (st : fs_st) : Prop :=
    st_ok st /\ Forall P (all_leaves (fs_children st)) /\
  match fs_last st with Some m => P_map m | None => True end.

  Definition same (st st' : fs_st) : Prop :=
    texts (all_leaves (fs_children st')) ++ st_left st' =
    texts (all_leaves (fs_children st)) ++ st_left st.

  Lemma add_str_inv acc t : Forall P (all_leaves acc) ->
    Forall P (all_leaves (add_chunk acc (CNode (SmStr t)))) /\
  texts (all_leaves (add_chunk acc (CNode (SmStr t)))) = texts (all_leaves acc) ++ t.
  Proof.
    intro H. rewrite add_str_leaves. destruct t as [|c t].
    - rewrite !app_nil_r. auto.
    - split; [apply Forall_app; split; auto; repeat constructor; apply P_none; discriminate|].
      unfold texts. rewrite flat_map_app. cbn. now rewrite app_nil_r.
  Qed.
  Lemma add_map_inv acc m t : Forall P (all_leaves acc) -> match m with Some m => P_map m | None => True end ->
    Forall P (all_leaves (add_mapping_with_code acc m t)) /\
  texts (all_leaves (add_mapping_with_code acc m t)) = texts (all_leaves acc) ++ t.
  Proof.
    intros H Hm. rewrite add_mapping_leaves. destruct t as [|c t].
    - rewrite !app_nil_r. auto.
    - split.
      + apply Forall_app; split; auto. constructor; [|constructor].
        destruct m as [m|]; [destruct (m_src m) eqn:E|]; try (apply P_none; discriminate).
        rewrite <- E. apply Hm; congruence.
      + unfold texts. rewrite flat_map_app. cbn [flat_map]. rewrite app_nil_r. f_equal.
        destruct m as [m|]; [destruct (m_src m)|]; reflexivity.
  Qed.

  Lemma skip_inv k : forall st, inv st -> inv (skip_lines k st) /\ same st (skip_lines k st).
  Proof.
    induction k as [|k IH]; intros st (H1 & H2 & H3); cbn [skip_lines]; [split; [split; auto|reflexivity]|].
    destruct (next_of (fs_iter st)) as [nl it] eqn:E.
    destruct H1 as (F1 & F2 & F3). destruct (next_of_ok _ _ _ F2 E) as [G1 G2].
    destruct (add_str_inv _ (fst (fst (fs_line st))) H2) as [A1 A2].
    edestruct IH as [I1 I2]; [|split; [exact I1|]].
    - split; [exact G1|]. split; [exact A1|exact H3].
    - unfold same in *. rewrite I2. cbn [fs_children]. rewrite A2. unfold st_left. cbn [fs_line fs_iter].
      rewrite G2. now rewrite <- app_assoc.
  Qed.

  Lemma tail_inv st m : inv st -> P_map m ->
    exists st', fs_tail st m = Some st' /\ inv st' /\ same st st'.
  Proof.
    intros H Hm. unfold fs_tail. destruct (m_gen m) as [gl gc].
    destruct (skip_inv (N.to_nat (gl - fst (fs_pos st))) st H) as [I1 I2].
    set (st1 := skip_lines _ st) in *. clearbody st1.
    destruct (snd (fs_pos st1) <? gc)%N.
    - destruct (fs_line st1) as [[txt ex] sbc] eqn:El. destruct I1 as ((F1 & F2 & F3) & H2 & H3).
      rewrite El in F1, F3. cbn [ltext fst snd] in *.
      destruct (split_or_all_spec txt (to_i32 (Z.of_N gc)) sbc) as (rf & E & F).
      { apply to_i32_range. } { exact F1. }
      rewrite E. cbn [bind]. eexists. split; [reflexivity|].
      destruct (add_str_inv _ (firstn (Z.to_nat (to_i32 (Z.of_N gc))) txt) H2) as [A1 A2]. split.
      + split; [|split; [exact A1|exact Hm]]. split; [exact F|]. split; [exact F2|].
        cbn. intro Ef. destruct (F3 Ef) as [-> ->]. split; [apply skipn_nil|reflexivity].
      + unfold same. rewrite <- I2. unfold st_left. cbn [fs_children fs_line fs_iter].
        rewrite A2, El. unfold ltext at 1 3. cbn [fst].
        rewrite <- app_assoc, (app_assoc (firstn _ _)), firstn_skipn. reflexivity.
    - cbn [bind]. eexists. split; [reflexivity|]. destruct I1 as (J1 & J2 & J3).
      split; [split; [exact J1|split; [exact J2|exact Hm]]|exact I2].
  Qed.

  Lemma step_inv st m : inv st -> P_map m ->
    exists st', fs_step st m = Some st' /\ inv st' /\ same st st'.
  Proof.
    intros H Hm. unfold fs_step. destruct (m_gen m) as [gl gc].
    destruct (fs_last st) as [lm|] eqn:El; [|now apply tail_inv].
    destruct (fs_line st) as [[txt ex] sbc] eqn:Eline. destruct H as ((F1 & F2 & F3) & H2 & H3).
    rewrite Eline in F1, F3. cbn [ltext fst snd] in *. rewrite El in H3.
    destruct (fst (fs_pos st) <? gl)%N.
    - destruct (next_of (fs_iter st)) as [nl it] eqn:En.
      destruct (next_of_ok _ _ _ F2 En) as [G1 G2].
      destruct (add_map_inv _ (Some lm) txt H2 H3) as [A1 A2].
      edestruct (tail_inv (mk_fs (add_mapping_with_code (fs_children st) (Some lm) txt)
                     ((fst (fs_pos st) + 1)%N, 0%N) (Some lm) nl it) m) as (st' & E & I & S); auto.
      { split; [exact G1|]. split; [exact A1|exact H3]. }
      exists st'. split; [exact E|]. split; [exact I|]. unfold same in *. rewrite S.
      unfold st_left. cbn [fs_children fs_line fs_iter]. rewrite A2, G2, Eline. cbn [ltext fst].
      now rewrite <- app_assoc.
    - set (z := to_i32 _).
      destruct (split_or_all_spec txt z sbc) as (rf & E & F).
      { apply to_i32_range. } { exact F1. }
      rewrite E. cbn [bind]. eexists. split; [reflexivity|].
      destruct (add_map_inv _ (Some lm) (firstn (Z.to_nat z) txt) H2 H3) as [A1 A2]. split.
      + split; [|split; [exact A1|exact Hm]]. split; [exact F|]. split; [exact F2|].
        cbn. intro Ef. destruct (F3 Ef) as [-> ->]. split; [apply skipn_nil|reflexivity].
      + unfold same, st_left. cbn [fs_children fs_line fs_iter].
        rewrite A2, Eline. unfold ltext at 1 3. cbn [fst].
        rewrite <- app_assoc, (app_assoc (firstn _ _)), firstn_skipn. reflexivity.
  Qed.

  Lemma loop_inv ms : forall st, inv st -> Forall P_map ms ->
    exists st', fs_loop st ms = Some st' /\ inv st' /\ same st st'.
  Proof.
    induction ms as [|m ms IH]; intros st H HF; cbn [fs_loop].
    - exists st. split; [reflexivity|]. split; [exact H|reflexivity].
    - inv HF. destruct (step_inv st m H H2) as (st1 & -> & I1 & S1). cbn [bind].
      destruct (IH st1 I1 H3) as (st2 & E & I2 & S2). exists st2. split; [exact E|]. split; [exact I2|].
      unfold same in *. congruence.
  Qed.

  Lemma remaining_text nl it : Forall line_ok it ->
    (snd (fst nl) = false -> ltext nl = [] /\ it = []) ->
    fs_remaining nl it = ltext nl ++ flat_map ltext it.
  Proof.
    intros H H'. unfold fs_remaining. destruct (snd (fst nl)); [reflexivity|].
    destruct (H' eq_refl) as [-> ->]. reflexivity.
  Qed.

  Theorem from_string_text code g : Forall P_map (ml_list (g_mappings g)) ->
    exists ch, sm_from_string code g = Some (SmNode None None None ch (g_contents g)) /\
  Forall P (all_leaves ch) /\ texts (all_leaves ch) = code.
  Proof.
    intro HF. unfold sm_from_string.
    destruct (lines_of code) as (ls & E & Hcat & Hok & _). rewrite E. cbn [bind].
    destruct (next_of ls) as [nl it] eqn:En.
    destruct (next_of_ok _ _ _ Hok En) as [G1 G2].
    destruct (loop_inv (ml_list (g_mappings g)) (mk_fs [] (1%N, 0%N) None nl it)) as (st & E1 & I & S); auto.
    { split; [exact G1|]. split; [constructor|exact Logic.I]. }
    rewrite E1. cbn [bind]. eexists. split; [reflexivity|].
    unfold same, st_left in S. cbn [fs_children fs_line fs_iter] in S. rewrite G2 in S. cbn [all_leaves flat_map texts app] in S.
    rewrite <- flat_map_concat_map in Hcat. rewrite Hcat in S.
    destruct I as ((F1 & F2 & F3) & H2 & H3).
    destruct (snd (fst (fs_line st))) eqn:Ex.
    - destruct (fs_last st) as [lm|] eqn:El.
      + destruct (next_of (fs_iter st)) as [nl' it'] eqn:En'.
        destruct (next_of_ok _ _ _ F2 En') as [(J1 & J2 & J3) J4].
        destruct (add_map_inv _ (Some lm) (fst (fst (fs_line st))) H2 H3) as [A1 A2].
        destruct (add_str_inv _ (fs_remaining nl' it') A1) as [B1 B2]. split; [exact B1|].
        rewrite B2, A2, remaining_text by auto. rewrite J4, <- app_assoc. exact S.
      + destruct (add_str_inv _ (fs_remaining (fs_line st) (fs_iter st)) H2) as [B1 B2].
        split; [exact B1|]. rewrite B2, remaining_text; auto. congruence.
    - split; [exact H2|]. destruct (F3 eq_refl) as [Ha Hb]. rewrite Ha, Hb in S. cbn in S.
      rewrite <- S. unfold texts. now rewrite app_nil_r.
  Qed.
End Text.

Lemma from_string_nonempty code g :
  exists ch, sm_from_string code g = Some (SmNode None None None ch (g_contents g)) /\
  Forall (fun x => leaf_text x <> []) (all_leaves ch) /\ texts (all_leaves ch) = code.
Proof.
  apply from_string_text; [intros t H; exact H|].
  apply Forall_forall. intros m _ t H _. exact H.
Qed.
Lemma valid_solid m : valid m -> forall t, t <> [] -> m_src m <> None -> solid (t, m_src m, m_orig m, m_name m).
Proof.
  intros V t Ht Hs. split; [exact Ht|]. apply valid_cases in V as [_ V].
  destruct m as [[gl gc] src name orig]. cbn in *. destruct src; [|congruence].
  destruct V as [(? & _)|(s & ol & oc & _ & -> & H)]; [discriminate|exact H].
Qed.
Lemma from_string_solid code g : Forall valid (ml_list (g_mappings g)) ->
  exists ch, sm_from_string code g = Some (SmNode None None None ch (g_contents g)) /\
  Forall solid (all_leaves ch) /\ texts (all_leaves ch) = code.
Proof.
  intro V. apply from_string_text; [intros t H; split; [exact H|exact I]|].
  eapply Forall_impl; [|exact V]. intros m Hm. exact (valid_solid m Hm).
Qed.

(** ** Attribution for mappings in the order of generated places *)

(** A line from column [j] on. *)
Fixpoint arow (l : list (place * option target)) (k j : Z) (s : str) : marked :=
  match s with
  | [] => []
  | c :: r => (c, lookup l k j) :: arow l k (j + 1) r
  end.
Fixpoint rows (l : list (place * option target)) (k : Z) (ls : list str) : marked :=
  match ls with
  | [] => []
  | x :: r => arow l k 0 x ++ rows l (k + 1) r
  end.

Lemma annotate_row l a : forall k j b, ~ In NL a ->
  annotate_from l (k, j) (a ++ b) = arow l k j a ++ annotate_from l (k, j + Z.of_nat (length a))%Z b.
Proof.
  induction a as [|c a IH]; intros k j b H.
  - cbn [app arow length]. now rewrite Z.add_0_r.
  - cbn [app annotate_from arow fst snd]. f_equal. unfold advance.
    destruct (N.eqb_spec c NL); [subst; exfalso; apply H; now left|]. cbn [fst snd].
    rewrite IH by (intro; apply H; now right). do 3 f_equal. cbn [length]. lia.
Qed.
Lemma arow_app l k a : forall j b, arow l k j (a ++ b) = arow l k j a ++ arow l k (j + Z.of_nat (length a)) b.
Proof.
  induction a as [|c a IH]; intros j b; cbn [app arow length].
  - now rewrite Z.add_0_r.
  - rewrite IH. do 3 f_equal. lia.
Qed.
Lemma annotate_rows l : forall ls k, shaped ls -> annotate_from l (k, 0)%Z (concat ls) = rows l k ls.
Proof.
  induction ls as [|x ls IH]; intros k H; [reflexivity|]. cbn [concat rows].
  destruct H as [(a & Ha & [->|[-> ->]]) Hs].
  - rewrite <- app_assoc, annotate_row by auto. cbn [app annotate_from fst snd].
    unfold advance. rewrite N.eqb_refl. cbn [fst]. rewrite IH by auto.
    rewrite arow_app, <- app_assoc. reflexivity.
  - cbn [concat rows]. rewrite annotate_row by auto. reflexivity.
Qed.
Lemma arow_const l k t s : forall j, (forall j', (j <= j' < j + Z.of_nat (length s))%Z -> lookup l k j' = t) ->
  arow l k j s = mark t s.
Proof.
  induction s as [|c s IH]; intros j H; [reflexivity|]. cbn [arow mark map]. f_equal.
  - f_equal. apply H. cbn [length]. lia.
  - apply IH. intros j' Hj. apply H. cbn [length]. lia.
Qed.
Lemma rows_none l ls : forall k, (forall k' j, (k <= k')%Z -> lookup l k' j = None) ->
  rows l k ls = mark None (concat ls).
Proof.
  induction ls as [|x ls IH]; intros k H; [reflexivity|]. cbn [rows concat].
  rewrite (arow_const l k None) by (intros; apply H; lia). rewrite IH by (intros; apply H; lia).
  now rewrite mark_app.
Qed.

Lemma lookup_app_before done rest p :
  Forall (fun e : place * option target => plt p (fst e)) rest ->
  lookup (done ++ rest) (fst p) (snd p) = lookup done (fst p) (snd p).
Proof.
  intro H. unfold lookup. rewrite find_entry_app. rewrite fold_better_skip; [reflexivity|].
  eapply Forall_impl; [|exact H]. intros e He. unfold plt in He. lia.
Qed.
Lemma lookup_line_none l line col :
  Forall (fun e : place * option target => fst (fst e) <> line) l -> lookup l line col = None.
Proof.
  intro H. unfold lookup, find_entry. rewrite fold_better_skip; [reflexivity|].
  eapply Forall_impl; [|exact H]. intros e He. cbn in He. tauto.
Qed.
Definition fleaves (ch : list smnode) : marked := flat_leaves (all_leaves ch).

Lemma add_str_flat acc t : fleaves (add_chunk acc (CNode (SmStr t))) = fleaves acc ++ mark None t.
Proof.
  unfold fleaves. rewrite add_str_leaves. destruct t; [now rewrite !app_nil_r|].
  rewrite flat_leaves_app. f_equal. cbn [flat_leaves flat_map flat_leaf attr_of]. apply app_nil_r.
Qed.
Lemma add_map_flat acc m t :
  fleaves (add_mapping_with_code acc (Some m) t) = fleaves acc ++ mark (snd (view m)) t.
Proof.
  unfold fleaves. rewrite add_mapping_leaves. destruct t; [now rewrite !app_nil_r|].
  rewrite flat_leaves_app. f_equal. cbn [flat_leaves flat_map]. rewrite app_nil_r.
  destruct m as [gp src name orig]. rewrite view_mk. cbn [snd m_src m_orig m_name].
  destruct src; reflexivity.
Qed.

Lemma skip_flat L n : forall st k, st_ok st -> fs_pos st = (k, 0%N) ->
  (forall k' j, (Z.of_N k <= k' < Z.of_N k + Z.of_nat n)%Z -> lookup L k' j = None) ->
  let st' := skip_lines n st in
  st_ok st' /\ fs_pos st' = ((k + N.of_nat n)%N, 0%N) /\ fs_last st' = fs_last st /\
  fleaves (fs_children st') ++ arow L (Z.of_N (k + N.of_nat n)) 0 (ltext (fs_line st')) ++
    rows L (Z.of_N (k + N.of_nat n) + 1) (map ltext (fs_iter st')) =
  fleaves (fs_children st) ++ arow L (Z.of_N k) 0 (ltext (fs_line st)) ++
    rows L (Z.of_N k + 1) (map ltext (fs_iter st)).
Proof.
  induction n as [|n IH]; intros st k H Hp HL; cbn zeta; cbn [skip_lines].
  - split; auto. rewrite Hp. rewrite N.add_0_r. auto.
  - destruct (next_of (fs_iter st)) as [nl it] eqn:E.
    destruct H as (F1 & F2 & F3). destruct (next_of_ok _ _ _ F2 E) as [G1 G2].
    rewrite Hp. cbn [fst snd].
    edestruct (IH (mk_fs (add_chunk (fs_children st) (CNode (SmStr (fst (fst (fs_line st)))))) ((k + 1)%N, 0%N) (fs_last st) nl it) (k + 1)%N)
      as (I1 & I2 & I3 & I4); [exact G1|reflexivity|intros; apply HL; lia|].
    cbn zeta in *. split; [exact I1|]. split; [rewrite I2; f_equal; lia|]. split; [exact I3|].
    replace (k + N.of_nat (S n))%N with (k + 1 + N.of_nat n)%N by lia. rewrite I4.
    cbn [fs_children fs_line fs_iter]. rewrite add_str_flat, <- app_assoc. f_equal. f_equal.
    + symmetry. apply arow_const. intros; apply HL; lia.
    + replace (Z.of_N (k + 1)) with (Z.of_N k + 1)%Z by lia.
      destruct (fs_iter st) as [|x r]; injection E as <- <-; reflexivity.
Qed.

(** The loop body for a mapping that does not come before the current place. *)
Definition left_rows (L : list (place * option target)) (st : fs_st) : marked :=
  arow L (Z.of_N (fst (fs_pos st))) (Z.of_N (snd (fs_pos st))) (ltext (fs_line st)) ++
  rows L (Z.of_N (fst (fs_pos st)) + 1) (map ltext (fs_iter st)).

Lemma arow_firstn L k j n s :
  (forall j', (j <= j' < j + Z.of_nat n)%Z -> lookup L k j' = lookup L k j) ->
  arow L k j s = mark (lookup L k j) (firstn n s) ++ arow L k (j + Z.of_nat n) (skipn n s).
Proof.
  intro H. rewrite <- (firstn_skipn n s) at 1. rewrite arow_app.
  rewrite (arow_const L k (lookup L k j)).
  - f_equal. destruct (le_lt_dec n (length s)) as [Hn|Hn].
    + now rewrite firstn_length_le by auto.
    + rewrite !skipn_all2 by lia. reflexivity.
  - intros j' Hj. apply H. rewrite firstn_length in Hj. lia.
Qed.

Lemma tail_flat L st m k : st_ok st -> fs_pos st = (k, 0%N) -> small_col m ->
  (k <= fst (m_gen m))%N ->
  (forall k' j, (Z.of_N k <= k')%Z -> plt (k', j) (vplace m) -> lookup L k' j = None) ->
  exists st', fs_tail st m = Some st' /\ st_ok st' /\ fs_pos st' = m_gen m /\ fs_last st' = Some m /\
    fleaves (fs_children st') ++ left_rows L st' = fleaves (fs_children st) ++ left_rows L st.
Proof.
  intros H Hp Hc Hk HL. unfold fs_tail.
  destruct (m_gen m) as [gl gc] eqn:Eg. unfold small_col in Hc. rewrite Eg in Hc. cbn [snd fst] in Hc, Hk.
  assert (Hv : vplace m = (Z.of_N gl, Z.of_N gc)) by (unfold vplace, view; rewrite Eg; reflexivity).
  rewrite Hv in HL. unfold plt in HL. cbn [fst snd] in HL.
  destruct (skip_flat L (N.to_nat (gl - k)) st k H Hp) as (I1 & I2 & I3 & I4).
  { intros. apply HL; lia. }
  rewrite Hp. cbn [fst]. set (st1 := skip_lines _ st) in *. clearbody st1. cbn zeta in *.
  replace (k + N.of_nat (N.to_nat (gl - k)))%N with gl in * by lia.
  unfold left_rows at 2. rewrite Hp. cbn [fst snd Z.of_N]. rewrite <- I4. rewrite I2. cbn [snd].
  destruct (N.ltb_spec 0 gc) as [Hg|Hg].
  - destruct (fs_line st1) as [[txt ex] sbc] eqn:El. destruct I1 as (F1 & F2 & F3).
    rewrite El in F1, F3. cbn [ltext fst snd] in *. rewrite to_i32_small by lia.
    destruct (split_or_all_spec txt (Z.of_N gc) sbc) as (rf & E & F); [lia|exact F1|].
    rewrite E. cbn [bind]. eexists. split; [reflexivity|]. split; [|split; [reflexivity|split; [reflexivity|]]].
    + split; [exact F|]. split; [exact F2|].
      cbn. intro Ef. destruct (F3 Ef) as [-> ->]. split; [apply skipn_nil|reflexivity].
    + unfold left_rows. cbn [fs_pos fs_children fs_line fs_iter fst snd ltext].
      rewrite add_str_flat, <- app_assoc. f_equal. rewrite app_assoc. f_equal.
      rewrite (arow_firstn L (Z.of_N gl) 0 (N.to_nat gc)).
      * rewrite (HL (Z.of_N gl) 0%Z) by lia.
        replace (Z.to_nat (Z.of_N gc)) with (N.to_nat gc) by lia.
        do 2 f_equal. lia.
      * intros j Hj. rewrite !HL by lia. reflexivity.
  - assert (gc = 0)%N by lia. subst gc. cbn [bind]. eexists. split; [reflexivity|].
    split; [exact I1|]. split; [exact I2|]. split; [reflexivity|].
    unfold left_rows. cbn [fs_pos fs_children fs_line fs_iter]. rewrite I2. reflexivity.
Qed.

Definition at_place (L : list (place * option target)) (st : fs_st) (done : list mapping) : Prop :=
  Forall (fun m => ple (vplace m) (zpos (fs_pos st))) done /\
  match fs_last st with
  | None => done = [] /\ fs_pos st = (1%N, 0%N)
  | Some m => lookup (map view done) (Z.of_N (fst (fs_pos st))) (Z.of_N (snd (fs_pos st))) = snd (view m) /\
              (snd (fs_pos st) < 2147483648)%N
  end.

Lemma zpos_vplace m : vplace m = zpos (m_gen m).
Proof. reflexivity. Qed.

Lemma step_flat st m done rest : let L := map view (done ++ m :: rest) in
  st_ok st -> at_place L st done -> vsorted (m :: rest) -> small_col m ->
  ple (zpos (fs_pos st)) (vplace m) ->
  exists st', fs_step st m = Some st' /\ st_ok st' /\ fs_pos st' = m_gen m /\ fs_last st' = Some m /\
    at_place L st' (done ++ [m]) /\
    fleaves (fs_children st') ++ left_rows L st' = fleaves (fs_children st) ++ left_rows L st.
Proof.
  intros L H (Hd & Hl) Hs Hc Hm.
  assert (Hrest : Forall (fun x => ple (vplace m) (vplace x)) (m :: rest)).
  { inv Hs. constructor; auto. unfold ple; lia. }
  (* answers at places between the last and the next mapping *)
  assert (HLb : forall k' j', plt (k', j') (vplace m) -> lookup L k' j' = lookup (map view done) k' j').
  { intros k' j' Hp. unfold L. rewrite map_app. apply (lookup_app_before _ _ (k', j')). apply Forall_map.
    eapply Forall_impl; [|exact Hrest]. intros x Hx. unfold plt, ple, vplace in *. lia. }
  assert (Hat : forall st' : fs_st, fs_pos st' = m_gen m -> fs_last st' = Some m -> at_place L st' (done ++ [m])).
  { intros st' E1 E2. unfold at_place. rewrite E1, E2. split.
    - apply Forall_app. split.
      + eapply Forall_impl; [|exact Hd]. intros x Hx. rewrite <- zpos_vplace. unfold ple in *. lia.
      + constructor; [|constructor]. rewrite zpos_vplace. unfold ple; lia.
    - split; [|exact Hc]. rewrite map_app. cbn [map].
      apply (lookup_snoc_at (map view done) (view m) (vplace m) eq_refl).
      apply Forall_map. eapply Forall_impl; [|exact Hd]. intros x Hx. unfold ple, vplace in *. lia. }
  unfold fs_step. destruct (m_gen m) as [gl gc] eqn:Eg.
  assert (Hv : vplace m = (Z.of_N gl, Z.of_N gc)) by (rewrite zpos_vplace, Eg; reflexivity).
  unfold small_col in Hc. rewrite Eg in Hc. cbn [snd] in Hc.
  destruct (fs_pos st) as [k col] eqn:Ep. unfold zpos in *. cbn [fst snd] in *.
  rewrite Hv in Hm. unfold ple in Hm. cbn [fst snd] in Hm.
  destruct (fs_last st) as [lm|] eqn:El.
  - destruct Hl as [Hl Hcol]. destruct (fs_line st) as [[txt ex] sbc] eqn:Eline.
    destruct H as (F1 & F2 & F3). rewrite Eline in F1, F3. cbn [ltext fst snd] in *.
    destruct (N.ltb_spec k gl) as [Hk|Hk].
    + destruct (next_of (fs_iter st)) as [nl it] eqn:En.
      destruct (next_of_ok _ _ _ F2 En) as [G1 G2].
      edestruct (tail_flat L (mk_fs (add_mapping_with_code (fs_children st) (Some lm) txt)
                     ((k + 1)%N, 0%N) (Some lm) nl it) m (k + 1)%N) as (st' & E & I1 & I2 & I3 & I4).
      { exact G1. } { reflexivity. } { unfold small_col. rewrite Eg. exact Hc. }
      { rewrite Eg. cbn [fst]. lia. }
      { intros k' j Hk' Hp. rewrite HLb by exact Hp. apply lookup_line_none. apply Forall_map.
        eapply Forall_impl; [|exact Hd]. intros x Hx. unfold ple, vplace in Hx. cbn [fst snd] in Hx. lia. }
      exists st'. split; [exact E|]. split; [exact I1|]. rewrite Eg in I2. split; [exact I2|]. split; [exact I3|].
      split; [apply Hat; auto|]. rewrite I4.
      unfold left_rows. rewrite Ep, Eline. cbn [fs_children fs_line fs_iter fs_pos fst snd ltext].
      rewrite add_map_flat, <- app_assoc. f_equal. f_equal.
      * symmetry. apply arow_const. intros j' Hj.
        rewrite (HLb (Z.of_N k) j') by (rewrite Hv; unfold plt; cbn [fst snd]; lia). cbn [fst snd].
        rewrite <- Hl. apply lookup_later; [|lia]. apply Forall_map. exact Hd.
      * replace (Z.of_N (k + 1)) with (Z.of_N k + 1)%Z by lia.
        destruct (fs_iter st) as [|x r]; injection En as <- <-; reflexivity.
    + assert (gl = k) by lia. subst gl. assert (Hcc : (col <= gc)%N) by lia.
      rewrite !(to_i32_small (Z.of_N _)) by lia. rewrite to_i32_small by lia.
      destruct (split_or_all_spec txt (Z.of_N gc - Z.of_N col) sbc) as (rf & E & F); [lia|exact F1|].
      rewrite E. cbn [bind]. eexists. split; [reflexivity|].
      split; [|split; [reflexivity|split; [reflexivity|split; [apply Hat; reflexivity|]]]].
      * split; [exact F|]. split; [exact F2|].
        cbn. intro Ef. destruct (F3 Ef) as [-> ->]. split; [apply skipn_nil|reflexivity].
      * unfold left_rows. rewrite Ep, Eline. cbn [fs_children fs_line fs_iter fs_pos fst snd ltext].
        rewrite add_map_flat, <- app_assoc. f_equal. rewrite app_assoc. f_equal.
        set (n := Z.to_nat (Z.of_N gc - Z.of_N col)).
        rewrite <- (firstn_skipn n txt) at 3. rewrite arow_app.
        rewrite (arow_const L (Z.of_N k) (snd (view lm)) (firstn n txt)).
        -- f_equal. destruct (le_lt_dec n (length txt)) as [Hn|Hn].
           ++ rewrite firstn_length_le by auto. f_equal. unfold n. lia.
           ++ rewrite !skipn_all2 by lia. reflexivity.
        -- intros j' Hj. rewrite firstn_length in Hj.
           rewrite (HLb (Z.of_N k) j') by (rewrite Hv; unfold plt; cbn [fst snd]; lia). cbn [fst snd].
           rewrite <- Hl. apply lookup_later; [|lia]. apply Forall_map. exact Hd.
  - destruct Hl as [-> Hp0]. injection Hp0 as -> ->.
    edestruct (tail_flat L st m 1%N) as (st' & E & I1 & I2 & I3 & I4).
    { exact H. } { exact Ep. } { unfold small_col. rewrite Eg. exact Hc. }
    { rewrite Eg. cbn [fst]. lia. }
    { intros k' j Hk' Hp. rewrite HLb by exact Hp. reflexivity. }
    exists st'. split; [exact E|]. split; [exact I1|]. rewrite Eg in I2. split; [exact I2|]. split; [exact I3|].
    split; [apply Hat; auto|exact I4].
Qed.

Lemma loop_flat : forall ms st done, let L := map view (done ++ ms) in
  st_ok st -> at_place L st done -> vsorted ms -> Forall small_col ms ->
  Forall (fun m => ple (zpos (fs_pos st)) (vplace m)) ms ->
  exists st', fs_loop st ms = Some st' /\ st_ok st' /\ at_place L st' (done ++ ms) /\
    fleaves (fs_children st') ++ left_rows L st' = fleaves (fs_children st) ++ left_rows L st.
Proof.
  induction ms as [|m ms IH]; intros st done L H Hat Hs Hc Hm; cbn [fs_loop].
  - exists st. split; [reflexivity|]. split; [exact H|]. rewrite app_nil_r. auto.
  - inv Hc. pose proof (Forall_inv Hm) as Hm1.
    destruct (step_flat st m done ms H Hat Hs H2 Hm1) as (st1 & -> & I1 & I2 & I3 & I4 & I5). cbn [bind].
    assert (EL : map view (done ++ m :: ms) = map view ((done ++ [m]) ++ ms)) by (now rewrite <- app_assoc).
    destruct (IH st1 (done ++ [m])) as (st2 & E & J1 & J2 & J3).
    { exact I1. } { rewrite <- EL. exact I4. } { now inv Hs. } { exact H3. }
    { rewrite I2. inv Hs. exact H5. }
    exists st2. split; [exact E|]. split; [exact J1|]. rewrite <- app_assoc in J2, J3. cbn [app] in J2, J3. split; [exact J2|].
    unfold L. rewrite J3. exact I5.
Qed.

Theorem from_string_flat code g : let ms := ml_list (g_mappings g) in
  vsorted ms -> Forall small_col ms -> Forall (fun m => (0 < fst (m_gen m))%N) ms ->
  exists ch, sm_from_string code g = Some (SmNode None None None ch (g_contents g)) /\
    fleaves ch = annotate (map view ms) code.
Proof.
  intros ms Hs Hc Hl. unfold sm_from_string.
  destruct (lines_of code) as (ls & E & Hcat & Hok & Hsh). rewrite E. cbn [bind].
  destruct (next_of ls) as [nl it] eqn:En.
  destruct (next_of_ok _ _ _ Hok En) as [G1 G2].
  destruct (loop_flat ms (mk_fs [] (1%N, 0%N) None nl it) []) as (st & E1 & S1 & S2 & S3); auto.
  { split; [constructor|]. cbn. auto. }
  { eapply Forall_impl; [|exact Hl]. intros [[gl gc] src name orig] Hm. cbn in Hm. unfold ple, zpos, vplace, view. cbn [fst snd fs_pos m_gen]. lia. }
  fold ms. rewrite E1. cbn [bind]. eexists. split; [reflexivity|].
  cbn [app] in *. unfold left_rows in S3 at 2. cbn [fs_children fs_pos fs_line fs_iter fst snd] in S3.
  change (fleaves []) with (@nil (char * option target)) in S3. cbn [app] in S3.
  assert (Hrow : arow (map view ms) (Z.of_N 1) (Z.of_N 0) (ltext nl) ++ rows (map view ms) (Z.of_N 1 + 1) (map ltext it)
                 = annotate (map view ms) code).
  { rewrite <- Hcat. unfold annotate. rewrite annotate_rows by auto.
    destruct ls as [|x r]; injection En as <- <-; reflexivity. }
  rewrite Hrow in S3. rewrite <- S3. clear S3 Hrow.
  destruct S1 as (F1 & F2 & F3). destruct S2 as [S2 S2'].
  assert (Hnone : forall k' j, (Z.of_N (fst (fs_pos st)) + 1 <= k')%Z -> lookup (map view ms) k' j = None).
  { intros k' j Hk. apply lookup_line_none. apply Forall_map. eapply Forall_impl; [|exact S2].
    intros m Hm. unfold ple, vplace, zpos in Hm. cbn [fst snd] in Hm. lia. }
  destruct (snd (fst (fs_line st))) eqn:Ex.
  - destruct (fs_last st) as [lm|] eqn:El.
    + destruct (next_of (fs_iter st)) as [nl' it'] eqn:En'.
      destruct (next_of_ok _ _ _ F2 En') as [(J1 & J2 & J3) J4].
      rewrite add_str_flat, add_map_flat, remaining_text by auto. rewrite J4. unfold left_rows.
      rewrite <- app_assoc. f_equal. f_equal.
      * symmetry. apply arow_const. intros j Hj. destruct S2' as [S2' _].
        rewrite <- S2'. apply lookup_later; [|lia]. apply Forall_map. exact S2.
      * rewrite rows_none by exact Hnone. now rewrite flat_map_concat_map.
    + rewrite add_str_flat, remaining_text by (auto; congruence). f_equal. unfold left_rows.
      destruct S2' as [Hms _]. rewrite Hms. rewrite rows_none by (intros; reflexivity).
      rewrite (arow_const _ _ None) by (intros; reflexivity). now rewrite mark_app, flat_map_concat_map.
  - destruct (F3 eq_refl) as [Ha Hb]. unfold left_rows. rewrite Ha, Hb. cbn. now rewrite app_nil_r.
Qed.
