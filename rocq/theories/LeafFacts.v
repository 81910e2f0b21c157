(** The nodes of the single sources (RawSource, OriginalSource, LineToLineMappedSource)
    and of ConcatSource, as attributed texts. *)
From Verif Require Import Base Tactics ModelString StringFacts ModelVlq ModelSm ModelSlm ModelRegex ModelSources
  SortFacts SpecText TextFacts SpecMap SpecAttr MapFacts GenFacts NodeFacts.
From Verif Require Export SpecLeaf.
Lemma solid_ok x : solid x -> leaf_ok x.
Proof. destruct x as [[[s [z|]] [[l c]|]] name]; unfold solid, leaf_text, leaf_ok; cbn; tauto. Qed.

Definition all_leaves (ch : list smnode) : list leaf := flat_map leaves ch.
Lemma leaves_none pos src name ch ct :
  attr_of src pos name = None -> src = None -> pos = None -> name = None ->
  leaves (SmNode pos src name ch ct) = all_leaves ch.
Proof. intros _ -> -> ->. reflexivity. Qed.
Lemma leaves_root ch ct : leaves (SmNode None None None ch ct) = all_leaves ch.
Proof. reflexivity. Qed.
Lemma flat_root ch ct : flat (SmNode None None None ch ct) = flat_leaves (all_leaves ch).
Proof. reflexivity. Qed.
Lemma all_leaves_app a b : all_leaves (a ++ b) = all_leaves a ++ all_leaves b.
Proof. apply flat_map_app. Qed.
Lemma flat_leaves_app a b : flat_leaves (a ++ b) = flat_leaves a ++ flat_leaves b.
Proof. apply flat_map_app. Qed.

Lemma flat_all_leaves ch : flat_leaves (all_leaves ch) = flat_map flat ch.
Proof.
  induction ch as [|n ch IH]; [reflexivity|].
  change (all_leaves (n :: ch)) with (leaves n ++ all_leaves ch).
  rewrite flat_leaves_app, IH. reflexivity.
Qed.

(** Adding a string. *)
Lemma add_str_leaves acc s :
  all_leaves (add_chunk acc (CNode (SmStr s))) =
  all_leaves acc ++ match s with [] => [] | _ => [(s, None, None, None)] end.
Proof.
  destruct s as [|c s]; cbn [add_chunk]; [now rewrite app_nil_r|].
  rewrite all_leaves_app. reflexivity.
Qed.
(** Adding a node around a string. *)
Lemma leaves_sn_new pos src name s :
  leaves (sn_new pos src name (Some (CNode (SmStr s)))) =
  match s with [] => [] | _ => [(s, src, pos, name)] end.
Proof. destruct s; reflexivity. Qed.
Lemma add_node_leaves acc pos src name s :
  all_leaves (add_chunk acc (CNode (sn_new pos src name (Some (CNode (SmStr s)))))) =
  all_leaves acc ++ match s with [] => [] | _ => [(s, src, pos, name)] end.
Proof.
  cbn [add_chunk sn_new]. rewrite all_leaves_app. f_equal.
  unfold all_leaves. cbn [flat_map]. rewrite app_nil_r. apply leaves_sn_new.
Qed.

(** ** RawSource *)
Lemma raw_leaves v : leaves (raw_node v) = match v with [] => [] | _ => [(v, None, None, None)] end.
Proof. apply leaves_sn_new. Qed.
Lemma raw_flat v : flat (raw_node v) = mark None v.
Proof. unfold flat. rewrite raw_leaves. destruct v; [reflexivity|]. cbn. now rewrite app_nil_r. Qed.

(** ** Tokens *)
Lemma delim_is_delim c : delim c = is_delim c.
Proof. unfold delim, is_delim. cbn. rewrite orb_false_r, !orb_assoc. reflexivity. Qed.

Lemma tokens_nil_iff s : tokens s = [] <-> s = [].
Proof.
  split; [|intros ->; reflexivity]. destruct s as [|c s]; auto. cbn.
  destruct (tokens s) as [|[|d t] ts]; try discriminate. destruct (closes c d); discriminate.
Qed.
Lemma tokens_hd s c r : s = c :: r -> exists t ts, tokens s = (c :: t) :: ts.
Proof.
  intros ->. cbn. destruct (tokens r) as [|[|d t] ts]; eauto. destruct (closes c d); eauto.
Qed.

(** Characters of one token: no two neighbours are separated. *)
Fixpoint glued (s : str) : Prop :=
  match s with
  | [] => True
  | c :: r => match r with [] => True | d :: _ => closes c d = false end /\ glued r
  end.
Lemma tokens_glue t rest : t <> [] -> glued t ->
  match rest with [] => True | d :: _ => closes (last t 0%N) d = true end ->
  tokens (t ++ rest) = t :: tokens rest.
Proof.
  induction t as [|c t IH]; intros Hne Hg Hr; [congruence|].
  destruct t as [|d t].
  - cbn [app]. destruct rest as [|e rest]; [reflexivity|].
    destruct (tokens_hd (e :: rest) e rest eq_refl) as (u & us & E).
    change (tokens (c :: e :: rest)) with
      (match tokens (e :: rest) with
       | (d :: t) :: ts => if closes c d then [c] :: (d :: t) :: ts else (c :: d :: t) :: ts
       | _ => [[c]] end).
    rewrite E. cbn [last] in Hr. rewrite Hr. reflexivity.
  - destruct Hg as [Hc Hg]. specialize (IH ltac:(discriminate) Hg Hr).
    change (tokens ((c :: d :: t) ++ rest)) with
      (match tokens ((d :: t) ++ rest) with
       | (d :: t) :: ts => if closes c d then [c] :: (d :: t) :: ts else (c :: d :: t) :: ts
       | _ => [[c]] end).
    rewrite IH, Hc. reflexivity.
Qed.

Lemma tokens_nl x y : tokens (x ++ NL :: y) = tokens (x ++ [NL]) ++ tokens y.
Proof.
  induction x as [|c x IH].
  - cbn [app]. cbn [tokens]. destruct (tokens y) as [|[|d t] ts] eqn:E; cbn; try reflexivity.
    exfalso. destruct y as [|e y]; [discriminate|].
    destruct (tokens_hd (e :: y) e y eq_refl) as (u & us & E'). congruence.
  - cbn [app tokens]. rewrite IH.
    destruct (tokens (x ++ [NL])) as [|[|d t] ts] eqn:E.
    + apply tokens_nil_iff in E. destruct x; discriminate.
    + exfalso. destruct (x ++ [NL]) as [|e z] eqn:Ex; [discriminate|].
      destruct (tokens_hd (e :: z) e z eq_refl) as (u & us & E'). congruence.
    + cbn [app]. destruct (closes c d); reflexivity.
Qed.

Lemma mark_tokens_app adv name ts1 ts2 p :
  mark_tokens adv name p (ts1 ++ ts2) =
  mark_tokens adv name p ts1 ++ mark_tokens adv name (fold_left adv (concat ts1) p) ts2.
Proof.
  revert p; induction ts1 as [|t ts IH]; intro p; cbn; [reflexivity|].
  rewrite IH, fold_left_app, app_assoc. reflexivity.
Qed.
Lemma tokens_concat s : concat (tokens s) = s.
Proof.
  induction s as [|c s IH]; [reflexivity|]. cbn [tokens].
  destruct (tokens s) as [|[|d t] ts] eqn:E.
  - apply tokens_nil_iff in E. subst. reflexivity.
  - exfalso. destruct s as [|e s]; [discriminate|].
    destruct (tokens_hd (e :: s) e s eq_refl) as (u & us & E'). congruence.
  - destruct (closes c d); cbn in *; now rewrite IH.
Qed.

(** ** OriginalSource with columns *)
(** Byte length of the longest prefix of characters satisfying [f]. *)
Fixpoint span_bytes (f : char -> bool) (s : str) : nat :=
  match s with
  | [] => 0
  | c :: r => if f c then len_utf8 c + span_bytes f r else 0
  end.
Fixpoint drop_span (f : char -> bool) (s : str) : str :=
  match s with
  | [] => []
  | c :: r => if f c then drop_span f r else s
  end.
Lemma star_greedy {A} f (k : str -> option A) s : (forall t, k t <> None) -> backtrack (RStar (RClass f)) s k = k (drop_span f s).
Proof.
  intro K. cbn [backtrack]. generalize (le_n (length s)). generalize (length s) at 2 3 as n. intro n. revert s. induction n as [|n IH]; intros s L.
  - destruct s; [reflexivity|cbn in L; lia].
  - destruct s as [|c t]; [reflexivity|]. cbn [drop_span]. destruct (f c); [|reflexivity]. cbn [length] in *. rewrite (proj2 (Nat.ltb_lt (length t) (S (length t)))) by lia.
    rewrite IH by lia. destruct (k (drop_span f t)) eqn:E; [reflexivity|]. now destruct (K (drop_span f t)).
Qed.
Lemma span_blen f s : blen s = span_bytes f s + blen (drop_span f s).
Proof. induction s as [|c s IH]; [reflexivity|]. cbn [span_bytes drop_span]. destruct (f c); cbn [blen]; lia. Qed.
(** Both repetitions are greedy and nothing stands behind them, so the match starts at 0 and
    is the longest run of other characters and then the longest run of delimiters. *)
Lemma token_end_spans line : token_end line = let nd c := negb (is_delim c) in span_bytes nd line + span_bytes is_delim (drop_span nd line).
Proof.
  unfold token_end, splitter. assert (E : forall p, backtrack (RSeq (RStar (RClass (fun c => negb (is_delim c)))) (RStar (RClass is_delim))) line (fun t => Some (p, p + (blen line - blen t)))
    = Some (p, p + (blen line - blen (drop_span is_delim (drop_span (fun c => negb (is_delim c)) line))))).
  { intro p. change (backtrack (RStar (RClass (fun c => negb (is_delim c)))) line (fun t => backtrack (RStar (RClass is_delim)) t (fun t => Some (p, p + (blen line - blen t)))) =
      Some (p, p + (blen line - blen (drop_span is_delim (drop_span (fun c => negb (is_delim c)) line))))).
    rewrite star_greedy; [rewrite star_greedy by discriminate; reflexivity|]. intro t. rewrite star_greedy; discriminate. }
  destruct line as [|c r]; cbn [regex_find]; rewrite E; [reflexivity|]. set (line := c :: r). pose proof (span_blen (fun c => negb (is_delim c)) line). pose proof (span_blen is_delim (drop_span (fun c => negb (is_delim c)) line)). cbv zeta. lia.
Qed.
Lemma span_split f s : exists a, s = a ++ drop_span f s /\ span_bytes f s = blen a /\
  forallb f a = true /\ match drop_span f s with [] => True | d :: _ => f d = false end.
Proof.
  induction s as [|c s (a & E & Hb & Hf & Hd)].
  - exists []. repeat split.
  - cbn [span_bytes drop_span]. destruct (f c) eqn:Ec.
    + exists (c :: a). cbn. rewrite Ec, <- E, Hb, Hf. auto.
    + exists []. repeat split. exact Ec.
Qed.

(** The next token of a line: a run of ordinary characters and a run of delimiters. *)
Lemma token_cut line : line <> [] -> exists a d rest, line = (a ++ d) ++ rest /\
  token_end line = blen (a ++ d) /\ a ++ d <> [] /\
  forallb (fun c => negb (is_delim c)) a = true /\ forallb is_delim d = true /\
  match rest with [] => True | e :: _ => is_delim e = false /\ d <> [] end.
Proof.
  intro Hne. destruct (span_split (fun c => negb (is_delim c)) line) as (a & E & Hb & Hf & Hd).
  set (r := drop_span _ line) in *.
  destruct (span_split is_delim r) as (d & E2 & Hb2 & Hf2 & Hd2).
  set (rest := drop_span is_delim r) in *.
  exists a, d, rest. repeat apply conj; auto.
  - rewrite E, E2, app_assoc. reflexivity.
  - rewrite token_end_spans. cbv zeta. fold r. rewrite blen_app. lia.
  - intro H. apply app_eq_nil in H as [-> ->]. cbn in E, E2.
    destruct r as [|e r'] eqn:Er; [congruence|]. cbn in Hd. apply negb_false_iff in Hd.
    unfold rest in E2. cbn in E2. rewrite Hd in E2.
    assert (length (e :: r') = length (drop_span is_delim r')) by now rewrite <- E2.
    assert (forall f s, length (drop_span f s) <= length s).
    { intros f s. induction s as [|c s IHs]; cbn; [lia|]. destruct (f c); cbn; lia. }
    specialize (H0 is_delim r'). cbn in H. lia.
  - destruct rest as [|e rest'] eqn:Er; [auto|]. split; [exact Hd2|]. intros ->.
    cbn in E2. rewrite E2 in Hd. cbn in Hd, Hd2. apply negb_false_iff in Hd. congruence.
Qed.

Lemma glued_run a d : forallb (fun c => negb (is_delim c)) a = true -> forallb is_delim d = true ->
  ~ In NL (removelast (a ++ d)) -> glued (a ++ d).
Proof.
  induction a as [|c a IH]; cbn [app forallb]; intros Ha Hd Hn.
  - induction d as [|c d IHd]; cbn; auto. cbn in Hd. apply andb_true_iff in Hd as [Hc Hd].
    split.
    + destruct d as [|e d]; auto. cbn in Hd. apply andb_true_iff in Hd as [He _].
      unfold closes. rewrite !delim_is_delim, He, andb_false_r, orb_false_r.
      apply N.eqb_neq. intros ->. apply Hn. now left.
    + apply IHd; auto. intro H. apply Hn. destruct d; [destruct H|]. now right.
  - apply andb_true_iff in Ha as [Hc Ha]. split.
    + destruct (a ++ d) as [|e x] eqn:E; auto. unfold closes. rewrite delim_is_delim.
      apply negb_true_iff in Hc. rewrite Hc. cbn. rewrite orb_false_r.
      apply N.eqb_neq. intros ->. apply Hn. left. reflexivity.
    + apply IH; auto. intro H. apply Hn. cbn [removelast]. destruct (a ++ d); [destruct H|]. now right.
Qed.

Lemma removelast_app_in (a b : str) : b <> [] -> removelast (a ++ b) = a ++ removelast b.
Proof. apply removelast_app. Qed.

Lemma crlf_only_app a b : crlf_only (a ++ b) = true -> crlf_only b = true.
Proof. induction a as [|c a IH]; cbn; auto. rewrite andb_true_iff. intros [_ H]. auto. Qed.
Lemma crlf_only_last a e b : crlf_only (a ++ e :: b) = true -> a <> [] -> last a 0%N = CR -> e = NL.
Proof.
  induction a as [|c a IH]; [congruence|]. cbn [app crlf_only]. rewrite andb_true_iff.
  intros [H1 H2] _ Hl. destruct a as [|d a].
  - cbn in *. subst c. cbn in H1. now apply N.eqb_eq in H1.
  - apply IH; auto. discriminate.
Qed.

Lemma fold_bytes_line s line col : ~ In NL s ->
  fold_left advance_bytes s (line, col) = (line, (col + Z.of_nat (blen s))%Z).
Proof.
  revert col; induction s as [|c s IH]; intros col Hn; cbn [fold_left].
  - cbn. f_equal. lia.
  - unfold advance_bytes at 2. cbn [fst snd].
    rewrite (proj2 (N.eqb_neq c NL)) by (intros ->; apply Hn; now left).
    rewrite IH by (intro; apply Hn; now right). cbn [blen]. f_equal. lia.
Qed.

Lemma last_in (l : str) d : l <> [] -> In (last l d) l.
Proof.
  induction l as [|c l IH]; [congruence|]. intros _. destruct l as [|e l]; [now left|].
  right. apply IH. discriminate.
Qed.
Lemma last_app_ne {A} (a b : list A) d : b <> [] -> last (a ++ b) d = last b d.
Proof.
  intro Hb. induction a as [|c a IH]; [reflexivity|]. cbn [app].
  destruct (a ++ b) as [|e x] eqn:E; [|rewrite <- IH; reflexivity].
  apply app_eq_nil in E as [_ E]. congruence.
Qed.

Lemma orig_tokens_spec name i : forall fuel line acc pos,
  length line <= fuel -> ~ In NL (removelast line) -> crlf_only line = true ->
  exists ch, orig_tokens fuel name i pos line acc = Some ch /\
    (exists lv, all_leaves ch = all_leaves acc ++ lv /\ Forall solid lv /\
     flat_leaves lv = mark_tokens advance_bytes name (Z.of_N i + 1, Z.of_N pos)%Z (tokens line)).
Proof.
  induction fuel as [|fuel IH]; intros line acc pos Hf Hn Hcr.
  - destruct line; [|cbn in Hf; lia]. exists acc. split; [reflexivity|]. exists [].
    rewrite app_nil_r. repeat split. constructor.
  - destruct line as [|c0 line0].
    { exists acc. split; [reflexivity|]. exists []. rewrite app_nil_r. repeat split. constructor. }
    remember (c0 :: line0) as line eqn:El.
    assert (Hne : line <> []) by congruence.
    replace (orig_tokens (S fuel) name i pos line acc) with
      (let* (item, rest) := ss_split_at line (token_end line) in
          if blank item then
            orig_tokens fuel name i pos rest (add_chunk acc (CNode (SmStr item)))
          else
            orig_tokens fuel name i (pos + N.of_nat (blen item)) rest
              (add_chunk acc
                 (CNode (sn_new (Some ((i + 1)%N, pos)) (Some name) None
                           (Some (CNode (SmStr item))))))) by (rewrite El; reflexivity).
    clear c0 line0 El.
    destruct (token_cut line Hne) as (a & d & rest & -> & Ht & Hi & Ha & Hd & Hr).
    rewrite Ht, ss_split_at_app. cbn [bind].
    remember (a ++ d) as item eqn:Ei.
    assert (Hlen : length rest <= fuel).
    { rewrite app_length in Hf. destruct item; [congruence|]. cbn in Hf. lia. }
    assert (Hni : ~ In NL (removelast item)).
    { intro H. apply Hn. destruct rest as [|e r]; [now rewrite app_nil_r|].
      rewrite removelast_app by discriminate. apply in_or_app. left.
      rewrite (app_removelast_last 0%N Hi). apply in_or_app. now left. }
    assert (Hnr : ~ In NL (removelast rest)).
    { intro H. apply Hn. destruct rest as [|e r]; [destruct H|].
      rewrite removelast_app by discriminate. apply in_or_app. now right. }
    assert (Hcr2 := crlf_only_app _ _ Hcr).
    assert (Hnl : rest <> [] -> ~ In NL item).
    { intros Hr' H. apply Hn. rewrite removelast_app by auto. apply in_or_app. now left. }
    assert (Hg : glued item) by (rewrite Ei in *; apply glued_run; auto).
    assert (Htok : tokens (item ++ rest) = item :: tokens rest).
    { apply tokens_glue; auto. destruct rest as [|e r]; auto. destruct Hr as [He Hd'].
      unfold closes. rewrite !delim_is_delim, He. cbn [negb]. rewrite andb_true_r.
      assert (Hl : is_delim (last item 0%N) = true).
      { rewrite Ei, last_app_ne by auto. rewrite forallb_forall in Hd. apply Hd.
        now apply last_in. }
      rewrite Hl. apply orb_true_r. }
    rewrite Htok. cbn [mark_tokens].
    destruct (blank item) eqn:Eb.
    + destruct rest as [|e r].
      * destruct fuel; cbn [orig_tokens]; (eexists; split; [reflexivity|]);
        exists [(item, None, None, None)]; rewrite add_str_leaves;
        (destruct item as [|c x]; [congruence|]); (split; [reflexivity|]);
        (split; [repeat constructor; cbn; congruence|]);
        unfold blank in Eb; rewrite Eb; cbn [mark_tokens tokens flat_leaves flat_map flat_leaf attr_of];
        now rewrite !app_nil_r.
      * exfalso. destruct Hr as [He Hd'].
        assert (Hl : is_delim (last item 0%N) = true /\ is_ws (last item 0%N) = true).
        { split.
          - rewrite Ei, last_app_ne by auto. rewrite forallb_forall in Hd. apply Hd.
            now apply last_in.
          - unfold blank in Eb. rewrite forallb_forall in Eb. apply Eb. now apply last_in. }
        destruct Hl as [Hl1 Hl2].
        assert (Hcase : last item 0%N = NL \/ last item 0%N = CR).
        { unfold is_delim in Hl1. rewrite !orb_true_iff, !N.eqb_eq in Hl1.
          destruct Hl1 as [[[[H|H]|H]|H]|H]; auto; rewrite H in Hl2; discriminate. }
        destruct Hcase as [H|H].
        -- apply Hnl; [discriminate|]. rewrite <- H. now apply last_in.
        -- assert (e = NL) by (eapply crlf_only_last; eauto). subst e. discriminate.
    + destruct (IH rest (add_chunk acc (CNode (sn_new (Some ((i + 1)%N, pos)) (Some name) None
                           (Some (CNode (SmStr item))))))
                  (pos + N.of_nat (blen item))%N Hlen Hnr Hcr2) as (ch & Ech & lv & E1 & E2 & E3).
      exists ch. split; [exact Ech|]. exists ((item, Some name, Some ((i + 1)%N, pos), None) :: lv).
      split.
      { rewrite E1, add_node_leaves. destruct item; [congruence|]. now rewrite <- app_assoc. }
      split.
      { constructor; auto. split; [exact Hi|]. lia. }
      cbn [flat_leaves flat_map]. fold (flat_leaves lv). rewrite E3. unfold blank in Eb. rewrite Eb.
      cbn [flat_leaf attr_of]. rewrite N2Z.inj_add. f_equal.
      destruct rest as [|e r]; [reflexivity|]. f_equal.
      rewrite fold_bytes_line by (apply Hnl; discriminate). f_equal. lia.
Qed.

(** Without any condition on the text: the leaves are solid and spell the line. *)
Lemma orig_tokens_text name i : forall fuel line acc pos, length line <= fuel ->
  exists ch, orig_tokens fuel name i pos line acc = Some ch /\
    (exists lv, all_leaves ch = all_leaves acc ++ lv /\ Forall solid lv /\
     text_of (flat_leaves lv) = line).
Proof.
  induction fuel as [|fuel IH]; intros line acc pos Hf.
  - destruct line; [|cbn in Hf; lia]. exists acc. split; [reflexivity|]. exists [].
    rewrite app_nil_r. repeat split. constructor.
  - destruct line as [|c0 line0].
    { exists acc. split; [reflexivity|]. exists []. rewrite app_nil_r. repeat split. constructor. }
    remember (c0 :: line0) as line eqn:El.
    assert (Hne : line <> []) by congruence.
    replace (orig_tokens (S fuel) name i pos line acc) with
      (let* (item, rest) := ss_split_at line (token_end line) in
          if blank item then
            orig_tokens fuel name i pos rest (add_chunk acc (CNode (SmStr item)))
          else
            orig_tokens fuel name i (pos + N.of_nat (blen item)) rest
              (add_chunk acc
                 (CNode (sn_new (Some ((i + 1)%N, pos)) (Some name) None
                           (Some (CNode (SmStr item))))))) by (rewrite El; reflexivity).
    clear c0 line0 El.
    destruct (token_cut line Hne) as (a & d & rest & -> & Ht & Hi & Ha & Hd & Hr).
    rewrite Ht, ss_split_at_app. cbn [bind].
    remember (a ++ d) as item eqn:Ei.
    assert (Hlen : length rest <= fuel).
    { rewrite app_length in Hf. destruct item; [congruence|]. cbn in Hf. lia. }
    destruct (blank item).
    + destruct (IH rest (add_chunk acc (CNode (SmStr item))) pos Hlen) as (ch & Ech & lv & E1 & E2 & E3).
      exists ch. split; [exact Ech|]. exists ((item, None, None, None) :: lv).
      split; [|split].
      * rewrite E1, add_str_leaves. destruct item; [congruence|]. now rewrite <- app_assoc.
      * constructor; auto. split; [exact Hi|exact I].
      * cbn [flat_leaves flat_map flat_leaf]. rewrite text_app, text_mark. fold (flat_leaves lv). now rewrite E3.
    + destruct (IH rest (add_chunk acc (CNode (sn_new (Some ((i + 1)%N, pos)) (Some name) None
                           (Some (CNode (SmStr item))))))
                  (pos + N.of_nat (blen item))%N Hlen) as (ch & Ech & lv & E1 & E2 & E3).
      exists ch. split; [exact Ech|]. exists ((item, Some name, Some ((i + 1)%N, pos), None) :: lv).
      split; [|split].
      * rewrite E1, add_node_leaves. destruct item; [congruence|]. now rewrite <- app_assoc.
      * constructor; auto. split; [exact Hi|]. lia.
      * cbn [flat_leaves flat_map flat_leaf]. rewrite text_app, text_mark. fold (flat_leaves lv). now rewrite E3.
Qed.

(** All lines. *)
Lemma orig_lines_text columns name : forall lines i acc,
  exists ch, orig_lines columns name i lines acc = Some ch /\
    (exists lv, all_leaves ch = all_leaves acc ++ lv /\ Forall solid lv /\
     text_of (flat_leaves lv) = concat lines).
Proof.
  induction lines as [|line lines IH]; intros i acc; cbn [orig_lines].
  - exists acc. split; [reflexivity|]. exists []. rewrite app_nil_r. repeat split. constructor.
  - destruct (negb columns).
    + destruct (IH (i + 1)%N (add_chunk acc (CNode (sn_new (Some ((i + 1)%N, 0%N)) (Some name) None
                 (Some (CNode (SmStr line))))))) as (ch & Ech & lv & E1 & E2 & E3).
      exists ch. split; [exact Ech|]. rewrite add_node_leaves, <- app_assoc in E1.
      eexists. split; [exact E1|]. split.
      * apply Forall_app. split; auto. destruct line; constructor; [|constructor].
        split; [discriminate|]. lia.
      * rewrite flat_leaves_app, text_app, E3. cbn [concat]. f_equal.
        destruct line; [reflexivity|]. cbn [flat_leaves flat_map flat_leaf]. rewrite app_nil_r. apply text_mark.
    + destruct (orig_tokens_text name i (length line) line [] 0%N (le_n _)) as (ch0 & E0 & lv0 & L1 & L2 & L3).
      rewrite E0. cbn [bind].
      destruct (IH (i + 1)%N (add_chunk acc (CNode (SmNode None None None ch0 [])))) as (ch & Ech & lv & E1 & E2 & E3).
      exists ch. split; [exact Ech|]. cbn [add_chunk] in E1. rewrite all_leaves_app in E1.
      exists (lv0 ++ lv). split; [|split].
      * rewrite E1, <- app_assoc. do 2 f_equal. unfold all_leaves at 1. cbn [flat_map].
        rewrite app_nil_r, leaves_root. exact L1.
      * apply Forall_app. auto.
      * rewrite flat_leaves_app, text_app, L3, E3. reflexivity.
Qed.

Lemma original_node_text columns v vi name :
  exists n, original_node v vi name columns = Some n /\ Forall solid (leaves n) /\
    text_of (flat n) = v.
Proof.
  unfold original_node. rewrite split_all_keep by reflexivity. cbn [bind].
  destruct (orig_lines_text columns name (pieces NL v) 0 []) as (ch & -> & lv & E1 & E2 & E3).
  cbn [bind]. eexists. split; [reflexivity|]. unfold flat. rewrite leaves_root.
  change (all_leaves []) with (@nil leaf) in E1. cbn [app] in E1. rewrite E1. split; auto.
  rewrite E3. apply pieces_concat.
Qed.

(** The shape of a list of lines. *)
Definition lines_shape (lines : list str) : Prop :=
  exists body last, lines = body ++ [last] /\
    (forall x, In x body -> exists a, x = a ++ [NL] /\ ~ In NL a) /\ ~ In NL last.

Lemma fold_bytes_nl a p : ~ In NL a -> fold_left advance_bytes (a ++ [NL]) p = (fst p + 1, 0)%Z.
Proof.
  intro Hn. destruct p as [l c]. rewrite fold_left_app, fold_bytes_line by auto. reflexivity.
Qed.

Lemma crlf_only_split a b : crlf_only (a ++ b) = true -> crlf_only a = true.
Proof.
  induction a as [|c a IH]; cbn; auto. rewrite !andb_true_iff. intros [H1 H2]. split; auto.
  destruct a; cbn in *; auto using orb_true_r.
Qed.

Lemma removelast_snoc {A} (a : list A) x : removelast (a ++ [x]) = a.
Proof. rewrite removelast_app by discriminate. cbn. now rewrite app_nil_r. Qed.
Lemma in_removelast {A} (x : A) l : In x (removelast l) -> In x l.
Proof.
  induction l as [|c l IH]; [auto|]. cbn [removelast]. destruct l as [|d l]; [intros []|].
  intros [<-|H]; [now left|right; auto].
Qed.

Lemma orig_lines_spec name : forall (body : list str) (last : str) i acc,
  (forall x, In x body -> exists a, x = a ++ [NL] /\ ~ In NL a) -> ~ In NL last ->
  crlf_only (concat (body ++ [last])) = true ->
  exists ch, orig_lines true name i (body ++ [last]) acc = Some ch /\
    (exists lv, all_leaves ch = all_leaves acc ++ lv /\
     flat_leaves lv = mark_tokens advance_bytes name (Z.of_N i + 1, 0)%Z (tokens (concat (body ++ [last])))).
Proof.
  induction body as [|line body IH]; intros last i acc Hb Hl Hcr.
  - cbn [app concat orig_lines negb] in *. rewrite app_nil_r in *.
    destruct (orig_tokens_spec name i (length last) last [] 0%N (le_n _)) as (ch0 & E0 & lv0 & L1 & L2 & L3); auto.
    { intro H. apply Hl. now apply in_removelast. }
    rewrite E0. cbn [bind orig_lines]. eexists. split; [reflexivity|]. exists lv0. split; [|exact L3].
    cbn [add_chunk]. rewrite all_leaves_app. f_equal. unfold all_leaves at 1. cbn [flat_map].
    rewrite app_nil_r, leaves_root. exact L1.
  - destruct (Hb line (or_introl eq_refl)) as (a & -> & Ha).
    cbn [app concat orig_lines negb] in *.
    destruct (orig_tokens_spec name i (length (a ++ [NL])) (a ++ [NL]) [] 0%N (le_n _))
      as (ch0 & E0 & lv0 & L1 & L2 & L3).
    { now rewrite removelast_snoc. }
    { eapply crlf_only_split. exact Hcr. }
    rewrite E0. cbn [bind].
    destruct (IH last (i + 1)%N (add_chunk acc (CNode (SmNode None None None ch0 [])))) as (ch & Ech & lv & E1 & E3); auto.
    { intros x Hx. apply Hb. now right. }
    { eapply crlf_only_app. exact Hcr. }
    exists ch. split; [exact Ech|]. cbn [add_chunk] in E1. rewrite all_leaves_app in E1.
    exists (lv0 ++ lv). split.
    + rewrite E1, <- app_assoc. do 2 f_equal. unfold all_leaves at 1. cbn [flat_map].
      rewrite app_nil_r, leaves_root. exact L1.
    + rewrite flat_leaves_app, L3, E3. rewrite <- (app_assoc a). cbn [app].
      rewrite (tokens_nl a (concat (body ++ [last]))), mark_tokens_app, tokens_concat. f_equal. f_equal.
      rewrite fold_bytes_nl by auto. cbn. f_equal. lia.
Qed.

Lemma original_columns v vi name : crlf_only v = true ->
  exists n, original_node v vi name true = Some n /\
    flat n = mark_tokens advance_bytes name (1, 0)%Z (tokens v).
Proof.
  intro Hcr. unfold original_node. rewrite split_all_keep by reflexivity. cbn [bind].
  destruct (pieces_shape NL v) as (body & last & E & H1 & H2).
  pose proof (pieces_concat NL v) as Hc. rewrite E in *.
  destruct (orig_lines_spec name body last 0 [] H1 H2) as (ch & -> & lv & E1 & E3).
  { now rewrite Hc. }
  cbn [bind]. eexists. split; [reflexivity|]. unfold flat. rewrite leaves_root, E1.
  cbn [all_leaves flat_map app]. rewrite E3, Hc. reflexivity.
Qed.

(** In ASCII texts bytes are characters. *)
Lemma advance_ascii s p : forallb is_ascii s = true -> fold_left advance_bytes s p = fold_left advance s p.
Proof.
  revert p; induction s as [|c s IH]; intros p H; [reflexivity|]. cbn in *.
  apply andb_true_iff in H as [Hc H]. rewrite IH by auto. f_equal.
  unfold advance_bytes, advance. rewrite len_utf8_ascii by auto. reflexivity.
Qed.
Lemma mark_tokens_ascii name ts p : forallb is_ascii (concat ts) = true ->
  mark_tokens advance_bytes name p ts = mark_tokens advance name p ts.
Proof.
  revert p; induction ts as [|t ts IH]; intros p H; [reflexivity|]. cbn [concat mark_tokens] in *.
  rewrite forallb_app in H. apply andb_true_iff in H as [H1 H2].
  rewrite IH, advance_ascii by auto. reflexivity.
Qed.

(** ** One leaf per line: OriginalSource without columns, LineToLineMappedSource *)
Lemma mark_lines_line name l a : ~ In NL a -> mark_lines name l a = mark (Some (name, (l, 0), None)%Z) a.
Proof.
  induction a as [|c a IH]; intro Hn; [reflexivity|]. cbn.
  rewrite (proj2 (N.eqb_neq c NL)) by (intros ->; apply Hn; now left).
  rewrite IH by (intro; apply Hn; now right). reflexivity.
Qed.
Lemma mark_lines_nl name l a b : ~ In NL a ->
  mark_lines name l ((a ++ [NL]) ++ b) = mark (Some (name, (l, 0), None)%Z) (a ++ [NL]) ++ mark_lines name (l + 1) b.
Proof.
  induction a as [|c a IH]; intro Hn; [reflexivity|]. cbn [app mark_lines mark map].
  rewrite (proj2 (N.eqb_neq c NL)) by (intros ->; apply Hn; now left).
  rewrite IH by (intro; apply Hn; now right). reflexivity.
Qed.

Definition line_leaves (name : Z) : N -> list str -> list leaf :=
  fix go (i : N) (lines : list str) : list leaf :=
    match lines with
    | [] => []
    | line :: r => match line with [] => [] | _ => [(line, Some name, Some ((i + 1)%N, 0%N), None)] end
                   ++ go (i + 1)%N r
    end.
Lemma line_leaves_marks name : forall (body : list str) (last : str) i,
  (forall x, In x body -> exists a, x = a ++ [NL] /\ ~ In NL a) -> ~ In NL last ->
  flat_leaves (line_leaves name i (body ++ [last])) = mark_lines name (Z.of_N i + 1) (concat (body ++ [last])).
Proof.
  induction body as [|line body IH]; intros last i Hb Hl.
  - cbn [app concat line_leaves]. rewrite !app_nil_r, mark_lines_line by auto.
    destruct last; [reflexivity|]. cbn [flat_leaves flat_map flat_leaf attr_of].
    rewrite app_nil_r, N2Z.inj_add. reflexivity.
  - destruct (Hb line (or_introl eq_refl)) as (a & -> & Ha). cbn [app concat line_leaves].
    rewrite flat_leaves_app, IH; auto; [|intros; apply Hb; now right].
    rewrite mark_lines_nl by auto. f_equal; [|f_equal; lia].
    destruct (a ++ [NL]) eqn:E; [destruct a; discriminate|]. rewrite <- E.
    cbn [flat_leaves flat_map flat_leaf attr_of]. rewrite app_nil_r, N2Z.inj_add. reflexivity.
Qed.
Lemma line_leaves_solid name : forall lines i, Forall solid (line_leaves name i lines).
Proof.
  induction lines as [|line lines IH]; intro i; cbn [line_leaves]; [constructor|].
  apply Forall_app. split; auto. destruct line; constructor; [|constructor].
  split; [discriminate|]. lia.
Qed.

Lemma orig_lines_false name : forall lines i acc,
  exists ch, orig_lines false name i lines acc = Some ch /\
    all_leaves ch = all_leaves acc ++ line_leaves name i lines.
Proof.
  induction lines as [|line lines IH]; intros i acc; cbn [orig_lines negb line_leaves].
  - exists acc. rewrite app_nil_r. auto.
  - destruct (IH (i + 1)%N (add_chunk acc (CNode (sn_new (Some ((i + 1)%N, 0%N)) (Some name) None
                 (Some (CNode (SmStr line))))))) as (ch & Ech & E1).
    exists ch. split; [exact Ech|]. rewrite add_node_leaves, <- app_assoc in E1. exact E1.
Qed.

Lemma original_lines v vi name :
  exists n, original_node v vi name false = Some n /\ flat n = mark_lines name 1 v.
Proof.
  unfold original_node. rewrite split_all_keep by reflexivity. cbn [bind].
  destruct (orig_lines_false name (pieces NL v) 0 []) as (ch & -> & E1).
  cbn [bind]. eexists. split; [reflexivity|]. unfold flat. rewrite leaves_root, E1.
  cbn [all_leaves flat_map app].
  destruct (pieces_shape NL v) as (body & last & E & H1 & H2).
  pose proof (pieces_concat NL v) as Hc. rewrite E in *. rewrite line_leaves_marks, Hc by auto. reflexivity.
Qed.

Lemma l2l_lines_leaves name : forall lines i,
  all_leaves (l2l_lines name i lines) = line_leaves name i lines.
Proof.
  induction lines as [|line lines IH]; intro i; [reflexivity|]. cbn [l2l_lines line_leaves].
  change (all_leaves (?x :: ?l)) with (leaves x ++ all_leaves l). rewrite IH, leaves_sn_new. reflexivity.
Qed.
Lemma l2l_node_spec v name orig :
  exists n, l2l_node v name orig = Some n /\ flat n = mark_lines name 1 v /\ Forall solid (leaves n).
Proof.
  unfold l2l_node. rewrite split_all_keep by reflexivity. cbn [bind]. eexists. split; [reflexivity|].
  unfold flat. rewrite leaves_root. cbn [add_chunk app]. rewrite l2l_lines_leaves.
  split; [|apply line_leaves_solid].
  destruct (pieces_shape NL v) as (body & last & E & H1 & H2).
  pose proof (pieces_concat NL v) as Hc. rewrite E in *. rewrite line_leaves_marks, Hc by auto. reflexivity.
Qed.
Lemma text_mark_lines name l s : text_of (mark_lines name l s) = s.
Proof. revert l; induction s as [|c s IH]; intro l; cbn; [reflexivity|]. f_equal. apply IH. Qed.

(** ** ConcatSource *)
Definition concat_node (l : list (str + smnode)) : smnode :=
  sn_new None None None
    (Some (CVec (map (fun x => match x with inl s => SmStr s | inr n => n end) l))).
Definition child_flat (x : str + smnode) : marked :=
  match x with inl s => mark None s | inr n => flat n end.
Lemma concat_flat l : flat (concat_node l) = flat_map child_flat l.
Proof.
  unfold concat_node, sn_new, flat. rewrite leaves_root. cbn [add_chunk app]. rewrite flat_all_leaves.
  induction l as [|x l IH]; [reflexivity|]. cbn [map flat_map]. rewrite IH. f_equal.
  destruct x; [|reflexivity]. unfold flat. cbn. now rewrite app_nil_r.
Qed.

(** ** PrefixSource *)
Definition pre_leaf (p : str) (st : bool) (x : leaf) : leaf :=
  match x with (s, src, pos, name) => ((if st then p else []) ++ indent p s, src, pos, name) end.
(** Prefixing the leaves in turn; the flag says that a prefix is due. *)
Fixpoint pre_leaves (p : str) (st : bool) (l : list leaf) : list leaf * bool :=
  match l with
  | [] => ([], st)
  | x :: r => let '(r, st') := pre_leaves p (ends_with NL (leaf_text x)) r in (pre_leaf p st x :: r, st')
  end.

Definition b2z (b : bool) : Z := if b then 1 else 0.

Lemma pre_leaves_app p st a b :
  pre_leaves p st (a ++ b) =
  let '(a', st1) := pre_leaves p st a in
  let '(b', st2) := pre_leaves p st1 b in (a' ++ b', st2).
Proof.
  revert st; induction a as [|x a IH]; intro st; cbn [app pre_leaves].
  - destruct (pre_leaves p st b); reflexivity.
  - rewrite IH. destruct (pre_leaves p (ends_with NL (leaf_text x)) a) as [a' st1].
    destruct (pre_leaves p st1 b) as [b' st2]. reflexivity.
Qed.

Lemma clone_leaves p : forall n st src pos name,
  exists n', clone_and_prefix n p (b2z st) =
      Some (n', b2z (snd (pre_leaves p st (leaves_in src pos name n)))) /\
    leaves_in src pos name n' = fst (pre_leaves p st (leaves_in src pos name n)) /\
    match n, n' with SmStr _, SmStr _ => True | SmNode _ _ _ _ _, SmNode _ _ _ _ _ => True | _, _ => False end.
Proof.
  induction n as [s|pos src name ch ct IH] using smnode_ind'; intros st src0 pos0 name0.
  - cbn [clone_and_prefix leaves_in pre_leaves fst snd leaf_text].
    exists (SmStr ((if st then p else []) ++ indent p s)). split; [|split; auto].
    destruct st; cbn [b2z].
    + change (0 <? 1)%Z with true. cbn iota. rewrite make_prefixed_string_spec. cbn [bind].
      change (1 - 1)%Z with 0%Z. change (0 + 1)%Z with 1%Z. now destruct (ends_with NL s).
    + change (0 <? 0)%Z with false. cbn iota. rewrite make_prefixed_string_spec. cbn [bind].
      change (0 + 1)%Z with 1%Z. now destruct (ends_with NL s).
  - cbn [clone_and_prefix leaves_in].
    assert (G : forall st, exists ch',
      (fix go (l : list smnode) (append : Z) : option (list smnode * Z) :=
           match l with
           | [] => Some ([], append)
           | x :: r =>
               let* (x, append) := clone_and_prefix x p append in
               let* (r, append) := go r append in
               Some (x :: r, append)
           end) ch (b2z st) = Some (ch', b2z (snd (pre_leaves p st (flat_map (leaves_in src pos name) ch)))) /\
      flat_map (leaves_in src pos name) ch' = fst (pre_leaves p st (flat_map (leaves_in src pos name) ch))).
    { clear st. induction IH as [|x ch Hx _ IHch]; intro st.
      - exists []. split; reflexivity.
      - destruct (Hx st src pos name) as (x' & E1 & L1 & _). rewrite E1. cbn [bind flat_map].
        rewrite pre_leaves_app.
        destruct (pre_leaves p st (leaves_in src pos name x)) as [a st1] eqn:Ea. cbn [fst snd] in *.
        destruct (IHch st1) as (ch' & E2 & L2). rewrite E2. cbn [bind].
        destruct (pre_leaves p st1 (flat_map (leaves_in src pos name) ch)) as [b st2]. cbn [fst snd] in *.
        exists (x' :: ch'). split; [reflexivity|]. cbn [flat_map]. now rewrite L1, L2. }
    destruct (G st) as (ch' & E & L). rewrite E. cbn [bind]. eexists. split; [reflexivity|].
    split; [exact L|exact I].
Qed.

Lemma prefix_node_leaves p pos src name ch ct : let n := SmNode pos src name ch ct in
  exists n', prefix_node p n = Some n' /\ leaves n' = fst (pre_leaves p true (leaves n)).
Proof.
  intro n. unfold prefix_node. destruct (clone_leaves p n true None None None) as (n' & E & L & S).
  change 1%Z with (b2z true). rewrite E. cbn [bind]. eexists. split; [reflexivity|].
  destruct n'; [destruct S|]. unfold sn_new, leaves. cbn [add_chunk app].
  change (leaves_in None None None (SmNode None None None ?c [])) with (flat_map (leaves_in None None None) c).
  cbn [flat_map]. rewrite app_nil_r. exact L.
Qed.

Lemma mprefix_mark p a s st rest : s <> [] ->
  mprefix p st (mark a s ++ rest) =
  mark a ((if st then p else []) ++ indent p s) ++ mprefix p (ends_with NL s) rest.
Proof.
  revert st; induction s as [|c s IH]; intros st Hne; [congruence|].
  cbn [mark map app mprefix]. rewrite mark_app, <- !app_assoc. f_equal; [destruct st; reflexivity|].
  destruct s as [|d s].
  - reflexivity.
  - fold (mark a (d :: s)). rewrite IH by discriminate.
    change (indent p (c :: d :: s)) with
      (if N.eqb c NL then c :: p ++ indent p (d :: s) else c :: indent p (d :: s)).
    change (ends_with NL (c :: d :: s)) with (ends_with NL (d :: s)).
    destruct (N.eqb c NL); reflexivity.
Qed.

Lemma pre_leaves_flat p st l : Forall (fun x => leaf_text x <> []) l ->
  flat_leaves (fst (pre_leaves p st l)) = mprefix p st (flat_leaves l).
Proof.
  intro H. revert st; induction H as [|x l Hx _ IH]; intro st; [reflexivity|].
  destruct x as [[[s src] pos] name]. cbn [pre_leaves leaf_text fst snd] in *.
  specialize (IH (ends_with NL s)). destruct (pre_leaves p (ends_with NL s) l) as [l' st'].
  cbn [fst flat_leaves flat_map pre_leaf flat_leaf] in *. fold (flat_leaves l') (flat_leaves l) in *.
  rewrite IH, mprefix_mark by auto. reflexivity.
Qed.

(** The text of a prefixed node, without any condition. *)
Lemma indent_app p a b : indent p (a ++ b) =
  indent p a ++ (if ends_with NL a then match b with [] => [] | _ => p end else []) ++ indent p b.
Proof.
  induction a as [|c a IH]; [reflexivity|].
  destruct a as [|d a].
  - destruct b as [|e b].
    + cbn. destruct (N.eqb c NL); reflexivity.
    + change (indent p ([c] ++ e :: b)) with (if N.eqb c NL then c :: p ++ indent p (e :: b) else c :: indent p (e :: b)).
      cbn [ends_with indent app]. destruct (N.eqb c NL); reflexivity.
  - change (indent p ((c :: d :: a) ++ b)) with
      (if N.eqb c NL then c :: p ++ indent p ((d :: a) ++ b) else c :: indent p ((d :: a) ++ b)).
    rewrite IH. change (ends_with NL (c :: d :: a)) with (ends_with NL (d :: a)).
    change (indent p (c :: d :: a)) with (if N.eqb c NL then c :: p ++ indent p (d :: a) else c :: indent p (d :: a)).
    destruct (N.eqb c NL); cbn [app]; rewrite <- ?app_assoc; reflexivity.
Qed.
Lemma text_flat_leaves l : text_of (flat_leaves l) = texts l.
Proof.
  induction l as [|[[[s src] pos] name] l IH]; [reflexivity|].
  cbn [flat_leaves flat_map texts leaf_text flat_leaf fst]. rewrite text_app, text_mark.
  fold (flat_leaves l) (texts l). now rewrite IH.
Qed.
Lemma text_flat n : text_of (flat n) = texts (leaves n).
Proof. apply text_flat_leaves. Qed.
Lemma last_empty_cons x y l : last_empty (x :: y :: l) = last_empty (y :: l).
Proof.
  unfold last_empty. change (rev (x :: y :: l)) with (rev (y :: l) ++ [x]).
  destruct (rev (y :: l)) eqn:E; [|reflexivity].
  apply (f_equal (@length _)) in E. rewrite rev_length in E. discriminate.
Qed.
Lemma ends_with_app c a b : ends_with c (a ++ b) = match b with [] => ends_with c a | _ => ends_with c b end.
Proof.
  induction a as [|d a IH]; [destruct b; reflexivity|].
  destruct a as [|e a].
  - destruct b; reflexivity.
  - change (ends_with c ((d :: e :: a) ++ b)) with (ends_with c ((e :: a) ++ b)). rewrite IH. reflexivity.
Qed.

Lemma pre_leaves_text p : forall l st, l <> [] ->
  texts (fst (pre_leaves p st l)) =
  (if st then p else []) ++ indent p (texts l)
  ++ (if ends_with NL (texts l) && last_empty l then p else []).
Proof.
  induction l as [|x l IH]; intros st Hne; [congruence|].
  cbn [pre_leaves]. destruct (pre_leaves p (ends_with NL (leaf_text x)) l) as [l' st'] eqn:E.
  destruct x as [[[s src] pos] name]. cbn [fst texts flat_map leaf_text pre_leaf] in *.
  fold (texts l') (texts l). rewrite <- app_assoc. f_equal.
  destruct l as [|y l].
  - cbn in E. injection E as <- <-. cbn [texts flat_map]. rewrite !app_nil_r. f_equal.
    destruct s; [reflexivity|]. change (last_empty _) with false. now rewrite andb_false_r, app_nil_r.
  - rewrite last_empty_cons. specialize (IH (ends_with NL s) ltac:(discriminate)).
    rewrite E in IH. cbn [fst] in IH. rewrite IH. clear IH E.
    rewrite indent_app, ends_with_app, <- !app_assoc. f_equal.
    remember (texts (y :: l)) as t0 eqn:Et. symmetry in Et. destruct t0 as [|c t0]; [|reflexivity].
    cbn [indent app ends_with andb]. destruct (ends_with NL s); [|reflexivity].
    replace (last_empty (y :: l)) with true; [cbn; now rewrite app_nil_r|].
    symmetry. unfold last_empty. destruct (rev (y :: l)) as [|z r] eqn:Er.
    { apply (f_equal (@length _)) in Er. rewrite rev_length in Er. discriminate. }
    assert (Hz : leaf_text z = []).
    { assert (Hin : In z (y :: l)) by (apply in_rev; rewrite Er; now left).
      unfold texts in Et. clear -Et Hin. revert Et Hin. generalize (y :: l). intro m.
      induction m as [|w m IHm]; intros Et Hin; [destruct Hin|]. cbn in Et.
      apply app_eq_nil in Et as [E1 E2]. destruct Hin as [->|Hin]; auto. }
    now rewrite Hz.
Qed.

(** Solid leaves stay solid. *)
Lemma pre_leaves_solid p st l : Forall solid l -> Forall solid (fst (pre_leaves p st l)).
Proof.
  intro H. revert st; induction H as [|x l Hx _ IH]; intro st; [constructor|].
  cbn [pre_leaves]. specialize (IH (ends_with NL (leaf_text x))).
  destruct (pre_leaves p (ends_with NL (leaf_text x)) l) as [l' st']. cbn [fst] in *.
  constructor; auto. destruct x as [[[s src] pos] name]. destruct Hx as [H1 H2].
  split; [|exact H2]. cbn in *. destruct s as [|c [|d s]]; [congruence| |].
  - destruct st; destruct p; discriminate.
  - cbn [indent]. destruct st, p, (N.eqb c NL); discriminate.
Qed.
Lemma pre_leaves_ok p st l : Forall leaf_ok l -> Forall leaf_ok (fst (pre_leaves p st l)).
Proof.
  intro H. revert st; induction H as [|x l Hx _ IH]; intro st; [constructor|].
  cbn [pre_leaves]. specialize (IH (ends_with NL (leaf_text x))).
  destruct (pre_leaves p (ends_with NL (leaf_text x)) l) as [l' st']. cbn [fst] in *.
  constructor; auto. destruct x as [[[s [z|]] [[li co]|]] name]; cbn in *; auto.
  destruct Hx as [H1 H2]. split; auto. destruct s as [|c [|d s]]; [congruence| |].
  - destruct st; destruct p; discriminate.
  - cbn [indent]. destruct st, p, (N.eqb c NL); discriminate.
Qed.
