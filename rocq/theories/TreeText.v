(** Texts and sizes of source trees, histories of ReplaceSource at tree level. *)
From Verif Require Import Base Tactics ModelString StringFacts ModelVlq ModelSm ModelSlm
  ModelSources ModelTree SpecText SortFacts TextFacts EditFacts.

(** ** source never panics; size *)
Lemma child_source x s : t_source x = Some s ->
  exists y, child source_alg x = Some y /\ (match y with inl a => a | inr a => a end) = s.
Proof.
  unfold t_source, child. destruct x; intro H;
    try (rewrite H; eexists; split; reflexivity).
  injection H as <-. eexists; split; reflexivity.
Qed.

Lemma children_source l : Forall (fun t => exists s, t_source t = Some s) l ->
  exists ys, children source_alg l = Some ys /\
    forall ss, map t_source l = map Some ss ->
      map (fun y : str + str => match y with inl a => a | inr a => a end) ys = ss.
Proof.
  induction 1 as [|t l (s & Hs) _ (ys & E & IH)].
  - exists []. split; [reflexivity|]. intros [|? ?] H; [reflexivity|discriminate].
  - destruct (child_source t s Hs) as (y & Ey & Hy).
    exists (y :: ys). cbn [children]. rewrite Ey, E. split; [reflexivity|].
    intros [|s' ss] H; [discriminate|]. cbn [map] in *. rewrite Hs in H. injection H as <- H.
    f_equal; auto.
Qed.

Lemma concat_source l ss : map t_source l = map Some ss ->
  t_source (TConcat l) = Some (concat ss).
Proof.
  intro H. unfold t_source. rewrite fold_concat.
  assert (HF : Forall (fun t => exists s, t_source t = Some s) l).
  { revert ss H. induction l as [|t l IH]; intros [|s ss] H; try discriminate; constructor.
    - injection H as H _. eauto.
    - injection H as _ H. eauto. }
  destruct (children_source l HF) as (ys & E & Hys). rewrite E. cbn [bind a_concat source_alg].
  f_equal. rewrite <- (Hys ss H). rewrite <- flat_map_concat_map. reflexivity.
Qed.

Lemma source_total t : exists s, t_source t = Some s.
Proof.
  induction t as [s|v|v i n|v n o|p t [s IH]|t st [s IH]|l IH|x] using tree_ind';
    try (eexists; reflexivity).
  - unfold t_source in *. cbn [fold_tree]. rewrite IH. cbn. rewrite prefix_source_spec. eauto.
  - unfold t_source in *. cbn [fold_tree]. rewrite IH. cbn. rewrite replace_text_spec. eauto.
  - assert (exists ss, map t_source l = map Some ss) as [ss H].
    { induction IH as [|t l [s Hs] _ [ss IHl]]; [exists []; reflexivity|].
      exists (s :: ss). simpl. congruence. }
    rewrite (concat_source l ss H). eauto.
Qed.

Fixpoint sizes (l : list tree) : option nat :=
  match l with
  | [] => Some 0
  | x :: r => let* n := t_size x in let* m := sizes r in Some (n + m)
  end.
Lemma size_concat l : t_size (TConcat l) = sizes l.
Proof. reflexivity. Qed.

Lemma blen_concat ss : blen (concat ss) = list_sum (map blen ss).
Proof. induction ss; simpl; auto. rewrite blen_app. lia. Qed.

Lemma size_spec t s : t_source t = Some s -> t_size t = Some (blen s).
Proof.
  revert s.
  induction t as [s0|v|v i n|v n o|p t IH|t st IH|l IH|x] using tree_ind'; intros s H;
    try (injection H as <-; reflexivity).
  - cbn [t_size]. now rewrite H.
  - cbn [t_size]. now rewrite H.
  - assert (exists ss, map t_source l = map Some ss) as [ss Hss].
    { clear. induction l as [|t l [ss IHl]]; [exists []; reflexivity|].
      destruct (source_total t) as [s Hs]. exists (s :: ss). simpl. congruence. }
    rewrite (concat_source l ss Hss) in H. injection H as <-.
    rewrite size_concat, blen_concat. revert ss Hss.
    induction IH as [|t l Ht _ IHl]; intros [|s ss] Hss; try discriminate; [reflexivity|].
    injection Hss as H1 H2. cbn [sizes map list_sum fold_right].
    now rewrite (Ht s), (IHl ss).
Qed.

(** ** Building a concatenation *)
Lemma concat_add_source acc item a b :
  t_source (TConcat acc) = Some a -> t_source item = Some b ->
  t_source (TConcat (concat_add acc item)) = Some (a ++ b).
Proof.
  assert (Hts : forall l, exists ss, map t_source l = map Some ss).
  { induction l as [|t l [ss IHl]]; [exists []; reflexivity|].
    destruct (source_total t) as [s Hs]. exists (s :: ss). simpl. congruence. }
  intros Ha Hb. destruct (Hts acc) as [sa Hsa].
  rewrite (concat_source _ _ Hsa) in Ha. injection Ha as <-.
  destruct item as [s|v|v i n|v n o|p t|t st|l|x];
    try (match goal with |- t_source (TConcat (concat_add acc ?t)) = _ =>
           rewrite (concat_source (concat_add acc t) (sa ++ [b])) end;
         [now rewrite concat_app; cbn [concat]; rewrite app_nil_r
         |cbn [concat_add]; rewrite !map_app, Hsa; cbn [map]; now rewrite Hb]).
  destruct (Hts l) as [sl Hsl].
  rewrite (concat_source _ _ Hsl) in Hb. injection Hb as <-.
  rewrite (concat_source (concat_add acc (TConcat l)) (sa ++ sl)); [now rewrite concat_app|].
  cbn [concat_add]. now rewrite !map_app, Hsa, Hsl.
Qed.

Lemma concat_adds_source items ss acc a :
  t_source (TConcat acc) = Some a -> map t_source items = map Some ss ->
  t_source (TConcat (fold_left concat_add items acc)) = Some (a ++ concat ss).
Proof.
  revert ss acc a. induction items as [|x items IH]; intros [|s ss] acc a Ha H; try discriminate.
  - simpl. now rewrite app_nil_r.
  - injection H as H1 H2. cbn [fold_left concat]. rewrite app_assoc. apply IH; auto.
    now apply concat_add_source.
Qed.

(** ** The call index of a replacement is only used for ordering *)
Definition strip (r : repl) : repl := mk_repl (rp_start r) (rp_end r) (rp_text r) 0.

Lemma replace_loop_strip rs st : replace_loop (map strip rs) st = replace_loop rs st.
Proof.
  revert st; induction rs as [|r rs IH]; intro st; [reflexivity|].
  cbn [map replace_loop]. destruct st as [|[rem f] st]; auto.
  change (rp_end_pos (strip r)) with (rp_end_pos r).
  destruct (split_str_or_all rem (rp_end_pos r) f) as [[[[l1 r1] lf1] rf1]|]; auto. cbn [bind].
  change (rp_start_pos (strip r)) with (rp_start_pos r).
  destruct (split_str_or_all l1 (rp_start_pos r) lf1) as [[[[l2 r2] lf2] rf2]|]; auto.
  cbn [bind]. apply IH.
Qed.
Lemma replace_text_strip rs s : replace_text (map strip rs) s = replace_text rs s.
Proof. unfold replace_text. now rewrite replace_loop_strip. Qed.

Lemma replace_node_loop_strip rs st : replace_node_loop (map strip rs) st = replace_node_loop rs st.
Proof.
  revert st; induction rs as [|r rs IH]; intro st; [reflexivity|].
  cbn [map replace_node_loop]. destruct st as [|rem st]; auto.
  change (rp_end_pos (strip r)) with (rp_end_pos r).
  change (rp_start_pos (strip r)) with (rp_start_pos r).
  change (rp_text (strip r)) with (rp_text r).
  destruct (split_sourcenode rem (rp_end_pos r)) as [[l1 r1|m l1]|]; auto; cbn [bind].
  - destruct (split_sourcenode l1 (rp_start_pos r)) as [[l2 r2|m l2]|]; auto; cbn [bind].
    + destruct (replacement_to_sourcenode r2 (rp_text r)); auto. cbn [bind]. apply IH.
    + destruct (replacement_to_sourcenode r1 (rp_text r)); auto. cbn [bind]. apply IH.
  - destruct (split_sourcenode l1 (rp_start_pos r)) as [[l2 r2|m2 l2]|]; auto; cbn [bind].
    + destruct (replacement_to_sourcenode r2 (rp_text r)); auto. cbn [bind]. apply IH.
    + apply IH.
Qed.
Lemma replace_node_strip rs n : replace_node (map strip rs) n = replace_node rs n.
Proof. unfold replace_node. now rewrite replace_node_loop_strip. Qed.

Lemma nth_error_strip rs k : nth_error (map strip rs) k = option_map strip (nth_error rs k).
Proof. apply nth_error_map. Qed.

Lemma rmap_loop_strip rs code k ci cur out sb :
  rmap_loop (map strip rs) code k ci cur out sb = rmap_loop rs code k ci cur out sb.
Proof.
  revert ci cur out sb; induction k as [|k IH]; intros ci cur out sb; [reflexivity|].
  cbn [rmap_loop]. rewrite nth_error_strip.
  destruct (nth_error rs k) as [r|]; [|reflexivity]. cbn [option_map bind].
  change (rp_end_pos (strip r)) with (rp_end_pos r).
  change (rp_start_pos (strip r)) with (rp_start_pos r).
  change (rp_text (strip r)) with (rp_text r).
  destruct (code_step ci (to_i32 (rp_start_pos r - cur))) as [ci' [p ch|n ch]]; auto.
  destruct (str_range code sb p) as [seg|]; auto. cbn [bind].
  destruct (code_step ci' (to_i32 (rp_end_pos r - to_i32 (cur + ch)))) as [ci2 [p2 ch2|n2 ch2]]; auto.
Qed.

Lemma replace_mapfun_strip rs st code :
  replace_mapfun (map strip rs) st code = replace_mapfun rs st code.
Proof.
  unfold replace_mapfun. destruct (0 <? rm_remove st)%Z.
  - destruct (code_step _ (rm_remove st)) as [ci [p ch|n ch]]; auto. now rewrite rmap_loop_strip.
  - now rewrite rmap_loop_strip.
Qed.

Lemma map_loop_ext {S} (f g : mapfun S) st l acc : (forall s c, f s c = g s c) ->
  map_loop f st l acc = map_loop g st l acc.
Proof.
  intro H. revert st acc; induction l as [|n l IH]; intros st acc; [reflexivity|].
  cbn [map_loop].
  replace (node_map f st n) with (node_map g st n)
    by (destruct n; cbn [node_map]; now rewrite ?H).
  destruct (node_map g st n) as [[st' o]|]; auto. cbn [bind]. apply IH.
Qed.
Lemma map_generated_code_ext {S} (f g : mapfun S) st m : (forall s c, f s c = g s c) ->
  map_generated_code f st m = map_generated_code g st m.
Proof.
  intro H. unfold map_generated_code. destruct (normalize_all m); auto. cbn [bind].
  now rewrite (map_loop_ext f g).
Qed.

Lemma extra_code_strip rs k : extra_code (map strip rs) k = extra_code rs k.
Proof.
  induction k as [|k IH]; [reflexivity|]. cbn [extra_code]. rewrite nth_error_strip, IH.
  now destruct (nth_error rs k).
Qed.
Lemma replace_list_map_strip rs m : replace_list_map (map strip rs) m = replace_list_map rs m.
Proof.
  unfold replace_list_map. rewrite map_length.
  rewrite (map_generated_code_ext _ (replace_mapfun rs)) by apply replace_mapfun_strip.
  destruct (map_generated_code _ _ _) as [[st m']|]; auto. cbn [bind]. now rewrite extra_code_strip.
Qed.

(** What any reading method sees of a ReplaceSource. *)
Definition same_edits (a b : rstate) : Prop :=
  map strip (rs_repls (sort_replacements a)) = map strip (rs_repls (sort_replacements b)).

Lemma same_edits_source t a b : same_edits a b -> t_source (TReplace t a) = t_source (TReplace t b).
Proof.
  intro H. unfold t_source. cbn [fold_tree]. destruct (fold_tree source_alg t); auto. cbn.
  now rewrite <- replace_text_strip, H, replace_text_strip.
Qed.
Lemma same_edits_node c m t a b : same_edits a b ->
  t_node c m (TReplace t a) = t_node c m (TReplace t b).
Proof.
  intro H. unfold t_node. cbn [fold_tree]. destruct (fold_tree (node_alg c m) t); auto. cbn.
  now rewrite <- replace_node_strip, H, replace_node_strip.
Qed.
Lemma same_edits_list_map c m t a b : same_edits a b ->
  t_list_map c m (TReplace t a) = t_list_map c m (TReplace t b).
Proof.
  intro H. unfold t_list_map. cbn [fold_tree]. destruct (fold_tree (list_map_alg c m) t); auto. cbn.
  now rewrite <- replace_list_map_strip, H, replace_list_map_strip.
Qed.

Lemma run_same_edits h h' : Forall call_ok h -> Forall call_ok h' ->
  arrange key_le (edits_of h) = arrange key_le (edits_of h') -> same_edits (run h) (run h').
Proof.
  intros H1 H2 E. unfold same_edits. rewrite !run_sorted by auto.
  assert (G : forall es, map strip (map to_repl (rev (arranged es))) =
                         map (fun e => mk_repl (e_lo e) (e_hi e) (e_text e) 0)
                           (rev (arrange key_le es))).
  { intro es. rewrite <- arranged_fst, <- map_rev, !map_map. reflexivity. }
  now rewrite !G, E.
Qed.

(** Distinct keys: the arrangement does not depend on the call order. *)
Definition ekey (e : edit) : Z * Z := (e_hi e, e_lo e).
Lemma arrange_unique a b : NoDup (map ekey a) -> Permutation a b ->
  arrange key_le a = arrange key_le b.
Proof.
  intros HN HP.
  assert (HS : forall es, StronglySorted (fun x y => key_le x y = true) (arrange key_le es))
    by apply key_le_sorted.
  pose (cmp := fun x y : edit => cmp_then (Z.compare (e_hi x) (e_hi y)) (Z.compare (e_lo x) (e_lo y))).
  assert (Hle : forall x y, key_le x y = true -> cle cmp x y).
  { intros x y H. unfold cle, cmp, key_le in *.
    destruct (Z.compare_spec (e_hi x) (e_hi y)); simpl; try lia; try congruence.
    destruct (Z.compare_spec (e_lo x) (e_lo y)); simpl; try lia; congruence. }
  assert (HS' : forall es, StronglySorted (cle cmp) (arrange key_le es)).
  { intro es. specialize (HS es). induction HS; constructor; auto.
    eapply Forall_impl; [|eassumption]. auto. }
  apply (sorted_perm_unique cmp).
  - intros x y. unfold cmp. rewrite cmp_then_opp. now rewrite <- !Z.compare_antisym.
  - intros x y Hx Hy E. unfold cmp in E. apply cmp_then_eq in E as [E1 E2].
    apply Z.compare_eq in E1. apply Z.compare_eq in E2.
    assert (Ek : ekey x = ekey y) by (unfold ekey; congruence).
    assert (HN' : NoDup (map ekey (arrange key_le a))).
    { eapply Permutation_NoDup; [apply Permutation_map, arrange_perm|exact HN]. }
    clear -Hx Hy Ek HN'. induction (arrange key_le a) as [|z l IH]; [destruct Hx|].
    cbn [map] in HN'. inv HN'. destruct Hx as [->|Hx], Hy as [->|Hy]; auto.
    + exfalso. apply H1. rewrite Ek. now apply in_map.
    + exfalso. apply H1. rewrite <- Ek. now apply in_map.
  - apply HS'.
  - apply HS'.
  - rewrite <- !arrange_perm. auto.
Qed.

(** Texts of edited sources. *)
Lemma replace_source_text t s h : t_source t = Some s -> Forall call_ok h ->
  Forall edit_ok (edits_of h) ->
  t_source (TReplace t (run h)) = Some (edited_any (edits_of h) s).
Proof.
  intros Ht Hh He. unfold t_source in *. cbn [fold_tree]. rewrite Ht. cbn. now apply run_text.
Qed.

Lemma replace_source_pieces t s h : t_source t = Some s -> Forall call_ok h ->
  exists p0 l, t_source (TReplace t (run h)) = Some (firstn p0 s ++ interleave s l) /\
    map (fun x => fst (fst x)) l = map e_text (arrange key_le (edits_of h)) /\
    in_order p0 l (length s).
Proof.
  intros Ht Hh. unfold t_source in *. cbn [fold_tree]. rewrite Ht. cbn.
  rewrite replace_text_spec, run_sorted by auto.
  destruct (splice_pieces (map to_repl (rev (arranged (edits_of h)))) s (length s))
    as (p0 & l & E & Hm & Ho); [lia|].
  exists p0, l. rewrite E. repeat split; auto. rewrite Hm.
  rewrite map_map, <- map_rev, rev_involutive. rewrite <- arranged_fst, map_map. reflexivity.
Qed.

Lemma ulen_ascii s : forallb is_ascii s = true -> ulen s = blen s.
Proof.
  induction s as [|c s IH]; [reflexivity|]. cbn [forallb ulen blen]. rewrite andb_true_iff.
  intros [H1 H2]. rewrite IH, len_utf8_ascii by auto. f_equal.
  unfold len_utf16, is_ascii in *. destruct (c <? 65536)%N eqn:E; lia.
Qed.

(** [arrange] is stable: edits with equal keys stay in call order. *)
Definition has_key (k : Z * Z) (e : edit) : bool :=
  (e_hi e =? fst k)%Z && (e_lo e =? snd k)%Z.

Lemma filter_none {A} (f : A -> bool) l : Forall (fun x => f x = false) l -> filter f l = [].
Proof. induction 1 as [|x l H _ IH]; simpl; auto. now rewrite H. Qed.

Lemma put_filter k x l : StronglySorted (fun a b => key_le a b = true) l ->
  filter (has_key k) (put key_le x l) = filter (has_key k) l ++ filter (has_key k) [x].
Proof.
  induction 1 as [|y l H1 IH H2]; [reflexivity|].
  cbn [put]. destruct (key_le y x) eqn:E.
  - cbn [filter]. rewrite IH. destruct (has_key k y); reflexivity.
  - cbn [filter]. destruct (has_key k x) eqn:Hx.
    + assert (Hn : Forall (fun z => has_key k z = false) (y :: l)).
      { constructor; [|eapply Forall_impl; [|exact H2]]; unfold has_key, key_le in *; intros; lia. }
      inv Hn. rewrite filter_none by auto. match goal with H : has_key k y = false |- _ => now rewrite H end.
    + now rewrite app_nil_r.
Qed.

Lemma key_le_trans a b c : key_le a b = true -> key_le b c = true -> key_le a c = true.
Proof. unfold key_le. lia. Qed.
Lemma put_sorted x l : StronglySorted (fun a b => key_le a b = true) l ->
  StronglySorted (fun a b => key_le a b = true) (put key_le x l).
Proof.
  induction 1 as [|y l H1 IH H2]; [repeat constructor|].
  cbn [put]. destruct (key_le y x) eqn:E.
  - constructor; auto. rewrite <- put_perm. constructor; auto.
  - assert (key_le x y = true) by (unfold key_le in *; lia).
    constructor; [constructor; auto|]. constructor; auto.
    eapply Forall_impl; [|exact H2]. intros z Hz. simpl in Hz. eapply key_le_trans; eauto.
Qed.
Lemma arrange_stable k es :
  filter (has_key k) (arrange key_le es) = filter (has_key k) es.
Proof.
  unfold arrange.
  assert (G : forall acc, StronglySorted (fun a b => key_le a b = true) acc ->
    filter (has_key k) (fold_left (fun acc x => put key_le x acc) es acc) =
    filter (has_key k) acc ++ filter (has_key k) es).
  { induction es as [|x es IH]; intros acc HS; cbn [fold_left].
    - now rewrite app_nil_r.
    - rewrite IH by now apply put_sorted. rewrite put_filter by auto.
      rewrite <- app_assoc, <- filter_app. reflexivity. }
  apply G. constructor.
Qed.

(** ** Statements used by PropertiesText.v *)
Lemma concat_nesting a b c ta tb tc :
  map t_source a = map Some ta -> map t_source b = map Some tb -> map t_source c = map Some tc ->
  t_source (TConcat (a ++ [TConcat b] ++ c)) = Some (concat (ta ++ tb ++ tc)) /\
  t_source (TConcat (a ++ b ++ c)) = Some (concat (ta ++ tb ++ tc)).
Proof.
  intros Ha Hb Hc. split.
  - rewrite (concat_source _ (ta ++ [concat tb] ++ tc)).
    + rewrite !concat_app. cbn [concat]. now rewrite app_nil_r.
    + rewrite !map_app, Ha, Hc. cbn [map]. now rewrite (concat_source b tb).
  - rewrite (concat_source _ (ta ++ tb ++ tc)); auto. now rewrite !map_app, Ha, Hb, Hc.
Qed.

Lemma prefix_text p s t : t_source t = Some s -> t_source (TPrefix p t) = Some (prefixed p s).
Proof.
  unfold t_source. intro H. cbn [fold_tree]. rewrite H. cbn. apply prefix_source_spec.
Qed.

Lemma indent_lines p x body last :
  (forall y, In y (x :: body) -> exists a, y = a ++ [NL] /\ ~ In NL a) -> ~ In NL last ->
  indent p (concat ((x :: body) ++ [last])) =
    x ++ match last with
         | [] => flat_map (fun x => p ++ x) body
         | _ => flat_map (fun x => p ++ x) (body ++ [last])
         end.
Proof.
  revert x; induction body as [|y body IH]; intros x Hb Hl.
  - destruct (Hb x) as (a & -> & Ha); [simpl; auto|]. cbn [app concat].
    rewrite app_nil_r. destruct last as [|c last].
    + rewrite !app_nil_r. now apply indent_nl_end.
    + rewrite <- !app_assoc. cbn [app flat_map]. rewrite indent_app_nl by (auto; discriminate).
      now rewrite (indent_no_nl p (c :: last)), app_nil_r.
  - destruct (Hb x) as (a & -> & Ha); [simpl; auto|].
    change (concat (((a ++ [NL]) :: y :: body) ++ [last]))
      with ((a ++ [NL]) ++ concat ((y :: body) ++ [last])).
    rewrite <- (app_assoc a). 
    set (u := concat ((y :: body) ++ [last])). change ([NL] ++ u) with (NL :: u).
    rewrite indent_app_nl; auto.
    + unfold u. rewrite (IH y); [|intros z Hz; apply Hb; simpl in *; tauto|auto].
      destruct last; cbn [app flat_map]; now rewrite <- !app_assoc.
    + destruct (Hb y) as (b & -> & _); [simpl; auto|].
      unfold u. cbn [app concat]. destruct b; discriminate.
Qed.

Lemma prefixed_lines p body last :
  (forall x, In x body -> exists a, x = a ++ [NL] /\ ~ In NL a) -> ~ In NL last ->
  prefixed p (concat (body ++ [last])) =
    match body, last with
    | [], _ => p ++ last
    | _, [] => flat_map (fun x => p ++ x) body
    | _, _ => flat_map (fun x => p ++ x) (body ++ [last])
    end.
Proof.
  intros Hb Hl. unfold prefixed. destruct body as [|x body].
  - cbn [app concat]. rewrite app_nil_r. now rewrite indent_no_nl.
  - rewrite indent_lines by auto. destruct last; cbn [app flat_map]; now rewrite <- app_assoc.
Qed.

Lemma replace_source_apart t s h :
  t_source t = Some s -> Forall call_ok h -> Forall edit_ok (edits_of h) ->
  Forall forward (edits_of h) -> ForallOrdPairs apart (edits_of h) ->
  t_source (TReplace t (run h)) = Some (edited (edits_of h) s).
Proof.
  intros. rewrite (replace_source_text t s) by auto. f_equal. now apply edited_any_apart.
Qed.

Lemma reads_do_not_matter t h h' c m :
  Forall call_ok h -> Forall call_ok h' -> edits_of h = edits_of h' ->
  t_source (TReplace t (run h)) = t_source (TReplace t (run h')) /\
  t_node c m (TReplace t (run h)) = t_node c m (TReplace t (run h')) /\
  t_list_map c m (TReplace t (run h)) = t_list_map c m (TReplace t (run h')).
Proof.
  intros H1 H2 E. assert (same_edits (run h) (run h')) by (apply run_same_edits; auto; congruence).
  auto using same_edits_source, same_edits_node, same_edits_list_map.
Qed.

Lemma order_does_not_matter t h h' c m :
  Forall call_ok h -> Forall call_ok h' -> Permutation (edits_of h) (edits_of h') ->
  NoDup (map (fun e => (e_hi e, e_lo e)) (edits_of h)) ->
  t_source (TReplace t (run h)) = t_source (TReplace t (run h')) /\
  t_node c m (TReplace t (run h)) = t_node c m (TReplace t (run h')) /\
  t_list_map c m (TReplace t (run h)) = t_list_map c m (TReplace t (run h')).
Proof.
  intros H1 H2 HP HN.
  assert (same_edits (run h) (run h')).
  { apply run_same_edits; auto. now apply arrange_unique. }
  auto using same_edits_source, same_edits_node, same_edits_list_map.
Qed.

From Verif Require Import SliceFacts Utf8.

Lemma size_utf8 t : exists s,
  t_source t = Some s /\ t_size t = Some (length (utf8 s)) /\
  (forallb is_ascii s = true -> t_size t = Some (ulen s)).
Proof.
  destruct (source_total t) as [s H]. exists s. rewrite utf8_length.
  rewrite (size_spec t s H). repeat split; auto. intro. now rewrite ulen_ascii.
Qed.

Lemma msplit_from pat keep s : is_ascii pat = true ->
  exists l, msplit_collect (length s + 2) (msplit_new (m_from s) pat keep) = Some l /\
    Forall2 (fun x piece => sl_buf x = s /\ m_view x = Some piece) l
      (if keep then pieces pat s else fields pat s).
Proof.
  intro Hp.
  destruct (msplit_collect_spec pat keep (length s + 2) [] s [] Hp) as (l & E & HF); [lia|].
  cbn [app] in HF. rewrite app_nil_r in HF. exists l. split; auto.
  rewrite <- E. unfold msplit_new, m_from, mslice. cbn [app]. now rewrite app_nil_r.
Qed.

Lemma m_split_at_boundary x l r mid :
  m_view x = Some (l ++ r) -> mid = blen l \/ (r = [] /\ blen l <= mid) ->
  m_view (fst (m_split_at x (Z.of_nat mid))) = Some l /\
  m_view (snd (m_split_at x (Z.of_nat mid))) = Some r.
Proof.
  intros Hv Hm. apply (m_split_at_view x (l ++ r)); auto.
  destruct Hm as [->|[-> Hm]].
  - apply ss_split_at_app.
  - rewrite app_nil_r. unfold ss_split_at. rewrite Nat.min_r by lia.
    rewrite <- (app_nil_r l) at 1. apply split_at_bytes_app.
Qed.

Lemma split_string_slice_total s pos : (pos < 2147483648)%Z -> split_string_slice s pos false <> None.
Proof. intro H. rewrite split_string_slice_chars by auto. discriminate. Qed.

Lemma bytes_are_chars pat s : is_ascii pat = true ->
  byte_position pat (utf8 s) 0 = find_byte pat s 0 /\
  byte_count pat (utf8 s) = count_char pat s /\ length (utf8 s) = blen s.
Proof.
  intro H. repeat split; auto using byte_position_find, byte_count_count, utf8_length.
Qed.

Lemma split_keep_lossless pat s : is_ascii pat = true ->
  exists body last,
    split_all (ss_split_keep s pat) = Some (body ++ [last]) /\
    concat (body ++ [last]) = s /\
    (forall x, In x body -> exists a, x = a ++ [pat] /\ ~ In pat a) /\ ~ In pat last /\
    length body = count_char pat s.
Proof.
  intro Hp. rewrite split_all_keep by auto.
  destruct (pieces_shape pat s) as (body & last & E & H1 & H2).
  exists body, last. rewrite <- E, pieces_concat. repeat split; auto.
  pose proof (pieces_count pat s) as Hc. rewrite E, app_length in Hc. simpl in Hc. lia.
Qed.
Lemma split_drop_lossless pat s : is_ascii pat = true ->
  exists l, split_all (ss_split s pat) = Some l /\ join pat l = s /\
    length l = S (count_char pat s) /\ (forall x, In x l -> ~ In pat x).
Proof.
  intro Hp. rewrite split_all_drop by auto. exists (fields pat s).
  repeat split; auto using fields_join, fields_count. intros x. apply fields_shape.
Qed.

Lemma split_str_chars_clean s pos : (pos < 2147483648)%Z ->
  exists lf, split_str s pos false =
  Some (if (pos <=? Z.of_nat (length s))%Z
        then SplitOk (firstn (Z.to_nat pos) s) (skipn (Z.to_nat pos) s) lf false
        else SplitErr (pos - Z.of_nat (length s)) s false).
Proof.
  intro H. rewrite split_str_chars by auto. destruct (Z.leb_spec pos 0).
  - exists true. destruct (Z.leb_spec pos (Z.of_nat (length s))); [|lia].
    replace (Z.to_nat pos) with 0 by lia. reflexivity.
  - exists false. reflexivity.
Qed.
Lemma split_str_fast_clean s pos : (pos < 2147483648)%Z -> forallb is_ascii s = true ->
  split_str s pos true =
  Some (if (pos <=? 0)%Z || (pos <? Z.of_nat (length s))%Z
        then SplitOk (firstn (Z.to_nat pos) s) (skipn (Z.to_nat pos) s) true true
        else SplitErr (pos - Z.of_nat (length s)) s true).
Proof.
  intros H Ha. rewrite split_str_fast by auto. destruct (Z.leb_spec pos 0); simpl; auto.
  replace (Z.to_nat pos) with 0 by lia. reflexivity.
Qed.
Lemma split_string_slice_same s pos f : (pos < 2147483648)%Z ->
  (f = true -> forallb is_ascii s = true) ->
  split_string_slice s pos f = split_str s pos f.
Proof.
  intros H Hf. destruct f.
  - apply split_string_slice_fast; auto.
  - now rewrite split_string_slice_chars, split_str_chars.
Qed.
Lemma split_str_flags s pos f l r lf rf :
  (pos < 2147483648)%Z -> (f = true -> forallb is_ascii s = true) ->
  split_str s pos f = Some (SplitOk l r lf rf) ->
  (lf = true -> forallb is_ascii l = true) /\ (rf = true -> forallb is_ascii r = true).
Proof.
  intros H Hf E.
  destruct (split_str_or_all_spec s pos f H Hf) as (lf' & rf' & E' & F1 & F2).
  unfold split_str_or_all in E'. rewrite E in E'. cbn [bind] in E'.
  injection E' as -> -> -> ->. auto.
Qed.
