(** Line maps of source trees: their text and their attribution. *)
From Verif Require Import Base Tactics ModelString StringFacts ModelVlq ModelSm ModelSlm
  ModelSources ModelTree SpecText SortFacts TextFacts EditFacts TreeText SpecMap VlqFacts MapFacts
  SpecAttr SpecEdit NodeFacts LeafFacts ReplaceNode SpecList SlmFacts SlmMap SlmRead SlmReplace.
From Verif Require Export SpecSlmTree.

(** ** Prefixing piecewise *)
Lemma run_prefix p l : run_fun (prefix_mapfun p) tt l = Some (tt, map (prefixed p) l).
Proof.
  induction l as [|x l IH]; [reflexivity|]. cbn [run_fun]. unfold prefix_mapfun at 1.
  rewrite make_prefixed_string_spec. cbn [bind]. rewrite IH. reflexivity.
Qed.

Lemma prefixed_pieces p : forall l, at_line_ends l -> concat (map (prefixed p) l) = prefixed p (concat l).
Proof.
  induction l as [|x r IH]; [intros []|]. destruct r as [|y r].
  - intros _. cbn. now rewrite !app_nil_r.
  - intros (H1 & H2 & H3). change (concat (map (prefixed p) (x :: y :: r))) with (prefixed p x ++ concat (map (prefixed p) (y :: r))).
    rewrite IH by exact H3. change (concat (x :: y :: r)) with (x ++ concat (y :: r)).
    unfold prefixed. rewrite indent_app, H1. destruct (concat (y :: r)) as [|c z]; [congruence|]. now rewrite <- app_assoc.
Qed.

Lemma prefix_list_map_spec p lm : Forall node_ok lm ->
  exists lm', prefix_list_map p lm = Some lm' /\ Forall node_ok lm' /\
    slm_text lm' = concat (map (prefixed p) (map snd (list_pieces lm))) /\
    (Forall2 (fun x y => fst x = None \/ tidy y) (list_pieces lm) (map (prefixed p) (map snd (list_pieces lm))) ->
     list_marks lm' = mark_pieces (combine (map fst (list_pieces lm)) (map (prefixed p) (map snd (list_pieces lm))))).
Proof.
  intro H. pose proof (map_generated_code_spec (prefix_mapfun p) tt lm H) as M. rewrite run_prefix in M.
  destruct M as (m' & E & Ok & T & A). unfold prefix_list_map. rewrite E. cbn [bind]. exists m'. auto.
Qed.

(** ** Concatenation *)
Definition child_map (c m : bool) (x : tree) (y : str + slm) : Prop :=
  match x with TStr s => y = inl s | _ => exists lm, y = inr lm /\ t_list_map c m x = Some lm end.
Lemma children_maps c m l ys : Forall2 (child_map c m) l ys ->
  t_list_map c m (TConcat l) = concat_list_map ys [].
Proof.
  intro H. unfold t_list_map. rewrite fold_concat.
  assert (E : children (list_map_alg c m) l = Some ys).
  { induction H as [|x y l ys Hx _ IH]; [reflexivity|]. cbn [children].
    assert (Ec : child (list_map_alg c m) x = Some y).
    { unfold child, child_map, t_list_map in *. destruct x; try (destruct Hx as (n & -> & ->); reflexivity). now subst. }
    rewrite Ec. cbn [bind]. rewrite IH. reflexivity. }
  rewrite E. reflexivity.
Qed.
Definition cm_ok (y : str + slm) : Prop := match y with inl _ => True | inr m => Forall node_ok m end.
Definition cm_text (y : str + slm) : str := match y with inl s => s | inr m => slm_text m end.
Definition cm_marks (y : str + slm) : marked := match y with inl s => mark None s | inr m => list_marks m end.

Lemma add_code_cases m s : (exists m0 t, m = m0 ++ [LCode t] /\ add_code_text m s = m0 ++ [LCode (t ++ s)]) \/
  add_code_text m s = m ++ [LCode s].
Proof.
  induction m as [|n m IH]; [right; reflexivity|]. destruct m as [|n2 m].
  - destruct n as [a|a|a|a|a|a]; try (right; reflexivity). left. exists [], a. auto.
  - assert (E : add_code_text (n :: n2 :: m) s = n :: add_code_text (n2 :: m) s) by (destruct n; reflexivity).
    rewrite E. destruct IH as [(m0 & t & E1 & E2)|E2]; rewrite E2; [left|right; reflexivity].
    exists (n :: m0), t. rewrite E1. auto.
Qed.
Lemma list_marks_app a b : list_marks (a ++ b) = list_marks a ++ list_marks b.
Proof. apply flat_map_app. Qed.
Lemma add_code_marks m s : list_marks (add_code_text m s) = list_marks m ++ mark None s.
Proof.
  destruct (add_code_cases m s) as [(m0 & t & -> & ->)| ->]; rewrite !list_marks_app; cbn [list_marks flat_map node_marks].
  - rewrite !app_nil_r, mark_app, app_assoc. reflexivity.
  - now rewrite app_nil_r.
Qed.

Lemma concat_list_map_spec : forall ys m, Forall cm_ok ys -> Forall node_ok m ->
  exists m', concat_list_map ys m = Some m' /\ Forall node_ok m' /\
    slm_text m' = slm_text m ++ concat (map cm_text ys) /\
    list_marks m' = list_marks m ++ concat (map cm_marks ys).
Proof.
  induction ys as [|y ys IH]; intros m Hy Hm.
  - exists m. cbn. rewrite !app_nil_r. auto.
  - inversion Hy as [|? ? H1 H2]; subst. cbn [concat_list_map map concat]. destruct y as [s|c]; cbn [slm_add is_some bind].
    + destruct (add_code_ok_text m s Hm) as [O1 O2]. destruct (IH _ H2 O1) as (m' & E & O & T & M).
      exists m'. rewrite T, M, O2, add_code_marks, <- !app_assoc. auto.
    + assert (O1 : Forall node_ok (m ++ c)) by (apply Forall_app; auto).
      destruct (IH _ H2 O1) as (m' & E & O & T & M). exists m'. rewrite T, M, list_marks_app.
      rewrite !slm_text_ok by auto. rewrite flat_map_app, <- !app_assoc. cbn [cm_text cm_marks]. rewrite slm_text_ok by auto. auto.
Qed.

(** ** Text *)
Definition ready_child (c m : bool) (x : tree) : Prop := match x with TStr _ => True | _ => line_ready c m x end.
Lemma ready_concat c m l : line_ready c m (TConcat l) <-> Forall (ready_child c m) l.
Proof.
  induction l as [|x l IH]; cbn [line_ready] in *; split; intro H; try constructor; auto;
    try (destruct H as [H1 H2]; try exact H1; now apply IH); inversion H as [|? ? H1 H2]; subst; auto.
  now apply IH.
Qed.

(** Leaves: one source node. *)
Definition one_source (name : Z) (orig : option Z) (v : str) : slm := [LSource (piece_new v (Some name) orig 1)].
Lemma one_source_ok name orig v : Forall node_ok (one_source name orig v) /\ slm_text (one_source name orig v) = v /\
  list_marks (one_source name orig v) = mark_lines name 1 v.
Proof.
  assert (O : Forall node_ok (one_source name orig v)) by (constructor; [apply counted_new|constructor]).
  split; [exact O|]. rewrite slm_text_ok by exact O. cbn. rewrite !app_nil_r. auto.
Qed.

Definition maps_to (c m : bool) (t : tree) (s : str) : Prop :=
  exists lm, t_list_map c m t = Some lm /\ Forall node_ok lm /\ slm_text lm = s.

Theorem line_text c m t s : line_ready c m t -> t_source t = Some s -> maps_to c m t s.
Proof.
  revert s. induction t as [v|v|v i n|v n o|p t IH|t st IH|l IH|x] using tree_ind'; intros s R Hs.
  - destruct R.
  - injection Hs as <-. exists [LCode v]. split; [reflexivity|]. split; [repeat constructor|]. cbn. apply app_nil_r.
  - injection Hs as <-. destruct (one_source_ok n (Some i) v) as (O & T & _). eexists. split; [reflexivity|]. auto.
  - injection Hs as <-. destruct (one_source_ok n (Some o) v) as (O & T & _). eexists. split; [reflexivity|]. auto.
  - destruct R as [R1 R2]. destruct (source_total t) as [s0 H0]. destruct (IH s0 R1 H0) as (lm & E & O & T).
    rewrite (prefix_text p s0 t H0) in Hs. injection Hs as <-.
    destruct (prefix_list_map_spec p lm O) as (lm' & E' & O' & T' & _). exists lm'.
    unfold t_list_map in *. cbn [fold_tree]. rewrite E. cbn [bind list_map_alg a_prefix]. split; [exact E'|]. split; [exact O'|].
    rewrite T', prefixed_pieces by auto. now rewrite pieces_text, T.
  - destruct R as [R1 (h & -> & C1 & C2 & C3 & C4)]. destruct (source_total t) as [s0 H0]. destruct (IH s0 R1 H0) as (lm & E & O & T).
    destruct (replace_line_text h lm s0 C1 C2 C3 C4 O T) as (lm' & E' & O' & T').
    unfold t_source, t_list_map, maps_to in *. cbn [fold_tree] in *. rewrite H0 in Hs. cbn [bind source_alg a_replace] in Hs.
    rewrite T' in Hs. injection Hs as <-. exists lm'. unfold t_list_map. cbn [fold_tree]. rewrite E. cbn [bind list_map_alg a_replace]. auto.
  - apply ready_concat in R.
    assert (G : exists ys ss, Forall2 (child_map c m) l ys /\ map t_source l = map Some ss /\ Forall cm_ok ys /\ map cm_text ys = ss).
    { clear Hs s. induction IH as [|x l Hx _ IHl]; [exists [], []; auto|].
      inversion R as [|? ? R1 R2]; subst. destruct (IHl R2) as (ys & ss & G1 & G2 & G3 & G4).
      destruct (source_total x) as [s0 H0].
      assert (G : exists y, child_map c m x y /\ cm_ok y /\ cm_text y = s0).
      { unfold ready_child, child_map in *.
        destruct x; try (destruct (Hx s0 R1 H0) as (lm & E & O & T); exists (inr lm); split; [eauto|split; [exact O|exact T]]).
        exists (inl s). injection H0 as <-. cbn. auto. }
      destruct G as (y & Y1 & Y2 & Y3). exists (y :: ys), (s0 :: ss). cbn [map]. rewrite G2, H0, Y3, G4. auto. }
    destruct G as (ys & ss & G1 & G2 & G3 & G4). rewrite (concat_source l ss G2) in Hs. injection Hs as <-.
    destruct (concat_list_map_spec ys [] G3 (Forall_nil _)) as (m' & E & O & T & _). exists m'.
    rewrite (children_maps c m l ys G1). rewrite T, G4. auto.
  - injection Hs as <-. unfold maps_to, t_list_map. cbn [fold_tree list_map_alg a_sms]. unfold sms_list_map. destruct m; cbn [negb].
    + destruct (R eq_refl) as (c' & d & -> & W). cbn [bind].
      destruct (reader_text (sc_sources d) (sc_contents d) (sms_value x) (sc_mappings d) W) as (lm & -> & O & T).
      cbn [bind]. exists lm. auto.
    + cbn [slm_new slm_add is_some bind]. destruct (one_source_ok (sms_name x) (Some (sms_value_idx x)) (sms_value x)) as (O & T & _).
      eexists. split; [reflexivity|]. auto.
Qed.

Theorem line_map_text m t s : line_ready false m t -> t_source t = Some s ->
  exists mp, source_and_line_map m t = Some (s, mp).
Proof.
  intros R Hs. destruct (line_text false m t s R Hs) as (lm & E & O & T).
  destruct (list_map_exact lm None O) as (code & mp & es & F & C & _). exists mp.
  unfold source_and_line_map. rewrite E. cbn [bind]. rewrite F. now rewrite C, T.
Qed.

(** ** Attribution *)

(** What a consumer of the emitted map reads. *)
Theorem line_attributed_emits m t M : line_attributed false m t M ->
  exists mp es, source_and_line_map m t = Some (text_of M, mp) /\
    read_map (map_sources mp) [] (map_mappings mp) = Some es /\
    annotate_bytes es (text_of M) = carried None M.
Proof.
  intros (lm & E & O & <-). destruct (list_map_exact lm None O) as (code & mp & es & F & _ & C & R & A & _).
  exists mp, es. unfold source_and_line_map. rewrite E. cbn [bind]. rewrite F, C. rewrite C in A. auto.
Qed.

Lemma raw_lines c m v : line_attributed c m (TRaw v) (mark None v).
Proof. exists [LCode v]. split; [reflexivity|]. split; [repeat constructor|]. cbn. apply app_nil_r. Qed.
Lemma original_lines c m v i n : line_attributed c m (TOriginal v i n) (mark_lines n 1 v).
Proof. destruct (one_source_ok n (Some i) v) as (O & _ & M). eexists. split; [reflexivity|]. auto. Qed.
Lemma l2l_lines c m v n o : line_attributed c m (TL2L v n o) (mark_lines n 1 v).
Proof. destruct (one_source_ok n (Some o) v) as (O & _ & M). eexists. split; [reflexivity|]. auto. Qed.
Lemma sms_plain_lines c x : line_attributed c false (TSms x) (mark_lines (sms_name x) 1 (sms_value x)).
Proof.
  destruct (one_source_ok (sms_name x) (Some (sms_value_idx x)) (sms_value x)) as (O & _ & M).
  eexists. split; [reflexivity|]. auto.
Qed.
Lemma sms_module_lines c x c' d segs : cell_get_data (sms_map x) = Some (c', d) ->
  decode (sc_mappings d) = Some segs -> Forall fits segs ->
  line_attributed c true (TSms x) (attribute (sc_sources d) segs 0 None (cut_lines (sms_value x))).
Proof.
  intros E D F. destruct (reader_attribution (sc_sources d) (sc_contents d) (sms_value x) (sc_mappings d) segs D F) as (lm & R & O & M).
  exists lm. split; [|auto]. unfold t_list_map. cbn [fold_tree list_map_alg a_sms]. unfold sms_list_map. cbn [negb].
  rewrite E. cbn [bind]. rewrite R. reflexivity.
Qed.

Definition child_lines (c m : bool) (x : tree) (M : marked) : Prop :=
  match x with TStr s => M = mark None s | _ => line_attributed c m x M end.
Theorem concat_lines c m l Ms : Forall2 (child_lines c m) l Ms -> line_attributed c m (TConcat l) (concat Ms).
Proof.
  intro H.
  assert (G : exists ys, Forall2 (child_map c m) l ys /\ Forall cm_ok ys /\ map cm_marks ys = Ms).
  { induction H as [|x M l Ms Hx _ (ys & G1 & G2 & G3)]; [exists []; auto|].
    assert (G : exists y, child_map c m x y /\ cm_ok y /\ cm_marks y = M).
    { unfold child_lines in Hx. destruct x;
        try (destruct Hx as (lm & E & O & A); exists (inr lm); split; [exists lm; auto|split; [exact O|exact A]]).
      exists (inl s). subst. cbn. auto. }
    destruct G as (y & Y1 & Y2 & Y3). exists (y :: ys). split; [constructor; auto|]. split; [auto|]. cbn [map]. now rewrite Y3, G3. }
  destruct G as (ys & G1 & G2 & G3). destruct (concat_list_map_spec ys [] G2 (Forall_nil _)) as (m' & E & O & _ & M).
  exists m'. rewrite (children_maps c m l ys G1). rewrite M, G3. auto.
Qed.

Lemma count_indent p : ~ In NL p -> forall x, count_char NL (indent p x) = count_char NL x.
Proof.
  intro Hp. assert (P0 : count_char NL p = 0).
  { destruct (count_char NL p) eqn:E; [reflexivity|]. exfalso. apply Hp, count_pos_in. lia. }
  assert (E1 : forall c d x, indent p (c :: d :: x) = if N.eqb c NL then c :: p ++ indent p (d :: x) else c :: indent p (d :: x)) by reflexivity.
  induction x as [|c x IH]; [reflexivity|]. destruct x as [|d x]; [reflexivity|].
  rewrite E1. change (count_char NL (c :: d :: x)) with ((if N.eqb NL c then 1 else 0) + count_char NL (d :: x)) in |- * || idtac.
  destruct (N.eqb c NL) eqn:Ec; cbn [count_char]; cbn [count_char] in IH; rewrite ?Ec; rewrite ?count_app, ?IH, ?P0; reflexivity.
Qed.
Lemma ends_indent p : forall x, ends_with NL (indent p x) = ends_with NL x.
Proof.
  assert (E1 : forall c d x, indent p (c :: d :: x) = if N.eqb c NL then c :: p ++ indent p (d :: x) else c :: indent p (d :: x)) by reflexivity.
  assert (N1 : forall d x, indent p (d :: x) <> []) by (intros d x; cbn; destruct x, (N.eqb d NL); discriminate).
  induction x as [|c x IH]; [reflexivity|]. destruct x as [|d x]; [reflexivity|]. rewrite E1.
  change (ends_with NL (c :: d :: x)) with (ends_with NL (d :: x)). rewrite <- IH.
  destruct (N.eqb c NL).
  - change (c :: p ++ indent p (d :: x)) with ((c :: p) ++ indent p (d :: x)). now rewrite ends_with_tail by apply N1.
  - change (c :: indent p (d :: x)) with ([c] ++ indent p (d :: x)). now rewrite ends_with_tail by apply N1.
Qed.
Lemma tidy_prefixed p x : ~ In NL p -> tidy x -> tidy (prefixed p x).
Proof.
  intros Hp Hx. unfold tidy, prefixed. rewrite count_app, count_indent by auto.
  assert (P0 : count_char NL p = 0).
  { destruct (count_char NL p) eqn:E; [reflexivity|]. exfalso. apply Hp, count_pos_in. lia. }
  rewrite P0. intro H. specialize (Hx H). rewrite ends_with_tail, ends_indent; auto.
  intro E. assert (G : ends_with NL (indent p x) = true) by (now rewrite ends_indent). rewrite E in G. discriminate.
Qed.

Lemma mprefix_mark p t : forall x, x <> [] -> mprefix p true (mark t x) = mark t (prefixed p x).
Proof.
  assert (E1 : forall c d x, indent p (c :: d :: x) = if N.eqb c NL then c :: p ++ indent p (d :: x) else c :: indent p (d :: x)) by reflexivity.
  assert (G : forall x b, x <> [] -> mprefix p b (mark t x) = (if b then mark t p else []) ++ mark t (indent p x)).
  { induction x as [|c x IH]; intros b Hx; [congruence|]. destruct x as [|d x]; [destruct b; reflexivity|].
    change (mark t (c :: d :: x)) with ((c, t) :: mark t (d :: x)). cbn [mprefix]. rewrite IH by discriminate. f_equal.
    rewrite E1. destruct (N.eqb c NL); cbn [mark map]; [|reflexivity]. rewrite map_app. reflexivity. }
  intros x Hx. rewrite G by exact Hx. unfold prefixed. now rewrite mark_app.
Qed.
Lemma mprefix_ended p b : forall M M', M <> [] -> ends_with NL (text_of M) = true ->
  mprefix p b (M ++ M') = mprefix p b M ++ mprefix p true M'.
Proof.
  intros M. revert b. induction M as [|[c a] M IH]; intros b M' Hn He; [congruence|]. cbn [app mprefix]. rewrite <- app_assoc. f_equal.
  cbn [app]. f_equal. destruct M as [|[d a'] M].
  - cbn in He. cbn [app mprefix]. now rewrite He.
  - apply IH; [discriminate|exact He].
Qed.
Lemma mprefixed_pieces p : forall l, at_line_ends (map snd l) -> concat (map snd l) <> [] ->
  mark_pieces (combine (map fst l) (map (prefixed p) (map snd l))) = mprefixed p (mark_pieces l).
Proof.
  induction l as [|[t x] l IH]; [intros []|]. destruct l as [|[t2 y] l].
  - intros _ Hx. cbn [map snd concat] in Hx. rewrite app_nil_r in Hx. cbn [map fst snd combine mark_pieces flat_map].
    rewrite !app_nil_r. symmetry. exact (mprefix_mark p t x Hx).
  - intros (H1 & H2 & H3) _.
    change (mark_pieces ((t, x) :: (t2, y) :: l)) with (mark t x ++ mark_pieces ((t2, y) :: l)).
    change (combine _ _) with ((t, prefixed p x) :: combine (map fst ((t2, y) :: l)) (map (prefixed p) (map snd ((t2, y) :: l)))).
    change (mark_pieces ((t, prefixed p x) :: ?z)) with (mark t (prefixed p x) ++ mark_pieces z).
    assert (Hx : x <> []) by (destruct x; discriminate).
    unfold mprefixed. rewrite mprefix_ended; [|destruct x; [congruence|discriminate]|now rewrite text_mark].
    rewrite mprefix_mark by exact Hx. etransitivity; [exact (f_equal (app _) (IH H3 H2))|]. reflexivity.
Qed.

(** Prefixing: the prefix belongs to the line it stands in front of. *)
Theorem prefix_lines c m p t M : line_attributed c m t M -> ~ In NL p -> M <> [] ->
  (forall lm, t_list_map c m t = Some lm ->
     at_line_ends (map snd (list_pieces lm)) /\ Forall (fun x => fst x = None \/ tidy (snd x)) (list_pieces lm)) ->
  line_attributed c m (TPrefix p t) (mprefixed p M).
Proof.
  intros (lm & E & O & <-) Hp HM H. destruct (H lm E) as [H1 H2]. clear H.
  destruct (prefix_list_map_spec p lm O) as (lm' & E' & O' & _ & A). exists lm'.
  unfold t_list_map in *. cbn [fold_tree]. rewrite E. cbn [bind list_map_alg a_prefix]. split; [exact E'|]. split; [exact O'|].
  rewrite A.
  - rewrite mprefixed_pieces, pieces_marks; auto. intro Z. apply HM. rewrite <- pieces_marks, <- text_pieces in * by auto.
    destruct (mark_pieces (list_pieces lm)); [reflexivity|discriminate].
  - clear -H2 Hp. induction H2 as [|x l [Hx|Hx] _ IH]; cbn [map]; constructor; auto. right. now apply tidy_prefixed.
Qed.
