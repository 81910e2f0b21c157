(** The contents of a map that becomes input again. *)
From Verif Require Import Base Tactics ModelString ModelVlq ModelSm ModelSlm ModelSources ModelTree ModelWasm GenFacts NodeFacts IdxFacts ContentFacts ContentHist.
From Verif Require Export SpecLists.

Lemma first_given_get ps s : al_get ps s = first_given ps s.
Proof. unfold first_given. induction ps as [|[k v] ps IH]; [reflexivity|]. cbn [al_get find fst]. destruct (Z.eqb s k); [reflexivity|exact IH]. Qed.
Lemma collect_lists l ps : collect_contents l ps = flat_map (fun s => match first_given ps s with Some c => [c] | None => [] end) l.
Proof. induction l as [|s l IH]; [reflexivity|]. cbn [collect_contents flat_map]. rewrite <- (first_given_get ps s), IH. now destruct (al_get ps s). Qed.

Lemma reads_gen k : forall r r' g ps, jr_reads k r = Some r' -> jr_gen r = Some g -> same_get (g_contents g) ps ->
  exists g', jr_gen r' = Some g' /\ same_get (g_contents g') ps.
Proof.
  induction k as [|k IH]; intros r r' g ps E G S; [injection E as <-; eauto|]. cbn [jr_reads] in E. unb E as [r1 m1] E1. unfold jr_get_map in E1.
  destruct (jr_map r) as [m|]; [injection E1 as <- <-; eapply IH; eauto|]. rewrite G in E1. cbn [bind] in E1. unb E1 as [g1 m2] E2. injection E1 as <- <-.
  eapply (IH _ _ g1); [exact E|reflexivity|]. rewrite (proj1 (map_keeps_contents _ _ _ E2)). exact S.
Qed.
Lemma result_gen c m t n r : fresh_tree t -> t_node c m t = Some n -> node_result n = Some r -> exists g, jr_gen r = Some g /\ same_get (g_contents g) (tconts t).
Proof.
  intros F En Er. unfold node_result in Er. unb Er as [s g] Eg. injection Er as <-. exists g. split; [reflexivity|]. unfold to_string_with_generator in Eg. unb Eg as cx Ew. injection Eg as _ <-.
  intro k. rewrite (walk_contents _ _ _ _ _ _ Ew k). cbn [ctx_new cx_map gen_new g_contents app]. now apply (t_node_contents c m t).
Qed.
Lemma node_lists n q q' mp ps : node_result n = Some q -> jr_get_map q = Some (q', mp) -> same_get (nconts n) ps -> lists_contents mp ps.
Proof.
  intros Eq Em S. unfold node_result in Eq. unb Eq as [s g] Eg. injection Eq as <-. unfold jr_get_map in Em. cbn [jr_from_with_generator jr_map jr_gen bind] in Em. unb Em as [g1 m1] E1. injection Em as _ <-.
  unfold lists_contents. rewrite <- collect_lists, (map_contents_gen _ _ _ E1). apply collect_same. unfold to_string_with_generator in Eg. unb Eg as cx Ew. injection Eg as _ <-.
  intro k. rewrite (walk_contents _ _ _ _ _ _ Ew k). cbn [ctx_new cx_map gen_new g_contents app]. apply S.
Qed.

(** The source made of a result gives the contents of the source the result came from. *)
Theorem fed_contents c m t n r k r' v vi name x : fresh_tree t -> t_node c m t = Some n -> node_result n = Some r -> jr_reads k r = Some r' ->
  sms_new_wasmmap v vi name r' = Some x -> forall c' m' n' q q' mp,
  t_node c' m' (TSms x) = Some n' -> node_result n' = Some q -> jr_get_map q = Some (q', mp) -> lists_contents mp (tconts t).
Proof.
  intros F En Er Ek Ex c' m' n' q q' mp En' Eq Em. destruct (result_gen _ _ _ _ _ F En Er) as (g & G & S). destruct (reads_gen _ _ _ _ _ Ek G S) as (g' & G' & S').
  apply (node_lists _ _ _ _ _ Eq Em). unfold t_node in En'. cbn [fold_tree node_alg a_sms] in En'. unb En' as [x' n1] E1. injection En' as <-.
  assert (Hx : ce_gen (sms_map x) = Some g' /\ sms_inner x = None).
  { unfold sms_new_wasmmap in Ex. destruct (jr_map r'); [injection Ex as <-|rewrite G' in Ex; cbn [bind] in Ex; injection Ex as <-]; (split; [exact G'||reflexivity|reflexivity]). }
  destruct Hx as [H1 H2]. unfold sms_node in E1. unfold cell_get_generator in E1. rewrite H1 in E1. cbn [bind] in E1. rewrite H2 in E1. cbn [bind] in E1. unb E1 as n2 E2. injection E1 as _ <-.
  rewrite (from_string_contents _ _ _ E2). exact S'.
Qed.

(** As an inner map: the contents of the outer map come first, then the original source for
    the name, then the contents of the source the inner map came from. *)
Lemma set_either x o r : sms_set_inner_wasmmap (sms_set_original x o) r = option_map (fun y => sms_set_original y o) (sms_set_inner_wasmmap x r).
Proof. unfold sms_set_inner_wasmmap. destruct (jr_map r); [reflexivity|]. now destruct (jr_gen r). Qed.
Theorem fed_inner_contents c m t n r k r' v vi name d oo x : fresh_tree t -> t_node c m t = Some n -> node_result n = Some r -> jr_reads k r = Some r' ->
  NoDup (sc_sources d) ->
  (let x0 := sms_new v vi name d None in
   sms_set_inner_wasmmap (match oo with Some o => sms_set_original x0 o | None => x0 end) r' = Some x \/
   option_map (fun y => match oo with Some o => sms_set_original y o | None => y end) (sms_set_inner_wasmmap x0 r') = Some x) ->
  forall c' m' n' q q' mp, t_node c' m' (TSms x) = Some n' -> node_result n' = Some q -> jr_get_map q = Some (q', mp) ->
  lists_contents mp (combine (sc_sources d) (sc_contents d) ++ match oo with Some o => [(name, o)] | None => [] end ++ tconts t).
Proof.
  intros F En Er Ek Nd Ex c' m' n' q q' mp En' Eq Em. destruct (result_gen _ _ _ _ _ F En Er) as (g & G & S). destruct (reads_gen _ _ _ _ _ Ek G S) as (g' & G' & S').
  apply (node_lists _ _ _ _ _ Eq Em). unfold t_node in En'. cbn [fold_tree node_alg a_sms] in En'. unb En' as [x' n1] E1. injection En' as <-.
  assert (Hx : exists dd, sms_map x = mk_cell (Some d) None /\ sms_inner x = Some (mk_cell dd (Some g')) /\ sms_original x = oo /\ sms_name x = name /\ sms_applied x = false).
  { cbv zeta in Ex. assert (Ex' : sms_set_inner_wasmmap (match oo with Some o => sms_set_original (sms_new v vi name d None) o | None => sms_new v vi name d None end) r' = Some x).
    { destruct Ex as [Ex|Ex]; [exact Ex|]. destruct oo as [o|]; [rewrite set_either; exact Ex|]. destruct (sms_set_inner_wasmmap _ r') as [y|]; exact Ex. }
    clear Ex. unfold sms_set_inner_wasmmap in Ex'. rewrite G' in Ex'. cbn [bind] in Ex'. destruct (jr_map r') as [mm|], oo as [o|]; injection Ex' as <-; eexists; repeat split. }
  destruct Hx as (dd & H1 & H2 & H3 & H4 & H5). unfold sms_node in E1. rewrite H1 in E1. unb E1 as [c1 g1] E3. pose proof (data_contents d c1 g1 Nd E3) as Hg.
  rewrite H2, H3, H4, H5 in E1. cbn [cell_get_generator ce_gen bind negb] in E1. unb E1 as [[g2 ic] ap] E4. unb E4 as [g3 ig] E5. injection E4 as <- _ _. unb E1 as n2 E6. injection E1 as _ <-.
  rewrite (from_string_contents _ _ _ E6). intro s. rewrite (apply_contents_get _ _ _ _ _ E5 s), app_assoc. revert s. apply same_app; [|exact S'].
  assert (Z : zipz (sc_sources d) (sc_contents d) = combine (sc_sources d) (sc_contents d)).
  { generalize (sc_sources d) (sc_contents d). clear. induction l as [|a l IH]; intros [|b l2]; cbn; [reflexivity..|]. now rewrite IH. }
  rewrite <- Z. destruct oo as [o|]; intro s; [|rewrite app_nil_r; apply Hg].
  cbn [gen_set_source_content gen_set_contents g_contents]. rewrite or_insert_get. revert s. apply same_app; [exact Hg|now intro].
Qed.
