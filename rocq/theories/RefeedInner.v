(** An emitted map as the inner map of a SourceMapSource. *)
From Verif Require Import Base Tactics ModelString ModelVlq ModelSm ModelSlm ModelSources ModelTree ModelWasm
  SpecText SpecMap SpecAttr SortFacts MapFacts GenFacts LoadFacts MapProps NodeFacts LeafFacts ReplaceNode SmsNode SmsProps NodeTree Refeed.

(** Composed with whatever the inner generator has, sorted. *)
Lemma composed_emits c m x es ic ic' ig : cell_entries (sms_map x) es -> sms_inner x = Some ic ->
  cell_get_generator ic = Some (ic', ig) -> gen_wf ig -> sms_applied x = false ->
  emits c m (TSms x) (retarget (through (Some (sms_name x)) (map view (isort mapping_cmp (ml_list (g_mappings ig))))) (annotate es (sms_value x))).
Proof.
  intros Hc Hi Eig Wi Ha. destruct (cell_generator _ _ Hc) as (g & Eg & Ho & P & U).
  set (g0 := match sms_original x with Some o => gen_set_source_content g (sms_name x) (Some o) | None => g end).
  assert (Hg0 : ordered g0 /\ ml_list (g_mappings g0) = ml_list (g_mappings g)).
  { unfold g0. destruct (sms_original x); [|auto]. split; [now apply ordered_content|apply content_list]. }
  destruct Hg0 as [Ho0 Hl0].
  destruct (apply_ordered g0 ig (sms_name x) Ho0 Wi) as (g' & ig' & Ea & Ho' & V).
  destruct (ordered_node (sms_value x) g' Ho') as (n & En & _ & Sn & Fn).
  assert (Et : t_node c m (TSms x) = Some n).
  { unfold t_node. cbn [fold_tree node_alg a_sms]. unfold sms_node. rewrite Eg. cbn [bind]. rewrite Hi, Eig. cbn [bind]. rewrite Ha. cbn [negb].
    fold g0. rewrite Ea. cbn [bind]. rewrite En. reflexivity. }
  apply attributed_emits.
  - intros n' E'. rewrite Et in E'. injection E' as <-. eapply Forall_impl; [apply solid_ok|exact Sn].
  - apply attributed_flat. exists n. split; [exact Et|]. rewrite Fn, V. unfold annotate. rewrite annotate_map by reflexivity.
    change (annotate_from (map view (ml_list (g_mappings g0))) (1, 0)%Z (sms_value x))
      with (annotate (map view (ml_list (g_mappings g0))) (sms_value x)).
    rewrite Hl0, (annotate_perm _ es) by auto. reflexivity.
Qed.

Theorem fed_inner c m t M : attributed c m t M -> chunks leaf_ok c m t -> (N.of_nat (length M) < 2147483648)%N ->
  exists n r ei, t_node c m t = Some n /\ node_result n = Some r /\ jr_s r = text_of M /\ annotate ei (text_of M) = M /\
    forall k, exists r', jr_reads k r = Some r' /\ forall x es, cell_entries (sms_map x) es ->
      exists x', sms_set_inner_wasmmap x r' = Some x' /\ sms_value x' = sms_value x /\
        forall c' m', emits c' m' (TSms x') (retarget (through (Some (sms_name x)) ei) (annotate es (sms_value x))).
Proof.
  intros A Hok L. apply attributed_flat in A as (n & E & <-). specialize (Hok n E).
  destruct (walk_fine n Hok L) as (code & g & E1 & E2 & E3 & W & S & B & F).
  destruct (to_source_map_spec g (proj1 W)) as (g1 & mp & Em & Eg1 & _).
  assert (Il : ml_list (g_mappings g1) = ml_list (g_mappings g)).
  { rewrite Eg1. cbn [g_mappings gen_set_mappings]. rewrite ml_sort_isort by apply W. apply isort_id. exact S. }
  exists n, (jr_from_with_generator code g), (map view (ml_list (g_mappings g))). split; [exact E|].
  split; [unfold node_result; rewrite E1; reflexivity|]. split; [exact E2|]. split; [rewrite <- E2; exact E3|].
  assert (Is : isort mapping_cmp (ml_list (g_mappings g)) = ml_list (g_mappings g)) by (apply isort_id; exact S).
  intros [|k].
  - exists (jr_from_with_generator code g). split; [reflexivity|]. intros x es Hx. eexists. split; [reflexivity|]. split; [reflexivity|].
    intros c' m'. rewrite <- Is. apply (composed_emits c' m' (sms_set_inner_generator x g) es (mk_cell None (Some g)) (mk_cell None (Some g)) g); auto. apply W.
  - exists (mk_jr code (Some mp) (Some g1)). split.
    + cbn [jr_reads]. unfold jr_get_map at 1. cbn [jr_from_with_generator jr_map jr_gen bind jr_s]. rewrite Em. cbn [bind].
      clear. induction k as [|k IH]; [reflexivity|]. exact IH.
    + intros x es Hx. eexists. split; [reflexivity|]. split; [reflexivity|]. intros c' m'. rewrite <- Is, <- Il.
      apply (composed_emits c' m' (sms_set_inner x (content_of mp) (Some g1)) es (mk_cell (Some (content_of mp)) (Some g1)) (mk_cell (Some (content_of mp)) (Some g1)) g1); auto.
      rewrite Eg1. apply gen_wf_sort, W.
Qed.
