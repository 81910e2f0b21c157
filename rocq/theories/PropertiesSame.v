(** C55 for all expressions: what a result may depend on besides the expression. *)
From Verif Require Import Base Tactics ModelString ModelVlq ModelSm ModelSlm ModelSources ModelTree ModelJs ModelJsApi ModelJsResult
  SpecJs SpecResult ResultProps JsFacts ModelEnd SpecEnd SpecSame ParaSame PropertiesEnd PropertiesEffect PropertiesLeast.

(** Line maps: on nothing. *)
Theorem C55_lines : forall c0 c0' e md c1 t c1' t', reached_cache c0 -> reached_cache c0' -> build c0 e = (c1, t) -> build c0' e = (c1', t') ->
  same_result c1 (js_source_and_map false md t) c1' (js_source_and_map false md t').
Proof. exact lines_same. Qed.
Print Assumptions C55_lines.
(** Maps with columns: on the order in which the strings were first seen. *)
Theorem C55_order : forall c0 c0' e cols md c1 t c1' t', reached_cache c0 -> reached_cache c0' -> aligned c0 c0' (looked_up e) ->
  build c0 e = (c1, t) -> build c0' e = (c1', t') ->
  same_result c1 (js_source_and_map cols md t) c1' (js_source_and_map cols md t').
Proof. exact aligned_same. Qed.
Print Assumptions C55_order.
Theorem C55_order_after : forall c0 c0' e md c1 t c1' t', reached_cache c0 -> reached_cache c0' -> build c0 e = (c1, t) -> build c0' e = (c1', t') ->
  same_order c1 c1' (looked_up e) ->
  same_result c1 (js_source_and_map true md t) c1' (js_source_and_map true md t').
Proof. exact columns_same. Qed.
Print Assumptions C55_order_after.
(** So it is in processes that have not met the strings yet... *)
Theorem C55_fresh : forall c0 c0' e cols md c1 t c1' t', reached_cache c0 -> reached_cache c0' ->
  (forall s, In s (looked_up e) -> cache_index_of c0 s = None /\ cache_index_of c0' s = None) ->
  build c0 e = (c1, t) -> build c0' e = (c1', t') ->
  same_result c1 (js_source_and_map cols md t) c1' (js_source_and_map cols md t').
Proof.
  intros c0 c0' e cols md c1 t c1' t' H0 H0' N E E'. eapply aligned_same; [exact H0|exact H0'| |exact E|exact E']. split.
  - intros s Hs. destruct (N s Hs). tauto.
  - intros s u i j i' j' Hs _ Hi. destruct (N s Hs). congruence.
Qed.
Print Assumptions C55_fresh.
(** ... and if the expression is evaluated again, whatever happened in between. *)
Theorem C55_repeat : forall c0 e c1 t h c2 is cols md c3 t', reached_cache c0 -> build c0 e = (c1, t) -> cache_run c1 h = (c2, is) -> build c2 e = (c3, t') ->
  same_result c1 (js_source_and_map cols md t) c3 (js_source_and_map cols md t').
Proof. exact same_twice. Qed.
Print Assumptions C55_repeat.

(** An edited expression, for which C55_edited_refuted shows a difference, after other strings. *)
Definition c55b : cache := fst (build (fst (cache_add cache_empty (lit "z.js"))) (XOriginal (lit "z") (lit "y.js"))).
Example C55_order_case : reached_cache c55b /\ aligned cache_empty c55b (looked_up e53) /\ looked_up e53 <> [] /\ snd (build cache_empty e53) <> snd (build c55b e53) /\
  exists o, js_source_and_map true true (snd (build c55b e53)) = Some (ResMap o).
Proof.
  assert (N : forall s, In s (looked_up e53) -> cache_index_of c55b s = None).
  { intros s Hs. vm_compute in Hs. repeat (destruct Hs as [<-|Hs]; [vm_compute; reflexivity|]). destruct Hs. }
  split; [|split; [|split; [vm_compute; discriminate|split; [vm_compute; discriminate|eexists; vm_compute; reflexivity]]]].
  - eexists [CAdd (lit "z.js"); CAddUnchecked (lit "z"); CAdd (lit "y.js")], _. vm_compute. reflexivity.
  - split; [intros s Hs; split; [intros _; now apply N|reflexivity]|]. intros s u i j i' j' _ _ H. discriminate.
Qed.
(** The second evaluation uses other indices for the contents. *)
Example C55_repeat_case : exists c1 t c2 is c3 t', build cache_empty e53 = (c1, t) /\ cache_run c1 [CAdd (lit "w.js")] = (c2, is) /\ build c2 e53 = (c3, t') /\ t <> t' /\
  exists o, js_source_and_map true true t' = Some (ResMap o).
Proof.
  eexists _, _, _, _, _, _. split; [vm_compute; reflexivity|]. split; [vm_compute; reflexivity|]. split; [vm_compute; reflexivity|]. split; [discriminate|]. eexists. vm_compute. reflexivity.
Qed.
(** A line map, in processes that have seen the strings in different orders. *)
Example C55_lines_case : exists c0' c1 t c1' t' o o', reached_cache c0' /\ build cache_empty e53 = (c1, t) /\ build c0' e53 = (c1', t') /\ ~ same_order c1 c1' (looked_up e53) /\
  js_source_and_map false true t = Some (ResMap o) /\ js_source_and_map false true t' = Some (ResMap o').
Proof.
  exists (fst (cache_add cache_empty (lit "a.js"))). eexists _, _, _, _, _, _. split; [exists [CAdd (lit "a.js")]; eexists; vm_compute; reflexivity|].
  split; [vm_compute; reflexivity|]. split; [vm_compute; reflexivity|]. split; [|split; vm_compute; reflexivity].
  intro H. pose proof (H (lit "a.js") (lit "b.js")) as H1. vm_compute in H1. 
  specialize (H1 _ _ _ _ ltac:(tauto) ltac:(tauto) eq_refl eq_refl eq_refl eq_refl). discriminate.
Qed.
