(** What the objects returned by sourceAndMap show, and what is made of them. *)
From Verif Require Import Base Tactics ModelString ModelVlq ModelSm ModelSlm ModelSources ModelTree ModelWasm ModelJs ModelJsApi
  ModelJsResult SpecText SpecMap SpecAttr SpecJs SpecResult VlqFacts Utf16Facts MapFacts GenFacts LoadFacts MapProps NodeFacts
  LeafFacts ReplaceNode SmsNode SmsProps NodeTree Refeed JsFacts ResultFacts.
From Verif Require Export SpecReached.

(** ** Mappings are ASCII *)
Definition ascii (s : str) : Prop := Forall (fun c => c < 128)%N s.
Lemma ascii_app a b : ascii a -> ascii b -> ascii (a ++ b).
Proof. intros. apply Forall_app; auto. Qed.
Lemma vlq_ascii z : ascii (vlq_encode z).
Proof.
  apply Forall_forall. intros c H. apply vlq_encode_alphabet in H. revert c H. apply Forall_forall.
  vm_compute. repeat constructor.
Qed.
Lemma repeat_ascii c n : (c < 128)%N -> ascii (repeat c n).
Proof. intro H. induction n; constructor; auto. Qed.
Lemma ascii_back s : ascii s -> from_js (to_js s) = s.
Proof.
  intro H. apply from_js_utf16. assert (E : to_js s = flat_map to_units s).
  { unfold to_js. destruct s as [|c s]; [reflexivity|]. apply Forall_cons_iff in H as [H _].
    destruct (N.eqb_spec c BOM) as [->|]; [discriminate H|reflexivity]. }
  rewrite E. apply utf16_units. eapply Forall_impl; [|exact H]. intros c Hc. cbn beta in Hc. unfold scalar. unfold char in *. lia.
Qed.
Lemma serialize_one_ascii ss ns b st m st' s : serialize_one ss ns b st m = Some (st', s) -> ascii s.
Proof.
  unfold serialize_one. destruct (se_gen st) as [pl pc], (m_gen m) as [gl gc].
  destruct (if negb (gl =? pl)%N then _ else _) as [[sep pc']|] eqn:Es; [|discriminate]. cbn [bind].
  assert (Hsep : ascii sep).
  { destruct (negb (gl =? pl)%N).
    - destruct (pl <=? gl)%N; [|discriminate]. injection Es as <- <-. apply repeat_ascii. reflexivity.
    - destruct (negb b); injection Es as <- <-; repeat constructor. }
  pose proof vlq_ascii as V. destruct (m_src m) as [s0|]; [|intro H; injection H as <- <-; now apply ascii_app].
  destruct (al_get ss s0) as [si|]; [|discriminate]. cbn [bind]. destruct (m_orig m) as [[ol oc]|]; [|discriminate]. cbn [bind].
  destruct (0 <? ol)%N; [|discriminate]. destruct (m_name m) as [n|].
  - destruct (al_get ns n) as [ni|]; [|discriminate]. cbn [bind]. intro H. injection H as <- <-. repeat apply ascii_app; auto.
  - intro H. injection H as <- <-. repeat apply ascii_app; auto.
Qed.
Lemma serialize_ascii ss ns : forall l b st s, serialize_loop ss ns b st l = Some s -> ascii s.
Proof.
  induction l as [|m l IH]; intros b st s E; cbn [serialize_loop] in E; [injection E as <-; constructor|].
  destruct (serialize_one ss ns b st m) as [[st' s1]|] eqn:E1; [|discriminate]. cbn [bind] in E.
  destruct (serialize_loop ss ns false st' l) as [s2|] eqn:E2; [|discriminate]. cbn [bind] in E. injection E as <-.
  apply ascii_app; [eapply serialize_one_ascii; eauto|eauto].
Qed.
Lemma lits_ascii n s : ascii s -> ascii (rep_str n s).
Proof. intro H. unfold rep_str. induction n; cbn; [constructor|]. now apply ascii_app. Qed.
Lemma piece_head_ascii mc i l : ascii (piece_head mc i l).
Proof.
  pose proof vlq_ascii as V. unfold piece_head. repeat apply ascii_app; auto; [|repeat constructor].
  destruct (negb (mc_unfinished mc =? 0)); [constructor; [reflexivity|apply V]|repeat constructor].
Qed.
Lemma get_mappings_ascii n mc mc' s : node_get_mappings n mc = (mc', s) -> ascii s.
Proof.
  assert (Hl : forall n, ascii (rep_str n (lit ";AACA")) /\ ascii (rep_str n (lit ";AAAA"))).
  { intro k. split; apply lits_ascii; repeat constructor. }
  destruct n as [t|t|p|p|t|t]; cbn [node_get_mappings]; try (intro H; injection H as <- <-; now constructor).
  - unfold code_get_mappings. destruct (0 <? number_of_lines t); intro H; injection H as <- <-.
    + apply ascii_app; [apply repeat_ascii; reflexivity|]. destruct (0 <? get_unfinished_lines t); repeat constructor.
    + destruct ((mc_unfinished mc =? 0) && (0 <? mc_unfinished mc + get_unfinished_lines t)); repeat constructor.
  - unfold source_get_mappings. destruct (pc_code p) as [|x t] eqn:Ec; [intro H; injection H as <- <-; constructor|].
    destruct (ensure_source mc (pc_src p) (pc_orig p)) as [mc1 si]. rewrite <- Ec.
    destruct (get_unfinished_lines (pc_code p) =? 0); intro H; injection H as <- <-;
      (apply ascii_app; [apply piece_head_ascii|]); (apply ascii_app; [apply Hl|]); try (now repeat constructor).
    destruct (negb (pc_n p =? 0)); repeat constructor.
  - unfold single_get_mappings. destruct (pc_code p) as [|x t] eqn:Ec; [intro H; injection H as <- <-; constructor|].
    destruct (ensure_source mc (pc_src p) (pc_orig p)) as [mc1 si]. rewrite <- Ec. intro H; injection H as <- <-.
    (apply ascii_app; [apply piece_head_ascii|]); (apply ascii_app; [apply Hl|]).
    destruct (get_unfinished_lines (pc_code p) =? 0); [repeat constructor|]. destruct (negb (pc_n p =? 0)); repeat constructor.
Qed.
Lemma mappings_loop_ascii : forall l mc mc' s, mappings_loop l mc = (mc', s) -> ascii s.
Proof.
  induction l as [|n l IH]; intros mc mc' s E; cbn [mappings_loop] in E; [injection E as <- <-; constructor|].
  destruct (node_get_mappings n mc) as [mc1 a] eqn:E1. destruct (mappings_loop l mc1) as [mc2 b] eqn:E2. injection E as <- <-.
  apply ascii_app; [eapply get_mappings_ascii; eauto|eauto].
Qed.
Lemma produced_map r names r' m : produced r names -> jr_get_map r = Some (r', m) ->
  ascii (map_mappings m) /\ (names = false -> map_names m = []).
Proof.
  intros [n r0 E|l] Em.
  - split; [|discriminate]. unfold node_result in E. destruct (to_string_with_generator n None None) as [[s g]|]; [|discriminate].
    cbn [bind] in E. injection E as <-. unfold jr_get_map in Em. cbn in Em.
    unfold gen_to_source_map, serialize_mappings in Em.
    match type of Em with context [serialize_loop ?a ?b ?c ?d ?e] => destruct (serialize_loop a b c d e) as [x|] eqn:Ex; [|discriminate] end.
    cbn [bind] in Em. injection Em as <- <-. cbn [map_mappings]. eapply serialize_ascii; eauto.
  - unfold list_result, slm_to_string_with_source_map in Em. destruct (mappings_loop l mctx_new) as [mc s] eqn:E.
    destruct (get_arrays mc) as [ss cs]. unfold jr_get_map in Em. cbn in Em. injection Em as <- <-. split; [|reflexivity].
    cbn [map_mappings]. eapply mappings_loop_ascii; eauto.
Qed.

(** ** The specification of strings *)
Lemma at_stands c i s : cache_at c i = Some s <->
  match s with None => (i < 0)%Z | Some s => exists k, i = Z.of_nat k /\ nth_error (ca_array c) k = Some s end.
Proof.
  unfold cache_at. destruct (Z.ltb_spec i 0).
  - destruct s as [s|]; split; auto; try discriminate; intros (k & -> & _); lia.
  - destruct (Z.ltb_spec i (Z.of_nat (length (ca_array c)))).
    + destruct (nth_error (ca_array c) (Z.to_nat i)) as [t|] eqn:E.
      * cbn [bind]. destruct s as [s|]; split; try discriminate; try lia.
        -- intro G. injection G as <-. exists (Z.to_nat i). split; [lia|exact E].
        -- intros (k & -> & Hk). rewrite Nat2Z.id in E. congruence.
      * exfalso. apply nth_error_None in E. lia.
    + destruct s as [s|]; split; try discriminate; try lia. intros (k & -> & Hk).
      assert (k < length (ca_array c)) by (apply nth_error_Some; congruence). lia.
Qed.
Lemma resolve_stands c : forall is l, cache_resolve c is = Some l <-> stands_for c is l.
Proof.
  unfold stands_for. induction is as [|i is IH]; intro l; cbn [cache_resolve].
  - split; [intro H; injection H as <-; constructor|]. intro H. inversion H. reflexivity.
  - split.
    + intro E. destruct (cache_at c i) as [s|] eqn:E1; [|discriminate]. cbn [bind] in E.
      destruct (cache_resolve c is) as [r|]; [|discriminate]. cbn [bind] in E. injection E as <-.
      constructor; [now apply at_stands|]. now apply IH.
    + intro H. inversion H as [|i' s is' r H1 H2]. subst. apply at_stands in H1. rewrite H1. cbn [bind].
      apply IH in H2. rewrite H2. reflexivity.
Qed.
Lemma resolvable_resolve c is : Forall (fun i => (i < Z.of_nat (length (ca_array c)))%Z) is -> cache_resolve c is <> None.
Proof.
  induction 1 as [|i is H _ IH]; cbn [cache_resolve]; [discriminate|].
  assert (cache_at c i <> None) as Ha.
  { unfold cache_at. destruct (Z.ltb_spec i 0); [discriminate|]. destruct (Z.ltb_spec i (Z.of_nat (length (ca_array c)))); [|lia].
    destruct (nth_error (ca_array c) (Z.to_nat i)) eqn:E; [discriminate|]. apply nth_error_None in E. lia. }
  destruct (cache_at c i); [|contradiction]. cbn [bind]. destruct (cache_resolve c is); [discriminate|contradiction].
Qed.
Lemma resolvable_all c m names : resolvable c m -> forall f, expected m names c f <> None.
Proof.
  unfold resolvable. rewrite !Forall_app. intros (H1 & H2 & H3) f. unfold expected.
  destruct (negb names && field_eqb f FNames); [discriminate|].
  apply resolvable_resolve in H1, H2, H3. destruct f; cbn [raw_value].
  - destruct (cache_resolve c (map_sources m)); [discriminate|contradiction].
  - destruct (cache_resolve c (map_contents m)); [discriminate|contradiction].
  - discriminate.
  - destruct (cache_resolve c (map_names m)); [discriminate|contradiction].
Qed.
Lemma expected_shows c m names f v : option_map (shown f) (expected m names c f) = Some v -> shows c m names f v.
Proof.
  unfold expected. destruct f; cbn [field_eqb]; rewrite ?andb_false_r, ?andb_true_r; cbn [raw_value].
  - destruct (cache_resolve c (map_sources m)) as [l|] eqn:E; [|discriminate]. cbn. intro H. injection H as <-.
    constructor. now apply resolve_stands.
  - destruct (cache_resolve c (map_contents m)) as [[|s l]|] eqn:E; [| |discriminate]; cbn; intro H; injection H as <-.
    + constructor. destruct (map_contents m) as [|i r]; [reflexivity|]. cbn in E. destruct (cache_at c i); [|discriminate].
      cbn in E. destruct (cache_resolve c r); discriminate.
    + constructor. now apply resolve_stands.
  - cbn. intro H. injection H as <-. constructor.
  - destruct names; cbn [negb].
    + destruct (cache_resolve c (map_names m)) as [l|] eqn:E; [|discriminate]. cbn. intro H. injection H as <-.
      constructor; [reflexivity|]. now apply resolve_stands.
    + cbn. intro H. injection H as <-. now constructor.
Qed.
Lemma reached_ok c : reached_cache c -> cache_ok c.
Proof.
  intros (h & is & E). assert (H0 : cache_ok cache_empty) by (intros s i H; discriminate).
  apply (cache_run_spec _ _ _ _ H0 E).
Qed.

(** ** A read before the wasm object is gone *)
Theorem shows_map c0 r r' m names f l : reached_cache c0 -> jr_get_map r = Some (r', m) -> resolvable c0 m ->
  Forall (fun op => ~ clears op /\ ~ wraps op /\ ~ assigns f op) l ->
  exists v, snd (rstep (fst (rrun (c0, robj_new r names) l)) (RGet f)) = AVal v /\ shows c0 m names f v.
Proof.
  intros Hc Hm Hr Hl. destruct (present r m names c0 (resolvable_all c0 m names Hr) (ex_intro _ r' Hm) f l (reached_ok _ Hc) Hl) as (v & H1 & H2).
  exists v. split; [exact H1|]. now apply expected_shows.
Qed.

(** ** A read after it is gone *)
Lemma get_dead c o f o1 v : ro_wasm o = None -> ro_get c o f = (o1, v) -> o1 = o.
Proof.
  intro W. unfold ro_get. rewrite W. destruct (ro_fields o f); [congruence|].
  destruct (negb (ro_names o) && field_eqb f FNames); congruence.
Qed.
Lemma wrap_dead c o value name c1 o1 x : ro_wasm o = None -> ro_wrap c o value name = (c1, o1, x) -> o1 = o.
Proof.
  intro W. unfold ro_wrap. destruct (cache_add_unchecked c value) as [c2 vi]. destruct (cache_add c2 name) as [c3 ni].
  assert (ro_wasm_obj o = None) as -> by (unfold ro_wasm_obj; rewrite W; now destruct (ro_modified o)).
  destruct (ro_get c3 o FSources) as [oa s] eqn:Ea. apply get_dead in Ea; [|exact W]. subst oa.
  destruct (pass_list cache_add c3 s) as [[c4 ss]|]; [|congruence].
  destruct (ro_get c4 o FContents) as [oa k] eqn:Ea. apply get_dead in Ea; [|exact W]. subst oa.
  destruct (pass_list cache_add_unchecked c4 k) as [[c5 ks]|]; [|congruence].
  destruct (ro_get c5 o FMappings) as [oa m] eqn:Ea. apply get_dead in Ea; [|exact W]. subst oa.
  destruct (let* m0 := m in as_string m0); [|congruence].
  destruct (ro_get c5 o FNames) as [oa n] eqn:Ea. apply get_dead in Ea; [|exact W]. subst oa.
  destruct (pass_list cache_add c5 n) as [[c6 ns]|]; congruence.
Qed.

Lemma step_unread f c o op c1 o1 a : ro_modified o = false /\ held o f = None -> ~ edits op /\ ~ touches f op ->
  rstep (c, o) op = (c1, o1, a) -> ro_modified o1 = false /\ held o1 f = None.
Proof.
  intros [Hm Hh] [He Ht]. destruct op as [g|g v|g h| |s|value name|s ck|]; cbn [rstep edits touches] in *; [|tauto| | | | | |].
  - destruct (ro_get c o g) as [o2 v] eqn:E. intro H. injection H as <- <- <-. apply get_frame in E as (_ & M & _ & _ & K).
    rewrite M, K by congruence. auto.
  - destruct (ro_get c o g) as [o2 v] eqn:E. apply get_frame in E as (_ & M & _ & _ & K). rewrite <- K in Hh by congruence. rewrite <- M in Hm.
    destruct v; intro H; injection H as <- <- <-; [|auto]. destruct (ro_fields o2 g); [|auto]. split; [exact Hm|].
    unfold held in *. cbn [set_field ro_fields]. rewrite upd_other by exact Ht. exact Hh.
  - unfold ro_get_source. destruct (ro_source o) as [s|]; [intro H; injection H as <- <- <-; auto|].
    destruct (ro_wasm o) as [r|]; intro H; injection H as <- <- <-; auto.
  - intro H. injection H as <- <- <-. auto.
  - destruct (ro_wasm o) as [r|] eqn:W.
    + unfold ro_wrap, ro_wasm_obj. destruct (cache_add_unchecked c value) as [c2 vi]. destruct (cache_add c2 name) as [c3 ni].
      rewrite Hm, W. intro H. injection H as <- <- <-. auto.
    + destruct (ro_wrap c o value name) as [[c2 o2] x] eqn:E. apply wrap_dead in E; [|exact W]. subst o2.
      intro H. injection H as <- <- <-. auto.
  - destruct ck; intro H; injection H as <- <- <-; auto.
  - intro H. injection H as <- <- <-. auto.
Qed.
Lemma step_dead f c o op c1 o1 a : ro_wasm o = None /\ held o f = None -> ~ touches f op ->
  rstep (c, o) op = (c1, o1, a) -> ro_wasm o1 = None /\ held o1 f = None.
Proof.
  intros [W Hh] Ht. destruct op as [g|g v|g h| |s|value name|s ck|]; cbn [rstep touches] in *.
  - destruct (ro_get c o g) as [o2 v] eqn:E. apply get_dead in E; [|exact W]. subst. intro H. injection H as <- <- <-. auto.
  - intro H. injection H as <- <- <-. unfold ro_set, held in *.
    destruct (negb (ro_names (set_field o g v)) && field_eqb g FNames); (split; [exact W|]);
      cbn [set_modified set_field ro_fields]; rewrite upd_other by exact Ht; exact Hh.
  - destruct (ro_get c o g) as [o2 v] eqn:E. apply get_dead in E; [|exact W]. subst.
    destruct v; intro H; injection H as <- <- <-; [|auto]. destruct (ro_fields o g); [|auto]. split; [exact W|].
    unfold held in *. cbn [set_field ro_fields]. rewrite upd_other by exact Ht. exact Hh.
  - unfold ro_get_source. destruct (ro_source o) as [s|]; [intro H; injection H as <- <- <-; auto|].
    rewrite W. intro H. injection H as <- <- <-. auto.
  - intro H. injection H as <- <- <-. auto.
  - destruct (ro_wrap c o value name) as [[c2 o2] x] eqn:E. apply wrap_dead in E; [|exact W]. subst.
    intro H. injection H as <- <- <-. auto.
  - intro H. injection H as <- <- <-. auto.
  - intro H. injection H as <- <- <-. auto.
Qed.

Lemma rrun_app w : forall l1 l2, fst (rrun w (l1 ++ l2)) = fst (rrun (fst (rrun w l1)) l2).
Proof.
  intros l1. revert w. induction l1 as [|op l1 IH]; intros [c o] l2; [reflexivity|]. cbn [app rrun].
  destruct (rstep (c, o) op) as [[c1 o1] a]. specialize (IH (c1, o1) l2).
  destruct (rrun (c1, o1) (l1 ++ l2)) as [w1 out1]. destruct (rrun (c1, o1) l1) as [w2 out2]. exact IH.
Qed.
Theorem unread_is_lost c0 r names f l1 op l2 : (f = FNames -> names = true) -> wraps op \/ clears op ->
  Forall (fun op => ~ edits op /\ ~ touches f op) l1 -> Forall (fun op => ~ touches f op) l2 ->
  snd (rstep (fst (rrun (c0, robj_new r names) (l1 ++ op :: l2))) (RGet f)) = AError.
Proof.
  intros Hf Hop H1 H2. rewrite rrun_app.
  pose proof (run_keeps (fun op => ~ edits op /\ ~ touches f op) (fun c o => ro_modified o = false /\ held o f = None)
    (step_unread f) l1 c0 (robj_new r names)) as K1.
  destruct K1 as [M1 U1]; [|exact H1|].
  { split; [reflexivity|]. unfold held, plain_names. cbn. destruct f; rewrite ?andb_false_r; try reflexivity. now rewrite Hf. }
  destruct (rrun (c0, robj_new r names) l1) as [[c1 o1] out1]. cbn [fst snd] in *. cbn [rrun].
  destruct (rstep (c1, o1) op) as [[c2 o2] a] eqn:E.
  assert (D : ro_wasm o2 = None /\ held o2 f = None).
  { destruct op as [g|g v|g h| |s|value name|s ck|]; cbn [wraps clears] in Hop; try tauto; cbn [rstep] in E.
    - destruct (ro_wrap c1 o1 value name) as [[c3 o3] x] eqn:Ew. injection E as <- <- <-.
      destruct (ro_wasm o1) as [r1|] eqn:W.
      + unfold ro_wrap, ro_wasm_obj in Ew. destruct (cache_add_unchecked c1 value) as [c4 vi]. destruct (cache_add c4 name) as [c5 ni].
        rewrite M1, W in Ew. injection Ew as <- <- <-. auto.
      + apply wrap_dead in Ew; [|exact W]. subst. auto.
    - injection E as <- <- <-. auto. }
  destruct (run_keeps (fun op => ~ touches f op) (fun c o => ro_wasm o = None /\ held o f = None) (step_dead f) l2 c2 o2 D H2) as [W U].
  destruct (rrun (c2, o2) l2) as [[c3 o3] out3]. cbn [fst snd] in *. cbn [rstep]. unfold ro_get. rewrite W.
  unfold held in U. destruct (ro_fields o3 f); [discriminate|]. fold (plain_names o3 f). destruct (plain_names o3 f); [discriminate|]. reflexivity.
Qed.

(** ** The text *)
Lemma step_source c o op c1 o1 a : ~ uses_text op -> rstep (c, o) op = (c1, o1, a) -> ro_source o1 = ro_source o.
Proof.
  intros Ht. destruct op as [g|g v|g h| |s|value name|s ck|]; cbn [rstep uses_text] in *; try tauto.
  - destruct (ro_get c o g) as [o2 v] eqn:E. intro H. injection H as <- <- <-. now apply get_frame in E as (_ & _ & K & _).
  - intro H. injection H as <- <- <-. unfold ro_set. now destruct (_ && _).
  - destruct (ro_get c o g) as [o2 v] eqn:E. apply get_frame in E as (_ & _ & K & _).
    destruct v; intro H; injection H as <- <- <-; [|exact K]. now destruct (ro_fields o2 g).
  - destruct (ro_wrap c o value name) as [[c2 o2] x] eqn:E. intro H. injection H as <- <- <-. now apply wrap_frame in E as (_ & _ & K & _).
  - intro H. now injection H as <- <- <-.
  - intro H. now injection H as <- <- <-.
Qed.
Lemma source_held s l c o : Forall (fun op => ~ assigns_text op) l -> ro_source o = Some s ->
  snd (rstep (fst (rrun (c, o) l)) RSource) = ModelJsResult.AText s.
Proof.
  intros H E.
  pose proof (run_keeps (fun op => ~ assigns_text op) (fun _ o => ro_source o = Some s)) as K.
  specialize (fun S => K S l c o E H). lapply K; clear K; [intro K|].
  2:{ intros c' o' op c1 o1 a Q P St. destruct op; try (rewrite (fun t => step_source _ _ _ _ _ _ t St) by (intros []); exact Q); [|now destruct P].
    cbn [rstep] in St. unfold ro_get_source in St. rewrite Q in St. injection St as _ <- _. exact Q. }
  destruct (rrun (c, o) l) as [[c1 o1] out]. cbn [fst snd] in *. cbn [rstep]. unfold ro_get_source. now rewrite K.
Qed.
Theorem text_stable c o s l : Forall (fun op => ~ assigns_text op) l ->
  snd (rstep (c, o) RSource) = ModelJsResult.AText s -> snd (rstep (fst (rrun (fst (rstep (c, o) RSource)) l)) RSource) = ModelJsResult.AText s.
Proof.
  intros H E. destruct (rstep (c, o) RSource) as [[c1 o1] a] eqn:St. cbn [fst snd] in *. subst a. apply source_held; [exact H|].
  cbn [rstep] in St. unfold ro_get_source in St. destruct (ro_source o) as [s'|] eqn:Eo; [injection St as _ <- <-; exact Eo|].
  destruct (ro_wasm o); [injection St as _ <- <-; reflexivity|discriminate].
Qed.
Theorem text_assigned c o s l : Forall (fun op => ~ assigns_text op) l ->
  snd (rstep (fst (rrun (fst (rstep (c, o) (RSetSource s))) l)) RSource) = ModelJsResult.AText s.
Proof. intro H. now apply source_held. Qed.
(** Until then it is the text of the result. *)
Lemma get_text c o f o1 v s : ro_get c o f = (o1, v) -> (exists r, ro_wasm o = Some r /\ jr_s r = s) -> exists r, ro_wasm o1 = Some r /\ jr_s r = s.
Proof.
  intros E (r & W & Es). unfold ro_get in E. destruct (ro_fields o f); [injection E as <- _; eauto|].
  destruct (_ && _); [injection E as <- _; eauto|]. rewrite W in E. destruct (jr_get_map r) as [[r2 m]|] eqn:Em; [|injection E as <- _; eauto].
  assert (Er : jr_s r2 = jr_s r).
  { unfold jr_get_map in Em. destruct (jr_map r); [now injection Em as <- _|]. unbind Em. unbind Em. destruct v1. injection Em as <- _. reflexivity. }
  destruct (raw_value c m f) as [w|]; injection E as <- _; exists r2; (split; [reflexivity|congruence]).
Qed.
Theorem text_shows r names c0 l : Forall (fun op => ~ clears op /\ ~ wraps op /\ ~ assigns_text op) l ->
  snd (rstep (fst (rrun (c0, robj_new r names) l)) RSource) = ModelJsResult.AText (to_js (jr_s r)).
Proof.
  intro H.
  set (Q := fun (_ : cache) (o : robj) => (exists r', ro_wasm o = Some r' /\ jr_s r' = jr_s r) /\ (ro_source o = None \/ ro_source o = Some (to_js (jr_s r)))).
  assert (S : forall c o op c1 o1 a, Q c o -> ~ clears op /\ ~ wraps op /\ ~ assigns_text op -> rstep (c, o) op = (c1, o1, a) -> Q c1 o1).
  { intros c o op c1 o1 a [W Hs] (Hc & Hw & Ho) E. destruct op as [f|f v|f g| |s|value name|s ck|]; cbn [clears wraps assigns_text] in *; try tauto.
    1-3,5: pose proof (fun t => step_source _ _ _ _ _ _ t E) as K; (split; [|rewrite K by (intros []); exact Hs]); clear K Hs.
    - cbn [rstep] in E. destruct (ro_get c o f) as [o2 v] eqn:Eg. injection E as <- <- _. exact (get_text _ _ _ _ _ _ Eg W).
    - cbn [rstep] in E. injection E as <- <- _. unfold ro_set. destruct (_ && _); exact W.
    - cbn [rstep] in E. destruct (ro_get c o f) as [o2 v] eqn:Eg. pose proof (get_text _ _ _ _ _ _ Eg W) as W2.
      destruct v; injection E as <- <- _; [|exact W2]. destruct (ro_fields o2 f); exact W2.
    - cbn [rstep] in E. injection E as <- <- _. exact W.
    - cbn [rstep] in E. destruct W as (r1 & W1 & W2). unfold ro_get_source in E. destruct (ro_source o) as [s0|] eqn:Es.
      + injection E as <- <- _. split; [eauto|]. rewrite Es. exact Hs.
      + rewrite W1 in E. injection E as <- <- _. split; [exists r1; auto|]. right. cbn. now rewrite W2. }
  assert (H0 : Q c0 (robj_new r names)) by (split; [exists r; auto|now left]).
  pose proof (run_keeps _ Q S l c0 (robj_new r names) H0 H) as [(r1 & W1 & W2) Hs].
  destruct (rrun (c0, robj_new r names) l) as [[c o] out]. cbn [fst snd] in *. cbn [rstep]. unfold ro_get_source.
  destruct Hs as [->| ->]; [rewrite W1|]; cbn; [now rewrite W2|reflexivity].
Qed.
Lemma step_unmodified c o op c1 o1 a : ~ edits op -> rstep (c, o) op = (c1, o1, a) -> ro_modified o1 = ro_modified o.
Proof.
  intros Ht. destruct op as [g|g v|g h| |s|value name|s ck|]; cbn [rstep edits] in *; try tauto.
  - destruct (ro_get c o g) as [o2 v] eqn:E. intro H. injection H as <- <- <-. now apply get_frame in E as (_ & K & _).
  - destruct (ro_get c o g) as [o2 v] eqn:E. apply get_frame in E as (_ & K & _).
    destruct v; intro H; injection H as <- <- <-; [|exact K]. now destruct (ro_fields o2 g).
  - unfold ro_get_source. destruct (ro_source o); [intro H; now injection H as <- <- <-|]. destruct (ro_wasm o); intro H; now injection H as <- <- <-.
  - intro H. now injection H as <- <- <-.
  - destruct (ro_wrap c o value name) as [[c2 o2] x] eqn:E. intro H. injection H as <- <- <-. now apply wrap_frame in E as (_ & K & _).
  - intro H. now injection H as <- <- <-.
  - intro H. now injection H as <- <- <-.
Qed.
Lemma step_freed c o op c1 o1 a : ro_wasm o = None -> rstep (c, o) op = (c1, o1, a) -> ro_wasm o1 = None.
Proof.
  intros W. destruct op as [g|g v|g h| |s|value name|s ck|]; cbn [rstep].
  - destruct (ro_get c o g) as [o2 v] eqn:E. apply get_dead in E; [|exact W]. subst. intro H. now injection H as <- <- <-.
  - intro H. injection H as <- <- <-. unfold ro_set. destruct (_ && _); exact W.
  - destruct (ro_get c o g) as [o2 v] eqn:E. apply get_dead in E; [|exact W]. subst.
    destruct v; intro H; injection H as <- <- <-; [|exact W]. destruct (ro_fields o g); exact W.
  - unfold ro_get_source. rewrite W. destruct (ro_source o); intro H; now injection H as <- <- <-.
  - intro H. now injection H as <- <- <-.
  - destruct (ro_wrap c o value name) as [[c2 o2] x] eqn:E. apply wrap_dead in E; [|exact W]. subst. intro H. now injection H as <- <- <-.
  - intro H. now injection H as <- <- <-.
  - intro H. now injection H as <- <- <-.
Qed.
Theorem text_is_lost c0 r names l1 op l2 : wraps op \/ clears op ->
  Forall (fun op => ~ edits op /\ ~ uses_text op) l1 -> Forall (fun op => ~ uses_text op) l2 ->
  snd (rstep (fst (rrun (c0, robj_new r names) (l1 ++ op :: l2))) RSource) = AError.
Proof.
  intros Hop H1 H2. rewrite rrun_app.
  pose proof (run_keeps (fun op => ~ edits op /\ ~ uses_text op) (fun c o => ro_modified o = false /\ ro_source o = None)) as K1.
  destruct (fun S => K1 S l1 c0 (robj_new r names) (conj eq_refl eq_refl) H1) as [M1 S1].
  { intros c o q c1 o1 a [Q1 Q2] [P1 P2] St. rewrite (step_unmodified _ _ _ _ _ _ P1 St), (step_source _ _ _ _ _ _ P2 St). auto. }
  destruct (rrun (c0, robj_new r names) l1) as [[c1 o1] out1]. cbn [fst snd] in *. cbn [rrun].
  destruct (rstep (c1, o1) op) as [[c2 o2] a] eqn:E.
  assert (D : ro_wasm o2 = None /\ ro_source o2 = None).
  { split; [|rewrite (fun t => step_source _ _ _ _ _ _ t E) by (destruct op; cbn in *; tauto); exact S1].
    destruct op as [g|g v|g h| |s|value name|s ck|]; cbn [wraps clears] in Hop; try tauto; cbn [rstep] in E.
    - destruct (ro_wrap c1 o1 value name) as [[c3 o3] x] eqn:Ew. injection E as <- <- <-.
      destruct (ro_wasm o1) as [r1|] eqn:W; [|apply wrap_dead in Ew; [|exact W]; now subst].
      unfold ro_wrap, ro_wasm_obj in Ew. destruct (cache_add_unchecked c1 value) as [c4 vi]. destruct (cache_add c4 name) as [c5 ni].
      rewrite M1, W in Ew. injection Ew as <- <- <-. reflexivity.
    - injection E as <- <- <-. reflexivity. }
  pose proof (run_keeps (fun op => ~ uses_text op) (fun c o => ro_wasm o = None /\ ro_source o = None)) as K2.
  destruct (fun S => K2 S l2 c2 o2 D H2) as [W U].
  { intros c o q c3 o3 b [Q1 Q2] P St. rewrite (step_source _ _ _ _ _ _ P St). split; [eapply step_freed; eauto|exact Q2]. }
  destruct (rrun (c2, o2) l2) as [[c3 o3] out3]. cbn [fst snd] in *. cbn [rstep]. unfold ro_get_source. now rewrite U, W.
Qed.

(** ** What a wrapping SourceMapSource is given *)
Lemma as_list_lists v l : as_list v = Some l -> lists v l.
Proof. destruct v as [a|[|]|]; cbn; intro H; try discriminate; injection H as <-; constructor. Qed.
Lemma sound_given r0 m r v vi ni x : sound r0 m r -> sms_new_wasmmap v vi ni r = Some x ->
  sms_value x = v /\ given x = Some (content_of m).
Proof.
  intros ((r' & E) & _) Ex. unfold sms_new_wasmmap in Ex. unfold jr_get_map in E. destruct (jr_map r) as [m1|].
  - injection E as <- <-. injection Ex as <-. auto.
  - destruct (jr_gen r) as [g|]; [|discriminate]. cbn [bind] in *. destruct (gen_to_source_map g) as [[g1 m1]|] eqn:Eg; [|discriminate].
    cbn [bind] in E. injection E as _ <-. injection Ex as <-. split; [reflexivity|].
    unfold given. cbn [sms_new_with_generator sms_map ce_data ce_gen]. rewrite Eg. reflexivity.
Qed.
Lemma wrap_fields_given c p value vi ni x : cache_ok c -> snd (wrap_fields c p value vi ni) = Some x ->
  sms_value x = from_js value /\ exists d vs vk sm vn ls lk ln, given x = Some d /\
    p FSources = Some vs /\ as_list vs = Some ls /\ cache_resolve (fst (wrap_fields c p value vi ni)) (sc_sources d) = Some (map (fun s => Some (stored s)) ls) /\
    p FContents = Some vk /\ as_list vk = Some lk /\ cache_resolve (fst (wrap_fields c p value vi ni)) (sc_contents d) = Some (map (fun s => Some (stored s)) lk) /\
    p FMappings = Some (VStr sm) /\ sc_mappings d = from_js sm /\
    p FNames = Some vn /\ as_list vn = Some ln /\ cache_resolve (fst (wrap_fields c p value vi ni)) (sc_names d) = Some (map (fun s => Some (stored s)) ln).
Proof.
  intro O. unfold wrap_fields. destruct (pass_list cache_add c (p FSources)) as [[c4 ss]|] eqn:E4; [|discriminate].
  destruct (pass_list_spec _ add_grows _ _ _ _ O E4) as (O4 & G4 & vs & ls & A1 & A2 & A3).
  destruct (pass_list cache_add_unchecked c4 (p FContents)) as [[c5 ks]|] eqn:E5; [|discriminate].
  destruct (pass_list_spec _ addu_grows _ _ _ _ O4 E5) as (O5 & G5 & vk & lk & B1 & B2 & B3).
  destruct (p FMappings) as [[|sm|]|]; try discriminate. cbn [bind as_string].
  destruct (pass_list cache_add c5 (p FNames)) as [[c6 ns]|] eqn:E6; [|discriminate].
  destruct (pass_list_spec _ add_grows _ _ _ _ O5 E6) as (O6 & G6 & vn & ln & C1 & C2 & C3).
  cbn [fst snd]. intro H. injection H as <-. split; [reflexivity|].
  eexists _, vs, vk, sm, vn, ls, lk, ln. split; [reflexivity|]. cbn [sc_sources sc_contents sc_names sc_mappings].
  repeat split; auto.
  - eapply cache_resolve_grows; [exact G6|]. eapply cache_resolve_grows; [exact G5|exact A3].
  - eapply cache_resolve_grows; [exact G6|exact B3].
Qed.

Lemma stands_entered c is l : cache_resolve c is = Some (map (fun s => Some (stored s)) l) -> stands c is l.
Proof.
  intro E. eexists. split; [apply resolve_stands; exact E|]. rewrite map_map. apply map_ext. now intros [s|].
Qed.

Section Wrap.
  Variables (c0 : cache) (r r' : js_result) (m : source_map) (names : bool).
  Hypothesis Hc : reached_cache c0.
  Hypothesis Hp : produced r names.
  Hypothesis Hm : jr_get_map r = Some (r', m).
  Hypothesis Hr : resolvable c0 m.
  Let Hall := resolvable_all c0 m names Hr.
  Let Hex : exists r', jr_get_map r = Some (r', m) := ex_intro _ r' Hm.

  Definition honest (op : rop) : Prop := ~ clears op /\ ~ in_place op /\ (names = false -> ~ assigns FNames op).
  Definition good (c : cache) (o : robj) : Prop :=
    inv r m names c0 c o /\ (ro_modified o = false -> forall f, pristine m names c0 o f).
  Lemma step_good c o op c1 o1 a : good c o -> honest op -> rstep (c, o) op = (c1, o1, a) -> good c1 o1.
  Proof.
    intros [I P] (H1 & H2 & H3) E. split; [eapply step_inv; eauto|]. intros Hmod f.
    destruct op as [g|g v|g h| |s|value name|s ck|]; cbn [in_place clears] in *; try tauto.
    1, 3, 4, 5, 6: (eapply step_pristine; [exact Hall|exact I| | | |exact E]); try (cbn; tauto); apply P.
    - cbn [rstep] in E. destruct (ro_get c o g) as [o2 v] eqn:Eg. injection E as <- <- <-.
      apply get_frame in Eg as (_ & M & _). congruence.
    - cbn [rstep] in E. unfold ro_get_source in E. destruct (ro_source o); [injection E as <- <- <-; exact Hmod|].
      destruct (ro_wasm o); injection E as <- <- <-; exact Hmod.
    - cbn [rstep] in E. injection E as <- <- <-. exact Hmod.
    - cbn [rstep] in E. destruct (ro_wrap c o value name) as [[c2 o2] x] eqn:Ew. injection E as <- <- <-.
      apply wrap_frame in Ew as (_ & M & _). congruence.
    - cbn [rstep] in E. injection E as <- <- <-. exact Hmod.
    - exfalso. cbn [rstep] in E. injection E as <- <- <-. unfold ro_set in Hmod. cbn [set_field ro_names] in Hmod.
      rewrite (inv_names _ _ _ _ _ _ I) in Hmod. destruct names; cbn [negb andb] in Hmod; [discriminate|].
      destruct (field_eqb g FNames) eqn:Eg; [|discriminate]. apply field_eqb_eq in Eg. exact (H3 eq_refl Eg).
  Qed.
  Lemma run_good l : Forall honest l ->
    good (fst (fst (rrun (c0, robj_new r names) l))) (snd (fst (rrun (c0, robj_new r names) l))).
  Proof.
    intro Hl. apply (run_keeps honest good step_good); [|exact Hl]. split.
    - apply new_inv; [exact Hex|]. now apply reached_ok.
    - intros _ f. apply new_pristine.
  Qed.

  Theorem used_is_shown l value name c1 o1 x : Forall honest l ->
    rstep (fst (rrun (c0, robj_new r names) l)) (RWrap value name) = (c1, o1, ASms x) ->
    sms_value x = from_js value /\
    exists d vs vk sm vn ls lk ln, given x = Some d /\
      snd (rstep (fst (rrun (c0, robj_new r names) l)) (RGet FSources)) = AVal vs /\ lists vs ls /\ stands c1 (sc_sources d) ls /\
      snd (rstep (fst (rrun (c0, robj_new r names) l)) (RGet FContents)) = AVal vk /\ lists vk lk /\ stands c1 (sc_contents d) lk /\
      snd (rstep (fst (rrun (c0, robj_new r names) l)) (RGet FMappings)) = AVal (VStr sm) /\ sc_mappings d = from_js sm /\
      snd (rstep (fst (rrun (c0, robj_new r names) l)) (RGet FNames)) = AVal vn /\ lists vn ln /\ stands c1 (sc_names d) ln.
  Proof.
    intros Hl. destruct (run_good l Hl) as [I P].
    destruct (rrun (c0, robj_new r names) l) as [[c o] out]. cbn [fst snd] in *. rewrite !(step_get r m names c0 Hall c o _ I).
    cbn [rstep]. destruct (wrap_spec r m names c0 Hall c o value name I) as (c3 & vi & ni & I3 & G3 & W).
    destruct (ro_wasm_obj o) as [rw|] eqn:Ew.
    - rewrite W. destruct (sms_new_wasmmap (from_js value) (Z.of_nat vi) (Z.of_nat ni) rw) as [y|] eqn:Ex; [|discriminate].
      intro H. injection H as <- <- <-.
      unfold ro_wasm_obj in Ew. destruct (ro_modified o); [discriminate|]. specialize (P eq_refl).
      destruct (sound_given _ _ _ _ _ _ _ (inv_wasm _ _ _ _ _ _ I rw Ew) Ex) as [V G]. split; [exact V|].
      assert (Wn : ro_wasm o <> None) by congruence.
      destruct (produced_map r names r' m Hp Hm) as [Asc Nn].
      assert (S : forall is l, cache_resolve c0 is = Some l -> stands c3 is l).
      { intros is l0 E. exists l0. split; [|reflexivity]. apply resolve_stands. eapply cache_resolve_grows; [|exact E]. apply I3. }
      destruct (peek_alive m names c0 Hall o FSources Wn (P _)) as (vs & A1 & A2).
      destruct (peek_alive m names c0 Hall o FContents Wn (P _)) as (vk & B1 & B2).
      destruct (peek_alive m names c0 Hall o FMappings Wn (P _)) as (vm & C1 & C2).
      destruct (peek_alive m names c0 Hall o FNames Wn (P _)) as (vn & D1 & D2).
      rewrite A1, B1, C1, D1. unfold expected in *. cbn [field_eqb] in *. rewrite ?andb_false_r, ?andb_true_r in *. cbn [raw_value answer] in *.
      destruct (cache_resolve c0 (map_sources m)) as [ls|] eqn:Es; [|discriminate]. cbn in A2. injection A2 as <-.
      destruct (cache_resolve c0 (map_contents m)) as [lk|] eqn:Ek; [|discriminate]. cbn in C2. injection C2 as <-.
      assert (N : exists ln, lists vn ln /\ cache_resolve c0 (map_names m) = Some ln).
      { destruct names; cbn [negb] in D2.
        - destruct (cache_resolve c0 (map_names m)) as [ln|]; [|discriminate]. cbn in D2. injection D2 as <-. exists ln. split; [constructor|reflexivity].
        - cbn in D2. injection D2 as <-. exists []. rewrite Nn by reflexivity. split; [constructor|reflexivity]. }
      destruct N as (ln & N1 & N2).
      exists (content_of m), (VArr ls), vk, (to_js (map_mappings m)), vn, ls, lk, ln.
      split; [exact G|]. split; [reflexivity|]. split; [constructor|]. split; [now apply S|].
      split; [reflexivity|]. split; [|split; [now apply S|]].
      { cbn in B2. destruct lk; injection B2 as <-; constructor. }
      split; [reflexivity|]. split; [cbn; now rewrite ascii_back|]. split; [reflexivity|]. split; [exact N1|now apply S].
    - destruct W as (o' & -> & I' & _). destruct (snd (wrap_fields c3 (peek m names c0 o) value vi ni)) as [y|] eqn:Ex; [|discriminate].
      intro H. injection H as <- <- <-.
      destruct (wrap_fields_given _ _ _ _ _ _ (inv_ok _ _ _ _ _ _ I3) Ex)
        as (V & d & vs & vk & sm & vn & ls & lk & ln & G & A1 & A2 & A3 & B1 & B2 & B3 & C1 & C2 & D1 & D2 & D3).
      split; [exact V|]. exists d, vs, vk, sm, vn, ls, lk, ln. rewrite A1, B1, C1, D1. cbn [answer].
      split; [exact G|]. repeat split; auto using as_list_lists; now apply stands_entered.
  Qed.
End Wrap.

(** ** Wrapping as often as one likes *)
Lemma add_all_interned c0 c : cache_ok c0 -> grows c0 c -> forall is l,
  Forall (fun i => exists k s, i = Z.of_nat k /\ cache_index_of c0 s = Some k) is -> cache_resolve c0 is = Some l ->
  add_all cache_add c l = Some (c, is).
Proof.
  intros O [G1 G2]. induction is as [|i is IH]; intros l H E; cbn [cache_resolve] in E; [injection E as <-; reflexivity|].
  apply Forall_cons_iff in H as [(k & s & -> & Hk) H2]. pose proof (O _ _ Hk) as Hn. rewrite (cache_at_nth _ _ _ Hn) in E. cbn [bind] in E.
  destruct (cache_resolve c0 is) as [r|]; [|discriminate]. cbn [bind] in E. injection E as <-. cbn [add_all].
  cbn [stored]. unfold cache_add at 1. rewrite (G2 _ _ Hk). rewrite (IH r H2 eq_refl). reflexivity.
Qed.
Lemma add_all_unchecked : forall l c, cache_ok c -> exists c' ks, add_all cache_add_unchecked c l = Some (c', ks) /\ cache_ok c' /\ grows c c'.
Proof.
  induction l as [|s l IH]; intros c O; [exists c, []; split; [reflexivity|]; split; [exact O|apply grows_refl]|].
  cbn [add_all]. destruct (cache_add_unchecked c (stored s)) as [c1 j] eqn:E1.
  destruct (addu_grows _ _ _ _ O E1) as (O1 & G1 & _). destruct (IH c1 O1) as (c2 & ks & -> & O2 & G2).
  cbn [bind]. eexists _, _. split; [reflexivity|]. split; [exact O2|eapply grows_trans; eauto].
Qed.
Definition calm (op : rop) : Prop := ~ clears op /\ ~ in_place op /\ ~ edits op.
Lemma step_calm c o op c1 o1 a : ro_modified o = false -> calm op -> rstep (c, o) op = (c1, o1, a) -> ro_modified o1 = false.
Proof.
  intros Hm (H1 & H2 & H3) E. destruct op as [g|g v|g h| |s|value name|s ck|]; cbn [in_place clears edits] in *; try tauto; cbn [rstep] in E.
  - destruct (ro_get c o g) as [o2 v] eqn:Eg. injection E as <- <- <-. apply get_frame in Eg as (_ & M & _). congruence.
  - unfold ro_get_source in E. destruct (ro_source o); [injection E as <- <- <-; exact Hm|].
    destruct (ro_wasm o); injection E as <- <- <-; exact Hm.
  - injection E as <- <- <-. exact Hm.
  - destruct (ro_wrap c o value name) as [[c2 o2] x] eqn:Ew. injection E as <- <- <-. apply wrap_frame in Ew as (_ & M & _). congruence.
  - injection E as <- <- <-. exact Hm.
Qed.

Theorem wrap_again c m t M n r r' mp c0 l value name :
  attributed c m t M -> chunks leaf_ok c m t -> (N.of_nat (length M) < 2147483648)%N ->
  t_node c m t = Some n -> node_result n = Some r -> (forall g, jr_gen r = Some g -> gen_fits g) ->
  jr_get_map r = Some (r', mp) ->
  reached_cache c0 -> resolvable c0 mp -> interned c0 mp ->
  Forall calm l -> from_js value = text_of M ->
  (forall f, exists v, snd (rstep (fst (rrun (c0, robj_new r true) l)) (RGet f)) = AVal v) ->
  exists c1 o1 x, rstep (fst (rrun (c0, robj_new r true) l)) (RWrap value name) = (c1, o1, ASms x) /\
    forall c' m', emits c' m' (TSms x) M.
Proof.
  intros A Hk L En Er Hf Em Hc Hr Hi Hl Hv Hread.
  destruct (fed_read c m t M A Hk L) as (n1 & r1 & E1 & E2 & E3 & F1 & F2).
  rewrite En in E1. injection E1 as <-. rewrite Er in E2. injection E2 as <-.
  destruct F2 as (r2 & mp2 & Em2 & F2). rewrite Em in Em2. injection Em2 as <- <-.
  pose proof (produced_node n r Er) as Hp.
  assert (Hg : exists g, jr_gen r = Some g).
  { unfold node_result in Er. destruct (to_string_with_generator n None None) as [[s g]|]; [|discriminate].
    cbn [bind] in Er. injection Er as <-. exists g. reflexivity. }
  destruct Hg as [g Hg]. specialize (F2 g Hg (Hf g Hg)).
  assert (Hh : Forall (honest true) l).
  { eapply Forall_impl; [|exact Hl]. intros op (H1 & H2 & H3). split; [exact H1|]. split; [exact H2|discriminate]. }
  pose proof (run_keeps calm (fun _ o => ro_modified o = false) step_calm l c0 (robj_new r true) eq_refl Hl) as Hmod.
  destruct (run_good c0 r r' mp true Hc Hp Em Hr l Hh) as [I P]. cbn beta in Hmod. specialize (P Hmod).
  pose proof (resolvable_all c0 mp true Hr) as Hall.
  destruct (rrun (c0, robj_new r true) l) as [[cc o] out]. cbn [fst snd] in *. cbn [rstep].
  destruct (wrap_spec r mp true c0 Hall cc o value name I) as (c3 & vi & ni & I3 & G3 & W).
  unfold ro_wasm_obj in W. rewrite Hmod in W. destruct (ro_wasm o) as [rw|] eqn:Ew.
  - rewrite W. destruct (inv_wasm _ _ _ _ _ _ I rw Ew) as (_ & _ & k & Hk').
    destruct (F1 k) as (rk & Hrk & Fx). rewrite Hk' in Hrk. injection Hrk as <-.
    rewrite Hv, <- E3. destruct (Fx (Z.of_nat vi) (Z.of_nat ni)) as (x & Hx & Hxe). rewrite Hx. cbn [answer].
    eexists _, _, x. split; [reflexivity|exact Hxe].
  - destruct W as (o' & -> & _).
    assert (K : forall f, exists v, peek mp true c0 o f = Some v /\ option_map (shown f) (expected mp true c0 f) = Some v).
    { intro f. destruct (Hread f) as [v E]. rewrite (step_get r mp true c0 Hall cc o f I) in E.
      destruct (peek mp true c0 o f) as [v0|] eqn:Ep; [|discriminate]. exists v0. split; [reflexivity|]. apply P. exact Ep. }
    unfold interned in Hi. rewrite Forall_app in Hi. destruct Hi as [Hi1 Hi2]. pose proof (reached_ok _ Hc) as O0.
    destruct (K FSources) as (vs & A1 & A2). destruct (K FContents) as (vk & B1 & B2).
    destruct (K FMappings) as (vm & C1 & C2). destruct (K FNames) as (vn & D1 & D2).
    unfold expected in *. cbn [negb andb field_eqb raw_value] in *. unfold wrap_fields. rewrite A1, B1, C1, D1.
    destruct (cache_resolve c0 (map_sources mp)) as [ls|] eqn:Es; [|discriminate]. cbn in A2. injection A2 as <-.
    cbn in C2. injection C2 as <-.
    destruct (cache_resolve c0 (map_names mp)) as [ln|] eqn:Ens; [|discriminate]. cbn in D2. injection D2 as <-.
    destruct (cache_resolve c0 (map_contents mp)) as [lk|] eqn:Ek; [|discriminate].
    assert (Al : as_list vk = Some lk) by (cbn in B2; destruct lk; injection B2 as <-; reflexivity).
    unfold pass_list. cbn [bind as_list as_string].
    rewrite (add_all_interned c0 c3 O0 (inv_grows _ _ _ _ _ _ I3) _ _ Hi1 Es). rewrite Al. cbn [bind].
    destruct (add_all_unchecked lk c3 (inv_ok _ _ _ _ _ _ I3)) as (c5 & ks & -> & O5 & G5).
    rewrite (add_all_interned c0 c5 O0 (grows_trans _ _ _ (inv_grows _ _ _ _ _ _ I3) G5) _ _ Hi2 Ens).
    cbn [fst snd answer]. eexists _, _, _. split; [reflexivity|]. intros c' m'.
    rewrite ascii_back by (eapply produced_map; eauto). rewrite Hv, <- E3. apply F2.
Qed.
