(** Final theorems about the objects returned by sourceAndMap: C50. *)
From Verif Require Import Base Tactics ModelString ModelVlq ModelSm ModelSlm ModelSources ModelTree ModelWasm ModelJs ModelJsApi
  ModelJsResult SpecText SpecMap SpecAttr SpecJs SpecResult LoadFacts NodeFacts LeafFacts NodeTree Refeed JsFacts ResultFacts ResultProps
  PropertiesNode PropertiesRefeed.

(** C50: once a property of the map has been read (or assigned) it keeps its value until it is
    assigned, whatever else happens: wrapping, clear(), anything done to the cache. *)
Theorem C50_stable : forall c o f v l, Forall (fun op => ~ assigns f op) l ->
  snd (rstep (c, o) (RGet f)) = AVal v ->
  snd (rstep (fst (rrun (fst (rstep (c, o) (RGet f))) l)) (RGet f)) = AVal v.
Proof.
  intros c o f v l H. apply read_stable. eapply Forall_impl; [|exact H]. intros op Hop. destruct op; cbn in *; auto.
Qed.
Print Assumptions C50_stable.
Theorem C50_assigned : forall c o f l a, Forall (fun op => ~ assigns f op) l -> a <> [] ->
  snd (rstep (fst (rrun (fst (rstep (c, o) (RSet f (VArr a)))) l)) (RGet f)) = AVal (VArr a).
Proof.
  intros c o f l a H Ha. rewrite assigned_stable; [destruct f, a; try reflexivity; contradiction|].
  eapply Forall_impl; [|exact H]. intros op Hop. destruct op; cbn in *; auto.
Qed.
Print Assumptions C50_assigned.

(** Until the result is wrapped or clear() is called, every property, read in any order and
    at any time, shows the strings of the map as they were when the map was made. *)
Theorem C50_shows : forall c0 r r' m names f l, reached_cache c0 -> jr_get_map r = Some (r', m) -> resolvable c0 m ->
  Forall (fun op => ~ clears op /\ ~ wraps op /\ ~ assigns f op) l ->
  exists v, snd (rstep (fst (rrun (c0, robj_new r names) l)) (RGet f)) = AVal v /\ shows c0 m names f v.
Proof. exact shows_map. Qed.
Print Assumptions C50_shows.

(** Afterwards a property that had not been read is lost: reading it throws. *)
Theorem C50_lost : forall c0 r names f l1 op l2, (f = FNames -> names = true) -> wraps op \/ clears op ->
  Forall (fun op => ~ edits op /\ ~ touches f op) l1 -> Forall (fun op => ~ touches f op) l2 ->
  snd (rstep (fst (rrun (c0, robj_new r names) (l1 ++ op :: l2))) (RGet f)) = AError.
Proof. exact unread_is_lost. Qed.
Print Assumptions C50_lost.

(** The same for the text, r.source: it is the text of the result, stays what it was when it
    has been read or assigned once, and is lost if that had not happened before. *)
Theorem C50_text : forall c0 r names l, Forall (fun op => ~ clears op /\ ~ wraps op /\ ~ assigns_text op) l ->
  snd (rstep (fst (rrun (c0, robj_new r names) l)) RSource) = ModelJsResult.AText (to_js (jr_s r)).
Proof. intros c0 r names l. apply text_shows. Qed.
Print Assumptions C50_text.
Theorem C50_text_stable : forall c o s l, Forall (fun op => ~ assigns_text op) l ->
  (snd (rstep (c, o) RSource) = ModelJsResult.AText s -> snd (rstep (fst (rrun (fst (rstep (c, o) RSource)) l)) RSource) = ModelJsResult.AText s) /\
  snd (rstep (fst (rrun (fst (rstep (c, o) (RSetSource s))) l)) RSource) = ModelJsResult.AText s.
Proof. intros c o s l H. split; [now apply text_stable|now apply text_assigned]. Qed.
Print Assumptions C50_text_stable.
Theorem C50_text_lost : forall c0 r names l1 op l2, wraps op \/ clears op ->
  Forall (fun op => ~ edits op /\ ~ uses_text op) l1 -> Forall (fun op => ~ uses_text op) l2 ->
  snd (rstep (fst (rrun (c0, robj_new r names) (l1 ++ op :: l2))) RSource) = AError.
Proof. exact text_is_lost. Qed.
Print Assumptions C50_text_lost.

(** A SourceMapSource that can be made from the result is given the map that the properties
    show, whichever way it goes, if no array was changed in place. *)
Theorem C50_used : forall c0 r r' m names, reached_cache c0 -> produced r names -> jr_get_map r = Some (r', m) -> resolvable c0 m ->
  forall l value name c1 o1 x,
  Forall (fun op => ~ clears op /\ ~ in_place op /\ (names = false -> ~ assigns FNames op)) l ->
  rstep (fst (rrun (c0, robj_new r names) l)) (RWrap value name) = (c1, o1, ASms x) ->
  sms_value x = from_js value /\
  exists d vs vk sm vn ls lk ln, given x = Some d /\
    snd (rstep (fst (rrun (c0, robj_new r names) l)) (RGet FSources)) = AVal vs /\ lists vs ls /\ stands c1 (sc_sources d) ls /\
    snd (rstep (fst (rrun (c0, robj_new r names) l)) (RGet FContents)) = AVal vk /\ lists vk lk /\ stands c1 (sc_contents d) lk /\
    snd (rstep (fst (rrun (c0, robj_new r names) l)) (RGet FMappings)) = AVal (VStr sm) /\ sc_mappings d = from_js sm /\
    snd (rstep (fst (rrun (c0, robj_new r names) l)) (RGet FNames)) = AVal vn /\ lists vn ln /\ stands c1 (sc_names d) ln.
Proof. exact used_is_shown. Qed.
Print Assumptions C50_used.

(** As long as all properties are readable it can be wrapped again and again, and every
    wrapper attributes the text alike. *)
Theorem C50_again : forall c m t M n r r' mp c0 l value name,
  attributed c m t M -> chunks leaf_ok c m t -> (N.of_nat (length M) < 2147483648)%N ->
  t_node c m t = Some n -> node_result n = Some r -> (forall g, jr_gen r = Some g -> gen_fits g) ->
  jr_get_map r = Some (r', mp) ->
  reached_cache c0 -> resolvable c0 mp -> interned c0 mp ->
  Forall (fun op => ~ clears op /\ ~ in_place op /\ ~ edits op) l -> from_js value = text_of M ->
  (forall f, exists v, snd (rstep (fst (rrun (c0, robj_new r true) l)) (RGet f)) = AVal v) ->
  exists c1 o1 x, rstep (fst (rrun (c0, robj_new r true) l)) (RWrap value name) = (c1, o1, ASms x) /\
    forall c' m', emits c' m' (TSms x) M.
Proof. exact wrap_again. Qed.
Print Assumptions C50_again.

(** ** Examples *)
Definition text50 : str := lit "ab" ++ [NL] ++ lit "c;d".
Definition cache50 : cache := fst (cache_run cache_empty [CAddUnchecked text50; CAdd (lit "a.js")]).
Definition tree50 : tree := TConcat [TOriginal text50 0 1; TRaw (lit "xy")].
Definition result50 : js_result :=
  match t_node true true tree50 with
  | Some n => match node_result n with Some r => r | None => jr_from [] (mk_map None [] [] [] [] None) end
  | None => jr_from [] (mk_map None [] [] [] [] None)
  end.
Definition map50 : source_map :=
  match jr_get_map result50 with Some (_, m) => m | None => mk_map None [] [] [] [] None end.
Definition all_reads : list rop := [RGet FMappings; RGet FSources; RGet FNames; RGet FContents].
Lemma tree50_dense : dense tree50.
Proof. repeat split. Qed.
Lemma cache50_reached : reached_cache cache50.
Proof. exists [CAddUnchecked text50; CAdd (lit "a.js")]. eexists. reflexivity. Qed.

(** Everything that C50_shows, C50_used and C50_again ask for; the history wraps twice and
    goes on using the library. *)
Example C50_case :
  attributed true true tree50 M2 /\ chunks leaf_ok true true tree50 /\ (N.of_nat (length M2) < 2147483648)%N /\
  (exists n, t_node true true tree50 = Some n /\ node_result n = Some result50) /\
  (forall g, jr_gen result50 = Some g -> gen_fits g) /\
  (exists r', jr_get_map result50 = Some (r', map50)) /\ resolvable cache50 map50 /\ interned cache50 map50 /\
  from_js (text50 ++ lit "xy") = text_of M2 /\
  let l := ROther (lit "new") true :: all_reads ++ [RWrap (text50 ++ lit "xy") (lit "b.js"); RWrap (text50 ++ lit "xy") (lit "c.js")] in
  Forall (fun op => ~ clears op /\ ~ in_place op /\ ~ edits op) l /\
  (forall f, exists v, snd (rstep (fst (rrun (cache50, robj_new result50 true) l)) (RGet f)) = AVal v) /\
  snd (rstep (fst (rrun (cache50, robj_new result50 true) l)) (RGet FSources)) = AVal (VArr [Some (lit "a.js")]).
Proof.
  split; [eexists _, _, _; split; [vm_compute; reflexivity|]; split; vm_compute; reflexivity|].
  split; [apply (C11_dense true true tree50 tree50_dense)|]. split; [reflexivity|].
  split; [eexists; split; vm_compute; reflexivity|].
  split. { intros g Hg. assert (E : Some g = jr_gen result50) by congruence. vm_compute in E. injection E as ->.
    split; [repeat constructor; vm_compute; intuition discriminate|]. split; vm_compute; discriminate. }
  split; [eexists; vm_compute; reflexivity|].
  split; [vm_compute; repeat constructor|].
  split. { apply Forall_cons; [|apply Forall_nil]. exists 1, (lit "a.js"). split; reflexivity. }
  split; [reflexivity|].
  cbn zeta. split; [repeat (apply Forall_cons; [cbn; tauto|]); apply Forall_nil|].
  split; [|vm_compute; reflexivity]. intros []; eexists; vm_compute; reflexivity.
Qed.
Example C50_lost_case :
  snd (rrun (cache50, robj_new result50 true)
    [RGet FSources; RWrap text50 (lit "b.js"); RGet FSources; RGet FMappings; RSource]) <> [] /\
  match snd (rrun (cache50, robj_new result50 true) [RGet FSources; RWrap text50 (lit "b.js"); RGet FSources; RGet FMappings; RSource]) with
  | [AVal a; ASms _; AVal b; AError; AError] => a = b
  | _ => False
  end.
Proof. split; [vm_compute; discriminate|]. vm_compute. reflexivity. Qed.

(** The text: read before it is wrapped and after clear(). *)
Example C50_text_case :
  let l := [RSource; RGet FMappings; RWrap text50 (lit "b.js"); RSource; RClear; RSource] in
  Forall (fun op => ~ assigns_text op) l /\
  match snd (rrun (cache50, robj_new result50 true) l) with
  | [ModelJsResult.AText a; AVal _; ASms _; ModelJsResult.AText b; ADone; ModelJsResult.AText d] => a = text50 ++ lit "xy" /\ b = a /\ d = a
  | _ => False
  end /\
  Forall (fun op => ~ edits op /\ ~ uses_text op) all_reads /\
  snd (rstep (fst (rrun (cache50, robj_new result50 true) (all_reads ++ RWrap text50 (lit "b.js") :: [RClear]))) RSource) = AError.
Proof.
  cbn zeta. split; [repeat (apply Forall_cons; [cbn; tauto|]); apply Forall_nil|]. split; [vm_compute; auto|].
  split; [repeat (apply Forall_cons; [cbn; tauto|]); apply Forall_nil|]. vm_compute. reflexivity.
Qed.

(** Null in an assigned property is passed on as null. *)
Example C50_null_case :
  let l := [RSet FContents (VArr [None])] in
  Forall (fun op => ~ clears op /\ ~ in_place op /\ (true = false -> ~ assigns FNames op)) l /\
  exists c1 o1 x d, rstep (fst (rrun (cache50, robj_new result50 true) l)) (RWrap text50 (lit "b.js")) = (c1, o1, ASms x) /\
    given x = Some d /\ stands c1 (sc_contents d) [None] /\ Forall (fun i => 0 <= i)%Z (sc_contents d).
Proof.
  cbn zeta. split; [repeat (apply Forall_cons; [cbn; intuition discriminate|]); apply Forall_nil|].
  eexists _, _, _, _. split; [vm_compute; reflexivity|]. split; [vm_compute; reflexivity|].
  split; [exists [Some JNULL]; split; [apply resolve_stands; vm_compute; reflexivity|reflexivity]|]. vm_compute. repeat constructor. discriminate.
Qed.

(** ** What does not hold *)
(** Wrapping an unread result twice fails the second time. *)
Theorem C50_again_refuted : exists c0 r v n w o1 x, reached_cache c0 /\ (exists t nd, t_node true true t = Some nd /\ node_result nd = Some r) /\
  rstep (c0, robj_new r true) (RWrap v n) = (w, o1, ASms x) /\ snd (rstep (w, o1) (RWrap v n)) = AError.
Proof.
  exists cache50, result50, text50, (lit "b.js"). eexists _, _, _. split; [exact cache50_reached|].
  split; [exists tree50; eexists; split; vm_compute; reflexivity|]. split; vm_compute; reflexivity.
Qed.
Print Assumptions C50_again_refuted.
(** An array changed in place (o.map.sources[0] = "z.js") shows the new value, but the
    wrapper is given the old one. *)
Theorem C50_in_place_refuted : exists l c1 o1 x d, 
  snd (rstep (fst (rrun (cache50, robj_new result50 true) l)) (RGet FSources)) = AVal (VArr [Some (lit "z.js")]) /\
  rstep (fst (rrun (cache50, robj_new result50 true) l)) (RWrap text50 (lit "b.js")) = (c1, o1, ASms x) /\
  given x = Some d /\ stands_for c1 (sc_sources d) [Some (lit "a.js")].
Proof.
  exists [RMutate FSources (fun _ => VArr [Some (lit "z.js")])]. eexists _, _, _, _.
  split; [vm_compute; reflexivity|]. split; [vm_compute; reflexivity|]. split; [vm_compute; reflexivity|].
  apply resolve_stands. vm_compute. reflexivity.
Qed.
Print Assumptions C50_in_place_refuted.
(** names assigned to the result of a SourceListMap are shown but not used. *)
Theorem C50_names_refuted : exists r c1 o1 x d, produced r false /\
  snd (rstep (fst (rrun (cache50, robj_new r false) [RSet FNames (VArr [Some (lit "f")])])) (RGet FNames)) = AVal (VArr [Some (lit "f")]) /\
  rstep (fst (rrun (cache50, robj_new r false) [RSet FNames (VArr [Some (lit "f")])])) (RWrap text50 (lit "b.js")) = (c1, o1, ASms x) /\
  given x = Some d /\ sc_names d = [].
Proof.
  exists (list_result [LSource (piece_new text50 (Some 1%Z) (Some 0%Z) 1)]). eexists _, _, _, _.
  split; [constructor|]. split; [vm_compute; reflexivity|]. split; [vm_compute; reflexivity|]. split; [vm_compute; reflexivity|reflexivity].
Qed.
Print Assumptions C50_names_refuted.
