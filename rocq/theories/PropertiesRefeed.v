(** Final theorems about output that becomes input again: C44. *)
From Verif Require Import Base Tactics ModelString ModelVlq ModelSm ModelSlm ModelSources ModelTree ModelWasm
  SpecText SpecMap SpecAttr MapFacts GenFacts LoadFacts MapProps NodeFacts LeafFacts ReplaceNode SmsNode SmsProps NodeTree
  Refeed RefeedInner ContentFacts RefeedContents PropertiesNode.

(** C44: new SourceMapSource(r.source, name, r.map) with r = t.sourceAndMap(). *)
Theorem C44_unread : forall c m t M, attributed c m t M -> (N.of_nat (length M) < 2147483648)%N ->
  exists n r, t_node c m t = Some n /\ node_result n = Some r /\ jr_s r = text_of M /\
    forall vi name, exists x, sms_new_wasmmap (jr_s r) vi name r = Some x /\
      forall c' m', attributed c' m' (TSms x) M.
Proof. exact fed_unread. Qed.
Print Assumptions C44_unread.

(** Once the map has been read, and through the fields of the map (any sourcesContent). *)
Theorem C44_read : forall c m t M, attributed c m t M -> chunks leaf_ok c m t -> (N.of_nat (length M) < 2147483648)%N ->
  exists n r, t_node c m t = Some n /\ node_result n = Some r /\ jr_s r = text_of M /\
    (forall k, exists r', jr_reads k r = Some r' /\ forall vi name, exists x,
       sms_new_wasmmap (jr_s r) vi name r' = Some x /\ forall c' m', emits c' m' (TSms x) M) /\
    (exists r' mp, jr_get_map r = Some (r', mp) /\
       forall g, jr_gen r = Some g -> gen_fits g -> forall vi name contents c' m',
       emits c' m' (TSms (sms_new (jr_s r) vi name
         (mk_smc (map_sources mp) contents (map_names mp) (map_mappings mp)) None)) M).
Proof. exact fed_read. Qed.
Print Assumptions C44_read.

(** As the inner map of another SourceMapSource: what the outer map attributes to its own
    name is attributed through the emitted one, whether or not it has been read. *)
Theorem C44_inner : forall c m t M, attributed c m t M -> chunks leaf_ok c m t -> (N.of_nat (length M) < 2147483648)%N ->
  exists n r ei, t_node c m t = Some n /\ node_result n = Some r /\ jr_s r = text_of M /\ annotate ei (text_of M) = M /\
    forall k, exists r', jr_reads k r = Some r' /\
    forall x es, cell_entries (sms_map x) es -> exists x', sms_set_inner_wasmmap x r' = Some x' /\ sms_value x' = sms_value x /\
      forall c' m', emits c' m' (TSms x') (retarget (through (Some (sms_name x)) ei) (annotate es (sms_value x))).
Proof. exact fed_inner. Qed.
Print Assumptions C44_inner.

Definition tree2 : tree := TConcat [TOriginal (lit "ab" ++ [NL] ++ lit "c;d") 50 1; TRaw (lit "xy")].
Definition M2 : marked :=
  mark (Some (1, (1, 0), None))%Z (lit "ab" ++ [NL]) ++ mark (Some (1, (2, 0), None))%Z (lit "c;") ++
  mark (Some (1, (2, 2), None))%Z (lit "d") ++ mark None (lit "xy").
Lemma tree2_dense : dense tree2.
Proof. repeat split. Qed.
Example C44_case : attributed true true tree2 M2 /\ chunks leaf_ok true true tree2 /\
  (N.of_nat (length M2) < 2147483648)%N /\
  exists n r g, t_node true true tree2 = Some n /\ node_result n = Some r /\ jr_gen r = Some g /\ gen_fits g.
Proof.
  split; [eexists _, _, _; split; [vm_compute; reflexivity|]; split; vm_compute; reflexivity|].
  split; [apply (C11_dense true true tree2 tree2_dense)|]. split; [reflexivity|].
  eexists _, _, _. split; [vm_compute; reflexivity|]. split; [vm_compute; reflexivity|]. split; [vm_compute; reflexivity|].
  split; [repeat constructor; vm_compute; intuition discriminate|]. split; vm_compute; discriminate.
Qed.

(** sms1 has the name 1; what its map attributes to 1 is looked up in the map of tree3. *)
Definition tree3 : tree := TConcat [TOriginal (lit "ab;cd" ++ [NL] ++ lit "x") 50 9; TRaw (lit "r")].
Example C44_inner_case : dense tree3 /\ cell_entries (sms_map sms1) e1 /\
  exists M n r, attributed true true tree3 M /\ t_node true true tree3 = Some n /\ node_result n = Some r /\
  forall k, (k = 0 \/ k = 1) -> exists r' x', jr_reads k r = Some r' /\ sms_set_inner_wasmmap sms1 r' = Some x' /\
    attributed true true (TSms x')
      (mark (Some (9, (1, 0), None))%Z (lit "ab") ++ mark (Some (9, (1, 3), Some 30))%Z (lit "cd" ++ [NL]) ++
       mark (Some (2, (2, 4), None))%Z (lit "ef")).
Proof.
  split; [repeat split|]. split; [apply data_entries, d1_readable|].
  eexists _, _, _. split; [eexists _, _, _; split; [vm_compute; reflexivity|]; split; vm_compute; reflexivity|].
  split; [vm_compute; reflexivity|]. split; [vm_compute; reflexivity|].
  intros k [->| ->]; eexists _, _; (split; [vm_compute; reflexivity|]); (split; [vm_compute; reflexivity|]).
  all: eexists _, _, _; split; [vm_compute; reflexivity|]; split; vm_compute; reflexivity.
Qed.

(** With a removed mapped text in front of plain text, reading the map changes what the
    wrapped source says later: unread, the x belongs to nothing; read, to the source. *)
Theorem C44_read_refuted : exists t n r r' x x', attributed true true t (mark None (lit "x")) /\
  t_node true true t = Some n /\ node_result n = Some r /\ jr_reads 1 r = Some r' /\
  sms_new_wasmmap (jr_s r) 9 8 r = Some x /\ sms_new_wasmmap (jr_s r) 9 8 r' = Some x' /\
  attributed true true (TSms x) (mark None (lit "x")) /\
  attributed true true (TSms x') (mark (Some (1, (1, 0), None))%Z (lit "x")).
Proof.
  exists (TConcat [TReplace (TOriginal (lit "ab") 50 1) (rs_replace rstate_new 0 1 [] 0 0); TRaw (lit "x")]).
  eexists _, _, _, _, _.
  split; [eexists _, _, _; split; [vm_compute; reflexivity|]; split; vm_compute; reflexivity|].
  split; [vm_compute; reflexivity|]. split; [vm_compute; reflexivity|]. split; [vm_compute; reflexivity|].
  split; [vm_compute; reflexivity|]. split; [vm_compute; reflexivity|].
  split; (eexists _, _, _; split; [vm_compute; reflexivity|]; split; vm_compute; reflexivity).
Qed.
Print Assumptions C44_read_refuted.

(** The contents given for the sources of t come along. *)
Theorem C44_contents : forall c m t n r k r' v vi name x, fresh_tree t -> t_node c m t = Some n -> node_result n = Some r -> jr_reads k r = Some r' ->
  sms_new_wasmmap v vi name r' = Some x -> forall c' m' n' q q' mp,
  t_node c' m' (TSms x) = Some n' -> node_result n' = Some q -> jr_get_map q = Some (q', mp) -> lists_contents mp (tconts t).
Proof. exact fed_contents. Qed.
Print Assumptions C44_contents.
Example C44_contents_case : fresh_tree tree2 /\ exists n r, t_node true true tree2 = Some n /\ node_result n = Some r /\
  forall k, (k = 0 \/ k = 1) -> exists r' x, jr_reads k r = Some r' /\ sms_new_wasmmap (jr_s r) 9 8 r' = Some x /\
  exists n' q q' mp, t_node false false (TSms x) = Some n' /\ node_result n' = Some q /\ jr_get_map q = Some (q', mp) /\
  map_sources mp = [1]%Z /\ map_contents mp = [50]%Z.
Proof.
  split; [repeat split|]. eexists _, _. split; [vm_compute; reflexivity|]. split; [vm_compute; reflexivity|].
  intros k [->| ->]; (eexists _, _; split; [vm_compute; reflexivity|]; split; [vm_compute; reflexivity|]; eexists _, _, _, _;
    split; [vm_compute; reflexivity|]; split; [vm_compute; reflexivity|]; split; [vm_compute; reflexivity|]; split; reflexivity).
Qed.

(** With the map of t as inner map, the contents are those of the outer map, then the
    original source for the name, then those given by t; the original source and the inner
    map may be set in either order. *)
Theorem C44_inner_contents : forall c m t n r k r' v vi name d oo x, fresh_tree t -> t_node c m t = Some n -> node_result n = Some r -> jr_reads k r = Some r' ->
  NoDup (sc_sources d) ->
  (let x0 := sms_new v vi name d None in
   sms_set_inner_wasmmap (match oo with Some o => sms_set_original x0 o | None => x0 end) r' = Some x \/
   option_map (fun y => match oo with Some o => sms_set_original y o | None => y end) (sms_set_inner_wasmmap x0 r') = Some x) ->
  forall c' m' n' q q' mp, t_node c' m' (TSms x) = Some n' -> node_result n' = Some q -> jr_get_map q = Some (q', mp) ->
  lists_contents mp (combine (sc_sources d) (sc_contents d) ++ match oo with Some o => [(name, o)] | None => [] end ++ tconts t).
Proof. exact fed_inner_contents. Qed.
Print Assumptions C44_inner_contents.
(** The map of tree4 says nothing about the place of the first mapping of sms1, which stays
    with the name 1 and its original source 80. *)
Definition tree4 : tree := TConcat [TRaw (lit "zz"); TOriginal (lit "cdef") 50 9].
Example C44_inner_contents_case : fresh_tree tree4 /\ NoDup (sc_sources d1) /\ exists n r, t_node true true tree4 = Some n /\ node_result n = Some r /\
  forall k, (k = 0 \/ k = 1) -> exists r' x y, jr_reads k r = Some r' /\ sms_set_inner_wasmmap (sms_set_original (sms_new v1 100 1 d1 None) 80) r' = Some x /\
  sms_set_inner_wasmmap (sms_new v1 100 1 d1 None) r' = Some y /\ sms_set_original y 80 = x /\
  exists n' q q' mp, t_node true true (TSms x) = Some n' /\ node_result n' = Some q /\ jr_get_map q = Some (q', mp) /\
  map_sources mp = [1; 9; 2]%Z /\ map_contents mp = [80; 50]%Z.
Proof.
  split; [repeat split|]. split; [repeat constructor; cbn; intuition discriminate|]. eexists _, _. split; [vm_compute; reflexivity|]. split; [vm_compute; reflexivity|].
  intros k [->| ->]; (eexists _, _, _; split; [vm_compute; reflexivity|]; split; [vm_compute; reflexivity|]; split; [vm_compute; reflexivity|]; split; [vm_compute; reflexivity|]; eexists _, _, _, _;
    split; [vm_compute; reflexivity|]; split; [vm_compute; reflexivity|]; split; [vm_compute; reflexivity|]; split; reflexivity).
Qed.
