(** C53: what the map of an edited source says. *)
From Verif Require Import Base Tactics ModelString ModelVlq ModelSm ModelSlm ModelSources ModelTree ModelJs ModelJsApi ModelJsResult
  SpecText SpecMap SpecAttr SpecEdit SpecEffect EditFacts MapFacts GenFacts NodeFacts LeafFacts ReplaceNode NodeTree EffectFacts EffectOrder
  SpecJs ResultProps ModelEnd SpecEnd.

(** Any SourceNode at all: a consumer of the map reads what [effective] says of its chunks. *)
Theorem C53_emitted : forall n file root, Forall lined (leaves n) ->
  exists code m es, to_string_with_source_map n file root = Some (code, m) /\
    code = text_of (flat n) /\
    read_map (map_sources m) (map_names m) (map_mappings m) = Some es /\
    annotate es code = effective (map turn (leaves n)).
Proof. exact emitted_effective. Qed.
Print Assumptions C53_emitted.
(** A character is read with its own target or with a greater one of an empty chunk. *)
Theorem C53_own_or_empty : forall n, Forall2 (fun x y => fst x = fst y /\
    (snd y = snd x \/ In (snd y, []) (map turn (leaves n)) /\ above (snd y) (snd x) = true))
  (flat n) (effective (map turn (leaves n))).
Proof. exact effective_own. Qed.
Print Assumptions C53_own_or_empty.

Example C53_emitted_case : let n := SmNode None None None
    [SmNode (Some (2, 4)%N) (Some 7%Z) None [SmStr []] []; SmNode (Some (1, 0)%N) (Some 4%Z) (Some 9%Z) [SmStr (lit "ab" ++ [NL] ++ lit "c")] []; SmStr (lit "d")] [] in
  Forall lined (leaves n) /\
  effective (map turn (leaves n)) =
    mark (Some (7, (2, 4), None))%Z (lit "ab" ++ [NL]) ++ mark (Some (4, (1, 0), Some 9))%Z (lit "c") ++ mark None (lit "d").
Proof. split; [repeat constructor; cbn; lia|vm_compute; reflexivity]. Qed.

(** If the targets never decrease, edits, as many and as nested as one likes, leave every
    attributed character with its own source, line and column. *)
Theorem C53_in_order : forall c m t M, chunks nonempty c m t -> attributed c m t M -> rising M -> orderly c m t.
Proof. exact rising_in_order. Qed.
Print Assumptions C53_in_order.
Theorem C53_edit : forall c m h t, Forall call_ok h -> Forall edit_ok (edits_of h) -> Forall forward (edits_of h) ->
  usable t -> orderly c m t -> orderly c m (TReplace t (run h)).
Proof. exact in_order_replace. Qed.
Print Assumptions C53_edit.
Theorem C53_read : forall c m t M, usable t -> orderly c m t -> attributed c m t M ->
  exists R, emits c m t R /\
    Forall2 (fun x y => fst x = fst y /\ (snd x <> None -> drop_name (snd y) = drop_name (snd x))) M R.
Proof. exact in_order_emits. Qed.
Print Assumptions C53_read.
(** Sources in order: one file, or files in the order of their indices. *)
Theorem C53_original : forall name v, rising (mark_tokens advance name (1, 0)%Z (tokens v)) /\
  rising (mark_tokens advance_bytes name (1, 0)%Z (tokens v)) /\ rising (mark_lines name 1 v).
Proof.
  intros name v. split; [|split].
  - apply tokens_rising. intros p c. pose proof (advance_lt p c). unfold plt, ple in *. lia.
  - apply tokens_rising. exact advance_bytes_le.
  - apply lines_rising.
Qed.
Print Assumptions C53_original.
Theorem C53_files : forall M1 M2, rising M1 -> rising M2 ->
  (forall s t, In s (files M1) -> In t (files M2) -> (s < t)%Z) -> rising (M1 ++ M2).
Proof. exact rising_files. Qed.
Print Assumptions C53_files.

(** Together: edits of an original source. *)
Theorem C53_edited_original : forall m v vi name h, crlf_only v = true -> forallb is_ascii v = true ->
  Forall call_ok h -> Forall edit_ok (edits_of h) -> Forall forward (edits_of h) ->
  exists ts R, emits true m (TReplace (TOriginal v vi name) (run h)) R /\
    Forall2 (fun x y => fst x = fst y /\ (snd x <> None -> drop_name (snd y) = drop_name (snd x)))
      (edited_marked (edits_of h) ts (mark_tokens advance name (1, 0)%Z (tokens v))) R.
Proof.
  intros m v vi name h Hc Ha Hh He Hf.
  assert (U : usable (TOriginal v vi name)) by exact I.
  assert (D : dense (TOriginal v vi name)) by exact I.
  assert (N : chunks nonempty true m (TOriginal v vi name)) by (eapply chunks_impl; [apply solid_nonempty|now apply dense_chunks]).
  assert (A : attributed true m (TOriginal v vi name) (mark_tokens advance name (1, 0)%Z (tokens v))).
  { pose proof (original_attributed_ascii m v vi name Hc Ha) as (n & code & mp & es & E & Em & Er & Ea).
    apply attributed_flat. exists n. split; [exact E|].
    destruct (emitted_exact n None None) as (code' & m' & es' & Em' & Ec' & Er' & Ea').
    { eapply Forall_impl; [apply solid_ok|]. apply (dense_chunks true m _ D). exact E. }
    rewrite Em in Em'. injection Em' as <- <-. rewrite Er in Er'. injection Er' as <-. congruence. }
  destruct (replace_attributed true m h _ _ Hh He U A) as (ts & _ & A' & _).
  destruct (in_order_emits true m (TReplace (TOriginal v vi name) (run h)) _ U
              (in_order_replace true m h _ Hh He Hf U (rising_in_order _ _ _ _ N A (proj1 (C53_original name v)))) A')
    as (R & HR & HA). exists ts, R. auto.
Qed.
Print Assumptions C53_edited_original.

(** Deleting "b();" and more: new ReplaceSource(new OriginalSource("a();b();\nc()", "f.js")) *)
Definition h53 : list call := [Replace 4 7 [] 0 0; Insert 9 (lit "//") 0; Replace 0 0 (lit "xy") 0 0].
Example C53_case : let v := lit "a();b();" ++ [NL] ++ lit "c()" in
  crlf_only v = true /\ forallb is_ascii v = true /\ Forall call_ok h53 /\ Forall edit_ok (edits_of h53) /\ Forall forward (edits_of h53) /\
  emits true true (TReplace (TOriginal v 50 9) (run h53))
    (mark (Some (9, (1, 0), None))%Z (lit "xy();") ++ mark (Some (9, (1, 4), None))%Z ([NL] ++ lit "//") ++ mark (Some (9, (2, 0), None))%Z (lit "c()")).
Proof.
  cbn zeta. split; [reflexivity|]. split; [reflexivity|]. split; [repeat (constructor; [cbn; lia|]); constructor|].
  split; [cbn; repeat (constructor; [unfold edit_ok; cbn; lia|]); constructor|]. split; [cbn; repeat (constructor; [unfold forward; cbn; lia|]); constructor|].
  eexists _, _, _, _. split; [vm_compute; reflexivity|]. split; [vm_compute; reflexivity|]. split; vm_compute; reflexivity.
Qed.

(** new ReplaceSource(new ConcatSource(new OriginalSource("x", "b.js"), new OriginalSource("y", "a.js"))) with
    replace(0, 0, ""): the text is "y".  In a fresh process it is mapped to a.js; if some source named a.js was made
    before, it is mapped to b.js, of which nothing is left. *)
Definition e53 : jexpr :=
  XEdit (XConcat [XOriginal (lit "x") (lit "b.js"); XOriginal (lit "y") (lit "a.js")]) [JReplace (Fin 0 0) (Fin 0 0) []].
Definition says (c : cache) (e : jexpr) (M : list (char * option (jstr * Z * Z))) : Prop :=
  exists c1 t o ss ms es, build c e = (c1, t) /\ js_source_and_map true true t = Some (ResMap o) /\
    snd (rrun (c1, o) [RSource; RGet FSources; RGet FMappings]) = [AText (map fst M); AVal (VArr (map Some ss)); AVal (VStr ms)] /\
    read_map (map Z.of_nat (seq 0 (length ss))) [] ms = Some es /\
    map (fun x : char * option target => (fst x, match snd x with Some (s, (l, k), _) => Some (nth (Z.to_nat s) ss [], l, k) | None => None end))
      (annotate es (map fst M)) = M.
Theorem C53_cache_refuted : exists c, reached_cache c /\
  says cache_empty e53 [(121%N, Some (lit "a.js", 1%Z, 0%Z))] /\
  says c e53 [(121%N, Some (lit "b.js", 1%Z, 0%Z))].
Proof.
  exists (fst (cache_add cache_empty (lit "a.js"))). split.
  - exists [SpecCalls.CAdd (lit "a.js")]. eexists. vm_compute. reflexivity.
  - split; eexists _, _, _, [lit "b.js"; lit "a.js"], _, _; (split; [vm_compute; reflexivity|]);
      (split; [vm_compute; reflexivity|]); (split; [vm_compute; reflexivity|]); (split; [vm_compute; reflexivity|]); vm_compute; reflexivity.
Qed.
Print Assumptions C53_cache_refuted.
