(** Final theorems about the JavaScript side: C45 - C49. *)
From Verif Require Import Base Tactics ModelString ModelVlq ModelSm ModelSlm ModelSources ModelTree ModelJs ModelJsApi
  SpecText SpecMap SpecAttr SpecJs SpecHash NodeTree Utf16Facts JsTextProps HashFacts.

Ltac scalars := repeat apply Forall_cons; try apply Forall_nil; vm_compute; intuition (try discriminate).

(** C45: strings given to wasm and taken back. *)
Theorem C45_scalars : forall s u, utf16 s u -> from_js u = s.
Proof. exact from_js_utf16. Qed.
Print Assumptions C45_scalars.
Theorem C45_exact : forall u, Forall (fun a => a < 65536)%N u ->
  (to_js (from_js u) = u <-> well_formed u /\ ~ starts_with BOM u).
Proof. exact boundary_exact. Qed.
Print Assumptions C45_exact.
Theorem C45_pieces : forall s1 u1 s2 u2, utf16 s1 u1 -> utf16 s2 u2 -> from_js (u1 ++ u2) = from_js u1 ++ from_js u2.
Proof.
  intros s1 u1 s2 u2 H1 H2. rewrite (from_js_utf16 _ _ (utf16_app _ _ _ _ H1 H2)).
  now rewrite (from_js_utf16 _ _ H1), (from_js_utf16 _ _ H2).
Qed.
Print Assumptions C45_pieces.
Example C45_case : utf16 [97; 128512; 8364]%N [97; 55357; 56832; 8364]%N /\
  from_js [97; 55357; 56832; 8364]%N = [97; 128512; 8364]%N.
Proof.
  split; [|reflexivity]. apply (utf16_cons 97%N _ [97]%N); [unfold scalar; lia|constructor; lia|].
  apply (utf16_cons 128512%N _ [55357; 56832]%N); [unfold scalar; lia|apply (two_units 128512 61 512)%N; lia|].
  apply (utf16_cons 8364%N _ [8364]%N); [unfold scalar; lia|constructor; lia|constructor].
Qed.
(** A byte order mark at the start is lost, a lone surrogate becomes U+FFFD, and so do both
    halves of a pair given in two pieces. *)
Theorem C45_refuted : exists u v a b, to_js (from_js u) = [97]%N /\ u = [BOM; 97]%N /\
  to_js (from_js v) = [REPL]%N /\ v = [55357]%N /\
  from_js (a ++ b) = [128512]%N /\ from_js a ++ from_js b = [REPL; REPL]%N.
Proof. exists [BOM; 97]%N, [55357]%N, [55357]%N, [56832]%N. repeat split. Qed.
Print Assumptions C45_refuted.

(** C46: positions given as JavaScript numbers. *)
Theorem C46_positions : forall t s h, t_source t = Some s -> Forall ordinary_call h ->
  t_source (TReplace t (js_run h)) = Some (edited_any (map (set_text from_js) (jedits h)) s).
Proof. exact js_positions. Qed.
Print Assumptions C46_positions.
Definition h46 : list jcall :=
  [JInsert (Fin 5 1) (lit "c"); JInsert (Fin 2 0) (lit "a"); JReplace (Fin 0 0) (Fin 0 0) (lit "X"); JRead;
   JInsert (Fin 9 2) (lit "b"); JInsert (Fin (-3) 0) (lit "!")].
Example C46_case : Forall ordinary_call h46 /\
  t_source (TReplace (TRaw (lit "012")) (js_run h46)) = Some (lit "!X1abc2").
Proof.
  split; [|vm_compute; reflexivity].
  repeat apply Forall_cons; try apply Forall_nil; cbn; try lia. split; [right; now exists (-3)%Z|lia].
Qed.
(** Negative fractions are ordered the wrong way round; positions from 2^31 on wrap, Infinity
    counts as 0. *)
Theorem C46_negative_refuted : exists h s, 
  t_source (TReplace (TRaw s) (js_run h)) = Some (lit "abx") /\
  edited_any (map (set_text from_js) (jedits h)) s = lit "bax" /\
  h = [JInsert (Fin (-1) 1) (lit "a"); JInsert (Fin (-1) 0) (lit "b")] /\ s = lit "x".
Proof. eexists _, _. split; [|split; [|split; reflexivity]]; vm_compute; reflexivity. Qed.
Print Assumptions C46_negative_refuted.
Theorem C46_large_refuted : exists h h' s,
  t_source (TReplace (TRaw s) (js_run h)) = Some (lit "abc") /\
  edited_any (map (set_text from_js) (jedits h)) s = [] /\
  h = [JReplace (Fin 0 0) (Fin 9007199254740991 0) []] /\
  t_source (TReplace (TRaw s) (js_run h')) = Some (lit "bc") /\
  h' = [JReplace (Fin 0 0) (Inf false) []] /\ s = lit "abc".
Proof.
  eexists _, _, _. split; [|split; [|split; [reflexivity|split; [|split; reflexivity]]]]; vm_compute; reflexivity.
Qed.
Print Assumptions C46_large_refuted.

(** C47: the text JavaScript gets is the text made by JavaScript's own string operations. *)
Theorem C47_source : forall t, formed t -> ordinary_edits t -> is_leaf t \/ ~ starts_with BOM (js_text t) ->
  js_source t = Some (js_text t).
Proof. exact js_source_text. Qed.
Print Assumptions C47_source.
Theorem C47_size : forall t, formed t -> ordinary_edits t ->
  (js_size t = Some (length (js_text t)) <-> is_leaf t \/ forallb is_ascii (js_text t) = true).
Proof. exact js_size_text. Qed.
Print Assumptions C47_size.
Definition smile : list N := [55357; 56832]%N.
Lemma lit_formed s : Forall (fun c => c < 55296)%N s -> well_formed s.
Proof. intro H. exists s. apply plain_utf16. eapply Forall_impl; [|exact H]. intros c Hc. unfold scalar. cbn in *. lia. Qed.
Lemma smile_formed : well_formed smile.
Proof.
  exists [128512]%N. change smile with (smile ++ []).
  apply (utf16_cons 128512%N _ smile); [unfold scalar; lia|apply (two_units 128512 61 512)%N; lia|constructor].
Qed.
Definition t47 : jtree :=
  JConcat [JEdit (JRaw (lit "abc")) [JReplace (Fin 1 0) (Fin 1 0) smile]; JPrefix (lit "> ") (JConcat [JStr smile; JStr [NL; 233]%N])].
Lemma t47_fine : formed t47 /\ ordinary_edits t47.
Proof.
  split.
  - split; [|split; [|exact I]].
    + split; [apply lit_formed; repeat constructor|]. repeat constructor. apply smile_formed.
    + split; [apply lit_formed; repeat constructor|]. split; [apply smile_formed|].
      split; [apply lit_formed; repeat constructor|exact I].
  - split; [|split; [|exact I]].
    + split; [exact I|]. split; [repeat constructor; cbn; lia|]. scalars.
    + split; [exact I|]. split; exact I.
Qed.
Example C47_case : formed t47 /\ ordinary_edits t47 /\ ~ starts_with BOM (js_text t47) /\
  js_text t47 = lit "a" ++ smile ++ lit "c> " ++ smile ++ [NL] ++ lit "> " ++ [233]%N.
Proof.
  split; [apply t47_fine|]. split; [apply t47_fine|]. split; [|vm_compute; reflexivity].
  intros [r Hr]. vm_compute in Hr. discriminate.
Qed.
(** ReplaceSource counts a surrogate pair as one position; a byte order mark in front is lost by
    composite sources only. *)
Theorem C47_pair_refuted : exists t, formed t /\ js_source t = Some (smile ++ lit "ab") /\ js_text t = smile ++ lit "b" /\
  t = JEdit (JRaw (smile ++ lit "a")) [JReplace (Fin 2 0) (Fin 2 0) (lit "b")].
Proof.
  eexists. split; [|split; [|split; [|reflexivity]]]; [|vm_compute; reflexivity|vm_compute; reflexivity].
  split; [|repeat constructor; apply lit_formed; repeat constructor].
  destruct smile_formed as [s Hs]. assert (Ha : well_formed (lit "a")) by (apply lit_formed; repeat constructor).
  destruct Ha as [s' Hs']. exists (s ++ s'). now apply utf16_app.
Qed.
Print Assumptions C47_pair_refuted.
Theorem C47_bom_refuted : exists t, formed t /\ ordinary_edits t /\ js_source (JConcat [t]) = Some (lit "a") /\
  js_source t = Some (BOM :: lit "a") /\ js_text (JConcat [t]) = BOM :: lit "a".
Proof.
  exists (JRaw (BOM :: lit "a")). split; [|split; [exact I|repeat split]].
  exists (BOM :: lit "a"). apply plain_utf16. scalars.
Qed.
Print Assumptions C47_bom_refuted.
Theorem C47_size_refuted : exists t, formed t /\ ordinary_edits t /\ js_size (JConcat [t]) = Some 2 /\
  js_size t = Some 1 /\ js_source (JConcat [t]) = Some [233]%N.
Proof.
  exists (JRaw [233]%N). split; [apply lit_formed; repeat constructor|]. split; [exact I|]. repeat split.
Qed.
Print Assumptions C47_size_refuted.

(** C48: columns of the emitted map, counted in units of the JavaScript string. *)
Theorem C48_columns : forall c m t M pre line post, emits c m t M -> M = pre ++ line ++ post ->
  Forall scalar (text_of M) -> plain (text_of line) ->
  (pre = [] /\ ~ starts_with BOM (text_of M)) \/ (exists pre' a, pre = pre' ++ [(NL, a)]) ->
  exists n code mp es P R, t_node c m t = Some n /\ to_string_with_source_map n None None = Some (code, mp) /\
    read_map (map_sources mp) (map_names mp) (map_mappings mp) = Some es /\
    annotate es (to_js code) = P ++ line ++ R /\ text_of P = to_js (text_of pre).
Proof. exact js_columns. Qed.
Print Assumptions C48_columns.
Definition t48 : tree := TConcat [TRaw [128512; NL]%N; TOriginal (lit "a") 50 1; TRaw (lit "x")].
Definition M48 : marked := mark None [128512; NL]%N ++ mark (Some (1, (1, 0), None))%Z (lit "a") ++ mark None (lit "x").
Example C48_case : emits true true t48 M48 /\ Forall scalar (text_of M48) /\
  exists pre' a, mark None [128512; NL]%N = pre' ++ [(NL, a)].
Proof.
  split; [eexists _, _, _, _; split; [vm_compute; reflexivity|split; [vm_compute; reflexivity|split; vm_compute; reflexivity]]|].
  split; [scalars|]. now exists [(128512, None)]%N, None.
Qed.
(** On a line with a surrogate pair, and on a first line with a byte order mark, a reader
    that counts JavaScript columns finds the wrong characters mapped: only the x instead of
    only the a, or the x as well. *)
Theorem C48_refuted : exists t1 t2 n1 n2 code1 code2 mp1 mp2 es1 es2,
  t_node true true t1 = Some n1 /\ to_string_with_source_map n1 None None = Some (code1, mp1) /\
  read_map (map_sources mp1) (map_names mp1) (map_mappings mp1) = Some es1 /\
  annotate es1 code1 = mark None [128512; 128512]%N ++ mark (Some (1, (1, 0), None))%Z (lit "a") ++ mark None (lit "x") /\
  annotate es1 (to_js code1) =
    mark None smile ++ mark (Some (1, (1, 0), None))%Z (firstn 1 smile) ++ mark None (skipn 1 smile ++ lit "ax") /\
  t_node true true t2 = Some n2 /\ to_string_with_source_map n2 None None = Some (code2, mp2) /\
  read_map (map_sources mp2) (map_names mp2) (map_mappings mp2) = Some es2 /\
  annotate es2 code2 = mark None [BOM] ++ mark (Some (1, (1, 0), None))%Z (lit "a") ++ mark None (lit "x") /\
  annotate es2 (to_js code2) = mark None (lit "a") ++ mark (Some (1, (1, 0), None))%Z (lit "x").
Proof.
  exists (TConcat [TRaw [128512; 128512]%N; TOriginal (lit "a") 50 1; TRaw (lit "x")]).
  exists (TConcat [TRaw [BOM]; TOriginal (lit "a") 50 1; TRaw (lit "x")]).
  eexists _, _, _, _, _, _, _, _.
  split; [vm_compute; reflexivity|]. split; [vm_compute; reflexivity|]. split; [vm_compute; reflexivity|].
  split; [vm_compute; reflexivity|]. split; [vm_compute; reflexivity|]. split; [vm_compute; reflexivity|].
  split; [vm_compute; reflexivity|]. split; [vm_compute; reflexivity|]. split; vm_compute; reflexivity.
Qed.
Print Assumptions C48_refuted.

(** C49: updateHash. *)
Theorem C49_hash : forall t, formed t -> ordinary_edits t -> hashes_text t -> js_hash t = Some (js_text t).
Proof. exact js_hash_text. Qed.
Print Assumptions C49_hash.
Theorem C49_collisions : forall t t', formed t -> ordinary_edits t -> hashes_text t ->
  formed t' -> ordinary_edits t' -> hashes_text t' -> (js_hash t = js_hash t' <-> js_text t = js_text t').
Proof.
  intros t t' F O H F' O' H'. rewrite !js_hash_text by assumption. split; [intro E; now injection E|now intros ->].
Qed.
Print Assumptions C49_collisions.
Example C49_case : let t := JConcat [JRaw (lit "a"); JEdit (JRaw (lit "b")) [JInsert (Fin 1 0) smile]] in
  formed t /\ ordinary_edits t /\ hashes_text t /\ js_hash t = Some (lit "ab" ++ smile).
Proof.
  split; [|split; [|split; [|vm_compute; reflexivity]]].
  - split; [apply lit_formed; repeat constructor|]. split; [|exact I]. split; [apply lit_formed; repeat constructor|].
    repeat constructor. apply smile_formed.
  - split; [exact I|]. split; [|exact I]. split; [exact I|]. split; [repeat constructor; cbn; lia|].
    scalars.
  - split; [exact I|]. split; [|exact I]. intros [r Hr]. vm_compute in Hr. discriminate.
Qed.
(** Different prefixes collide, and so do different maps. *)
Theorem C49_prefix_refuted : exists t t', formed t /\ formed t' /\ js_hash t = js_hash t' /\
  js_source t = Some (lit "ab") /\ js_source t' = Some (lit "ba").
Proof.
  exists (JPrefix (lit "a") (JRaw (lit "b"))), (JPrefix [] (JRaw (lit "ba"))).
  split; [split; apply lit_formed; repeat constructor|]. split; [split; apply lit_formed; repeat constructor|].
  split; [reflexivity|]. split; vm_compute; reflexivity.
Qed.
Print Assumptions C49_prefix_refuted.
(** With all the classes: a single changed text changes what is hashed, changed names and
    maps do not. *)
Theorem C49_change : forall t t', one_change t t' ->
  forall h h', js_hash t = Some h -> js_hash t' = Some h' -> h <> h'.
Proof. exact hash_notices. Qed.
Print Assumptions C49_change.
Theorem C49_unseen : forall t t', unseen t t' -> js_hash t = js_hash t'.
Proof. exact hash_unseen. Qed.
Print Assumptions C49_unseen.
Example C49_change_case :
  let t p := JConcat [JStr (lit "x"); JPrefix p (JOriginal (lit "b") 0 1); JL2L (lit "c") 2 3 (lit "d")] in
  one_change (t (lit "a")) (t []) /\ js_hash (t (lit "a")) = Some (lit "xbacd") /\ js_hash (t []) = Some (lit "xbcd").
Proof.
  split; [|split; vm_compute; reflexivity].
  apply (oc_child [_] _ _ [_]), oc_prefix. vm_compute. discriminate.
Qed.
Example C49_unseen_case :
  unseen (JPrefix (lit "a") (JOriginal (lit "b") 0 1)) (JPrefix (lit "a") (JOriginal (lit "b") 5 6)).
Proof. constructor. constructor. Qed.
