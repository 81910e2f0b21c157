(** Final theorems about column maps: C07, C11 - C16, C21 - C23. *)
From Verif Require Import Base Tactics ModelString ModelVlq ModelSm ModelSlm ModelSources ModelTree
  SpecText SpecMap SpecAttr SpecEdit EditFacts MapFacts GenFacts MapProps NodeFacts LeafFacts
  ReplaceNode SmsNode SmsProps NodeTree IdxFacts.

(** Sample sources. *)
Definition d1 : sm_content := mk_smc [1; 2]%Z [] [30]%Z (lit "AAAA,EAAIA;ACCA").
Definition e1 : list (place * option target) :=
  [((1, 0), Some (1, (1, 0), None)); ((1, 2), Some (1, (1, 4), Some 30)); ((2, 0), Some (2, (2, 4), None))]%Z.
Lemma d1_readable : readable d1 e1.
Proof.
  split; [repeat constructor; cbn; intuition discriminate|]. split; [repeat constructor; cbn; intuition discriminate|].
  split; [vm_compute; reflexivity|]. split; [eexists; split; [vm_compute; reflexivity|repeat constructor; vm_compute; intuition discriminate]|].
  split; [|repeat constructor].
  intros e e' H H'. cbn in H, H'. intuition (subst; try reflexivity; try discriminate).
Qed.
Definition d2 : sm_content := mk_smc [7]%Z [70]%Z [] (lit "AAAA,IAAK").
Definition e2 : list (place * option target) :=
  [((1, 0), Some (7, (1, 0), None)); ((1, 4), Some (7, (1, 5), None))]%Z.
Lemma d2_readable : readable d2 e2.
Proof.
  split; [repeat constructor; cbn; intuition discriminate|]. split; [constructor|].
  split; [vm_compute; reflexivity|]. split; [eexists; split; [vm_compute; reflexivity|repeat constructor; vm_compute; intuition discriminate]|].
  split; [|repeat constructor].
  intros e e' H H'. cbn in H, H'. intuition (subst; try reflexivity; try discriminate).
Qed.
Definition v1 : str := lit "abcd" ++ [NL] ++ lit "ef".
Definition sms1 : sms := sms_new v1 100 1 d1 None.
Definition sms2 : sms := sms_set_inner sms1 d2 None.
Definition tree1 : tree :=
  TConcat [TStr (lit "x"); TPrefix (lit "> ") (TConcat [TOriginal (lit "a b;" ++ [NL] ++ lit "c") 50 5; TRaw (lit "r")]);
           TL2L (lit "q" ++ [NL]) 6 60; TSms sms1].

(** C07 *)
Theorem C07_column_text : forall c m t, usable t -> prefix_fine c m t ->
  exists n code mp, t_node c m t = Some n /\ to_string_with_source_map n None None = Some (code, mp) /\
    t_source t = Some code.
Proof. exact column_text. Qed.
Print Assumptions C07_column_text.

Example C07_case :
  let t := TReplace (TConcat [TPrefix (lit "> ") (TRaw (lit "a" ++ [NL] ++ lit "b")); TSms sms2])
             (rs_insert (rs_replace rstate_new 1 20 (lit "ZZ") 0 0) 0 (lit "!") 0) in
  usable t /\ prefix_fine true true t /\ t_source t = Some (lit "!>ZZ").
Proof.
  cbn zeta. split; [|split].
  - split; [exact I|]. split; [|exact I].
    apply (dense_usable (TSms sms2)). exists e1. split; [now apply data_entries, d1_readable|]. right.
    eexists _, e2. split; [reflexivity|]. split; [now apply data_entries, d2_readable|reflexivity].
  - split; [|split; exact I]. split; [exact I|]. intros n E. injection E as <-. split; [discriminate|]. intro H. discriminate.
  - vm_compute. reflexivity.
Qed.

(** The exceptions are real. *)
Theorem C07_prefix_exceptions_refuted : exists t1 t2,
  t_source t1 = Some (lit "P") /\ option_map fst (source_and_column_map true t1) = Some [] /\
  t_source t2 = Some (lit "Pa" ++ [NL]) /\
  option_map fst (source_and_column_map true t2) = Some (lit "Pa" ++ [NL] ++ lit "P").
Proof.
  exists (TPrefix (lit "P") (TRaw [])),
    (TPrefix (lit "P") (TReplace (TRaw (lit "a" ++ [NL])) (rs_insert rstate_new 2 [] 0))).
  vm_compute. auto.
Qed.
Print Assumptions C07_prefix_exceptions_refuted.

(** C11 *)
Theorem C11_generator : forall n file root,
  exists code g, to_string_with_generator n file root = Some (code, g) /\
    code = text_of (flat n) /\
    annotate (map view (ml_list (g_mappings g))) code = flat n.
Proof. exact generator_exact. Qed.
Print Assumptions C11_generator.

Example C11_generator_case :
  let n := SmNode None None None
    [SmStr (lit "a"); SmNode (Some (3, 1)%N) (Some 7%Z) None [SmStr []; SmStr (lit "b" ++ [NL] ++ lit "c")] [];
     SmNode None (Some 7%Z) None [SmStr (lit "d")] []] [] in
  exists g, to_string_with_generator n None None = Some (lit "ab" ++ [NL] ++ lit "cd", g) /\ 3 <= length (ml_list (g_mappings g)).
Proof. cbn zeta. eexists. split; [vm_compute; reflexivity|cbn; lia]. Qed.

Theorem C11_emitted : forall n file root, Forall leaf_ok (leaves n) ->
  exists code m es, to_string_with_source_map n file root = Some (code, m) /\
    code = text_of (flat n) /\
    read_map (map_sources m) (map_names m) (map_mappings m) = Some es /\
    annotate es code = flat n.
Proof. exact emitted_exact. Qed.
Print Assumptions C11_emitted.

Definition node1 : smnode :=
  SmNode None None None
    [SmStr (lit "a"); SmNode (Some (3, 1)%N) (Some 7%Z) (Some 8%Z) [SmStr (lit "b" ++ [NL] ++ lit "c")] [];
     SmNode None (Some 7%Z) None [SmStr (lit "d")] []] [].
Example C11_case : Forall leaf_ok (leaves node1) /\
  flat node1 = mark None (lit "a") ++ mark (Some (7, (3, 1), Some 8))%Z (lit "b" ++ [NL] ++ lit "c") ++ mark None (lit "d").
Proof. split; [|reflexivity]. repeat constructor; discriminate. Qed.

(** With an empty mapped chunk the emitted map can attribute unmapped text. *)
Theorem C11_empty_chunk_refuted : exists t code mp es,
  source_and_column_map true t = Some (code, mp) /\ attributed true true t (mark None code) /\
  read_map (map_sources mp) (map_names mp) (map_mappings mp) = Some es /\
  annotate es code = mark (Some (1, (1, 0), None))%Z code /\ code = lit "x".
Proof.
  exists (TConcat [TReplace (TOriginal (lit "ab") 50 1) (rs_replace rstate_new 0 1 [] 0 0); TRaw (lit "x")]).
  eexists _, _, _. split; [vm_compute; reflexivity|]. split.
  - eexists _, _, _. split; [vm_compute; reflexivity|]. split; [vm_compute; reflexivity|]. vm_compute. reflexivity.
  - split; [vm_compute; reflexivity|]. split; vm_compute; reflexivity.
Qed.
Print Assumptions C11_empty_chunk_refuted.

(** At tree level: what the generator says is what the emitted map says. *)
Theorem C11_tree : forall c m t M, chunks leaf_ok c m t -> attributed c m t M -> emits c m t M.
Proof. exact attributed_emits. Qed.
Print Assumptions C11_tree.
Theorem C11_dense : forall c m t, dense t -> chunks leaf_ok c m t /\ exists n, t_node c m t = Some n.
Proof.
  intros c m t D. split; [eapply chunks_impl; [apply solid_ok|now apply dense_chunks]|].
  destruct (dense_node c m t D) as (n & E & _). eauto.
Qed.
Print Assumptions C11_dense.
Example C11_dense_case : dense tree1.
Proof.
  split; [discriminate|]. split; [repeat split|]. split; [exact I|]. split; [|exact I].
  exists e1. split; [now apply data_entries, d1_readable|now left].
Qed.

(** C12 *)
Theorem C12_columns : forall m v vi name, crlf_only v = true -> forallb is_ascii v = true ->
  emits true m (TOriginal v vi name) (mark_tokens advance name (1, 0)%Z (tokens v)).
Proof. exact original_attributed_ascii. Qed.
Print Assumptions C12_columns.

Theorem C12_columns_bytes : forall m v vi name, crlf_only v = true ->
  emits true m (TOriginal v vi name) (mark_tokens advance_bytes name (1, 0)%Z (tokens v)).
Proof. exact original_attributed. Qed.
Print Assumptions C12_columns_bytes.

Example C12_columns_bytes_case : crlf_only ([233%N] ++ lit ";b") = true /\
  mark_tokens advance_bytes 9 (1, 0)%Z (tokens ([233%N] ++ lit ";b")) =
  mark (Some (9, (1, 0), None))%Z ([233%N] ++ lit ";") ++ mark (Some (9, (1, 3), None))%Z (lit "b").
Proof. split; vm_compute; reflexivity. Qed.

Theorem C12_lines : forall m v vi name, emits false m (TOriginal v vi name) (mark_lines name 1 v).
Proof. exact original_attributed_lines. Qed.
Print Assumptions C12_lines.

Example C12_case : let v := lit "if (x) { y; }" ++ [NL] ++ lit "  " ++ [CR; NL] ++ lit "z" in
  crlf_only v = true /\ forallb is_ascii v = true /\
  mark_tokens advance 9 (1, 0)%Z (tokens v) =
  mark (Some (9, (1, 0), None))%Z (lit "if (x) {") ++ mark (Some (9, (1, 8), None))%Z (lit " y;") ++
  mark (Some (9, (1, 11), None))%Z (lit " }" ++ [NL]) ++ mark None (lit "  " ++ [CR; NL]) ++
  mark (Some (9, (3, 0), None))%Z (lit "z").
Proof. vm_compute. auto. Qed.

(** Beyond that columns are wrong: after a lone carriage return a blank piece is not
    counted; after a non-ASCII character columns are counted in bytes. *)
Definition answers (t : tree) (M : marked) : Prop :=
  exists code mp es, source_and_column_map true t = Some (code, mp) /\
    read_map (map_sources mp) (map_names mp) (map_mappings mp) = Some es /\ annotate es code = M.
Theorem C12_columns_refuted :
  answers (TOriginal (lit " " ++ [CR] ++ lit "foo;") 50 9)
    (mark None (lit " " ++ [CR]) ++ mark (Some (9, (1, 0), None))%Z (lit "foo;")) /\
  answers (TOriginal ([233%N] ++ lit ";b") 50 9)
    (mark (Some (9, (1, 0), None))%Z ([233%N] ++ lit ";") ++ mark (Some (9, (1, 3), None))%Z (lit "b")).
Proof. split; eexists _, _, _; (split; [vm_compute; reflexivity|]); split; vm_compute; reflexivity. Qed.
Print Assumptions C12_columns_refuted.

(** C13: the column map. *)
Theorem C13_column_map : forall c m v name orig, emits c m (TL2L v name orig) (mark_lines name 1 v).
Proof. exact l2l_attributed. Qed.
Print Assumptions C13_column_map.

Example C13_case : mark_lines 9 1 (lit "a" ++ [NL] ++ lit "bc" ++ [NL; NL]) =
  mark (Some (9, (1, 0), None))%Z (lit "a" ++ [NL]) ++ mark (Some (9, (2, 0), None))%Z (lit "bc" ++ [NL]) ++
  mark (Some (9, (3, 0), None))%Z [NL].
Proof. reflexivity. Qed.

(** C14 *)
Theorem C14_concat : forall c m l Ms, Forall2 (child_attr c m) l Ms ->
  attributed c m (TConcat l) (concat Ms) /\
  (chunks leaf_ok c m (TConcat l) -> emits c m (TConcat l) (concat Ms)).
Proof.
  intros c m l Ms H. split; [now apply concat_attributed|].
  intro Hc. apply attributed_emits; auto. now apply concat_attributed.
Qed.
Print Assumptions C14_concat.

Theorem C14_concat_dense : forall c m l Ms, Forall dense_child l -> Forall2 (child_attr c m) l Ms ->
  emits c m (TConcat l) (concat Ms).
Proof.
  intros c m l Ms D H. apply dense_emits; [now apply dense_concat|]. now apply concat_attributed.
Qed.
Print Assumptions C14_concat_dense.

Example C14_concat_dense_case : Forall dense_child [TStr (lit "x"); TOriginal (lit "ab") 50 5; TRaw (lit "y"); TL2L (lit "z") 6 60].
Proof. repeat (apply Forall_cons; [exact I || discriminate|]). apply Forall_nil. Qed.

Example C14_case :
  Forall2 (child_attr true true) [TStr (lit "x"); TOriginal (lit "ab") 50 5; TRaw (lit "y"); TL2L (lit "z") 6 60]
    [mark None (lit "x"); mark (Some (5, (1, 0), None))%Z (lit "ab"); mark None (lit "y");
     mark (Some (6, (1, 0), None))%Z (lit "z")].
Proof.
  repeat constructor; cbn [child_attr]; apply attributed_flat; eexists; (split; [vm_compute; reflexivity|vm_compute; reflexivity]).
Qed.

(** C15 *)
Theorem C15_prefix : forall c m p t M, chunks nonempty c m t -> usable t -> attributed c m t M ->
  attributed c m (TPrefix p t) (mprefixed p M).
Proof. exact prefix_attributed. Qed.
Print Assumptions C15_prefix.

Theorem C15_prefix_emitted : forall c m p t M, dense t -> attributed c m t M ->
  emits c m (TPrefix p t) (mprefixed p M).
Proof.
  intros c m p t M D A. apply dense_emits; [exact D|]. apply prefix_attributed; auto using dense_usable.
  eapply chunks_impl; [apply solid_nonempty|now apply dense_chunks].
Qed.
Print Assumptions C15_prefix_emitted.

Example C15_case : let t := TConcat [TOriginal (lit "a;b" ++ [NL]) 50 5; TRaw (lit "r")] in
  dense t /\ usable t /\ chunks nonempty true true t /\
  attributed true true t (mark (Some (5, (1, 0), None))%Z (lit "a;") ++ mark (Some (5, (1, 2), None))%Z (lit "b" ++ [NL])
    ++ mark None (lit "r")).
Proof.
  cbn zeta. split; [repeat split|]. split; [repeat split|]. split.
  - eapply chunks_impl; [apply solid_nonempty|apply dense_chunks]. repeat split.
  - apply attributed_flat. eexists. split; vm_compute; reflexivity.
Qed.
Example C15_case_prefix :
  mprefixed (lit "> ") (mark (Some (5, (1, 0), None))%Z (lit "a" ++ [NL]) ++ mark None (lit "b")) =
  mark (Some (5, (1, 0), None))%Z (lit "> a" ++ [NL]) ++ mark None (lit "> b").
Proof. reflexivity. Qed.

(** C16 *)
Theorem C16_replace : forall c m h t M, Forall call_ok h -> Forall edit_ok (edits_of h) -> usable t ->
  attributed c m t M ->
  exists ts, length ts = length (edits_of h) /\
    attributed c m (TReplace t (run h)) (edited_marked (edits_of h) ts M) /\
    (chunks nonempty c m t -> ForallOrdPairs apart (edits_of h) -> Forall forward (edits_of h) ->
     Forall2 (new_target M) (arrange key_le (edits_of h)) ts).
Proof. exact replace_attributed. Qed.
Print Assumptions C16_replace.

Definition h16 : list call := [Replace 2 3 (lit "X") 0 0; Insert 5 (lit "!") 0; Replace 0 0 [] 0 0].
Example C16_replace_case : let t := TConcat [TOriginal (lit "abcd") 50 5; TRaw (lit "ef")] in
  Forall call_ok h16 /\ Forall edit_ok (edits_of h16) /\ ForallOrdPairs apart (edits_of h16) /\ Forall forward (edits_of h16) /\
  attributed true true (TReplace t (run h16))
    (mark (Some (5, (1, 0), None))%Z (lit "bX") ++ mark None (lit "e!f")).
Proof.
  cbn zeta. split; [repeat constructor; cbn; lia|]. split; [repeat constructor; cbn; lia|].
  split; [repeat constructor; unfold apart, before, e_hi; cbn; lia|]. split; [repeat constructor; unfold forward; cbn; lia|].
  apply attributed_flat. eexists. split; vm_compute; reflexivity.
Qed.

Theorem C16_inside_chunk : forall c m t M a b txt x,
  usable t -> chunks nonempty c m t -> attributed c m t M ->
  (0 < a <= Z.of_nat (length M))%Z -> (a <= b + 1 < 2147483648)%Z ->
  attr_at M (a - 1) = x -> (a <= b -> attr_at M a = x)%Z ->
  attributed c m (TReplace t (rs_replace rstate_new a b txt 0 0))
    (firstn (Z.to_nat a) M ++ mark (drop_name x) txt ++ skipn (Z.to_nat (b + 1)) M).
Proof. exact replace_one. Qed.
Print Assumptions C16_inside_chunk.

Example C16_inside_chunk_case : let M := mark (Some (5, (1, 0), Some 9))%Z (lit "abcd") ++ mark None (lit "ef") in
  attr_at M (2 - 1) = Some (5, (1, 0), Some 9)%Z /\ attr_at M 2 = Some (5, (1, 0), Some 9)%Z /\
  firstn 2 M ++ mark (drop_name (attr_at M 1)) (lit "X") ++ skipn 4 M =
  mark (Some (5, (1, 0), Some 9))%Z (lit "ab") ++ mark (Some (5, (1, 0), None))%Z (lit "X") ++ mark None (lit "ef").
Proof. cbn zeta. repeat split. Qed.

Example C16_case : let t := TConcat [TOriginal (lit "abcd") 50 5; TRaw (lit "ef")] in
  usable t /\ chunks nonempty true true t /\
  attributed true true t (mark (Some (5, (1, 0), None))%Z (lit "abcd") ++ mark None (lit "ef")).
Proof.
  cbn zeta. split; [|split].
  - repeat split.
  - eapply chunks_impl; [apply solid_nonempty|apply dense_chunks]. repeat split.
  - apply attributed_flat. eexists. split; vm_compute; reflexivity.
Qed.
(** A removal that begins at a boundary between chunks: the new text belongs to the
    chunk before. *)
Theorem C16_boundary_refuted :
  attributed true true
    (TReplace (TConcat [TOriginal (lit "ab") 50 5; TRaw (lit "cd")]) (rs_replace rstate_new 2 3 (lit "X") 0 0))
    (mark (Some (5, (1, 0), None))%Z (lit "abX")).
Proof. apply attributed_flat. eexists. split; vm_compute; reflexivity. Qed.
Print Assumptions C16_boundary_refuted.

(** C21 *)
Theorem C21_text : forall v g, exists n code mp, sm_from_string v g = Some n /\
  to_string_with_generator n None None = Some (code, mp) /\ code = v.
Proof. exact any_map_text. Qed.
Print Assumptions C21_text.

Theorem C21_source : forall c m x n, t_node c m (TSms x) = Some n ->
  Forall nonempty (leaves n) /\ text_of (flat n) = sms_value x.
Proof. exact sms_text. Qed.
Print Assumptions C21_source.

Example C21_source_case : exists n, t_node true true (TSms sms2) = Some n /\ 3 <= length (leaves n).
Proof. eexists. split; [vm_compute; reflexivity|cbn; lia]. Qed.

(** An unsorted list with places beyond the line and beyond the code. *)
Definition odd_gen : generator :=
  mk_gen None None true [(1%Z, 0%nat)] []
    (mk_ml [mk_mapping (2, 1)%N (Some 1%Z) None (Some (1, 0)%N); mk_mapping (1, 9)%N (Some 1%Z) None (Some (1, 0)%N);
            mk_mapping (1, 1)%N (Some 1%Z) None (Some (2, 0)%N); mk_mapping (9, 0)%N None None None] false None) [].
Example C21_case : option_map (fun n => text_of (flat n)) (sm_from_string v1 odd_gen) = Some v1.
Proof. vm_compute. reflexivity. Qed.

(** C22 *)
Theorem C22_map : forall c m x es, cell_entries (sms_map x) es -> sms_inner x = None ->
  emits c m (TSms x) (annotate es (sms_value x)).
Proof. exact sms_emits. Qed.
Print Assumptions C22_map.

Theorem C22_data : forall c m v vi name d es, readable d es ->
  emits c m (TSms (sms_new v vi name d None)) (annotate es v).
Proof. intros c m v vi name d es R. apply (sms_emits c m (sms_new v vi name d None)); [now apply data_entries|reflexivity]. Qed.
Print Assumptions C22_data.

(** From a generator: the list in the order of its places, whatever its ties. *)
Theorem C22_generator : forall v g, ordered g ->
  exists n, sm_from_string v g = Some n /\ Forall solid (leaves n) /\
    flat n = annotate (map view (ml_list (g_mappings g))) v.
Proof. intros v g H. destruct (ordered_node v g H) as (n & E & _ & S & F). eauto. Qed.
Print Assumptions C22_generator.

(** Two mappings for one place, one behind the end of its line. *)
Definition tied_gen : generator :=
  mk_gen None None true [(1%Z, 0%nat)] []
    (mk_ml [mk_mapping (1, 1)%N (Some 1%Z) None (Some (2, 0)%N); mk_mapping (1, 1)%N (Some 1%Z) None (Some (1, 0)%N);
            mk_mapping (1, 9)%N None None None; mk_mapping (2, 1)%N (Some 1%Z) None (Some (1, 0)%N)] false None) [].
Example C22_generator_case : vsorted (ml_list (g_mappings tied_gen)) /\
  option_map flat (sm_from_string v1 tied_gen) =
  Some (mark None (lit "a") ++ mark (Some (1, (1, 0), None))%Z (lit "bcd" ++ [NL]) ++ mark None (lit "e") ++ mark (Some (1, (1, 0), None))%Z (lit "f")).
Proof. split; [|vm_compute; reflexivity]. unfold vsorted. repeat constructor; unfold ple, vplace; cbn; lia. Qed.

Example C22_case : readable d1 e1 /\
  annotate e1 v1 = mark (Some (1, (1, 0), None))%Z (lit "ab") ++ mark (Some (1, (1, 4), Some 30))%Z (lit "cd" ++ [NL])
    ++ mark (Some (2, (2, 4), None))%Z (lit "ef").
Proof. split; [exact d1_readable|reflexivity]. Qed.

(** C23 *)
Lemma sms_composed_unambiguous x es ic ei x' n g' : cell_entries (sms_map x) es ->
  sms_inner x = Some ic -> cell_entries ic ei -> sms_applied x = false -> sms_node x = Some (x', n) ->
  ce_gen (sms_map x') = Some g' -> unambiguous (map view (ml_list (g_mappings g'))).
Proof.
  intros Hc Hi Hic Ha E Eg'. destruct (cell_generator _ _ Hc) as (g & Eg & Ho & P & U).
  destruct (cell_generator _ _ Hic) as (ig & Eig & Hio & Pi & Ui).
  unfold sms_node in E. rewrite Eg in E. cbn [bind] in E. rewrite Hi, Eig in E. cbn [bind] in E. rewrite Ha in E. cbn [negb] in E.
  set (g0 := match sms_original x with Some o => _ | None => g end) in E.
  assert (Hg0 : ordered g0 /\ ml_list (g_mappings g0) = ml_list (g_mappings g)).
  { unfold g0. destruct (sms_original x); [|auto]. split; [now apply ordered_content|apply content_list]. }
  clearbody g0. destruct Hg0 as [Ho0 Hl0].
  assert (Wi : gen_wf ig) by apply Hio.
  destruct (apply_ordered g0 ig (sms_name x) Ho0 Wi) as (g2 & ig' & Ea & Ho' & V). rewrite Ea in E. cbn [bind] in E.
  unb E as nn E3. injection E as <- _. cbn [sms_map ce_gen] in Eg'. injection Eg' as <-. rewrite V, Hl0.
  intros e e' I I' K. apply in_map_iff in I as (a & <- & I), I' as (b & <- & I'). cbn [fst snd] in *.
  f_equal. apply U; [now rewrite <- P|now rewrite <- P|exact K].
Qed.
Theorem C23_apply : forall f1 r1 s1 h1 g f2 r2 s2 h2 inner file,
  history f1 r1 s1 h1 g -> orderly false h1 -> history f2 r2 s2 h2 inner -> orderly false h2 ->
  exists g' inner', apply_source_map_generator g inner (Some file) = Some (g', inner') /\
    map (fun m => m_gen m) (ml_list (g_mappings g')) = map (fun m => m_gen m) (ml_list (g_mappings g)) /\
    forall line col, lookup (map view (ml_list (g_mappings g'))) line col =
      through (Some file) (map view (isort mapping_cmp (ml_list (g_mappings inner))))
        (lookup (map view (ml_list (g_mappings g))) line col).
Proof.
  intros f1 r1 s1 h1 g f2 r2 s2 h2 inner file H1 O1 H2 O2.
  apply apply_lookup; eapply history_wf; eauto.
Qed.
Print Assumptions C23_apply.

Example C23_apply_case : exists g inner g' inner',
  history None None true [OAdd (mk_mapping (1, 0)%N (Some 1%Z) None (Some (1, 0)%N)); OAdd (mk_mapping (2, 3)%N (Some 1%Z) None (Some (1, 7)%N));
    OAdd (mk_mapping (3, 0)%N (Some 2%Z) None (Some (4, 0)%N))] g /\
  history None None true [OAdd (mk_mapping (1, 4)%N (Some 7%Z) (Some 30%Z) (Some (9, 2)%N))] inner /\
  apply_source_map_generator g inner (Some 1%Z) = Some (g', inner') /\
  map view (ml_list (g_mappings g')) =
  [((1, 0), Some (1, (1, 0), None)); ((2, 3), Some (7, (9, 2), Some 30)); ((3, 0), Some (2, (4, 0), None))]%Z.
Proof.
  eexists _, _, _, _. split; [split; [vm_compute; reflexivity|repeat constructor]|].
  split; [split; [vm_compute; reflexivity|repeat constructor]|]. split; [vm_compute; reflexivity|vm_compute; reflexivity].
Qed.

Theorem C23_source : forall c m x es ic ei, cell_entries (sms_map x) es ->
  sms_inner x = Some ic -> cell_entries ic ei -> sms_applied x = false ->
  emits c m (TSms x) (retarget (through (Some (sms_name x)) ei) (annotate es (sms_value x))).
Proof. exact sms_emits_inner. Qed.
Print Assumptions C23_source.

(** The source keeps the composed map: a second read gives the same. *)
Theorem C23_again : forall x es ic ei x' n, cell_entries (sms_map x) es ->
  sms_inner x = Some ic -> cell_entries ic ei -> sms_applied x = false ->
  sms_node x = Some (x', n) ->
  exists x2 n2, sms_node x' = Some (x2, n2) /\ flat n2 = flat n.
Proof.
  intros x es ic ei x' n Hc Hi Hic Ha E.
  destruct (sms_flat_inner x es ic ei Hc Hi Hic Ha) as (x1 & n1 & E1 & _ & _ & F & V & A & I & g & Eg & O & AF).
  rewrite E in E1. injection E1 as <- <-. destruct (sms_map x') as [d g0] eqn:Em. cbn [ce_gen] in Eg. subst g0.
  destruct (sms_inner x') as [ic'|] eqn:Ei; [|congruence].
  assert (Hg : exists ig, ce_gen ic' = Some ig).
  { clear -E Ei Hi Ha. unfold sms_node in E. unbind E. destruct v as [c g]. unbind E. destruct v as [[g1 i1] a1].
    unbind E. injection E as <- _. cbn [sms_inner] in Ei. subst i1. rewrite Hi in E1. unbind E1.
    destruct v0 as [ic2 ig]. rewrite Ha in E1. cbn [negb] in E1. unbind E1. destruct v0 as [g3 ig3].
    injection E1 as _ E1 _. subst ic'. eexists. reflexivity. }
  destruct Hg as (ig & Hig).
  destruct (sms_flat_applied x' g ic' d ig Em O Ei Hig A) as (x2 & n2 & E2 & F2). exists x2, n2. split; [exact E2|].
  rewrite F2, V, F. exact AF.
Qed.
Print Assumptions C23_again.

Example C23_again_case : exists x' n x2 n2, sms_applied sms2 = false /\ sms_node sms2 = Some (x', n) /\
  sms_node x' = Some (x2, n2) /\ flat n2 = mark (Some (7, (1, 0), None))%Z (lit "ab") ++ mark (Some (7, (1, 5), Some 30))%Z (lit "cd" ++ [NL])
    ++ mark (Some (2, (2, 4), None))%Z (lit "ef").
Proof. eexists _, _, _, _. split; [reflexivity|]. split; [vm_compute; reflexivity|]. split; [vm_compute; reflexivity|vm_compute; reflexivity]. Qed.

(** An inner map set later on, read or not before, is composed with what the source has by then. *)
Theorem C23_set : forall c m x es d g ei, cell_entries (sms_map x) es -> cell_entries (mk_cell (Some d) g) ei ->
  emits c m (TSms (sms_set_inner x d g)) (retarget (through (Some (sms_name x)) ei) (annotate es (sms_value x))).
Proof.
  intros c m x es d g ei H1 H2. exact (sms_emits_inner c m (sms_set_inner x d g) es (mk_cell (Some d) g) ei H1 eq_refl H2 eq_refl).
Qed.
Print Assumptions C23_set.
Theorem C23_twice : forall c m x es d ei x' n d2 ei2, cell_entries (sms_map x) es ->
  cell_entries (mk_cell (Some d) None) ei -> cell_entries (mk_cell (Some d2) None) ei2 ->
  sms_node (sms_set_inner x d None) = Some (x', n) ->
  emits c m (TSms (sms_set_inner x' d2 None))
    (retarget (through (Some (sms_name x)) ei2) (retarget (through (Some (sms_name x)) ei) (annotate es (sms_value x)))).
Proof.
  intros c m x es d ei x' n d2 ei2 H1 H2 H3 E.
  destruct (sms_flat_inner (sms_set_inner x d None) es _ ei H1 eq_refl H2 eq_refl)
    as (x1 & n1 & E1 & _ & _ & _ & V & _ & _ & g & Eg & O & AF).
  rewrite E in E1. injection E1 as <- <-.
  assert (Nm : sms_name x' = sms_name x) by (unfold sms_node in E; cbn [sms_set_inner sms_inner sms_map sms_original sms_applied] in E;
    unb E as [cc gg] E0; unb E as [[g1 i1] a1] E2; unb E as nn E3; injection E as <- _; reflexivity).
  assert (U : unambiguous (map view (ml_list (g_mappings g)))) by exact (sms_composed_unambiguous (sms_set_inner x d None) es _ ei _ _ g H1 eq_refl H2 eq_refl E Eg).
  pose proof (C23_set c m x' (map view (ml_list (g_mappings g))) d2 None ei2) as K. rewrite Nm in K.
  cbn [sms_set_inner sms_value sms_name] in V, AF. rewrite V, AF in K. apply K; [|exact H3].
  unfold cell_entries. rewrite Eg. auto.
Qed.
Print Assumptions C23_twice.

Example C23_case : cell_entries (sms_map sms2) e1 /\ cell_entries (mk_cell (Some d2) None) e2 /\
  retarget (through (Some 1%Z) e2) (annotate e1 v1) =
  mark (Some (7, (1, 0), None))%Z (lit "ab") ++ mark (Some (7, (1, 5), Some 30))%Z (lit "cd" ++ [NL])
    ++ mark (Some (2, (2, 4), None))%Z (lit "ef").
Proof.
  split; [now apply data_entries, d1_readable|]. split; [now apply data_entries, d2_readable|]. reflexivity.
Qed.
Example C23_twice_case : exists x' n, sms_node (sms_set_inner sms1 d2 None) = Some (x', n) /\ sms_applied x' = true /\
  retarget (through (Some 1%Z) e1) (retarget (through (Some 1%Z) [((1, 4), Some (1, (1, 0), None))]%Z) (annotate e1 v1)) <>
  retarget (through (Some 1%Z) e1) (annotate e1 v1).
Proof.
  eexists _, _. split; [vm_compute; reflexivity|]. split; [reflexivity|]. vm_compute. discriminate.
Qed.
