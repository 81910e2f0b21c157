(** Final theorems about line maps of edited sources: C43. *)
From Verif Require Import Base Tactics ModelString ModelVlq ModelSm ModelSlm ModelSources ModelTree
  SpecText SpecMap SpecAttr SpecEdit SpecList SpecLineEdit EditFacts SlmFacts SlmMap SlmReplace SlmTree SlmWhole SlmProps SlmEdits.

(** C43: edits whose texts contain no newline.  The result is the edited text; kept
    characters keep their line; the new texts have the line of their place. *)
Theorem C43_edits_partial : forall c m t h M, no_prefix t -> line_ready c m t ->
  Forall call_ok h -> Forall edit_ok (edits_of h) -> Forall forward (edits_of h) ->
  ForallOrdPairs apart (edits_of h) -> Forall (fun e => ~ In NL (e_text e)) (edits_of h) ->
  line_attributed c m t M ->
  exists M', line_attributed c m (TReplace t (run h)) M' /\
    Forall2 (line_kept (forall lm, t_list_map c m t = Some lm -> starts_with_text lm) M)
      (traced (edits_of h) (text_of M)) M'.
Proof. exact replace_leaves. Qed.
Print Assumptions C43_edits_partial.

(** Over any source, if every attributed piece of its list map is at most one line. *)
Theorem C43_any_source_partial : forall c m t h lm, Forall call_ok h -> Forall edit_ok (edits_of h) -> Forall forward (edits_of h) ->
  ForallOrdPairs apart (edits_of h) -> Forall (fun e => ~ In NL (e_text e)) (edits_of h) ->
  t_list_map c m t = Some lm -> Forall node_ok lm -> simple_pieces lm ->
  exists M', line_attributed c m (TReplace t (run h)) M' /\
    Forall2 (line_kept (starts_with_text lm) (list_marks lm)) (traced (edits_of h) (slm_text lm)) M'.
Proof. exact replace_lines. Qed.
Print Assumptions C43_any_source_partial.

(** Any texts over any source: at most one line off. *)
Theorem C43_near : forall c m t h lm, Forall call_ok h -> Forall edit_ok (edits_of h) -> Forall forward (edits_of h) ->
  ForallOrdPairs apart (edits_of h) -> t_list_map c m t = Some lm -> Forall node_ok lm ->
  exists M', line_attributed c m (TReplace t (run h)) M' /\
    Forall2 (line_near (starts_with_text lm) (list_marks lm)) (traced (edits_of h) (slm_text lm)) M'.
Proof. exact replace_near. Qed.
Print Assumptions C43_near.

Theorem C43_text : forall es s, map fst (traced es s) = edited es s.
Proof. exact traced_text. Qed.
Print Assumptions C43_text.

Definition src3 : tree := TOriginal (lit "ab" ++ [NL] ++ lit "cd" ++ [NL] ++ lit "ef") 50 5.
Definition h3 : list call := [Replace 1 1 (lit "XY") 0 0; Insert 6 (lit "Z") 0; Insert 9 (lit "!") 0].
Example C43_case :
  no_prefix src3 /\ line_ready false false src3 /\ Forall call_ok h3 /\ Forall edit_ok (edits_of h3) /\
  Forall forward (edits_of h3) /\ ForallOrdPairs apart (edits_of h3) /\
  Forall (fun e => ~ In NL (e_text e)) (edits_of h3) /\
  t_list_map false false src3 = Some (one_source 5 (Some 50%Z) (lit "ab" ++ [NL] ++ lit "cd" ++ [NL] ++ lit "ef")) /\
  option_map list_marks (t_list_map false false (TReplace src3 (run h3))) =
  Some (mark (Some (5, (1, 0), None))%Z (lit "aXY" ++ [NL]) ++ mark (Some (5, (2, 0), None))%Z (lit "cd" ++ [NL]) ++
        mark (Some (5, (3, 0), None))%Z (lit "Zef") ++ mark None (lit "!")).
Proof.
  split; [exact I|]. split; [exact I|]. split; [repeat (apply Forall_cons; [cbn; lia|]); apply Forall_nil|].
  split; [repeat (apply Forall_cons; [unfold edit_ok; cbn; lia|]); apply Forall_nil|].
  split; [repeat (apply Forall_cons; [unfold forward; cbn; lia|]); apply Forall_nil|].
  split; [repeat (apply FOP_cons; [repeat (apply Forall_cons; [left; unfold before; cbn; unfold e_hi; cbn; lia|]); apply Forall_nil|]); apply FOP_nil|].
  split; [repeat (apply Forall_cons; [cbn; intuition discriminate|]); apply Forall_nil|].
  split; [reflexivity|]. vm_compute. reflexivity.
Qed.

(** With a newline in the new text the kept characters behind it can move to the next
    line: "c" stands on line 2 and is attributed to line 3. *)
Theorem C43_newline_refuted : exists t h lm lm', no_prefix t /\ line_ready false false t /\
  Forall call_ok h /\ Forall edit_ok (edits_of h) /\ Forall forward (edits_of h) /\ ForallOrdPairs apart (edits_of h) /\
  t_list_map false false t = Some lm /\ t_list_map false false (TReplace t (run h)) = Some lm' /\
  nth_error (list_marks lm) 3 = Some (99%N, Some (5, (2, 0), None))%Z /\
  nth_error (traced (edits_of h) (slm_text lm)) 5 = Some (99%N, inl 3) /\
  nth_error (list_marks lm') 5 = Some (99%N, Some (5, (3, 0), None))%Z.
Proof.
  exists (TOriginal (lit "a" ++ [NL] ++ lit "bc") 50 5), [Insert 3 (lit "x" ++ [NL]) 0]. eexists _, _.
  split; [exact I|]. split; [exact I|]. split; [repeat (apply Forall_cons; [cbn; lia|]); apply Forall_nil|].
  split; [repeat (apply Forall_cons; [unfold edit_ok; cbn; lia|]); apply Forall_nil|].
  split; [repeat (apply Forall_cons; [unfold forward; cbn; lia|]); apply Forall_nil|].
  split; [apply FOP_cons; [apply Forall_nil|apply FOP_nil]|].
  split; [vm_compute; reflexivity|]. split; [vm_compute; reflexivity|]. repeat split.
Qed.
Print Assumptions C43_newline_refuted.
