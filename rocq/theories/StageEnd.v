(** Edits made in two steps: texts and maps. *)
From Coq Require Import Permutation.
From Verif Require Import Base Tactics ModelString StringFacts ModelVlq ModelSm ModelSlm ModelSources ModelTree ModelWasm
  ModelJs ModelJsApi SpecText SpecMap SpecAttr SpecEdit SpecEffect SpecList SpecRun SortFacts TextFacts EditFacts NodeFacts LeafFacts
  IdxFacts SpecResult ModelJsResult ResultProps SpecJs ModelEnd SpecEnd EndFacts MadeFacts EndProps EndMap SpecEdited EditedFacts EditedBuild EditedEnd
  TreeText SpecSplit SplitFacts SplitTree SplitEnd SpecStages StageFacts StageList.

Lemma ok_fracs es : Forall edit_ok es -> Forall fracs es.
Proof. intro H. eapply Forall_impl; [|exact H]. unfold edit_ok, fracs. tauto. Qed.
Lemma text_fits es s R : front_to_back R -> Forall (range_of s) R -> Forall (fun r => Forall (apart r) es) R -> Forall (fits es s) R.
Proof.
  intros [_ W] HR HA. rewrite Forall_forall in *. intros r I. split; [now apply W|]. split; [now apply (HR r)|now apply HA].
Qed.
Lemma later_text es s r : glater (fun t => t) es s r = later_edit es s r.
Proof. unfold glater, later_edit. now rewrite gedited_text. Qed.
Theorem stage_text t s h R h1 h2 : t_source t = Some s -> Forall call_ok h -> Forall call_ok h1 -> Forall call_ok h2 ->
  Forall edit_ok (edits_of h1) -> Forall edit_ok (edits_of h2) -> Forall forward (edits_of h) ->
  front_to_back R -> Forall (range_of s) R -> Forall (fun r => Forall (apart r) (edits_of h)) R ->
  edits_of h1 = edits_of h ++ R -> edits_of h2 = map (later_edit (edits_of h) s) R ->
  t_source (TReplace (TReplace t (run h)) (run h2)) = t_source (TReplace t (run h1)).
Proof.
  intros E Hh Hh1 Hh2 O1 O2 Fw HR Hi Ha E1 E2. assert (O : Forall edit_ok (edits_of h)) by (rewrite E1 in O1; now apply Forall_app in O1).
  rewrite (replace_source_text t s h1 E Hh1 O1), (replace_source_text (TReplace t (run h)) (edited_any (edits_of h) s) h2) by (auto; now apply replace_source_text).
  f_equal. rewrite E1, E2, <- !gedited_text, <- (stages (fun t => t)); [|now apply ok_fracs|exact Fw|now apply text_fits|exact HR].
  f_equal. apply map_ext. intro r. symmetry. apply later_text.
Qed.
Theorem stage_one_more t s h r h1 h2 : t_source t = Some s -> Forall call_ok h -> Forall call_ok h1 -> Forall call_ok h2 ->
  Forall edit_ok (edits_of h1) -> Forall edit_ok (edits_of h2) -> Forall forward (edits_of h) ->
  range_of s r -> Forall (apart r) (edits_of h) ->
  edits_of h1 = edits_of h ++ [r] -> edits_of h2 = [later_edit (edits_of h) s r] ->
  t_source (TReplace (TReplace t (run h)) (run h2)) = t_source (TReplace t (run h1)).
Proof.
  intros E Hh Hh1 Hh2 O1 O2 Fw Hi Ha E1 E2. assert (O : Forall fracs (edits_of h ++ [r])) by (rewrite <- E1; now apply ok_fracs). apply Forall_app in O. destruct O as [O Or].
  assert (O0 : Forall edit_ok (edits_of h)) by (rewrite E1 in O1; now apply Forall_app in O1).
  rewrite (replace_source_text t s h1 E Hh1 O1), (replace_source_text (TReplace t (run h)) (edited_any (edits_of h) s) h2) by (auto; now apply replace_source_text).
  f_equal. rewrite E1, E2, <- !gedited_text, <- (stage_two (fun t => t) (edits_of h) r s O (Forall_inv Or) Ha Fw Hi). do 2 f_equal. symmetry. apply later_text.
Qed.

(** ** Attributions *)
Lemma kept_text_of es M : text_of (gedited (mark None) es M) = edited_any es (text_of M).
Proof.
  rewrite <- gedited_text. unfold text_of, gedited. rewrite woven_map, gplaces_map, map_map, map_length. f_equal. f_equal. apply map_ext. intro e. cbn [fst snd]. f_equal. apply NodeFacts.text_mark.
Qed.
Lemma later_marked es M r : glater (mark None) es M r = later_edit es (text_of M) r.
Proof.
  unfold glater, later_edit. f_equal. rewrite <- (map_length fst). fold (text_of (gedited (mark None) (earlier_of es r) (firstn (Z.to_nat (e_from r)) M))).
  rewrite kept_text_of. unfold text_of. now rewrite firstn_map.
Qed.
Lemma blanked_refl x : blanked x x.
Proof. split; [reflexivity|now right]. Qed.
Lemma blanked_same X : Forall2 blanked X X.
Proof. induction X as [|x X IH]; constructor; [apply blanked_refl|exact IH]. Qed.
Lemma blanked_trans X Y Z : Forall2 blanked X Y -> Forall2 blanked Y Z -> Forall2 blanked X Z.
Proof.
  intro H. revert Z. induction H as [|x y X Y [H1 H2] _ IH]; intros Z HZ; inversion HZ as [|? z ? Z' [G1 G2] G3]; subst; constructor; [|now apply IH].
  split; [congruence|]. destruct G2 as [G2|G2]; [now left|]. destruct H2 as [H2|H2]; [left; congruence|right; congruence].
Qed.
Lemma kept_blanked es N K : Forall2 blanked N K -> Forall2 blanked (kept_marked es N) (kept_marked es K).
Proof.
  intro H. unfold kept_marked, edited_marked, woven. assert (L : length N = length K) by (clear - H; induction H; cbn [length]; congruence). rewrite L. clear L. apply Forall2_app; [|apply blanked_same].
  match goal with |- Forall2 _ (weave ?p ?k _ _) _ => generalize p; generalize k end. intros keep ps. generalize 0 as pos. induction H as [|x y N K Hxy _ IH]; intro pos; [constructor|]. cbn [weave].
  apply Forall2_app; [apply blanked_same|].
  apply Forall2_app; [|apply IH]. destruct (keep pos); [constructor; [exact Hxy|constructor]|constructor].
Qed.
Lemma kept_twice es R M : Forall fracs es -> Forall forward es -> front_to_back R -> Forall (range_of (text_of M)) R -> Forall (fun r => Forall (apart r) es) R ->
  kept_marked (map (later_edit es (text_of M)) R) (kept_marked es M) = kept_marked (es ++ R) M.
Proof.
  intros O Fw HR Hi Ha. rewrite <- !gedited_kept, <- (stages (mark None)); [|exact O|exact Fw| |exact HR].
  - f_equal. apply map_ext. intro r. symmetry. apply later_marked.
  - destruct HR as [_ W]. rewrite Forall_forall in *. intros r I. split; [now apply W|]. split; [|now apply Ha]. specialize (Hi r I). unfold range_of, text_of in Hi. now rewrite map_length in Hi.
Qed.
Lemma jedits_fracs h : Forall fracs (jedits h).
Proof.
  unfold jedits. apply Forall_forall. intros x I. apply in_flat_map in I. destruct I as (c & _ & I).
  assert (G : forall a b t, fracs (jedit a b t)) by (intros a b t; unfold fracs, jedit; cbn [e_subt e_subf]; split; apply Z.mod_pos_bound; lia).
  destruct c; cbn [jedit_of] in I; [destruct I as [<-|[]]|destruct I as [<-|[]]|destruct I]; apply G.
Qed.
Theorem stage_map nu c0 c0' e M R h h1 h2 md md' c1 c1' t t' : numbering nu -> reached_cache c0 -> reached_cache c0' ->
  marks nu e = Some M -> edit_expr (XEdit e h1) -> edit_expr (XEdit (XEdit e h) h2) ->
  front_to_back R -> Forall (range_of (text_of M)) R -> Forall (fun r => Forall (apart r) (jedits h)) R ->
  jedits h1 = jedits h ++ R -> jedits h2 = map (later_edit (jedits h) (text_of M)) R ->
  build c0 (XEdit e h1) = (c1, t) -> build c0' (XEdit (XEdit e h) h2) = (c1', t') ->
  in_order c1 (XEdit e h1) -> in_order c1' (XEdit (XEdit e h) h2) ->
  exists o o' Ls Ln Ls' Ln' ms ms' es es', js_source_and_map true md t = Some (ResMap o) /\ js_source_and_map true md' t' = Some (ResMap o') /\
    let K := kept_marked (jedits h1) M in
    reads_as nu Ls Ln ms = Some es /\ reads_as nu Ls' Ln' ms' = Some es' /\
    Forall2 agrees K (annotate es (text_of K)) /\ Forall2 agrees K (annotate es' (text_of K)) /\
    forall l l', Forall quiet l -> Forall quiet l' ->
      let a q := snd (rstep (fst (rrun (c1, o) l)) q) in
      let a' q := snd (rstep (fst (rrun (c1', o') l')) q) in
      (~ starts_with BOM (text_of K) -> a RSource = AText (text_of K) /\ a' RSource = AText (text_of K)) /\
      a (RGet FSources) = AVal (VArr (map Some Ls)) /\ a' (RGet FSources) = AVal (VArr (map Some Ls')) /\
      a (RGet FNames) = AVal (VArr (map Some Ln)) /\ a' (RGet FNames) = AVal (VArr (map Some Ln')) /\
      a (RGet FMappings) = AVal (VStr ms) /\ a' (RGet FMappings) = AVal (VStr ms').
Proof.
  intros Hnu H0 H0' HM X X' HR Hi Ha E1 E2 B B' I I'.
  destruct (edited_end nu c0 _ md c1 t Hnu H0 X ltac:(discriminate) B) as (o & N & E & Ls & Ln & Ks & ms & es & J & Rd & _ & _ & _ & _ & _ & RE & _ & A & _ & _ & Q).
  destruct (edited_end nu c0' _ md' c1' t' Hnu H0' X' ltac:(discriminate) B') as (o' & N' & E' & Ls' & Ln' & Ks' & ms' & es' & J' & Rd' & _ & _ & _ & _ & _ & RE' & _ & A' & _ & _ & Q').
  pose proof (marks_editless nu e M HM) as Xe.
  assert (Bl : Forall2 blanked N (kept_marked (jedits h1) M)) by (eapply reading_part; [apply expr_replaced|exact Xe|exact HM|exact Rd]).
  assert (Bl' : Forall2 blanked N' (kept_marked (jedits h1) M)).
  { inversion Rd' as [? ? Z|? ? M0 ts R0 L N0| | |]; subst; [discriminate|]. eapply blanked_trans; [now apply edited_blanked|].
    rewrite E1, <- (kept_twice (jedits h) R M (jedits_fracs h) (proj2 (proj2 (proj2 (proj1 X')))) HR Hi Ha), <- E2. apply kept_blanked.
    eapply reading_part; [apply expr_replaced|exact Xe|exact HM|exact R0]. }
  exists o, o', Ls, Ln, Ls', Ln', ms, ms', es, es'. split; [exact J|]. split; [exact J'|]. intro K. split; [exact RE|]. split; [exact RE'|].
  assert (T : text_of N = text_of K) by now apply blanked_text. assert (T' : text_of N' = text_of K) by now apply blanked_text.
  specialize (A I). specialize (A' I'). rewrite T in A. rewrite T' in A'.
  split; [now apply (blanked_agrees N)|]. split; [now apply (blanked_agrees N')|].
  intros l l' Hl Hl' a a'. destruct (Q l Hl) as (Q1 & Q2 & Q3 & Q4 & _). destruct (Q' l' Hl') as (Q1' & Q2' & Q3' & Q4' & _).
  rewrite T in Q1. rewrite T' in Q1'. split; [auto|]. split; [exact Q2|]. split; [exact Q2'|]. split; [exact Q3|]. split; [exact Q3'|]. split; [exact Q4|exact Q4'].
Qed.

(** ** Taking an edit back, and one edit at a time *)
Theorem stage_undone t s h r h1 hu : t_source t = Some s -> Forall call_ok h -> Forall call_ok h1 -> Forall call_ok hu ->
  Forall edit_ok (edits_of h1) -> Forall edit_ok (edits_of hu) -> Forall forward (edits_of h) ->
  range_of s r -> Forall (apart r) (edits_of h) ->
  edits_of h1 = edits_of h ++ [r] -> edits_of hu = [undoing (edits_of h) s r] ->
  t_source (TReplace (TReplace t (run h1)) (run hu)) = t_source (TReplace t (run h)).
Proof.
  intros E Hh Hh1 Hu O1 Ou Fw Hi Ha E1 Eu. assert (O : Forall fracs (edits_of h ++ [r])) by (rewrite <- E1; now apply ok_fracs). apply Forall_app in O. destruct O as [O Or].
  assert (O0 : Forall edit_ok (edits_of h)) by (rewrite E1 in O1; now apply Forall_app in O1).
  rewrite (replace_source_text t s h E Hh O0), (replace_source_text (TReplace t (run h1)) (edited_any (edits_of h1) s) hu) by (auto; now apply replace_source_text).
  f_equal. rewrite E1, Eu, <- !gedited_text. apply (stage_back (fun t => t) (edits_of h) r s O (Forall_inv Or) Ha Fw Hi).
  - unfold undoing, later_edit, at_pos. cbn [e_from]. now rewrite gedited_text.
  - unfold undoing, later_edit, at_pos. cbn [e_from e_to]. now rewrite gedited_text.
  - unfold undoing, piece_of. cbn [e_text]. f_equal. destruct Hi. lia.
Qed.
Theorem one_by_one_text t s es u : t_source t = Some s -> one_by_one s t es u -> Forall edit_ok es -> ForallOrdPairs apart es -> Forall (range_of s) es ->
  t_source u = Some (edited_any es s).
Proof.
  intros E H. induction H as [|es r u h H IH Hc Eh Oh]; intros O P Rg; [now rewrite edited_any_nil|].
  apply Forall_app in O. destruct O as [O Or]. apply Forall_app in Rg. destruct Rg as [Rg Rr]. apply Forall_inv in Or, Rr. apply pairs_snoc in P. destruct P as [P Pr].
  rewrite (replace_source_text u (edited_any es s) h (IH O P Rg) Hc Oh), Eh. f_equal. rewrite <- !gedited_text, <- (stage_two (fun t => t) es r s).
  - do 2 f_equal. symmetry. apply later_text.
  - now apply ok_fracs.
  - unfold edit_ok in Or. unfold fracs. tauto.
  - eapply Forall_impl; [|exact Pr]. intros x [X|X]; [now right|now left].
  - eapply Forall_impl; [|exact Rg]. intros x X. unfold range_of, forward in *. lia.
  - exact Rr.
Qed.
Theorem one_by_one_same t s h u : t_source t = Some s -> Forall call_ok h -> one_by_one s t (edits_of h) u -> Forall edit_ok (edits_of h) -> ForallOrdPairs apart (edits_of h) -> Forall (range_of s) (edits_of h) ->
  t_source u = t_source (TReplace t (run h)).
Proof. intros E Hc H O P R. rewrite (replace_source_text t s h E Hc O). now apply (one_by_one_text t). Qed.
