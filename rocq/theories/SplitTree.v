(** Edits done in the parts: texts. *)
From Coq Require Import Permutation.
From Verif Require Import Base Tactics ModelString StringFacts ModelSources ModelTree SpecText SpecMap SpecAttr SpecEdit SpecRun EditFacts TextFacts TreeText SpecSplit SplitFacts.

Lemma edit_ok_sub x : edit_ok x -> whole_sub x.
Proof. unfold edit_ok, whole_sub. tauto. Qed.
Lemma firsts_ok k es : Forall edit_ok es -> Forall edit_ok (firsts_of k es).
Proof. intro H. apply Forall_forall. intros x I. apply filter_In in I. exact (proj1 (Forall_forall _ _) H x (proj1 I)). Qed.
Lemma seconds_ok k es : Forall edit_ok es -> Forall (crosses_not (Z.of_nat k)) es -> Forall edit_ok (seconds_of (Z.of_nat k) es).
Proof.
  intros H Hc. apply Forall_forall. intros x I. apply in_map_iff in I. destruct I as (y & <- & I). apply filter_In in I. destruct I as [I E].
  pose proof (proj1 (Forall_forall _ _) H y I) as O. pose proof (proj1 (Forall_forall _ _) Hc y I) as C.
  apply negb_true_iff, Z.ltb_ge in E. unfold edit_ok, crosses_not, moved_back in *. cbn [e_from e_to e_subf e_subt]. lia.
Qed.
Lemma edited_any_nil s : edited_any [] s = s.
Proof. unfold edited_any, woven. cbn [arrange fold_left places texts_at flat_map]. rewrite app_nil_r. apply weave_all. intros j _. split; reflexivity. Qed.
Lemma tree_edited_text es t t' s : tree_edited es t t' -> t_source t = Some s -> Forall edit_ok es -> t_source t' = Some (edited_any es s).
Proof. intros [h u H|u] E O; [now apply replace_source_text|]. now rewrite edited_any_nil. Qed.

Theorem parts_text ks es ts us : parts_edited tree_edited ks es ts us -> forall ss, ks = map (@length char) ss -> map t_source ts = map Some ss -> Forall edit_ok es ->
  exists vs, map t_source us = map Some vs /\ concat vs = edited_any es (concat ss).
Proof.
  induction 1 as [k es x y Hx|k ks es x xs y ys Hc Hx _ IH]; intros ss Ek Es O.
  - destruct ss as [|s [|s' ss]]; try discriminate. injection Es as Es. exists [edited_any es s]. cbn [map concat]. rewrite !app_nil_r.
    now rewrite (tree_edited_text es x y s Hx Es O).
  - destruct ss as [|s ss]; [discriminate|]. injection Ek as -> Ek. injection Es as Es Er.
    destruct (IH ss Ek Er (seconds_ok _ _ O Hc)) as (vs & V1 & V2).
    exists (edited_any (firsts_of (Z.of_nat (length s)) es) s :: vs). cbn [map concat]. rewrite V1, V2, (tree_edited_text _ x y s Hx Es (firsts_ok _ _ O)). split; [reflexivity|].
    symmetry. apply edited_any_split; auto. eapply Forall_impl; [|exact O]. apply edit_ok_sub.
Qed.
Theorem bundle_text ts us ss h : map t_source ts = map Some ss -> Forall call_ok h -> Forall edit_ok (edits_of h) ->
  parts_edited tree_edited (map (@length char) ss) (edits_of h) ts us ->
  t_source (TReplace (TConcat ts) (run h)) = t_source (TConcat us).
Proof.
  intros E Hh O P. destruct (parts_text _ _ _ _ P ss eq_refl E O) as (vs & V1 & V2).
  rewrite (replace_source_text (TConcat ts) (concat ss) h) by (auto; now apply concat_source). symmetry. rewrite <- V2. now apply concat_source.
Qed.
