(** Building expressions with edits: the chunks of the node. *)
From Verif Require Import Base Tactics ModelString StringFacts ModelVlq ModelSm ModelSlm ModelSources ModelTree ModelWasm
  ModelJs ModelJsApi ModelJsResult SpecText SpecMap SpecAttr SpecEdit SpecEffect SortFacts TextFacts EditFacts NodeFacts LeafFacts ParseFacts MapFacts GenFacts SmsProps ReplaceNode NodeTree
  IdxFacts EffectFacts EffectOrder JsFacts Utf16Facts JsTextProps SpecResult ResultFacts ResultProps SpecJs ModelEnd SpecEnd EndFacts MadeFacts EndProps ContentFacts EndMap SpecEdited EditedFacts.

(** ** Expressions *)
Definition edit_child (e : jexpr) : Prop := match e with XStr s => s <> [] /\ plain s | _ => edit_expr e end.
Lemma edit_concat l : edit_expr (XConcat l) <-> Forall edit_child l.
Proof.
  induction l as [|x r IH]; cbn [edit_expr] in *; [split; constructor|]. rewrite IH. split; [intros [H1 H2]; auto|]. intro H. now inversion H.
Qed.
Lemma exact_edit e : exact_child e -> edit_child e.
Proof.
  induction e as [s|v|v n|v n o|p e IH|e h IH|l IH|v n m o i] using jexpr_ind'; intro X; try exact X.
  - destruct X as [X1 X2]. split; [exact X1|]. assert (Y : exact_child e) by (destruct e; auto; destruct X2). apply IH in Y. destruct e; auto; destruct X2.
  - destruct X.
  - apply edit_concat. apply exact_concat in X. rewrite Forall_forall in *. auto.
Qed.
Lemma unedited_exact e : exact_child e -> unedited e = e.
Proof.
  induction e as [s|v|v n|v n o|p e IH|e h IH|l IH|v n m o i] using jexpr_ind'; intro X; try reflexivity.
  - cbn [unedited]. rewrite IH; [reflexivity|]. destruct X as [_ X]. destruct e; auto. destruct X.
  - destruct X.
  - apply exact_concat in X. cbn [unedited]. f_equal. induction IH as [|x l Hx _ IHl]; [reflexivity|]. inversion X as [|? ? X1 X2]; subst. cbn [map]. now rewrite Hx, IHl.
Qed.
Lemma marks_exact nu e : edit_child e -> marks nu e <> None -> exact_child e.
Proof.
  induction e as [s|v|v n|v n o|p e IH|e h IH|l IH|v n m o i] using jexpr_ind'; intros X H; try exact X.
  - destruct X as [X1 X2]. split; [exact X1|]. assert (Y : edit_child e) by (destruct e; auto; destruct X2). cbn [marks] in H.
    destruct (marks nu e) as [M|]; [|now elim H]. specialize (IH Y ltac:(discriminate)). destruct e; auto; destruct X2.
  - now elim H.
  - apply exact_concat. apply edit_concat in X. induction IH as [|x l Hx _ IHl]; [constructor|]. inversion X as [|? ? X1 X2]; subst. cbn [marks] in H.
    destruct (marks nu x) as [M|] eqn:E; [|now elim H]. constructor; [now apply Hx|]. apply IHl; [exact X2|]. intro E2. cbn [marks] in E2. rewrite E2 in H. now elim H.
Qed.
Lemma plain_edits h : Forall plain_call h -> map (set_text from_js) (jedits h) = jedits h /\ Forall (fun e => plain (e_text e)) (jedits h).
Proof.
  unfold jedits. induction 1 as [|c h Hc _ [IH1 IH2]]; [split; [reflexivity|constructor]|]. cbn [flat_map]. rewrite map_app, IH1.
  split; [|apply Forall_app; split; [|exact IH2]]; destruct c; cbn [jedit_of map]; try (constructor; [exact Hc|constructor]); try constructor;
    unfold set_text, jedit; cbn; now rewrite plain_in by exact Hc.
Qed.
Lemma within_app_l A B a : within A a -> within (A ++ B) a.
Proof. intros [->|(x & H & E)]; [now left|right]. exists x. split; [apply in_or_app; now left|exact E]. Qed.
Lemma within_app_r A B a : within B a -> within (A ++ B) a.
Proof. intros [->|(x & H & E)]; [now left|right]. exists x. split; [apply in_or_app; now right|exact E]. Qed.
Lemma within_drop E a : within E (drop_name a) <-> within E a.
Proof.
  unfold within. rewrite drop_twice. split; intros [H|H]; auto; left; [|now subst]. destruct a as [[[s p] n]|]; [discriminate|reflexivity].
Qed.
Lemma below_drop a b a' b' : drop_name a = drop_name a' -> drop_name b = drop_name b' -> below a b -> below a' b'.
Proof.
  unfold below. intros E1 E2 H N. rewrite <- E1, <- E2. apply H. intros ->. apply N. destruct b' as [[[s p] n]|]; [discriminate|reflexivity].
Qed.
Lemma below_within A B a b : Forall (fun x => Forall (fun y => below (snd x) (snd y)) B) A -> within A a -> within B b -> below a b.
Proof.
  intros H [->|(x & Hx & Ex)] Hb; [intros _; reflexivity|]. destruct Hb as [->|(y & Hy & Ey)]; [intro N; now elim N|].
  eapply below_drop; [exact Ex|exact Ey|]. rewrite Forall_forall in H. specialize (H x Hx). rewrite Forall_forall in H. now apply H.
Qed.
Lemma rising_app A B : rising (A ++ B) <-> rising A /\ rising B /\ Forall (fun x => Forall (fun y => below (snd x) (snd y)) B) A.
Proof. apply FOP_app. Qed.

Lemma exact_marks nu e : numbering nu -> exact_child e -> marks nu e <> None.
Proof.
  intros Hnu X. assert (H0 : cache_ok cache_empty) by (intros s i H; discriminate). destruct (build cache_empty e) as [c' t] eqn:E.
  destruct (build_made e cache_empty c' t H0 E) as (H1 & _ & Hm).
  destruct (made_good nu Hnu c' H1 true _ _ _ e X (incl_refl _) (incl_refl _) (incl_refl _) t Hm) as (M & EM & _). rewrite EM. discriminate.
Qed.

Section Edited.
  Variables (c1 : cache) (Hc1 : cache_ok c1) (md : bool).
  Variables (S N : list jstr) (G : list (jstr * jstr)).

  Lemma exact_all e : exact_child e -> incl (sources_in e) S -> incl (names_in e) N -> incl (contents_given e) G ->
    forall t, made c1 e t -> exists M0, dense_child (import t) /\ tree_idx (PS c1 S) (PN c1 N) (RG c1 G) (import t) /\
      child_attr true md (import t) M0 /\ plain (text_of M0) /\
      forall nu, numbering nu -> marks nu e = Some (retarget (rename (rho nu c1)) M0).
  Proof.
    intros X IS IN IG t Hm. destruct numbers as (nu0 & Hnu0).
    destruct (made_good nu0 Hnu0 c1 Hc1 md S N G e X IS IN IG t Hm) as (M & EM & D & T & M0 & A0 & E0). exists M0. split; [exact D|]. split; [exact T|]. split; [exact A0|].
    split; [pose proof (marks_plain nu0 e X M EM) as Pl; now rewrite E0, text_retarget in Pl|].
    intros nu Hnu. destruct (made_good nu Hnu c1 Hc1 md S N G e X IS IN IG t Hm) as (M' & EM' & _ & _ & M0' & A0' & E0'). rewrite EM', E0'. f_equal. f_equal.
    clear - A0 A0'. unfold child_attr in *. destruct (import t); try (apply attributed_flat in A0 as (n1 & X1 & <-), A0' as (n2 & X2 & <-); congruence). congruence.
  Qed.

  Definition edited_good (e : jexpr) (t : tree) (L : list leaf) (E0 : marked) : Prop :=
    usable_child t /\ tree_idx (PS c1 S) (PN c1 N) (RG c1 G) t /\ has_leaves true md t L /\ plain (text_of (flat_leaves L)) /\
    Forall (source_in (PS c1 S)) E0 /\ Forall (fun x => within E0 (leaf_attr x)) L /\ (rising E0 -> asc L) /\
    forall nu, numbering nu -> reading nu e (retarget (rename (rho nu c1)) (flat_leaves L)) /\
      marks nu (unedited e) = Some (retarget (rename (rho nu c1)) E0).

  Lemma leaves_within l : Forall nonempty l -> Forall (fun x => within (flat_leaves l) (leaf_attr x)) l.
  Proof.
    induction 1 as [|x l Hx _ IH]; constructor.
    - right. destruct x as [[[[|c s] src] pos] name]; [now elim Hx|]. eexists. split; [left; reflexivity|reflexivity].
    - eapply Forall_impl; [|exact IH]. intros y Hy. now apply within_app_r.
  Qed.
  Lemma exact_good e t M0 : (match t with TStr _ => False | _ => True end) -> exact_child e -> dense_child t -> tree_idx (PS c1 S) (PN c1 N) (RG c1 G) t ->
    child_attr true md t M0 -> plain (text_of M0) -> (forall nu, numbering nu -> marks nu e = Some (retarget (rename (rho nu c1)) M0)) ->
    exists L, edited_good e t L M0.
  Proof.
    intros NS X D0 T A0 Pl H. assert (D : dense t) by (destruct t; auto; destruct NS). assert (A : attributed true md t M0) by (destruct t; auto; destruct NS).
    destruct (dense_node true md t D) as (n & En & In & Sol). apply attributed_flat in A as (n' & En' & F). rewrite En in En'. injection En' as <-. subst M0.
    exists (leaves n). split; [pose proof (dense_usable t D); destruct t; auto; destruct NS|]. split; [exact T|]. split; [now apply node_has|]. split; [exact Pl|].
    assert (Ne : Forall nonempty (leaves n)) by (eapply Forall_impl; [apply solid_nonempty|exact Sol]).
    split; [eapply flat_sources; eapply t_node_idx; [exact T|exact En]|]. split; [now apply leaves_within|]. split; [intro R; now apply rising_asc|].
    intros nu Hnu. rewrite (unedited_exact e X). split; [constructor; now apply H|now apply H].
  Qed.
  Lemma replaced_node h n n' : Forall call_ok h -> Forall edit_ok (edits_of h) -> Forall forward (edits_of h) -> is_node n ->
    replace_node (rs_repls (sort_replacements (run h))) n = Some n' -> asc (leaves n) -> asc (leaves n').
  Proof.
    intros Hh He Hf In E' H. rewrite run_sorted in E' by auto. eapply replace_node_asc; [|exact In|exact H|exact E']. rewrite Forall_map.
    assert (Y : Forall (fun e => edit_ok e /\ forward e) (map fst (rev (arranged (edits_of h))))).
    { rewrite map_rev, arranged_fst, <- Permutation_rev, <- arrange_perm. rewrite Forall_forall in *. auto. }
    rewrite Forall_map in Y. eapply Forall_impl; [|exact Y]. intros x [O F]. destruct (rep_ok_to_repl x O) as (Es & Ee & _). rewrite Es, Ee. unfold forward in F. lia.
  Qed.

  Theorem made_edited e : edit_child e -> incl (sources_in e) S -> incl (names_in e) N -> incl (contents_given e) G ->
    forall t, made c1 e t -> exists L E0, edited_good e (import t) L E0.
  Proof.
    assert (EX : forall e, match e with XStr _ => False | _ => True end -> exact_child e -> incl (sources_in e) S -> incl (names_in e) N -> incl (contents_given e) G ->
      forall t, made c1 e t -> exists L E0, edited_good e (import t) L E0).
    { intros e0 K Xc IS IN IG t Hm.
      destruct (exact_all e0 Xc IS IN IG t Hm) as (M0 & D & T & A & Pl & H). destruct (exact_good e0 (import t) M0) as (L & HL); auto; [|eauto].
      apply (made_tree c1 e0 t Hm). intros s ->. destruct K. }
    induction e as [s|v|v n|v n o|p e IH|e h IH|l IH|v n m o i] using jexpr_ind'; intros X IS IN IG t Hm;
      try (match type of X with edit_child ?x => exact (EX x I X IS IN IG t Hm) end).
    - rewrite Hm. cbn [import]. destruct X as [X1 X2]. rewrite plain_in by exact X2.
      exists [(s, None, None, None)], (mark None s). split; [exact I|]. split; [exact I|]. split; [reflexivity|].
      assert (F : flat_leaves [(s, None, None, None)] = mark None s) by (cbn; apply app_nil_r). rewrite F.
      split; [now rewrite text_mark|]. split; [unfold mark; apply Forall_map; apply Forall_forall; intros ch _; exact I|].
      split; [constructor; [now left|constructor]|]. split; [intros _; constructor; constructor|].
      intros nu Hnu. rewrite retarget_mark. split; [constructor; reflexivity|reflexivity].
    - destruct numbers as (nu0 & Hnu0). destruct (marks nu0 (XPrefix p e)) as [M0|] eqn:Em0; [apply (EX (XPrefix p e) I); auto; apply (marks_exact nu0); auto; now rewrite Em0|].
      assert (No : forall nu, marks nu e = None).
      { intro nu. destruct (marks nu e) as [M1|] eqn:Em1; [|reflexivity]. exfalso. assert (Xp : exact_child (XPrefix p e)) by (apply (marks_exact nu); [exact X|cbn [marks]; now rewrite Em1]).
        exact (exact_marks nu0 _ Hnu0 Xp Em0). }
      destruct Hm as (t2 & -> & Hm). destruct X as (X1 & X2).
      assert (Xc : edit_child e) by (destruct e; auto; destruct X2).
      destruct (IH Xc IS IN IG t2 Hm) as (L & E0 & U0 & T & HL & Pl & HS & HW & HA & HR).
      assert (NS : match import t2 with TStr _ => False | _ => True end) by (apply (made_tree c1 e t2 Hm); intros s ->; destruct X2).
      assert (U : usable (import t2)) by (destruct (import t2); auto; destruct NS).
      destruct (has_node true md _ _ NS HL) as (n & En & EL). destruct (node_total true md (import t2) U) as (n0 & En0 & In & _). rewrite En in En0. injection En0 as <-. subst L.
      destruct n as [s|po sr nm ch ct]; [destruct In|]. destruct (prefix_node_leaves p po sr nm ch ct) as (n' & En' & Ln'). set (n := SmNode po sr nm ch ct) in *.
      cbn [import]. rewrite plain_in by exact X1.
      exists (leaves n'), (mprefixed p E0). rewrite Ln'. split; [exact U|]. split; [exact T|].
      split; [rewrite <- Ln'; apply node_has; unfold t_node in *; cbn [fold_tree]; rewrite En; exact En'|].
      pose proof (prefixed_leaves p (leaves n) true) as Pr.
      assert (HW' : Forall (fun x => within (mprefixed p E0) (leaf_attr x)) (fst (pre_leaves p true (leaves n)))).
      { apply (Forall_map leaf_attr (fun a => within (mprefixed p E0) a)). rewrite pre_attrs. apply Forall_map. eapply Forall_impl; [|exact HW]. intros x [Hx|(y & Hy & Ey)]; [now left|right].
        exists y. split; [now apply in_mprefix|exact Ey]. }
      split; [eapply prefixed_text; [exact Pr|exact X1|exact Pl]|].
      split; [apply Forall_forall; intros x Hx; destruct (mprefix_targets _ _ _ _ Hx) as (y & Hy & Ey); rewrite Forall_forall in HS; specialize (HS y Hy); unfold source_in in *; now rewrite <- Ey|].
      split; [exact HW'|]. split.
      + intro R. apply mprefix_rising in R. apply HA in R. unfold asc in *. apply (FOP_map leaf_attr below). rewrite pre_attrs. now apply (FOP_map leaf_attr below).
      + intros nu Hnu. destruct (HR nu Hnu) as [R1 R2]. split.
        * apply (reading_prefix nu p e (retarget (rename (rho nu c1)) (flat_leaves (leaves n)))); [apply No|exact R1|now apply prefixed_retarget].
        * cbn [unedited marks]. rewrite R2. cbn [bind]. unfold mprefixed. now rewrite mprefix_retarget.
    - destruct Hm as (t2 & -> & Hm). destruct X as (X1 & X2 & X3 & X4).
      assert (Xc : edit_child e) by (destruct e; auto; destruct X1).
      destruct (IH Xc IS IN IG t2 Hm) as (L & E0 & U0 & T & HL & Pl & HS & HW & HA & HR).
      assert (NS : match import t2 with TStr _ => False | _ => True end) by (apply (made_tree c1 e t2 Hm); intros s ->; destruct X1).
      assert (U : usable (import t2)) by (destruct (import t2); auto; destruct NS).
      destruct (has_node true md _ _ NS HL) as (n & En & EL). destruct (node_total true md (import t2) U) as (n0 & En0 & In & _). rewrite En in En0. injection En0 as <-. subst L.
      destruct (import_edits h X2) as (Y1 & Y2 & Y3). destruct (plain_edits h X3) as [Z1 Z2]. rewrite Z1 in Y1.
      assert (A0 : attributed true md (import t2) (flat n)) by (apply attributed_flat; eauto).
      destruct (replace_attributed true md (map import_call h) (import t2) _ Y2 Y3 U A0) as (ts & Hl & A1 & HT).
      apply attributed_flat in A1 as (n' & En' & Fn'). cbn [import]. rewrite js_run_run.
      exists (leaves n'), E0. split; [exact U|]. split; [exact T|]. split; [now apply node_has|].
      assert (Er : replace_node (rs_repls (sort_replacements (run (map import_call h)))) n = Some n').
      { unfold t_node in *. cbn [fold_tree] in En'. rewrite En in En'. cbn [bind node_alg a_replace] in En'. exact En'. }
      change (flat_leaves (leaves n')) with (flat n'). rewrite Fn'. rewrite Y1 in *. change (flat_leaves (leaves n)) with (flat n) in *.
      split; [apply edited_text; [exact Z2|exact Pl]|]. split; [exact HS|]. split; [|split].
      + assert (Tn : toned (within E0) (leaves n')).
        { eapply replace_toned; [now left|exact In| |exact Er]. eapply Forall_impl; [|exact HW]. intros x Hx. now apply within_drop. }
        eapply Forall_impl; [|exact Tn]. intros x Hx. exact (proj1 (within_drop _ _) Hx).
      + intro R. eapply replaced_node; [exact Y2|rewrite Y1; exact Y3|rewrite Y1; exact X4|exact In|exact Er|now apply HA].
      + intros nu Hnu. destruct (HR nu Hnu) as [R1 R2]. split; [|exact R2]. rewrite edited_retarget. constructor; [exact R1|now rewrite map_length|].
        intros Hk Ap. assert (Xe : exact_child e) by (eapply marks_exact; eauto).
        destruct (exact_all e Xe IS IN IG t2 Hm) as (M0 & D & _).
        assert (D' : dense (import t2)) by (destruct (import t2); auto; destruct NS).
        assert (H := HT (chunks_impl _ _ _ _ _ solid_nonempty (dense_chunks true md _ D')) Ap X4).
        clear - H. induction H as [|x y l l' H1 _ IH]; constructor; [now apply new_target_rename|exact IH].
    - apply edit_concat in X. apply made_concat in Hm as (ts & -> & Hm).
      assert (Y : exists Ls E0, Forall usable_child (map import ts) /\ Forall (tree_idx (PS c1 S) (PN c1 N) (RG c1 G)) (map import ts) /\
        Forall2 (has_leaves true md) (map import ts) Ls /\ plain (text_of (flat_leaves (concat Ls))) /\
        Forall (source_in (PS c1 S)) E0 /\ Forall (fun x => within E0 (leaf_attr x)) (concat Ls) /\ (rising E0 -> asc (concat Ls)) /\
        forall nu, numbering nu -> reading nu (XConcat l) (retarget (rename (rho nu c1)) (flat_leaves (concat Ls))) /\
          marks nu (XConcat (map unedited l)) = Some (retarget (rename (rho nu c1)) E0)).
      { cbn [sources_in names_in contents_given] in IS, IN, IG. revert ts Hm.
        induction IH as [|x l Hx _ IHl]; intros ts Hm; inversion Hm as [|? t3 ? ts3 M1 M2]; subst.
        - exists [], [].
          do 6 (split; [constructor|]). split; [intros _; constructor|]. intros nu Hnu. split; [apply reading_nil|reflexivity].
        - inversion X as [|? ? X1 X2]; subst.
          cbn [flat_map] in IS, IN, IG. apply incl_app_inv in IS as [IS1 IS2], IN as [IN1 IN2], IG as [IG1 IG2].
          destruct (Hx X1 IS1 IN1 IG1 t3 M1) as (L & Ea & P1 & P2 & P3 & P4 & P5 & P6 & P7 & P8).
          destruct (IHl X2 IS2 IN2 IG2 ts3 M2) as (Ls & Eb & Q1 & Q2 & Q3 & Q4 & Q5 & Q6 & Q7 & Q8).
          assert (Fl : flat_leaves (concat (L :: Ls)) = flat_leaves L ++ flat_leaves (concat Ls)) by (cbn [concat]; unfold flat_leaves; now rewrite flat_map_app).
          exists (L :: Ls), (Ea ++ Eb). cbn [map]. split; [now constructor|]. split; [now constructor|]. split; [now constructor|].
          split; [rewrite Fl, text_app; apply Forall_app; auto|]. split; [apply Forall_app; auto|].
          split; [cbn [concat]; apply Forall_app; split; [eapply Forall_impl; [|exact P6]; intros y; apply within_app_l|eapply Forall_impl; [|exact Q6]; intros y; apply within_app_r]|].
          split.
          + intro R. apply rising_app in R as (R1 & R2 & R3). cbn [concat]. apply FOP_app. split; [now apply P7|]. split; [now apply Q7|].
            rewrite Forall_forall in P6, Q6. apply Forall_forall. intros y Hy. apply Forall_forall. intros z Hz. eapply below_within; [exact R3|now apply P6|now apply Q6].
          + intros nu Hnu. destruct (P8 nu Hnu) as [A1 A2]. destruct (Q8 nu Hnu) as [B1 B2]. rewrite Fl, !retarget_app. split; [now constructor|].
            cbn [marks] in B2 |- *. rewrite A2. cbn [bind]. rewrite B2. reflexivity. }
      destruct Y as (Ls & E0 & Q1 & Q2 & Q3 & Q4 & Q5 & Q6 & Q7 & Q8).
      exists (concat Ls), E0. cbn [import]. split; [now apply usable_add|]. split; [now apply idx_add|]. split; [now apply leaves_add|]. auto.
  Qed.
End Edited.
