(** The nodes of related trees are related. *)
From Verif Require Import Base Tactics ModelString ModelVlq ModelSm ModelSlm ModelSources ModelTree ModelWasm ParaList ParaMap.

Section Node.
  Variables (S K : Z -> Z -> Prop).
  Hypothesis HS : forall i i' j j', S i i' -> S j j' -> (i ?= j)%Z = (i' ?= j')%Z.
  Notation nrel := (nrel S K).
  Notation genrel := (genrel S K).

  Lemma tokens_rel a a' i : S a a' -> forall fuel pos line l l', Forall2 nrel l l' -> orel (Forall2 nrel) (orig_tokens fuel a i pos line l) (orig_tokens fuel a' i pos line l').
  Proof.
    intro Ha. induction fuel as [|f IH]; intros pos line l l' Hl; (destruct line as [|c line]; [now constructor|]); [constructor|]. cbn [orig_tokens].
    apply orel_eq_bind. intros [item rest] _. destruct (blank item); apply IH; apply add_chunk_rel; auto using leaf_rel.
    constructor. apply sn_new_rel; [now constructor|constructor|]. constructor. apply leaf_rel.
  Qed.
  Lemma lines_rel col a a' : S a a' -> forall lines i l l', Forall2 nrel l l' -> orel (Forall2 nrel) (orig_lines col a i lines l) (orig_lines col a' i lines l').
  Proof.
    intro Ha. induction lines as [|line lines IH]; intros i l l' Hl; cbn [orig_lines]; [now constructor|]. destruct col; cbn [negb].
    - eapply (orel_bind (Forall2 nrel)); [apply tokens_rel; [exact Ha|constructor]|]. intros ch ch' Hc. apply IH. apply add_chunk_rel; [exact Hl|]. constructor. constructor; auto; constructor.
    - apply IH. apply add_chunk_rel; [exact Hl|]. constructor. apply sn_new_rel; [now constructor|constructor|]. constructor. apply leaf_rel.
  Qed.
  Lemma pair_rel a a' b b' : S a a' -> K b b' -> tab S K [(a, b)] [(a', b')].
  Proof. intros Ha Hb. apply F2_one. now split. Qed.
  Lemma original_rel v i i' n n' col : K i i' -> S n n' -> orel nrel (original_node v i n col) (original_node v i' n' col).
  Proof.
    intros Hi Hn. unfold original_node. apply orel_eq_bind. intros lines _. eapply (orel_bind (Forall2 nrel)); [apply lines_rel; [exact Hn|constructor]|].
    intros ch ch' Hc. constructor. constructor; [constructor|constructor|exact Hc|now apply pair_rel].
  Qed.
  Lemma l2l_rel v n n' o o' : S n n' -> K o o' -> orel nrel (l2l_node v n o) (l2l_node v n' o').
  Proof.
    intros Hn Ho. unfold l2l_node. apply orel_eq_bind. intros lines _. constructor. constructor; [constructor|constructor| |now apply pair_rel].
    apply add_chunk_rel; [constructor|]. constructor. generalize 0%N. induction lines as [|line lines IH]; intro i; cbn [l2l_lines]; constructor; [|apply IH].
    apply sn_new_rel; [now constructor|constructor|]. constructor. apply leaf_rel.
  Qed.
  Lemma clone_rel p n n' : nrel n n' -> forall k, orel (prel nrel eq) (clone_and_prefix n p k) (clone_and_prefix n' p k).
  Proof.
    revert n n'. fix IH 3. intros n n' [s|q a a' m m' l l' c c' H1 H2 H3 H4] k; cbn [clone_and_prefix].
    - apply orel_eq_bind. intros [t j] _. constructor. split; [constructor|reflexivity].
    - eapply (orel_bind (prel (Forall2 nrel) eq)).
      + clear H1 H2 H4. revert k. induction H3 as [|x y l l' Hx _ IHl]; intro k; [repeat constructor|].
        eapply (orel_bind (prel nrel eq)); [now apply IH|]. intros [u j] [u' j'] [Hu E]. cbn in Hu, E. subst j'.
        eapply (orel_bind (prel (Forall2 nrel) eq)); [apply IHl|]. intros [r j2] [r' j2'] [Hr E]. cbn in Hr, E. subst j2'. constructor. split; [now constructor|reflexivity].
      + intros [ch j] [ch' j'] [Hc E]. cbn in Hc, E. subst j'. constructor. split; [now constructor|reflexivity].
  Qed.
  Lemma prefix_rel p n n' : nrel n n' -> orel nrel (prefix_node p n) (prefix_node p n').
  Proof.
    intro H. unfold prefix_node. eapply (orel_bind (prel nrel eq)); [now apply clone_rel|]. intros [u j] [u' j'] [Hu _]. constructor. apply sn_new_rel; [constructor|constructor|]. constructor. now constructor.
  Qed.

  Inductive sprel : node_split -> node_split -> Prop :=
  | sprel_ok l l' r r' : nrel l l' -> nrel r r' -> sprel (NOk l r) (NOk l' r')
  | sprel_err k n n' : nrel n n' -> sprel (NErr k n) (NErr k n').
  Lemma F2_snoc {A B} (R : A -> B -> Prop) l l' x y : Forall2 R l l' -> R x y -> Forall2 R (l ++ [x]) (l' ++ [y]).
  Proof. intros H Hx. apply Forall2_app; [exact H|now apply F2_one]. Qed.
  Lemma split_rel n n' : nrel n n' -> forall pos, orel sprel (split_sourcenode n pos) (split_sourcenode n' pos).
  Proof.
    revert n n'. fix IH 3. intros n n' [s|q a a' m m' l l' c c' H1 H2 H3 H4] pos; cbn [split_sourcenode].
    - apply orel_eq_bind. intros r _. destruct r; constructor; constructor; constructor.
    - set (R := fun p q : bool * Z * list smnode * list smnode => fst (fst (fst p)) = fst (fst (fst q)) /\ snd (fst (fst p)) = snd (fst (fst q)) /\
        Forall2 nrel (snd (fst p)) (snd (fst q)) /\ Forall2 nrel (snd p) (snd q)).
      eapply (orel_bind R).
      + clear H1 H2 H4.
        match goal with |- orel _ (?g l false pos [] []) (?h l' false pos [] []) =>
          assert (G : forall b pos lf lf' rt rt', Forall2 nrel lf lf' -> Forall2 nrel rt rt' -> orel R (g l b pos lf rt) (h l' b pos lf' rt')) end.
        { clear pos. induction H3 as [|x y l l' Hx _ IHl]; intros b pos lf lf' rt rt' L1 L2; [constructor; now repeat split|]. destruct b; cbn [negb].
          - apply IHl; [exact L1|now apply F2_snoc].
          - eapply (orel_bind sprel); [now apply IH|]. intros o o' [u u' v v' Hu Hv|k u u' Hu]; apply IHl; auto using F2_snoc. }
        apply G; constructor.
      + intros [[[b p] lf] rt] [[[b' p'] lf'] rt'] (E1 & E2 & L1 & L2). cbn in E1, E2, L1, L2. subst b' p'. cbn [app add_chunk].
        destruct b; constructor; constructor; constructor; auto; constructor.
  Qed.
  Lemma replacement_rel n n' text : nrel n n' -> orel nrel (replacement_to_sourcenode n text) (replacement_to_sourcenode n' text).
  Proof.
    intro H. pose proof H as H0. destruct H as [s|q a a' m m' l l' c c' H1 H2 H3 H4]; cbn [replacement_to_sourcenode]; [constructor|].
    eapply (orel_bind (prel eq genrel)); [now apply to_gen_rel|]. intros [s g] [s' g'] [_ Hg]. eapply (orel_bind (prel genrel (grel S))); [now apply ParaMap.original_rel|].
    intros [h x] [h' x'] [_ Hx]. cbn in Hx. constructor. rewrite (gr_orig _ _ _ Hx). apply sn_new_rel; [apply Hx|constructor|]. constructor. apply leaf_rel.
  Qed.
  Lemma replace_loop_rel repls : forall l l', Forall2 nrel l l' -> orel (Forall2 nrel) (replace_node_loop repls l) (replace_node_loop repls l').
  Proof.
    induction repls as [|r repls IH]; intros l l' Hl; cbn [replace_node_loop]; [now constructor|]. destruct Hl as [|x y l l' Hx Hl]; [constructor|].
    eapply (orel_bind sprel); [now apply split_rel|]. intros o o' [l1 l1' r1 r1' H1 H2|k u u' Hu].
    - eapply (orel_bind sprel); [now apply split_rel|]. intros o2 o2' [l2 l2' r2 r2' H3 H4|k u u' Hu].
      + eapply (orel_bind nrel); [now apply replacement_rel|]. intros z z' Hz. apply IH. auto.
      + eapply (orel_bind nrel); [now apply replacement_rel|]. intros z z' Hz. apply IH. auto.
    - eapply (orel_bind sprel); [now apply split_rel|]. intros o2 o2' [l2 l2' r2 r2' H3 H4|k' v v' Hv].
      + eapply (orel_bind nrel); [now apply replacement_rel|]. intros z z' Hz. apply IH. auto.
      + apply IH. constructor; [exact Hv|]. constructor; [constructor|exact Hl].
  Qed.
  Lemma replace_rel repls n n' : nrel n n' -> orel nrel (replace_node repls n) (replace_node repls n').
  Proof.
    intro H. unfold replace_node. eapply (orel_bind (Forall2 nrel)); [apply replace_loop_rel; now apply F2_one|]. intros l l' Hl. constructor.
    apply sn_new_rel; [constructor|constructor|]. constructor. now constructor.
  Qed.
  Lemma cell_gen_rel c c' : cell_rel S K c c' -> orel (fun p q => genrel (snd p) (snd q)) (cell_get_generator c) (cell_get_generator c').
  Proof.
    intros (d & d' & -> & -> & D1 & D2 & D3 & D4). unfold cell_get_generator. cbn [ce_gen ce_data bind]. rewrite D4.
    eapply (orel_bind genrel); [apply from_map_rel; auto; constructor|]. intros g g' Hg. now constructor.
  Qed.
  Lemma sms_node_rel x y : sms_rel S K x y -> orel (fun p q => nrel (snd p) (snd q)) (sms_node x) (sms_node y).
  Proof.
    intros (H1 & H2 & H3 & H4 & H5 & H6 & H7). unfold sms_node. eapply (orel_bind _); [now apply cell_gen_rel|]. intros [c g] [c' g'] Hg. cbn in Hg.
    eapply (orel_bind (fun p q : generator * option sm_cell * bool => genrel (fst (fst p)) (fst (fst q)))).
    - destruct H6 as [|ic ic' Hi]; [now constructor|]. eapply (orel_bind _); [now apply cell_gen_rel|]. intros [c1 ig] [c1' ig'] Hig. cbn in Hig.
      assert (G : genrel (match sms_original x with Some o => gen_set_source_content g (sms_name x) (Some o) | None => g end)
                    (match sms_original y with Some o => gen_set_source_content g' (sms_name y) (Some o) | None => g' end)).
      { destruct H5 as [|o o' Ho]; [exact Hg|]. apply set_content_rel; auto. now constructor. }
      rewrite H7. destruct (sms_applied y); cbn [negb]; [now constructor|].
      eapply (orel_bind (prel genrel genrel)); [apply apply_rel; [exact HS|exact G|exact Hig|now constructor]|]. intros [h j] [h' j'] [Hh _]. now constructor.
    - intros [[h j] b] [[h' j'] b'] Hh. cbn in Hh. rewrite H1. eapply (orel_bind nrel); [now apply from_string_rel|]. intros n n' Hn. now constructor.
  Qed.
  Theorem node_rel md t t' : trel S K t t' -> orel nrel (t_node true md t) (t_node true md t').
  Proof.
    revert t t'. fix IH 3. intros t t' H. unfold t_node in *.
    destruct H as [s|s|v i i' n n' H1 H2|v n n' o o' H1 H2|p t t' H|t t' st H|l l' H|x y H]; cbn [fold_tree node_alg a_str a_raw a_original a_l2l a_prefix a_replace a_concat a_sms].
    - constructor.
    - constructor. apply sn_new_rel; [constructor|constructor|]. constructor. apply leaf_rel.
    - now apply original_rel.
    - now apply l2l_rel.
    - eapply orel_bind; [exact (IH _ _ H)|]. intros m m' Hm. now apply prefix_rel.
    - eapply orel_bind; [exact (IH _ _ H)|]. intros m m' Hm. now apply replace_rel.
    - set (C := fun a b : str + smnode => match a, b with inl s, inl s' => s = s' | inr m, inr m' => nrel m m' | _, _ => False end).
      match goal with |- orel _ (bind (?g l) _) (bind (?h l') _) => assert (G : orel (Forall2 C) (g l) (h l')) end.
      { induction H as [|x y l l' Hx _ IHl]; [repeat constructor|]. eapply (orel_bind C).
        - pose proof (IH _ _ Hx) as Hr. destruct Hx; try (eapply orel_bind; [exact Hr|]; intros m m' Hm; constructor; exact Hm). constructor. reflexivity.
        - intros a b Hab. eapply orel_bind; [exact IHl|]. intros. constructor. now constructor. }
      eapply orel_bind; [exact G|]. intros a b Hab. constructor. apply sn_new_rel; [constructor|constructor|]. constructor. constructor.
      clear - Hab. induction Hab as [|u v a b Huv _ IHa]; cbn [map]; constructor; [|exact IHa]. destruct u, v; cbn in Huv; try (destruct Huv; fail); [subst; constructor|exact Huv].
    - eapply orel_bind; [apply (sms_node_rel _ _ H)|]. intros [a b] [a' b'] Hb. now constructor.
  Qed.
  Theorem result_rel n n' : nrel n n' -> orel (fun r r' => jr_s r = jr_s r' /\ orel (fun p q => maprel S K (snd p) (snd q)) (jr_get_map r) (jr_get_map r')) (node_result n) (node_result n').
  Proof.
    intro H. unfold node_result. eapply (orel_bind (prel eq genrel)); [now apply to_gen_rel|]. intros [s g] [s' g'] [E Hg]. cbn in E, Hg. subst s'. constructor. split; [reflexivity|].
    unfold jr_get_map, jr_from_with_generator. cbn [jr_map jr_gen bind]. eapply (orel_bind (prel genrel (maprel S K))); [now apply to_map_rel|]. intros [h m] [h' m'] [_ Hm]. now constructor.
  Qed.
End Node.
