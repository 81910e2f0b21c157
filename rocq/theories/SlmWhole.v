(** Sources made of whole lines: prefixing them gives the same text in both map modes. *)
From Verif Require Import Base Tactics ModelString StringFacts ModelVlq ModelSm ModelSlm
  ModelSources ModelTree SpecText SortFacts TextFacts EditFacts TreeText SpecMap VlqFacts MapFacts
  SpecAttr SpecEdit NodeFacts LeafFacts ReplaceNode SpecList SlmFacts SlmMap SlmRead SlmReplace SlmTree.
From Verif Require Export SpecSlmWhole.

Definition ends (x : str) : Prop := ends_with NL x = true.
Definition sealed (n : slm_node) : Prop :=
  match n with LSource p | LSingle p => pc_nl p = ends_with NL (pc_code p) | _ => True end.
Definition texts (m : slm) : list str := map snd (list_pieces m).
Lemma texts_app a b : texts (a ++ b) = texts a ++ texts b.
Proof. unfold texts, list_pieces. now rewrite flat_map_app, map_app. Qed.
Lemma texts_one n : texts [n] = map snd (node_pieces n).
Proof. unfold texts, list_pieces. cbn [flat_map]. now rewrite app_nil_r. Qed.

Lemma at_ends_app a b : Forall ends a -> b <> [] -> concat b <> [] \/ a = [] -> at_line_ends b -> at_line_ends (a ++ b).
Proof.
  induction 1 as [|x a Hx Ha IH]; intros Hb Hc H; [exact H|]. destruct Hc as [Hc|Hc]; [|discriminate].
  specialize (IH Hb (or_introl Hc) H). cbn [app at_line_ends]. destruct (a ++ b) as [|y r] eqn:E; [exact I|].
  split; [exact Hx|]. split; [|exact IH]. rewrite <- E, concat_app. intro Z. apply app_eq_nil in Z as [_ Z]. auto.
Qed.
Lemma at_ends_full l : at_line_ends l -> ends (concat l) -> Forall ends l.
Proof.
  induction l as [|x r IH]; intros H E; [constructor|]. destruct r as [|y r].
  - cbn in E. rewrite app_nil_r in E. constructor; [exact E|constructor].
  - destruct H as (H1 & H2 & H3). constructor; [exact H1|]. apply IH; [exact H3|].
    unfold ends in *. change (concat (x :: y :: r)) with (x ++ concat (y :: r)) in E. now rewrite ends_with_tail in E.
Qed.
Lemma full_at_ends l : l <> [] -> Forall ends l -> at_line_ends l.
Proof.
  intros Hn H. induction H as [|x r Hx Hr IH]; [congruence|]. cbn [at_line_ends]. destruct r as [|y r]; [exact I|].
  split; [exact Hx|]. split; [|apply IH; discriminate]. inversion Hr as [|? ? Hy _]; subst. intro Z. apply app_eq_nil in Z as [-> _]. discriminate.
Qed.

Lemma number_texts src l : forall line, map snd (number_lines src line l) = l.
Proof. induction l as [|x l IH]; intro line; cbn; [reflexivity|]. now rewrite IH. Qed.
Lemma node_at_ends n : node_ok n -> sealed n -> at_line_ends (texts [n]) /\ concat (texts [n]) = text_node n.
Proof.
  intros Ho Hs. rewrite texts_one. destruct n as [?|s|p|p|?|?]; try contradiction; cbn [node_pieces text_node];
    try (cbn; rewrite app_nil_r; split; [exact I|reflexivity]).
  rewrite number_texts. cbn [sealed] in Hs. rewrite cut_lines_pieces.
  destruct (pieces_shape NL (pc_code p)) as (body & lst & E & H1 & H2).
  pose proof (pieces_concat NL (pc_code p)) as C.
  assert (HB : Forall ends body).
  { apply Forall_forall. intros x Hx. destruct (H1 x Hx) as (a & -> & _). unfold ends. rewrite ends_with_tail; [reflexivity|discriminate]. }
  destruct (pc_nl p) eqn:En.
  - pose proof (pieces_nl _ (eq_sym Hs)) as P. rewrite P, concat_app in C. cbn [concat] in C. rewrite !app_nil_r in C.
    split; [|exact C]. rewrite E, removelast_last. apply full_at_ends; [|exact HB]. intros ->. rewrite E in C. cbn in C.
    rewrite <- C in Hs. discriminate.
  - split; [|exact C]. rewrite E. apply at_ends_app; [exact HB|discriminate| |exact I]. cbn [concat]. rewrite app_nil_r.
    destruct lst as [|c lst]; [|left; discriminate]. right. destruct body as [|b body]; [reflexivity|]. exfalso.
    rewrite E, concat_app in C. cbn [concat] in C. rewrite !app_nil_r in C.
    assert (X : ends (concat (b :: body))).
    { destruct (@exists_last _ (b :: body)) as (b0 & z & Ez); [discriminate|]. rewrite Ez in *. apply Forall_app in HB as [_ HB].
      inversion HB as [|? ? Hz _]; subst. rewrite concat_app. cbn [concat]. rewrite app_nil_r. unfold ends.
      rewrite ends_with_tail; [exact Hz|]. intros ->. discriminate. }
    cbn [concat] in X. rewrite C in X. unfold ends in X. congruence.
Qed.

Definition good (m : slm) : Prop := Forall node_ok m /\ Forall sealed m /\ at_line_ends (texts m).
Definition full (m : slm) : Prop := Forall node_ok m /\ Forall sealed m /\ Forall ends (texts m).
Lemma good_full m : good m -> ends (slm_text m) -> full m.
Proof. intros (H1 & H2 & H3) E. split; [exact H1|]. split; [exact H2|]. apply at_ends_full; [exact H3|]. unfold texts. now rewrite pieces_text. Qed.
Lemma full_snoc m n : full m -> node_ok n -> sealed n -> text_node n <> [] \/ m = [] -> good (m ++ [n]).
Proof.
  intros (H1 & H2 & H3) Ho Hs Hn. destruct (node_at_ends n Ho Hs) as [A B].
  split; [apply Forall_app; auto|]. split; [apply Forall_app; auto|]. rewrite texts_app. apply at_ends_app; auto.
  - intro Z. rewrite Z in A. destruct A.
  - rewrite B. destruct Hn as [Hn| ->]; [left; exact Hn|right; reflexivity].
Qed.

Lemma merge_sealed a b x : sealed a -> sealed b -> text_node b <> [] -> node_merge a b = Some x -> sealed x.
Proof.
  destruct a as [?|s|p|p|?|?], b as [?|t|q|q|?|?]; try discriminate; cbn [node_merge sealed text_node]; intros Ha Hb Hn H.
  - injection H as <-. exact I.
  - unfold source_merge_source in H. destruct (_ && _); [|discriminate]. injection H as <-. cbn. now rewrite ends_with_tail.
  - unfold source_merge_single in H. destruct (_ && _); [|discriminate]. injection H as <-. cbn. now rewrite ends_with_tail.
  - unfold single_merge_single in H. destruct (_ && _); [|discriminate]. destruct (_ =? _)%N.
    + injection H as <-. cbn. now rewrite ends_with_tail.
    + destruct (_ && _); [|discriminate]. injection H as <-. reflexivity.
Qed.
Lemma push_good acc n : full (rev acc) -> node_ok n -> sealed n -> text_node n <> [] \/ acc = [] ->
  good (rev (push_merge acc (Some n))).
Proof.
  intros HF Ho Hs Hn. destruct acc as [|last rest]; cbn [push_merge rev]; [apply full_snoc; auto|].
  destruct Hn as [Hn|]; [|discriminate].
  destruct (node_merge last n) as [x|] eqn:E; cbn [rev] in *; [|apply full_snoc; auto].
  destruct HF as (H1 & H2 & H3). apply Forall_app in H1 as [O1 O2]. apply Forall_app in H2 as [S1 S2].
  inversion O2 as [|? ? O3 _]; subst. inversion S2 as [|? ? S3 _]; subst. rewrite texts_app in H3. apply Forall_app in H3 as [E1 E2].
  destruct (merge_text last n x O3 Ho E) as [Ox Tx]. apply full_snoc.
  - split; [exact O1|split; [exact S1|exact E1]].
  - exact Ox.
  - exact (merge_sealed _ _ _ S3 Hs Hn E).
  - left. rewrite Tx. intro Z. apply app_eq_nil in Z as [_ Z]. auto.
Qed.

Lemma map_loop_good {S} (f : mapfun S) : forall l xs, Forall2 says l xs -> forall st acc, full (rev acc) ->
  forall st' outs, run_fun f st (map snd xs) = Some (st', outs) -> at_line_ends outs -> concat outs <> [] \/ acc = [] ->
  forall acc' st'', map_loop f st l acc = Some (st'', acc') -> good (rev acc').
Proof.
  induction 1 as [|n [t s] l xs Hn Hl IH]; intros st acc Ha st' outs Hr He Hc acc' st'' Hm.
  - cbn in Hr. injection Hr as _ <-. destruct He.
  - cbn [map snd run_fun] in Hr. unbind Hr. destruct v as [st1 y]. unbind Hr. destruct v as [st2 ys].
    injection Hr as <- <-.
    assert (G : exists n', node_map f st n = Some (st1, Some n') /\ node_ok n' /\ sealed n' /\ text_node n' = y).
    { destruct n as [?|c|p|p|?|?]; try contradiction; cbn [node_map says] in *.
      - injection Hn as -> ->. rewrite E. exists (LCode y). cbn. auto.
      - destruct Hn as [_ Hn]. injection Hn as -> ->. rewrite E. eexists. split; [reflexivity|]. split; [apply counted_new|]. cbn. auto. }
    destruct G as (n' & E1 & O & Se & T). cbn [map_loop] in Hm. rewrite E1 in Hm. cbn [bind] in Hm.
    assert (P : good (rev (push_merge acc (Some n')))).
    { apply push_good; auto. rewrite T. destruct Hc as [Hc| ->]; [|right; reflexivity]. left. intros ->.
      destruct ys as [|z ys]; [apply Hc; reflexivity|]. destruct He as [He _]. discriminate. }
    destruct ys as [|z ys].
    + destruct xs as [|x xs].
      * inversion Hl; subst. cbn in Hm. injection Hm as _ <-. exact P.
      * cbn in E0. unbind E0. destruct v as [s9 y9]. unbind E0. destruct v as [s8 y8]. discriminate.
    + destruct He as (H1 & H2 & H3). eapply IH; [|exact E0|exact H3|left; exact H2|exact Hm].
      apply good_full; [exact P|]. destruct P as (P1 & _ & _).
      assert (Ho2 : Forall node_ok acc) by (destruct Ha as (A1 & _); apply Forall_rev in A1; now rewrite rev_involutive in A1).
      destruct (push_spec acc n' Ho2 O) as (_ & X & _).
      rewrite slm_text_ok, X, T by exact P1. unfold ends. rewrite ends_with_tail; [exact H1|]. intros ->. discriminate.
Qed.

Lemma prefix_good p lm lm' : good lm -> prefix_list_map p lm = Some lm' -> good lm'.
Proof.
  intros (H1 & H2 & H3) E. unfold prefix_list_map, map_generated_code in E. rewrite normalize_all_spec in E. cbn [bind] in E.
  unbind E. destruct v as [st m0]. injection E as <-. unbind E0. destruct v as [st' acc]. injection E0 as <- <-.
  eapply (map_loop_good (prefix_mapfun p) _ _ (normals_say lm H1) tt []); [|apply run_prefix| |right; reflexivity|exact E].
  - split; [constructor|split; [constructor|constructor]].
  - fold (texts lm). clear -H3. induction (texts lm) as [|x r IH]; [exact H3|]. destruct r as [|y r]; [exact I|].
    destruct H3 as (A & B & C). specialize (IH C). cbn [map at_line_ends] in *. split; [|split; [|exact IH]].
    + unfold prefixed. rewrite ends_with_tail, ends_indent; [exact A|]. intro Z. pose proof (ends_indent p x) as X. rewrite Z, A in X. discriminate.
    + intro Z. apply B. change (prefixed p y :: map (prefixed p) r) with (map (prefixed p) (y :: r)) in Z.
      rewrite prefixed_pieces in Z by exact C. unfold prefixed in Z. apply app_eq_nil in Z as [_ Z].
      destruct (concat (y :: r)) as [|c w]; [reflexivity|]. exfalso. cbn in Z. destruct w, (N.eqb c NL); discriminate.
Qed.

(** A concatenation of children that all end with a newline, except the last one. *)
Lemma add_code_good m s : full m -> s <> [] \/ m = [] -> good (add_code_text m s).
Proof.
  intros HF Hs. destruct (add_code_cases m s) as [(m0 & t & -> & ->)| ->].
  - destruct Hs as [Hs|Hs]; [|destruct m0; discriminate]. destruct HF as (H1 & H2 & H3). apply Forall_app in H1 as [O1 _].
    apply Forall_app in H2 as [S1 _]. rewrite texts_app in H3. apply Forall_app in H3 as [E1 _].
    apply full_snoc; [split; [exact O1|split; [exact S1|exact E1]]|exact I|exact I|]. left. cbn. intro Z. apply app_eq_nil in Z as [_ Z]. auto.
  - apply full_snoc; [exact HF|exact I|exact I|]. exact Hs.
Qed.
Definition cm_good (y : str + slm) : Prop := match y with inl _ => True | inr m => good m end.
Lemma concat_good : forall ys m m', full m -> Forall cm_good ys -> at_line_ends (map cm_text ys) ->
  concat (map cm_text ys) <> [] \/ m = [] -> concat_list_map ys m = Some m' -> good m'.
Proof.
  induction ys as [|y ys IH]; intros m m' HF HG HA HN H; [destruct HA|].
  inversion HG as [|? ? G1 G2]; subst. cbn [concat_list_map] in H. unbind H.
  assert (HY : cm_text y <> [] \/ m = []).
  { destruct HN as [HN| ->]; [|right; reflexivity]. left. intro Z. cbn [map concat] in *. rewrite Z in *.
    destruct ys as [|y2 ys]; [apply HN; reflexivity|]. cbn [map] in HA. destruct HA as [A _]. discriminate. }
  assert (P : good v /\ slm_text v = slm_text m ++ cm_text y).
  { destruct y as [s|c]; cbn [slm_add is_some cm_text] in *; injection E as <-.
    - split; [now apply add_code_good|]. apply add_code_ok_text, HF.
    - destruct HF as (H1 & H2 & H3). destruct G1 as (C1 & C2 & C3).
      split; [|rewrite !slm_text_ok by (auto; apply Forall_app; auto); apply flat_map_app].
      split; [apply Forall_app; auto|]. split; [apply Forall_app; auto|]. rewrite texts_app. apply at_ends_app; auto.
      + intro Z. rewrite Z in C3. destruct C3.
      + destruct HY as [HY| ->]; [left|right; reflexivity]. unfold texts. now rewrite pieces_text. }
  destruct P as [P T]. destruct ys as [|y2 ys].
  - cbn in H. injection H as <-. exact P.
  - destruct HA as (A1 & A2 & A3). eapply IH; [|exact G2|exact A3|left; exact A2|exact H].
    apply good_full; [exact P|]. rewrite T. unfold ends. rewrite ends_with_tail; [exact A1|]. intro Z. rewrite Z in A1. discriminate.
Qed.
Definition whole_child (m : bool) (x : tree) : Prop := match x with TStr _ => True | _ => whole m x end.
Lemma whole_concat m l : whole m (TConcat l) <-> Forall (whole_child m) l /\ exists ss, map t_source l = map Some ss /\ at_line_ends ss.
Proof.
  cbn [whole]. apply and_iff_compat_r. induction l as [|x l IH]; split; intro H; try constructor; auto;
    try (destruct H as [H1 H2]; try exact H1; now apply IH); inversion H as [|? ? H1 H2]; subst; auto.
  now apply IH.
Qed.

Lemma one_source_good name orig v : good (one_source name orig v).
Proof.
  apply (full_snoc [] (LSource (piece_new v (Some name) orig 1))); [|apply counted_new|reflexivity|right; reflexivity].
  split; [constructor|split; constructor].
Qed.

Theorem whole_good c m t : whole m t -> line_ready c m t /\ forall lm, t_list_map c m t = Some lm -> good lm.
Proof.
  induction t as [v|v|v i n|v n o|p t IH|t st IH|l IH|x] using tree_ind'; intro W; try contradiction.
  - split; [exact I|]. intros lm E. injection E as <-. apply (full_snoc [] (LCode v)); [|exact I|exact I|right; reflexivity].
    split; [constructor|split; constructor].
  - split; [exact I|]. intros lm E. injection E as <-. apply one_source_good.
  - split; [exact I|]. intros lm E. injection E as <-. apply one_source_good.
  - destruct (IH W) as [R G]. split; [split; [exact R|]; intros lm E; apply G; exact E|].
    intros lm E. unfold t_list_map in *. cbn [fold_tree] in E. unbind E. eapply prefix_good; [|exact E]. now apply G.
  - apply whole_concat in W as [W (ss & Hss & HA)]. split.
    + apply ready_concat. clear -IH W. induction IH as [|x l Hx _ IHl]; constructor; inversion W as [|? ? W1 W2]; subst; auto.
      unfold whole_child, ready_child in *. destruct x; auto; apply Hx; exact W1.
    + assert (G : exists ys, Forall2 (child_map c m) l ys /\ Forall cm_ok ys /\ Forall cm_good ys /\ map cm_text ys = ss).
      { clear HA. revert ss Hss. induction IH as [|x l Hx _ IHl]; intros ss Hss.
        - destruct ss; [|discriminate]. exists []. auto.
        - destruct ss as [|s0 ss]; [discriminate|]. injection Hss as H0 Hss. inversion W as [|? ? W1 W2]; subst.
          destruct (IHl W2 ss Hss) as (ys & G1 & G2 & G3 & G4).
          assert (G : exists y, child_map c m x y /\ cm_ok y /\ cm_good y /\ cm_text y = s0).
          { unfold whole_child, child_map in *.
            destruct x; try (destruct (Hx W1) as [R Gx]; destruct (line_text c m _ s0 R H0) as (lm & E & O & T);
              exists (inr lm); split; [eauto|split; [exact O|split; [exact (Gx lm E)|exact T]]]).
            exists (inl s). injection H0 as <-. cbn. auto. }
          destruct G as (y & Y1 & Y2 & Y3 & Y4). exists (y :: ys). cbn [map]. rewrite Y4, G4. auto 6. }
      destruct G as (ys & G1 & G2 & G3 & G4). intros lm E. rewrite (children_maps c m l ys G1) in E.
      eapply concat_good; [|exact G3|rewrite G4; exact HA|right; reflexivity|exact E].
      split; [constructor|split; constructor].
  - cbn [whole] in W. subst m. split; [intro; discriminate|]. intros lm E.
    unfold t_list_map in E. cbn in E. injection E as <-. apply one_source_good.
Qed.

(** The text of the line map of a whole source is its source. *)
Theorem whole_line_map_text m t s : whole m t -> t_source t = Some s -> exists mp, source_and_line_map m t = Some (s, mp).
Proof. intros W. apply line_map_text. now apply (whole_good false m t). Qed.
Theorem whole_prefix_ready c m p t : whole m t -> line_ready c m (TPrefix p t).
Proof. intro W. destruct (whole_good c m t W) as [R G]. split; [exact R|]. intros lm E. apply (G lm E). Qed.
