(** Line maps look at string indices only to compare them. *)
From Verif Require Import Base Tactics ModelString ModelVlq ModelSm ModelSlm ModelSources ModelTree.

Inductive orel {A B} (R : A -> B -> Prop) : option A -> option B -> Prop :=
| orel_none : orel R None None
| orel_some x y : R x y -> orel R (Some x) (Some y).
Lemma orel_bind {A B C D} (R : A -> B -> Prop) (Q : C -> D -> Prop) m m' k k' :
  orel R m m' -> (forall x y, R x y -> orel Q (k x) (k' y)) -> orel Q (bind m k) (bind m' k').
Proof. intros [|x y H] K; [constructor|]. apply K, H. Qed.
Lemma orel_eq_bind {A C D} (Q : C -> D -> Prop) (m : option A) k k' :
  (forall x, m = Some x -> orel Q (k x) (k' x)) -> orel Q (bind m k) (bind m k').
Proof. intro H. destruct m as [x|]; [|constructor]. now apply H. Qed.
Definition prel {A B C D} (R : A -> B -> Prop) (Q : C -> D -> Prop) (p : A * C) (q : B * D) : Prop := R (fst p) (fst q) /\ Q (snd p) (snd q).
Lemma orel_impl {A B} (R Q : A -> B -> Prop) a b : (forall x y, R x y -> Q x y) -> orel R a b -> orel Q a b.
Proof. intros H [|x y Hx]; constructor. auto. Qed.
Lemma F2_length {A B} (R : A -> B -> Prop) l l' : Forall2 R l l' -> length l = length l'.
Proof. induction 1; cbn; congruence. Qed.
Lemma F2_nth {A B} (R : A -> B -> Prop) l l' : Forall2 R l l' -> forall k, orel R (nth_error l k) (nth_error l' k).
Proof. induction 1 as [|x y l l' H _ IH]; intros [|k]; cbn; try constructor; auto. Qed.
Lemma F2_impl {A B} (R Q : A -> B -> Prop) l l' : (forall x y, R x y -> Q x y) -> Forall2 R l l' -> Forall2 Q l l'.
Proof. intros H. induction 1; constructor; auto. Qed.
Lemma F2_rev {A B} (R : A -> B -> Prop) l l' : Forall2 R l l' -> Forall2 R (rev l) (rev l').
Proof. induction 1; cbn; [constructor|]. apply Forall2_app; auto. Qed.

Section Para.
  Variables (S K : Z -> Z -> Prop).
  Hypothesis HS : forall i i' j j', S i i' -> S j j' -> (i =? j)%Z = (i' =? j')%Z.
  Hypothesis HK : forall i i' j j', K i i' -> K j j' -> (i =? j)%Z = (i' =? j')%Z.

  Lemma opt_eqb_rel (X : Z -> Z -> Prop) : (forall i i' j j', X i i' -> X j j' -> (i =? j)%Z = (i' =? j')%Z) ->
    forall a a' b b', orel X a a' -> orel X b b' -> optZ_eqb a b = optZ_eqb a' b'.
  Proof. intros H a a' b b' [|x x' Hx] [|y y' Hy]; cbn; auto. Qed.

  Record piece_rel (p q : piece) : Prop := mk_prel {
    pr_code : pc_code p = pc_code q; pr_orig : orel K (pc_orig p) (pc_orig q); pr_src : orel S (pc_src p) (pc_src q);
    pr_line : pc_line p = pc_line q; pr_n : pc_n p = pc_n q; pr_nl : pc_nl p = pc_nl q }.
  Inductive lrel : slm_node -> slm_node -> Prop :=
  | lrel_str s : lrel (LStr s) (LStr s)
  | lrel_code s : lrel (LCode s) (LCode s)
  | lrel_source p q : piece_rel p q -> lrel (LSource p) (LSource q)
  | lrel_single p q : piece_rel p q -> lrel (LSingle p) (LSingle q)
  | lrel_map l l' : Forall2 lrel l l' -> lrel (LMap l) (LMap l')
  | lrel_idx i j : lrel (LIdx i) (LIdx j).
  Definition mrel := Forall2 lrel.

  Lemma piece_new_rel s a a' b b' l : orel S a a' -> orel K b b' -> piece_rel (piece_new s a b l) (piece_new s a' b' l).
  Proof. intros. now constructor. Qed.
  Lemma piece_add_rel p q s : piece_rel p q -> piece_rel (piece_add_code p s) (piece_add_code q s).
  Proof. intros []. constructor; cbn; congruence || assumption. Qed.
  Lemma piece_append_rel p q p' q' : piece_rel p p' -> piece_rel q q' -> piece_rel (piece_append p q) (piece_append p' q').
  Proof. intros [] []. constructor; cbn; congruence || assumption. Qed.

  Lemma merge_rel a a' b b' : lrel a a' -> lrel b b' -> orel lrel (node_merge a b) (node_merge a' b').
  Proof.
    intros Ha Hb. destruct Ha as [s|s|p p' Hp|p p' Hp|l l' Hl|i i'], Hb as [t|t|q q' Hq|q q' Hq|k k' Hk|j j']; cbn [node_merge]; try constructor; try constructor.
    - unfold source_merge_source. rewrite (opt_eqb_rel S HS _ _ _ _ (pr_src _ _ Hp) (pr_src _ _ Hq)), (pr_nl _ _ Hp), (pr_line _ _ Hp), (pr_n _ _ Hp), (pr_line _ _ Hq).
      destruct (_ && _ && _); constructor. constructor. now apply piece_append_rel.
    - unfold source_merge_single. rewrite (opt_eqb_rel S HS _ _ _ _ (pr_src _ _ Hp) (pr_src _ _ Hq)), (pr_nl _ _ Hp), (pr_line _ _ Hp), (pr_n _ _ Hp), (pr_line _ _ Hq), (pr_n _ _ Hq).
      destruct (_ && _ && _ && _); constructor. constructor. now apply piece_append_rel.
    - unfold single_merge_single. rewrite (opt_eqb_rel S HS _ _ _ _ (pr_src _ _ Hp) (pr_src _ _ Hq)), (opt_eqb_rel K HK _ _ _ _ (pr_orig _ _ Hp) (pr_orig _ _ Hq)),
        (pr_nl _ _ Hp), (pr_line _ _ Hp), (pr_n _ _ Hp), (pr_line _ _ Hq), (pr_n _ _ Hq), (pr_code _ _ Hp), (pr_code _ _ Hq).
      destruct (_ && _); [|constructor]. destruct (_ =? _)%N; [constructor; constructor; now apply piece_append_rel|].
      destruct (_ && _ && _ && _); constructor. constructor. apply piece_new_rel; [apply Hp|apply Hp].
  Qed.
  Lemma push_rel acc acc' o o' : mrel acc acc' -> orel lrel o o' -> mrel (push_merge acc o) (push_merge acc' o').
  Proof.
    intros Ha [|n n' Hn]; [exact Ha|]. destruct Ha as [|x x' r r' Hx Hr]; cbn [push_merge]; [now repeat constructor|].
    destruct (merge_rel x x' n n' Hx Hn); repeat constructor; auto.
  Qed.
  Lemma normalize_loop_rel p p' : piece_rel p p' -> forall fuel it line, orel mrel (normalize_loop fuel it p line) (normalize_loop fuel it p' line).
  Proof.
    intro Hp. induction fuel as [|f IH]; intros it line; cbn [normalize_loop]; [constructor|].
    apply orel_eq_bind. intros [it' [l|]] _; [|repeat constructor]. rewrite (pr_nl _ _ Hp). destruct (_ && _); [repeat constructor|].
    eapply orel_bind; [apply IH|]. intros x y H. repeat constructor; auto; apply Hp.
  Qed.
  Lemma normalized_rel p p' : piece_rel p p' -> orel mrel (source_normalized p) (source_normalized p').
  Proof. intro Hp. unfold source_normalized. rewrite <- (pr_code _ _ Hp), <- (pr_line _ _ Hp). now apply normalize_loop_rel. Qed.
  Lemma normalize_rel m m' : mrel m m' -> orel mrel (normalize_all m) (normalize_all m').
  Proof.
    induction 1 as [|x x' r r' Hx _ IH]; [repeat constructor|]. destruct Hx as [s|s|p p' Hp|p p' Hp|l l' Hl|i i']; cbn [normalize_all]; try exact IH.
    - eapply orel_bind; [exact IH|]. intros. repeat constructor. assumption.
    - eapply orel_bind; [now apply normalized_rel|]. intros a a' Ha. eapply orel_bind; [exact IH|]. intros b b' Hb. constructor. now apply Forall2_app.
    - eapply orel_bind; [exact IH|]. intros. repeat constructor; auto; apply Hp.
  Qed.
  Lemma node_map_rel {T} (f : mapfun T) st n n' : lrel n n' -> orel (prel eq (orel lrel)) (node_map f st n) (node_map f st n').
  Proof.
    intros [s|s|p p' Hp|p p' Hp|l l' Hl|i i']; cbn [node_map]; try (repeat constructor; fail).
    - apply orel_eq_bind. intros [st' t] _. repeat constructor.
    - rewrite (pr_code _ _ Hp). apply orel_eq_bind. intros [st' t] _. rewrite (pr_line _ _ Hp). repeat constructor; cbn; auto; apply Hp.
  Qed.
  Lemma map_loop_rel {T} (f : mapfun T) : forall l l' st acc acc', mrel l l' -> mrel acc acc' -> orel (prel eq mrel) (map_loop f st l acc) (map_loop f st l' acc').
  Proof.
    intros l l' st acc acc' H. revert st acc acc'. induction H as [|n n' r r' Hn _ IH]; intros st acc acc' Ha; cbn [map_loop]; [now repeat constructor|].
    eapply orel_bind; [now apply node_map_rel|]. intros [s o] [s' o'] [E Ho]. cbn in E, Ho. subst s'. apply IH. now apply push_rel.
  Qed.
  Lemma map_code_rel {T} (f : mapfun T) st m m' : mrel m m' -> orel (prel eq mrel) (map_generated_code f st m) (map_generated_code f st m').
  Proof.
    intro H. unfold map_generated_code. eapply orel_bind; [now apply normalize_rel|]. intros l l' Hl.
    eapply orel_bind; [apply map_loop_rel; [exact Hl|constructor]|]. intros [s a] [s' a'] [E Ha]. cbn in E, Ha. subst s'. constructor. split; [reflexivity|]. now apply F2_rev.
  Qed.

  Lemma add_text_rel m m' s : mrel m m' -> mrel (add_code_text m s) (add_code_text m' s).
  Proof.
    induction 1 as [|x x' r r' Hx Hr IH]; [repeat constructor|].
    destruct Hr as [|y y' r r' Hy Hr]; [destruct Hx; cbn [add_code_text]; repeat constructor; auto; (assumption || apply H)|].
    destruct Hx; cbn [add_code_text]; constructor; auto; constructor; auto.
  Qed.
  Lemma slm_add_rel m m' n n' a a' b b' : mrel m m' -> lrel n n' -> orel S a a' -> orel K b b' -> orel mrel (slm_add m n a b) (slm_add m' n' a' b').
  Proof.
    intros Hm Hn Ha Hb. destruct Hn as [s|s|p p' Hp|p p' Hp|l l' Hl|i i']; cbn [slm_add].
    - destruct Ha as [|x y Hxy]; cbn [is_some]; constructor; [now apply add_text_rel|]. apply Forall2_app; [exact Hm|]. repeat constructor; auto.
    - constructor. apply Forall2_app; [exact Hm|]. repeat constructor.
    - constructor. apply Forall2_app; [exact Hm|]. repeat constructor; apply Hp.
    - constructor. apply Forall2_app; [exact Hm|]. repeat constructor; apply Hp.
    - constructor. now apply Forall2_app.
    - constructor.
  Qed.

  (** ** The map *)
  Definition entry_rel (p q : option Z * (nat * option Z)) : Prop := orel S (fst p) (fst q) /\ fst (snd p) = fst (snd q) /\ orel K (snd (snd p)) (snd (snd q)).
  Definition mc_rel (m m' : mctx) : Prop :=
    Forall2 entry_rel (mc_sources m) (mc_sources m') /\ mc_has_content m = mc_has_content m' /\ mc_line m = mc_line m' /\
    mc_source m = mc_source m' /\ mc_unfinished m = mc_unfinished m'.
  Lemma ol_get_rel l l' k k' : Forall2 entry_rel l l' -> orel S k k' -> orel (prel eq (orel K)) (ol_get l k) (ol_get l' k').
  Proof.
    intros H Hk. induction H as [|[a b] [a' b'] l l' (H1 & H2 & H3) _ IH]; cbn [ol_get]; [constructor|]. cbn [fst snd] in *.
    rewrite (opt_eqb_rel S HS _ _ _ _ Hk H1). destruct (optZ_eqb k' a'); [|exact IH]. constructor. now split.
  Qed.
  Lemma ensure_rel m m' a a' b b' : mc_rel m m' -> orel S a a' -> orel K b b' -> prel mc_rel eq (ensure_source m a b) (ensure_source m' a' b').
  Proof.
    intros (M1 & M2 & M3 & M4 & M5) Ha Hb. unfold ensure_source. destruct (ol_get_rel _ _ _ _ M1 Ha) as [|[i o] [i' o'] [E _]].
    - rewrite (F2_length _ _ _ M1). split; [|reflexivity]. split; [|cbn; rewrite M2; destruct Hb; now repeat split]. apply Forall2_app; [exact M1|]. repeat constructor; assumption.
    - cbn in E. subst i'. split; [|reflexivity]. now repeat split.
  Qed.
  Lemma get_mappings_rel n n' m m' : lrel n n' -> mc_rel m m' -> prel mc_rel eq (node_get_mappings n m) (node_get_mappings n' m').
  Proof.
    intros Hn Hm. destruct Hn as [s|s|p p' Hp|p p' Hp|l l' Hl|i i']; cbn [node_get_mappings]; try (now split).
    - destruct Hm as (M1 & M2 & M3 & M4 & M5). unfold code_get_mappings. rewrite M2, M3, M4, M5. destruct (0 <? _); split; try reflexivity; now repeat split.
    - unfold source_get_mappings. rewrite (pr_code _ _ Hp). destruct (pc_code p') as [|c s]; [now split|].
      pose proof (ensure_rel _ _ _ _ _ _ Hm (pr_src _ _ Hp) (pr_orig _ _ Hp)) as [E1 E2].
      destruct (ensure_source m (pc_src p) (pc_orig p)) as [mc si], (ensure_source m' (pc_src p') (pc_orig p')) as [mc' si']. cbn [fst snd] in E1, E2. subst si'.
      destruct E1 as (M1 & M2 & M3 & M4 & M5). unfold piece_head. rewrite M2, M3, M4, M5, (pr_line _ _ Hp), (pr_n _ _ Hp). destruct (_ =? 0); split; try reflexivity; now repeat split.
    - unfold single_get_mappings. rewrite (pr_code _ _ Hp). destruct (pc_code p') as [|c s]; [now split|].
      pose proof (ensure_rel _ _ _ _ _ _ Hm (pr_src _ _ Hp) (pr_orig _ _ Hp)) as [E1 E2].
      destruct (ensure_source m (pc_src p) (pc_orig p)) as [mc si], (ensure_source m' (pc_src p') (pc_orig p')) as [mc' si']. cbn [fst snd] in E1, E2. subst si'.
      destruct E1 as (M1 & M2 & M3 & M4 & M5). unfold piece_head. rewrite M2, M3, M4, M5, (pr_line _ _ Hp), (pr_n _ _ Hp). split; try reflexivity; now repeat split.
  Qed.
  Lemma mappings_loop_rel l l' : mrel l l' -> forall m m', mc_rel m m' -> prel mc_rel eq (mappings_loop l m) (mappings_loop l' m').
  Proof.
    induction 1 as [|n n' r r' Hn _ IH]; intros m m' Hm; cbn [mappings_loop]; [now split|].
    pose proof (get_mappings_rel _ _ _ _ Hn Hm) as [E1 E2]. destruct (node_get_mappings n m) as [mc a], (node_get_mappings n' m') as [mc' a']. cbn [fst snd] in E1, E2. subst a'.
    pose proof (IH _ _ E1) as [F1 F2]. destruct (mappings_loop r mc) as [md b], (mappings_loop r' mc') as [md' b']. cbn [fst snd] in *. subst b'. now split.
  Qed.
  Lemma slm_text_rel l l' : mrel l l' -> slm_text l = slm_text l'.
  Proof. induction 1 as [|n n' r r' Hn _ IH]; [reflexivity|]. unfold slm_text in *. cbn [flat_map]. rewrite IH. f_equal. destruct Hn as [s|s|p p' Hp|p p' Hp|a a' Ha|i i']; try reflexivity; apply Hp. Qed.
  Definition src_rel (i j : Z) : Prop := S i j \/ (i = -1 /\ j = -1)%Z.
  Definition line_map_rel (m m' : source_map) : Prop :=
    Forall2 src_rel (map_sources m) (map_sources m') /\ Forall2 K (map_contents m) (map_contents m') /\ map_mappings m = map_mappings m' /\
    map_names m = [] /\ map_names m' = [].
  Lemma with_map_rel l l' : mrel l l' -> prel eq line_map_rel (slm_to_string_with_source_map l None) (slm_to_string_with_source_map l' None).
  Proof.
    intro H. unfold slm_to_string_with_source_map. assert (M0 : mc_rel mctx_new mctx_new) by (repeat split; constructor).
    pose proof (mappings_loop_rel _ _ H _ _ M0) as [E1 E2]. destruct (mappings_loop l mctx_new) as [mc a], (mappings_loop l' mctx_new) as [mc' a']. cbn [fst snd] in E1, E2. subst a'.
    destruct E1 as (M1 & _). unfold get_arrays. rewrite (slm_text_rel _ _ H). split; [reflexivity|]. cbn [fst snd]. split; [|split; [|now repeat split]]; cbn [map_sources map_contents].
    - induction M1 as [|p q r r' (P1 & _) _ IH]; cbn [map]; constructor; [|exact IH]. destruct P1; [right; auto|now left].
    - induction M1 as [|p q r r' (_ & _ & P3) _ IH]; cbn [flat_map]; [constructor|]. apply Forall2_app; [|exact IH]. destruct P3; cbn [opt_list]; repeat constructor. assumption.
  Qed.

  (** ** The reader *)
  Lemma get_idx_rel (X : Z -> Z -> Prop) l l' i : Forall2 X l l' -> orel X (get_idx l i) (get_idx l' i).
  Proof. intro H. unfold get_idx. rewrite (F2_length _ _ _ H). destruct (_ <? _)%N; [now apply F2_nth|constructor]. Qed.
  Lemma set_last_rel m m' x x' : mrel m m' -> lrel x x' -> mrel (set_last m x) (set_last m' x').
  Proof. intros H Hx. induction H as [|y y' r r' Hy Hr IH]; cbn [set_last]; [constructor|]. destruct Hr; [now repeat constructor|]. constructor; assumption. Qed.
  Lemma last_rel m m' : mrel m m' -> orel lrel (last_opt m) (last_opt m').
  Proof. induction 1 as [|y y' r r' Hy Hr IH]; cbn [last_opt]; [constructor|]. destruct Hr; [now constructor|exact IH]. Qed.
  Definition rd_rel : rd -> rd -> Prop := prel mrel eq.
  Lemma add_code_rel st st' s : rd_rel st st' -> rd_rel (rd_add_code st s) (rd_add_code st' s).
  Proof.
    destruct st as [nodes l], st' as [nodes' l']. intros [H1 H2]. cbn in H1, H2. subst l'. unfold rd_add_code.
    assert (G : mrel (nodes ++ [LCode s]) (nodes' ++ [LCode s])) by (apply Forall2_app; [exact H1|repeat constructor]).
    destruct (last_rel _ _ H1) as [|x x' Hx]; [now split|]. destruct Hx as [t|t|p p' Hp|p p' Hp|k k' Hk|i i']; try (now split).
    - split; [|reflexivity]. apply set_last_rel; [exact H1|constructor].
    - destruct (blank s); [|now split]. split; [|reflexivity]. apply set_last_rel; [exact H1|]. constructor. now apply piece_add_rel.
  Qed.
  Lemma add_source_rel st st' s a a' b b' l : rd_rel st st' -> orel S a a' -> orel K b b' -> rd_rel (rd_add_source st s a b l) (rd_add_source st' s a' b' l).
  Proof.
    destruct st as [nodes k], st' as [nodes' k']. intros [H1 H2] Ha Hb. cbn in H1, H2. subst k'. unfold rd_add_source.
    assert (G : mrel (nodes ++ [LSource (piece_new s a b l)]) (nodes' ++ [LSource (piece_new s a' b' l)])) by (apply Forall2_app; [exact H1|repeat constructor; assumption]).
    destruct (last_rel _ _ H1) as [|x x' Hx]; [now split|]. destruct Hx as [t|t|p p' Hp|p p' Hp|h h' Hk|i i']; try (now split).
    rewrite (opt_eqb_rel S HS _ _ _ _ (pr_src _ _ Hp) Ha). destruct (_ && _); [|now split]. split; [|reflexivity]. apply set_last_rel; [exact H1|]. constructor. now apply piece_add_rel.
  Qed.
  Definition rdst_rel (s t : rdst) : Prop := rd_rel (rs_rd s) (rs_rd t) /\ rs_line s = rs_line t /\ rs_src s = rs_src t.
  Variables (sources sources' contents contents' : list Z).
  Hypotheses (Hs : Forall2 S sources sources') (Hk : Forall2 K contents contents').
  Lemma segment_step_rel line st st' rest added : rdst_rel st st' ->
    orel (prel (prel rdst_rel eq) eq) (segment_step sources contents line st rest added) (segment_step sources' contents' line st' rest added).
  Proof.
    intros R. pose proof R as (R1 & R2 & R3). unfold segment_step. apply orel_eq_bind. intros rest1 _.
    assert (G : forall r : str, orel (prel (prel rdst_rel eq) eq) (Some (st, r, false)) (Some (st', r, false))) by (intro r0; constructor; split; [split; [exact R|reflexivity]|reflexivity]).
    destruct rest1 as [|c r]; [apply G|]. destruct (N.eqb c COMMA); [apply G|]. rewrite <- R2, <- R3. apply orel_eq_bind. intros [value rest2] _. apply orel_eq_bind. intros [lp rest3] _.
    destruct added; cbn [negb]; constructor; (split; [split|]; cbn [fst snd]; try reflexivity; split; cbn [rs_rd rs_line rs_src]; auto).
    apply add_source_rel; [exact R1| |]; now apply get_idx_rel.
  Qed.
  Lemma segment_loop_rel line : forall fuel st st' rest added, rdst_rel st st' ->
    orel (prel rdst_rel eq) (segment_loop fuel sources contents line st rest added) (segment_loop fuel sources' contents' line st' rest added).
  Proof.
    induction fuel as [|f IH]; intros st st' rest added R; destruct rest as [|c r]; cbn [segment_loop]; try (constructor; fail); try (constructor; now split).
    eapply orel_bind; [now apply segment_step_rel|]. intros [[s1 r1] b1] [[s2 r2] b2] [[H1 H2] H3]. cbn in H1, H2, H3. subst r2 b2. now apply IH.
  Qed.
  Lemma reader_line_rel mp line st st' : rdst_rel st st' -> orel rdst_rel (reader_line sources contents mp line st) (reader_line sources' contents' mp line st').
  Proof.
    intro R. unfold reader_line. assert (G : forall s s', rdst_rel s s' -> rdst_rel (mk_rdst (rd_add_code (rs_rd s) line) (rs_line s) (rs_src s)) (mk_rdst (rd_add_code (rs_rd s') line) (rs_line s') (rs_src s'))).
    { intros s s' (A & B & C). split; [now apply add_code_rel|]. now split. }
    destruct mp as [|c mp]; [constructor; auto|]. eapply orel_bind; [now apply segment_loop_rel|]. intros [s1 b1] [s2 b2] [H1 H2]. cbn in H1, H2. subst b2. destruct b1; constructor; auto.
  Qed.
  Lemma reader_loop_rel : forall mls it st st', rdst_rel st st' -> orel (prel eq rdst_rel) (reader_loop sources contents mls it st) (reader_loop sources' contents' mls it st').
  Proof.
    induction mls as [|mp r IH]; intros it st st' R; cbn [reader_loop]; [constructor; now split|].
    apply orel_eq_bind. intros [it' [x|]] _; [|now apply IH]. apply orel_eq_bind. intros line _. eapply orel_bind; [now apply reader_line_rel|]. intros s s' H. now apply IH.
  Qed.
  Lemma reader_rest_rel : forall fuel it st st', rd_rel st st' -> orel rd_rel (reader_rest fuel it st) (reader_rest fuel it st').
  Proof.
    induction fuel as [|f IH]; intros it st st' R; cbn [reader_rest]; [constructor|]. apply orel_eq_bind. intros [it' [x|]] _; [|now constructor].
    apply orel_eq_bind. intros back _. destruct (blank back).
    - apply orel_eq_bind. intros line _. apply IH. now apply add_code_rel.
    - destruct (msplit_take_rest it') as [it2 r2]. apply orel_eq_bind. intros last _. apply IH. now apply add_code_rel.
  Qed.
  Lemma from_string_rel code mappings : orel mrel (slm_from_string code sources contents mappings) (slm_from_string code sources' contents' mappings).
  Proof.
    unfold slm_from_string. apply orel_eq_bind. intros mls _. eapply orel_bind; [apply reader_loop_rel; repeat split; constructor|].
    intros [it st] [it' st'] [E R]. cbn in E, R. subst it'. eapply orel_bind; [apply reader_rest_rel, R|]. intros [n k] [n' k'] [H _]. cbn in *. constructor. exact H.
  Qed.
End Para.

(** ** Trees *)
Section Tree.
  Variables (S K : Z -> Z -> Prop).
  Definition smc_rel (d d' : sm_content) : Prop :=
    Forall2 S (sc_sources d) (sc_sources d') /\ Forall2 K (sc_contents d) (sc_contents d') /\ Forall2 S (sc_names d) (sc_names d') /\ sc_mappings d = sc_mappings d'.
  (** Cells as new SourceMapSources have them. *)
  Definition cell_rel (c c' : sm_cell) : Prop := exists d d', c = mk_cell (Some d) None /\ c' = mk_cell (Some d') None /\ smc_rel d d'.
  Definition sms_rel (x y : sms) : Prop :=
    sms_value x = sms_value y /\ K (sms_value_idx x) (sms_value_idx y) /\ S (sms_name x) (sms_name y) /\ cell_rel (sms_map x) (sms_map y) /\
    orel K (sms_original x) (sms_original y) /\ orel cell_rel (sms_inner x) (sms_inner y) /\ sms_applied x = sms_applied y.
  Inductive trel : tree -> tree -> Prop :=
  | trel_str s : trel (TStr s) (TStr s)
  | trel_raw s : trel (TRaw s) (TRaw s)
  | trel_original v i i' n n' : K i i' -> S n n' -> trel (TOriginal v i n) (TOriginal v i' n')
  | trel_l2l v n n' o o' : S n n' -> K o o' -> trel (TL2L v n o) (TL2L v n' o')
  | trel_prefix p t t' : trel t t' -> trel (TPrefix p t) (TPrefix p t')
  | trel_replace t t' st : trel t t' -> trel (TReplace t st) (TReplace t' st)
  | trel_concat l l' : Forall2 trel l l' -> trel (TConcat l) (TConcat l')
  | trel_sms x y : sms_rel x y -> trel (TSms x) (TSms y).
End Tree.
Lemma smc_mono (S K S' K' : Z -> Z -> Prop) d d' : (forall i j, S i j -> S' i j) -> (forall i j, K i j -> K' i j) -> smc_rel S K d d' -> smc_rel S' K' d d'.
Proof. intros HS HK (H1 & H2 & H3 & H4). repeat split; auto; (eapply F2_impl; [|eassumption]; auto). Qed.
Lemma cell_mono (S K S' K' : Z -> Z -> Prop) c c' : (forall i j, S i j -> S' i j) -> (forall i j, K i j -> K' i j) -> cell_rel S K c c' -> cell_rel S' K' c c'.
Proof. intros HS HK (d & d' & -> & -> & H). exists d, d'. split; [reflexivity|]. split; [reflexivity|]. eapply smc_mono; eauto. Qed.
Lemma trel_mono (S K S' K' : Z -> Z -> Prop) : (forall i j, S i j -> S' i j) -> (forall i j, K i j -> K' i j) -> forall t t', trel S K t t' -> trel S' K' t t'.
Proof.
  intros HS HK. fix IH 3. intros t t' H. destruct H as [s|s|v i i' n n' H1 H2|v n n' o o' H1 H2|p t t' H|t t' st H|l l' H|x y (H1 & H2 & H3 & H4 & H5 & H6 & H7)]; try (constructor; auto; fail).
  - constructor. induction H as [|a b l l' Hab Hl IHl]; constructor; auto.
  - constructor. split; [exact H1|]. split; [auto|]. split; [auto|]. split; [eapply cell_mono; eauto|]. split; [eapply orel_impl; eauto|]. split; [|exact H7].
    eapply orel_impl; [|exact H6]. intros. eapply cell_mono; eauto.
Qed.

Section TreeMap.
  Variables (S K : Z -> Z -> Prop).
  Hypothesis HS : forall i i' j j', S i i' -> S j j' -> (i =? j)%Z = (i' =? j')%Z.
  Hypothesis HK : forall i i' j j', K i i' -> K j j' -> (i =? j)%Z = (i' =? j')%Z.
  Notation mrel := (mrel S K).
  Inductive crel : str + slm -> str + slm -> Prop :=
  | crel_str s : crel (inl s) (inl s)
  | crel_map m m' : mrel m m' -> crel (inr m) (inr m').
  Lemma concat_list_rel l l' : Forall2 crel l l' -> forall m m', mrel m m' -> orel mrel (concat_list_map l m) (concat_list_map l' m').
  Proof.
    induction 1 as [|x x' l l' Hx _ IH]; intros m m' Hm; cbn [concat_list_map]; [now constructor|].
    eapply orel_bind; [|exact IH]. apply slm_add_rel; [exact Hm| |constructor|constructor]. destruct Hx; constructor; auto.
  Qed.
  Lemma one_rel s a a' b b' : S a a' -> orel K b b' -> orel mrel (slm_new (Some (GCode (LStr s))) (Some a) b) (slm_new (Some (GCode (LStr s))) (Some a') b').
  Proof. intros Ha Hb. unfold slm_new. apply slm_add_rel; [constructor|constructor|now constructor|exact Hb]. Qed.
  Lemma sms_list_rel md x y : sms_rel S K x y -> orel (fun p q => mrel (snd p) (snd q)) (sms_list_map x md) (sms_list_map y md).
  Proof.
    intros (H1 & H2 & H3 & (d & d' & E & E' & Hd) & H5 & H6 & H7). unfold sms_list_map. rewrite H1. destruct md; cbn [negb].
    - rewrite E, E'. eapply (orel_bind (fun p q => smc_rel S K (snd p) (snd q))); [constructor; exact Hd|]. intros [c1 d1] [c2 d2] (D1 & D2 & _ & D4). cbn [snd] in D1, D2, D4. rewrite D4. eapply orel_bind; [apply (from_string_rel S K HS _ _ _ _ D1 D2)|]. intros m m' Hm. now constructor.
    - eapply orel_bind; [apply one_rel; [exact H3|constructor; exact H2]|]. intros m m' Hm. now constructor.
  Qed.
  Theorem list_map_rel md t t' : trel S K t t' -> orel mrel (t_list_map false md t) (t_list_map false md t').
  Proof.
    revert t t'. fix IH 3. intros t t' H. unfold t_list_map in *.
    destruct H as [s|s|v i i' n n' H1 H2|v n n' o o' H1 H2|p t t' H|t t' st H|l l' H|x y H]; cbn [fold_tree list_map_alg a_str a_raw a_original a_l2l a_prefix a_replace a_concat a_sms].
    - constructor.
    - unfold raw_list_map, slm_new. apply slm_add_rel; constructor.
    - unfold original_list_map. apply one_rel; [exact H2|]. now constructor.
    - unfold l2l_list_map. apply one_rel; [exact H1|]. now constructor.
    - eapply orel_bind; [exact (IH _ _ H)|]. intros m m' Hm. unfold prefix_list_map. eapply orel_bind; [apply (map_code_rel S K HS HK _ _ _ _ Hm)|]. intros [a b] [a' b'] [_ Hb]. now constructor.
    - eapply orel_bind; [exact (IH _ _ H)|]. intros m m' Hm. unfold replace_list_map. eapply orel_bind; [apply (map_code_rel S K HS HK _ _ _ _ Hm)|]. intros [a b] [a' b'] [E Hb]. cbn in E, Hb. subst a'.
      apply orel_eq_bind. intros extra _. destruct extra as [|c e]; [now constructor|]. apply slm_add_rel; [exact Hb|constructor|constructor|constructor].
    - match goal with |- orel _ (bind (?g l) _) (bind (?h l') _) => assert (G : orel (Forall2 crel) (g l) (h l')) end.
      { induction H as [|x y l l' Hx _ IHl]; [repeat constructor|].
        eapply (orel_bind crel).
        - pose proof (IH _ _ Hx) as Hr. destruct Hx; try (eapply orel_bind; [exact Hr|]; intros; constructor; now constructor). constructor. constructor.
        - intros a b Hab. eapply orel_bind; [exact IHl|]. intros. constructor. now constructor. }
      eapply orel_bind; [exact G|]. intros a b Hab. apply concat_list_rel; [exact Hab|constructor].
    - eapply orel_bind; [apply (sms_list_rel md _ _ H)|]. intros [a b] [a' b'] Hb. now constructor.
  Qed.
End TreeMap.
