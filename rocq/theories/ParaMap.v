(** Maps with columns look at string indices only to compare them. *)
From Verif Require Import Base Tactics ModelString ModelVlq ModelSm ModelSlm ModelSources ModelTree ModelWasm ParaList.

Lemma orel_eq {A} (m m' : option A) : orel eq m m' -> m = m'.
Proof. intros [|x y ->]; reflexivity. Qed.
Lemma orel_refl {A} (m : option A) : orel eq m m.
Proof. destruct m; now constructor. Qed.
Lemma F2_refl {A} (l : list A) : Forall2 eq l l.
Proof. induction l; now constructor. Qed.
Lemma F2_one {A B} (R : A -> B -> Prop) x y : R x y -> Forall2 R [x] [y].
Proof. intro H. constructor; [exact H|constructor]. Qed.
Lemma insert_rel {A} (R : A -> A -> Prop) cmp : (forall a a' b b', R a a' -> R b b' -> cmp a b = cmp a' b') ->
  forall l l' x x', R x x' -> Forall2 R l l' -> Forall2 R (insert_sorted cmp x l) (insert_sorted cmp x' l').
Proof.
  intros H l l' x x' Hx Hl. induction Hl as [|y y' l l' Hy Hl IH]; cbn [insert_sorted]; [now apply F2_one|].
  rewrite <- (H _ _ _ _ Hx Hy). destruct (cmp x y); constructor; auto; now constructor.
Qed.
Lemma isort_rel {A} (R : A -> A -> Prop) cmp : (forall a a' b b', R a a' -> R b b' -> cmp a b = cmp a' b') ->
  forall l l', Forall2 R l l' -> Forall2 R (isort cmp l) (isort cmp l').
Proof. intros H l l' Hl. induction Hl as [|x x' l l' Hx _ IH]; cbn [isort]; [constructor|]. now apply insert_rel. Qed.
Lemma F2_nil {A B} (R : A -> B -> Prop) l l' : Forall2 R l l' -> (l = [] <-> l' = []).
Proof. intros []; split; intro; auto; discriminate. Qed.
Lemma F2_flat {A B C D} (R : A -> B -> Prop) (Q : C -> D -> Prop) f g l l' : (forall x y, R x y -> Forall2 Q (f x) (g y)) -> Forall2 R l l' ->
  Forall2 Q (flat_map f l) (flat_map g l').
Proof. intros H. induction 1; cbn; [constructor|]. apply Forall2_app; auto. Qed.
Lemma F2_fold {A B C D} (R : A -> B -> Prop) (Q : C -> D -> Prop) f g : (forall a b x y, Q a b -> R x y -> Q (f a x) (g b y)) ->
  forall l l', Forall2 R l l' -> forall a b, Q a b -> Q (fold_left f l a) (fold_left g l' b).
Proof. intros H l l'. induction 1; cbn; auto. Qed.

Section Para.
  Variables (S K : Z -> Z -> Prop).
  Hypothesis HS : forall i i' j j', S i i' -> S j j' -> (i ?= j)%Z = (i' ?= j')%Z.
  Lemma HE : forall i i' j j', S i i' -> S j j' -> (i =? j)%Z = (i' =? j')%Z.
  Proof. intros i i' j j' H H'. rewrite !Z.eqb_compare. now rewrite (HS _ _ _ _ H H'). Qed.
  Lemma oeqb a a' b b' : orel S a a' -> orel S b b' -> optZ_eqb a b = optZ_eqb a' b'.
  Proof. apply (opt_eqb_rel S HE). Qed.

  (** ** Tables *)
  Definition tab {A} (Q : A -> A -> Prop) : list (Z * A) -> list (Z * A) -> Prop := Forall2 (prel S Q).
  Lemma get_rel {A} (Q : A -> A -> Prop) l l' k k' : tab Q l l' -> S k k' -> orel Q (al_get l k) (al_get l' k').
  Proof.
    intros H Hk. induction H as [|[i v] [i' v'] l l' [H1 H2] _ IH]; cbn [al_get]; [constructor|]. cbn in H1, H2.
    rewrite <- (HE _ _ _ _ Hk H1). destruct (k =? i)%Z; [now constructor|exact IH].
  Qed.
  Lemma or_insert_rel {A} (Q : A -> A -> Prop) l l' k k' v v' : tab Q l l' -> S k k' -> Q v v' -> tab Q (al_or_insert l k v) (al_or_insert l' k' v').
  Proof.
    intros H Hk Hv. unfold al_or_insert. destruct (get_rel Q _ _ _ _ H Hk); [|exact H]. apply Forall2_app; [exact H|]. constructor; [now split|constructor].
  Qed.
  Lemma remove_rel {A} (Q : A -> A -> Prop) l l' k k' : tab Q l l' -> S k k' -> tab Q (al_remove l k) (al_remove l' k').
  Proof.
    intros H Hk. induction H as [|[i v] [i' v'] l l' [H1 H2] Hl IH]; cbn [al_remove]; [constructor|]. cbn in H1, H2.
    rewrite <- (HE _ _ _ _ Hk H1). destruct (k =? i)%Z; [exact Hl|]. constructor; [now split|exact IH].
  Qed.

  (** ** Mappings *)
  Record grel (m m' : mapping) : Prop := mk_grel {
    gr_gen : m_gen m = m_gen m'; gr_src : orel S (m_src m) (m_src m'); gr_name : orel S (m_name m) (m_name m'); gr_orig : m_orig m = m_orig m' }.
  Lemma grel_mk g a a' n n' o : orel S a a' -> orel S n n' -> grel (mk_mapping g a n o) (mk_mapping g a' n' o).
  Proof. now constructor. Qed.
  Lemma ocmp_rel a a' b b' : orel S a a' -> orel S b b' -> opt_cmp Z.compare a b = opt_cmp Z.compare a' b'.
  Proof. intros [|x x' Hx] [|y y' Hy]; cbn; auto. Qed.
  Lemma cmp_rel a a' b b' : grel a a' -> grel b b' -> mapping_cmp a b = mapping_cmp a' b'.
  Proof.
    intros [A1 A2 A3 A4] [B1 B2 B3 B4]. unfold mapping_cmp. now rewrite A1, A4, B1, B4, (ocmp_rel _ _ _ _ A2 B2), (ocmp_rel _ _ _ _ A3 B3).
  Qed.
  Record mlrel (a b : mapping_list) : Prop := mk_mlrel {
    mr_list : Forall2 grel (ml_list a) (ml_list b); mr_sorted : ml_sorted a = ml_sorted b; mr_last : orel grel (ml_last a) (ml_last b) }.
  Lemma ml_add_rel a b m m' : mlrel a b -> grel m m' -> mlrel (ml_add a m) (ml_add b m').
  Proof.
    intros [H1 H2 H3] Hm. unfold ml_add.
    assert (E : match ml_last a with Some last => match mapping_cmp m last with Lt => false | _ => true end | None => true end =
                match ml_last b with Some last => match mapping_cmp m' last with Lt => false | _ => true end | None => true end).
    { destruct H3 as [|x y Hx]; [reflexivity|]. now rewrite (cmp_rel _ _ _ _ Hm Hx). }
    rewrite E. assert (L : Forall2 grel (ml_list a ++ [m]) (ml_list b ++ [m'])) by (apply Forall2_app; [exact H1|now apply F2_one]).
    match goal with |- context [if ?z then _ else _] => destruct z end; constructor; cbn; auto. now constructor.
  Qed.
  Lemma ml_sort_rel a b : mlrel a b -> mlrel (ml_sort a) (ml_sort b).
  Proof.
    intros [H1 H2 H3]. unfold ml_sort. rewrite H2. destruct (ml_sorted b) eqn:Eb; [constructor; congruence || assumption|]. constructor; cbn; auto.
    apply isort_rel; [exact cmp_rel|exact H1].
  Qed.

  (** ** Generators *)
  Record genrel (g g' : generator) : Prop := mk_genrel {
    ge_file : orel S (g_file g) (g_file g'); ge_root : g_root g = g_root g'; ge_skip : g_skip g = g_skip g';
    ge_sources : tab eq (g_sources g) (g_sources g'); ge_names : tab eq (g_names g) (g_names g');
    ge_mappings : mlrel (g_mappings g) (g_mappings g'); ge_contents : tab K (g_contents g) (g_contents g') }.
  Lemma new_rel f f' r k : orel S f f' -> genrel (gen_new f r k) (gen_new f' r k).
  Proof. intro H. constructor; cbn; auto; try constructor. all: constructor. Qed.
  Lemma add_source_rel g g' s s' : genrel g g' -> S s s' -> genrel (gen_add_source g s) (gen_add_source g' s').
  Proof.
    intros [H1 H2 H3 H4 H5 H6 H7] Hs. constructor; cbn; auto. apply or_insert_rel; auto. exact (F2_length _ _ _ H4).
  Qed.
  Lemma add_name_rel g g' s s' : genrel g g' -> S s s' -> genrel (gen_add_name g s) (gen_add_name g' s').
  Proof.
    intros [H1 H2 H3 H4 H5 H6 H7] Hs. constructor; cbn; auto. apply or_insert_rel; auto. exact (F2_length _ _ _ H5).
  Qed.
  Lemma set_mappings_rel g g' m m' : genrel g g' -> mlrel m m' -> genrel (gen_set_mappings g m) (gen_set_mappings g' m').
  Proof. intros [H1 H2 H3 H4 H5 H6 H7] Hs. constructor; cbn; auto. Qed.
  Lemma validate_rel m m' : grel m m' -> validate_mapping m = validate_mapping m'.
  Proof. intros [H1 H2 H3 H4]. unfold validate_mapping. rewrite H1, H4. now destruct H2, H3. Qed.
  Lemma add_mapping_rel g g' m m' : genrel g g' -> grel m m' -> orel genrel (gen_add_mapping g m) (gen_add_mapping g' m').
  Proof.
    intros Hg Hm. unfold gen_add_mapping. rewrite (ge_skip _ _ Hg), (validate_rel _ _ Hm). destruct (g_skip g' || validate_mapping m'); [|constructor]. constructor.
    assert (A : genrel (match m_src m with Some s => gen_add_source g s | None => g end) (match m_src m' with Some s => gen_add_source g' s | None => g' end)).
    { destruct (gr_src _ _ Hm); [exact Hg|]. now apply add_source_rel. }
    revert A. generalize (match m_src m with Some s => gen_add_source g s | None => g end) (match m_src m' with Some s => gen_add_source g' s | None => g' end). intros h h' A.
    assert (B : genrel (match m_name m with Some s => gen_add_name h s | None => h end) (match m_name m' with Some s => gen_add_name h' s | None => h' end)).
    { destruct (gr_name _ _ Hm); [exact A|]. now apply add_name_rel. }
    apply set_mappings_rel; [exact B|]. apply ml_add_rel; [apply B|exact Hm].
  Qed.
  Lemma set_content_rel g g' s s' c c' : genrel g g' -> S s s' -> orel K c c' -> genrel (gen_set_source_content g s c) (gen_set_source_content g' s' c').
  Proof.
    intros [H1 H2 H3 H4 H5 H6 H7] Hs [|x y Hx]; constructor; cbn; auto; [now apply remove_rel|now apply or_insert_rel].
  Qed.

  (** ** Writing *)
  Lemma serialize_one_rel ss ss' ns ns' first st m m' : tab eq ss ss' -> tab eq ns ns' -> grel m m' ->
    serialize_one ss ns first st m = serialize_one ss' ns' first st m'.
  Proof.
    intros Hs Hn [H1 H2 H3 H4]. unfold serialize_one. rewrite H1, H4. destruct (se_gen st) as [pl pc]. destruct (m_gen m') as [gl gc].
    match goal with |- bind ?x _ = bind ?x _ => destruct x as [[sep pc1]|]; [|reflexivity] end. cbn [bind]. destruct H2 as [|s s' H2]; [reflexivity|].
    rewrite <- (orel_eq _ _ (get_rel eq _ _ _ _ Hs H2)). destruct (al_get ss s) as [si|]; [|reflexivity]. cbn [bind]. destruct (m_orig m') as [[ol oc]|]; [|reflexivity]. cbn [bind].
    destruct (0 <? ol)%N; [|reflexivity]. destruct H3 as [|n n' H3]; [reflexivity|]. now rewrite <- (orel_eq _ _ (get_rel eq _ _ _ _ Hn H3)).
  Qed.
  Lemma serialize_loop_rel ss ss' ns ns' l l' : tab eq ss ss' -> tab eq ns ns' -> Forall2 grel l l' ->
    forall first st, serialize_loop ss ns first st l = serialize_loop ss' ns' first st l'.
  Proof.
    intros Hs Hn. induction 1 as [|m m' l l' Hm _ IH]; intros first st; [reflexivity|]. cbn [serialize_loop].
    rewrite (serialize_one_rel _ _ _ _ first st _ _ Hs Hn Hm). destruct (serialize_one ss' ns' first st m') as [[st1 b]|]; [|reflexivity]. cbn [bind]. now rewrite IH.
  Qed.
  Lemma serialize_rel g g' : genrel g g' -> orel (prel genrel eq) (serialize_mappings g) (serialize_mappings g').
  Proof.
    intro Hg. unfold serialize_mappings. assert (H : genrel (gen_set_mappings g (ml_sort (g_mappings g))) (gen_set_mappings g' (ml_sort (g_mappings g')))).
    { apply set_mappings_rel; [exact Hg|]. apply ml_sort_rel, Hg. }
    rewrite (serialize_loop_rel _ _ _ _ _ _ (ge_sources _ _ H) (ge_names _ _ H) (mr_list _ _ (ge_mappings _ _ H))).
    apply orel_eq_bind. intros b _. constructor. now split.
  Qed.
  Lemma collect_rel l l' c c' : Forall2 S l l' -> tab K c c' -> Forall2 K (collect_contents l c) (collect_contents l' c').
  Proof.
    intros Hl Hc. induction Hl as [|s s' l l' Hs _ IH]; cbn [collect_contents]; [constructor|]. destruct (get_rel K _ _ _ _ Hc Hs); [exact IH|]. now constructor.
  Qed.
  Record maprel (m m' : source_map) : Prop := mk_maprel {
    ma_sources : Forall2 S (map_sources m) (map_sources m'); ma_contents : Forall2 K (map_contents m) (map_contents m');
    ma_names : Forall2 S (map_names m) (map_names m'); ma_mappings : map_mappings m = map_mappings m' }.
  Lemma keys_rel {A} (Q : A -> A -> Prop) l l' : tab Q l l' -> Forall2 S (map fst l) (map fst l').
  Proof. induction 1 as [|x y l l' [H _] _ IH]; cbn; constructor; auto. Qed.
  Lemma to_map_rel g g' : genrel g g' -> orel (prel genrel maprel) (gen_to_source_map g) (gen_to_source_map g').
  Proof.
    intro Hg. unfold gen_to_source_map. eapply (orel_bind (prel genrel eq)); [now apply serialize_rel|]. intros [h b] [h' b'] [Hh E]. cbn in Hh, E. subst b'.
    constructor. split; [exact Hh|]. pose proof (keys_rel _ _ _ (ge_sources _ _ Hg)) as A. pose proof (keys_rel _ _ _ (ge_names _ _ Hg)) as B.
    constructor; cbn; auto. apply collect_rel; [exact A|apply Hh].
  Qed.

  (** ** Looking up *)
  Lemma bs_rel {A} (R : A -> A -> Prop) f f' l l' : (forall x y, R x y -> f x = f' y) -> Forall2 R l l' -> forall fuel base size,
    bs_loop fuel f l base size = bs_loop fuel f' l' base size.
  Proof.
    intros Hf Hl. induction fuel as [|k IH]; intros base size; [reflexivity|]. cbn [bs_loop]. destruct (size <=? 1); [reflexivity|].
    rewrite IH. f_equal. destruct (F2_nth _ _ _ Hl (base + size / 2)) as [|x y Hx]; [reflexivity|]. now rewrite (Hf _ _ Hx).
  Qed.
  Lemma search_rel {A} (R : A -> A -> Prop) f f' l l' : (forall x y, R x y -> f x = f' y) -> Forall2 R l l' -> binary_search_by f l = binary_search_by f' l'.
  Proof.
    intros Hf Hl. unfold binary_search_by. rewrite (bs_rel R f f' l l' Hf Hl), (F2_length _ _ _ Hl). set (base := bs_loop _ _ _ _ _). clearbody base.
    pose proof (F2_nth _ _ _ Hl base) as N. destruct Hl as [|x y l l' Hx Hl]; [reflexivity|]. destruct N as [|a b Hab]; [reflexivity|]. now rewrite (Hf _ _ Hab).
  Qed.
  Lemma original_rel g g' line col : genrel g g' -> orel (prel genrel grel) (original_position_for g line col) (original_position_for g' line col).
  Proof.
    intro Hg. unfold original_position_for. assert (H : genrel (gen_set_mappings g (ml_sort (g_mappings g))) (gen_set_mappings g' (ml_sort (g_mappings g')))).
    { apply set_mappings_rel; [exact Hg|]. apply ml_sort_rel, Hg. }
    set (h := gen_set_mappings g _) in *. set (h' := gen_set_mappings g' _) in *. pose proof (mr_list _ _ (ge_mappings _ _ H)) as L.
    assert (C : forall x y, grel x y -> pos_cmp (m_gen x) (line, col) = pos_cmp (m_gen y) (line, col)) by (intros x y [E _ _ _]; now rewrite E).
    rewrite (search_rel grel _ _ _ _ C L).
    assert (P : forall i, orel (prel genrel grel)
      (let* m := nth_error (ml_list (g_mappings h)) i in if (fst (m_gen m) =? line)%N then Some (h, m) else Some (h, empty_mapping))
      (let* m := nth_error (ml_list (g_mappings h')) i in if (fst (m_gen m) =? line)%N then Some (h', m) else Some (h', empty_mapping))).
    { intro i. eapply orel_bind; [exact (F2_nth _ _ _ L i)|]. intros x y Hx. rewrite (gr_gen _ _ Hx). destruct (_ =? _)%N; constructor; split; auto. repeat constructor. }
    destruct (binary_search_by _ _) as [i|[|i]]; auto. constructor. split; auto. repeat constructor.
  Qed.
  Lemma apply_loop_rel file file' l l' : orel S file file' -> Forall2 grel l l' -> forall g g', genrel g g' ->
    orel (prel genrel (Forall2 grel)) (apply_loop g file l) (apply_loop g' file' l').
  Proof.
    intros Hf. induction 1 as [|m m' l l' Hm _ IH]; intros g g' Hg; cbn [apply_loop]; [repeat constructor; apply Hg|].
    eapply (orel_bind (prel genrel grel)).
    - rewrite (gr_orig _ _ Hm). destruct (m_orig m') as [[line col]|]; [|constructor; now split].
      rewrite (oeqb _ _ _ _ (gr_src _ _ Hm) Hf). destruct (optZ_eqb (m_src m') file'); [|constructor; now split].
      eapply orel_bind; [now apply original_rel|]. intros [h o] [h' o'] [Hh Ho]. cbn in Hh, Ho. destruct (gr_src _ _ Ho) as [|s s' Hs]; constructor; [now split|]. split; [exact Hh|].
      cbn [snd]. rewrite (gr_gen _ _ Hm), (gr_orig _ _ Ho). apply grel_mk; [now constructor|]. destruct (gr_name _ _ Ho) as [|n n' Hn]; [apply Hm|now constructor].
    - intros [h x] [h' x'] [Hh Hx]. cbn in Hh, Hx. eapply orel_bind; [apply IH, Hh|]. intros [k r] [k' r'] [Hk Hr]. cbn in Hk, Hr. constructor. split; [exact Hk|]. now constructor.
  Qed.
  Lemma opt_list_rel (R : Z -> Z -> Prop) a b : orel R a b -> Forall2 R (opt_list a) (opt_list b).
  Proof. intros []; repeat constructor; auto. Qed.
  Lemma set_sources_rel g g' : genrel g g' -> genrel (gen_set_sources g []) (gen_set_sources g' []).
  Proof. intros [H1 H2 H3 H4 H5 H6 H7]. constructor; cbn; auto. constructor. Qed.
  Lemma set_names_rel g g' : genrel g g' -> genrel (gen_set_names g []) (gen_set_names g' []).
  Proof. intros [H1 H2 H3 H4 H5 H6 H7]. constructor; cbn; auto. constructor. Qed.
  Lemma apply_rel g g' i i' f f' : genrel g g' -> genrel i i' -> orel S f f' ->
    orel (prel genrel genrel) (apply_source_map_generator g i f) (apply_source_map_generator g' i' f').
  Proof.
    intros Hg Hi Hf. unfold apply_source_map_generator. eapply (orel_bind (orel S)).
    { destruct Hf as [|x y Hx]; [|constructor; now constructor]. destruct (ge_file _ _ Hi); constructor. now constructor. }
    intros file file' Hfile. eapply (orel_bind (prel genrel (Forall2 grel))); [apply apply_loop_rel; [exact Hfile|apply Hg|exact Hi]|].
    intros [j l] [j' l'] [Hj Hl]. cbn in Hj, Hl. constructor. split; [|exact Hj]. cbn [fst].
    assert (Fs : Forall2 S (flat_map (fun m => opt_list (m_src m)) l) (flat_map (fun m => opt_list (m_src m)) l')) by (eapply F2_flat; [|exact Hl]; intros x y Hx; apply opt_list_rel, Hx).
    assert (Fn : Forall2 S (flat_map (fun m => opt_list (m_name m)) l) (flat_map (fun m => opt_list (m_name m)) l')) by (eapply F2_flat; [|exact Hl]; intros x y Hx; apply opt_list_rel, Hx).
    eapply (F2_fold (prel S K) genrel); [|apply Hj|].
    { intros a b [s c] [s' c'] Hab [Hs Hc]. apply set_content_rel; auto. now constructor. }
    eapply (F2_fold S genrel); [|exact Fn|]; [intros; now apply add_name_rel|]. apply set_names_rel.
    eapply (F2_fold S genrel); [|exact Fs|]; [intros; now apply add_source_rel|].
    assert (A : genrel (gen_set_mappings g (mk_ml l (ml_sorted (ml_set_unsorted (g_mappings g))) (ml_last (ml_set_unsorted (g_mappings g)))))
                  (gen_set_mappings g' (mk_ml l' (ml_sorted (ml_set_unsorted (g_mappings g'))) (ml_last (ml_set_unsorted (g_mappings g')))))).
    { apply set_mappings_rel; [exact Hg|]. constructor; cbn; auto. constructor. }
    destruct Hl as [|x y l l' Hx Hl]; [exact A|]. apply set_sources_rel, A.
  Qed.

  (** ** Reading *)
  Lemma existsb_rel l l' x x' : Forall2 S l l' -> S x x' -> existsb (Z.eqb x) l = existsb (Z.eqb x') l'.
  Proof. intros H Hx. induction H as [|y y' l l' Hy _ IH]; [reflexivity|]. cbn. now rewrite IH, (HE _ _ _ _ Hx Hy). Qed.
  Lemma dedup_rel l l' : Forall2 S l l' -> forall seen seen', Forall2 S seen seen' -> Forall2 S (dedup seen l) (dedup seen' l').
  Proof.
    induction 1 as [|x x' l l' Hx _ IH]; intros seen seen' Hs; cbn [dedup]; [constructor|]. rewrite (existsb_rel _ _ _ _ Hs Hx).
    destruct (existsb _ _); [now apply IH|]. constructor; [exact Hx|]. apply IH. now constructor.
  Qed.
  Lemma load_sources_rel cd l l' : Forall2 S l l' -> forall c c' g g', Forall2 K c c' -> genrel g g' -> genrel (load_sources cd g l c) (load_sources cd g' l' c').
  Proof.
    induction 1 as [|s s' l l' Hs _ IH]; intros c c' g g' Hc Hg; cbn [load_sources]; [exact Hg|]. apply IH.
    - destruct Hc; [constructor|assumption].
    - apply set_content_rel; [|exact Hs|destruct Hc; now constructor]. destruct cd; [now apply add_source_rel|exact Hg].
  Qed.
  Lemma load_mappings_rel ss ss' ns ns' l : Forall2 S ss ss' -> Forall2 S ns ns' -> forall g g', genrel g g' -> orel genrel (load_mappings g ss ns l) (load_mappings g' ss' ns' l).
  Proof.
    intros Hs Hn. induction l as [|rm l IH]; intros g g' Hg; cbn [load_mappings]; [now constructor|].
    eapply (orel_bind grel).
    - destruct (rm_orig rm) as [[[[si ol] oc] no]|]; [|constructor; apply grel_mk; constructor].
      eapply (orel_bind (orel S)). { destruct no as [ni|]; [|repeat constructor]. eapply orel_bind; [exact (F2_nth _ _ _ Hn _)|]. intros; constructor; now constructor. }
      intros name name' Hnm. eapply orel_bind; [exact (F2_nth _ _ _ Hs _)|]. intros s s' Hss. constructor. apply grel_mk; [now constructor|exact Hnm].
    - intros m m' Hm. eapply orel_bind; [now apply add_mapping_rel|exact IH].
  Qed.
  Lemma from_map_rel ss ss' cs cs' mp ns ns' f f' root cd : Forall2 S ss ss' -> Forall2 K cs cs' -> Forall2 S ns ns' -> orel S f f' ->
    orel genrel (from_source_map ss cs mp ns f root cd) (from_source_map ss' cs' mp ns' f' root cd).
  Proof.
    intros Hs Hc Hn Hf. unfold from_source_map. apply orel_eq_bind. intros l _. apply load_mappings_rel.
    - destruct cd; [|exact Hs]. apply dedup_rel; [exact Hs|constructor].
    - destruct cd; [|exact Hn]. apply dedup_rel; [exact Hn|constructor].
    - apply load_sources_rel; [exact Hs|exact Hc|]. now apply new_rel.
  Qed.

  (** ** Nodes *)
  Inductive nrel : smnode -> smnode -> Prop :=
  | nrel_str s : nrel (SmStr s) (SmStr s)
  | nrel_node p a a' n n' l l' c c' : orel S a a' -> orel S n n' -> Forall2 nrel l l' -> tab K c c' -> nrel (SmNode p a n l c) (SmNode p a' n' l' c').
  Inductive chrel : chunk -> chunk -> Prop :=
  | chrel_node n n' : nrel n n' -> chrel (CNode n) (CNode n')
  | chrel_vec l l' : Forall2 nrel l l' -> chrel (CVec l) (CVec l').
  Lemma add_chunk_rel l l' c c' : Forall2 nrel l l' -> chrel c c' -> Forall2 nrel (add_chunk l c) (add_chunk l' c').
  Proof.
    intros Hl [n n' Hn|v v' Hv]; cbn [add_chunk]; [|now apply Forall2_app].
    pose proof Hn as Hn'. destruct Hn as [[|x s]|p a a' m m' k k' c1 c1' H1 H2 H3 H4]; [exact Hl| |]; (apply Forall2_app; [exact Hl|now apply F2_one]).
  Qed.
  Lemma sn_new_rel p a a' n n' c c' : orel S a a' -> orel S n n' -> orel chrel c c' -> nrel (sn_new p a n c) (sn_new p a' n' c').
  Proof. intros Ha Hn Hc. constructor; auto; [|constructor]. destruct Hc; [constructor|]. apply add_chunk_rel; [constructor|assumption]. Qed.
  Lemma leaf_rel s : chrel (CNode (SmStr s)) (CNode (SmStr s)).
  Proof. repeat constructor. Qed.
  Record cxrel (x y : ctx) : Prop := mk_cxrel {
    cr_map : genrel (cx_map x) (cx_map y); cr_active : cx_active x = cx_active y; cr_src : orel S (cx_last_src x) (cx_last_src y);
    cr_pos : cx_last_pos x = cx_last_pos y; cr_name : orel S (cx_last_name x) (cx_last_name y); cr_code : cx_code x = cx_code y; cr_gen : cx_pos x = cx_pos y }.
  Lemma chunk_loop_rel a a' p n n' len s : orel S a a' -> orel S n n' -> forall b x y, cxrel x y -> orel cxrel (chunk_loop x a p n len b s) (chunk_loop y a' p n' len b s).
  Proof.
    intros Ha Hn. induction s as [|c s IH]; intros b x y Hx; cbn [chunk_loop]; [now constructor|].
    eapply (orel_bind cxrel); [|intros; now apply IH]. pose proof Hx as [H1 H2 H3 H4 H5 H6 H7]. rewrite H7, H2. destruct (N.eqb c NL).
    - destruct (b + 1 =? len); [constructor; constructor; cbn; auto; constructor|]. destruct (cx_active y).
      + eapply orel_bind; [apply add_mapping_rel; [exact H1|apply grel_mk; auto]|]. intros g g' Hg. constructor. constructor; cbn; auto.
      + constructor. constructor; cbn; auto.
    - constructor. constructor; cbn; auto.
  Qed.
  Lemma process_rel x y s a a' p n n' : cxrel x y -> orel S a a' -> orel S n n' -> orel cxrel (process_chunk x s a p n) (process_chunk y s a' p n').
  Proof.
    intros Hx Ha Hn. pose proof Hx as [H1 H2 H3 H4 H5 H6 H7]. unfold process_chunk. eapply (orel_bind cxrel); [|intros; now apply chunk_loop_rel].
    assert (Ia : is_some a = is_some a') by now destruct Ha. rewrite Ia, H2. destruct (is_some a' && is_some p).
    - rewrite (oeqb _ _ _ _ H3 Ha), H4, (oeqb _ _ _ _ H5 Hn), H7. eapply (orel_bind genrel).
      + destruct (_ || _); [apply add_mapping_rel; [exact H1|now apply grel_mk]|now constructor].
      + intros g g' Hg. constructor. constructor; cbn; auto. now rewrite H6.
    - rewrite H7. destruct (cx_active y).
      + eapply orel_bind; [apply add_mapping_rel; [exact H1|apply grel_mk; constructor]|]. intros g g' Hg. constructor. constructor; cbn; auto; [constructor|now rewrite H6].
      + constructor. constructor; cbn; auto. now rewrite H6.
  Qed.
  Lemma contents_rel c c' : tab K c c' -> forall x y, cxrel x y -> cxrel (process_contents x c) (process_contents y c').
  Proof.
    intros Hc x y Hx. unfold process_contents. eapply (F2_fold (prel S K) cxrel); [|exact Hc|exact Hx]. clear x y Hx.
    intros x y [s k] [s' k'] [H1 H2 H3 H4 H5 H6 H7] [Hs Hk]. constructor; cbn [process_source_content cx_map cx_active cx_last_src cx_last_pos cx_last_name cx_code cx_pos]; auto. apply set_content_rel; auto. now constructor.
  Qed.
  Lemma walk_rel n n' : nrel n n' -> forall a a' p b b' x y, orel S a a' -> orel S b b' -> cxrel x y -> orel cxrel (walk_node a p b n x) (walk_node a' p b' n' y).
  Proof.
    revert n n'. fix IH 3. intros n n' [s|q c c' m m' l l' k k' H1 H2 H3 H4] a a' p b b' x y Ha Hb Hx; cbn [walk_node]; [now apply process_rel|].
    eapply (orel_bind cxrel); [|intros; constructor; now apply contents_rel]. clear Ha Hb H4. revert x y Hx.
    induction H3 as [|e e' l l' He _ IHl]; intros x y Hx; [now constructor|]. eapply (orel_bind cxrel); [now apply IH|]. exact IHl.
  Qed.
  Lemma cx0_rel : cxrel (ctx_new None None true) (ctx_new None None true).
  Proof. constructor; cbn; auto; try constructor; cbn; repeat constructor. Qed.
  Lemma to_gen_rel n n' : nrel n n' -> orel (prel eq genrel) (to_string_with_generator n None None) (to_string_with_generator n' None None).
  Proof.
    intro H. unfold to_string_with_generator. eapply (orel_bind cxrel); [apply walk_rel; auto using cx0_rel; constructor|]. intros x y Hx. constructor. split; apply Hx.
  Qed.

  (** ** Maps as nodes *)
  Lemma with_code_rel l l' m m' s : Forall2 nrel l l' -> orel grel m m' -> Forall2 nrel (add_mapping_with_code l m s) (add_mapping_with_code l' m' s).
  Proof.
    intros Hl [|x y Hx]; cbn [add_mapping_with_code]; [apply add_chunk_rel; auto using leaf_rel|]. pose proof (gr_src _ _ Hx) as Hs.
    destruct Hs as [|a b Hab]; [apply add_chunk_rel; auto using leaf_rel|]. apply add_chunk_rel; [exact Hl|]. constructor. rewrite (gr_orig _ _ Hx). apply sn_new_rel; [now constructor|apply Hx|].
    constructor. apply leaf_rel.
  Qed.
  Record fsrel (x y : fs_st) : Prop := mk_fsrel {
    fr_children : Forall2 nrel (fs_children x) (fs_children y); fr_pos : fs_pos x = fs_pos y; fr_last : orel grel (fs_last x) (fs_last y);
    fr_line : fs_line x = fs_line y; fr_iter : fs_iter x = fs_iter y }.
  Lemma skip_rel k : forall x y, fsrel x y -> fsrel (skip_lines k x) (skip_lines k y).
  Proof.
    induction k as [|k IH]; intros x y Hx; [exact Hx|]. cbn [skip_lines]. destruct Hx as [H1 H2 H3 H4 H5]. rewrite H5. destruct (next_of (fs_iter y)) as [nl it]. apply IH.
    constructor; cbn [fs_children fs_pos fs_last fs_line fs_iter]; auto; [|now rewrite H2]. rewrite H4. apply add_chunk_rel; auto using leaf_rel.
  Qed.
  Lemma fs_tail_rel x y m m' : fsrel x y -> grel m m' -> orel fsrel (fs_tail x m) (fs_tail y m').
  Proof.
    intros Hx Hm. unfold fs_tail. rewrite (gr_gen _ _ Hm). destruct (m_gen m') as [gl gc]. rewrite (fr_pos _ _ Hx).
    pose proof (skip_rel (N.to_nat (gl - fst (fs_pos y))) _ _ Hx) as Hs. set (a := skip_lines _ x) in *. set (b := skip_lines _ y) in *. clearbody a b. clear Hx.
    eapply (orel_bind fsrel).
    - pose proof Hs as [H1 H2 H3 H4 H5]. rewrite H2, H4. destruct (snd (fs_pos b) <? gc)%N; [|now constructor]. destruct (fs_line b) as [[txt ex] sbc].
      apply orel_eq_bind. intros [[l r] rf] _. constructor. constructor; cbn [fs_children fs_pos fs_last fs_line fs_iter]; auto. apply add_chunk_rel; auto using leaf_rel.
    - intros u v [H1 H2 H3 H4 H5]. constructor. constructor; cbn [fs_children fs_pos fs_last fs_line fs_iter]; auto. now constructor.
  Qed.
  Lemma fs_step_rel x y m m' : fsrel x y -> grel m m' -> orel fsrel (fs_step x m) (fs_step y m').
  Proof.
    intros Hx Hm. unfold fs_step. rewrite (gr_gen _ _ Hm). destruct (m_gen m') as [gl gc]. pose proof Hx as [H1 H2 H3 H4 H5].
    destruct (fs_last x) as [lx|] eqn:Ex, (fs_last y) as [ly|] eqn:Ey; inversion H3 as [|? ? H3']; subst; [|now apply fs_tail_rel].
    rewrite H4, H2, H5. destruct (fs_line y) as [[txt ex] sbc]. destruct (fst (fs_pos y) <? gl)%N.
    - destruct (next_of (fs_iter y)) as [nl it]. apply fs_tail_rel; [|exact Hm]. constructor; cbn [fs_children fs_pos fs_last fs_line fs_iter]; auto. now apply with_code_rel.
    - apply orel_eq_bind. intros [[l r] rf] _. constructor. constructor; cbn [fs_children fs_pos fs_last fs_line fs_iter]; auto; [now apply with_code_rel|now constructor].
  Qed.
  Lemma fs_loop_rel l l' : Forall2 grel l l' -> forall x y, fsrel x y -> orel fsrel (fs_loop x l) (fs_loop y l').
  Proof. induction 1 as [|m m' l l' Hm _ IH]; intros x y Hx; cbn [fs_loop]; [now constructor|]. eapply orel_bind; [now apply fs_step_rel|exact IH]. Qed.
  Lemma from_string_rel code g g' : genrel g g' -> orel nrel (sm_from_string code g) (sm_from_string code g').
  Proof.
    intro Hg. unfold sm_from_string. apply orel_eq_bind. intros lines _. destruct (next_of lines) as [nl it].
    eapply (orel_bind fsrel); [apply fs_loop_rel; [apply Hg|constructor; cbn [fs_children fs_pos fs_last fs_line fs_iter]; auto; constructor]|]. intros x y [H1 H2 H3 H4 H5]. constructor. constructor; [constructor|constructor| |apply Hg].
    rewrite H4, H5. destruct (snd (fst (fs_line y))); [|exact H1].
    destruct (fs_last x) as [lx|] eqn:Ex, (fs_last y) as [ly|] eqn:Ey; inversion H3 as [|? ? H3']; subst.
    - destruct (next_of (fs_iter y)) as [nl2 it2]. apply add_chunk_rel; auto using leaf_rel. now apply with_code_rel.
    - apply add_chunk_rel; auto using leaf_rel.
  Qed.
End Para.
