(** Statements about generators, for histories of API calls. *)
From Verif Require Import Base Tactics ModelString StringFacts ModelVlq ModelSm SpecMap
  SortFacts VlqFacts MapFacts ParseFacts GenFacts LoadFacts.
From Verif Require Export SpecQuery.

Lemma sorted_places l : msorted l ->
  StronglySorted (fun a b => place_le (fst a) (fst b)) (map view l).
Proof.
  induction 1 as [|x l Hs IH Hx]; cbn [map]; constructor; auto.
  rewrite Forall_map. eapply Forall_impl; [|exact Hx]. intros y Hy.
  apply mapping_cle_gen in Hy. rewrite pos_cmp_N in Hy. unfold place_le. cbn. lia.
Qed.

Lemma history_wf1 file root skip h g : history file root skip h g -> Forall plain h ->
  gen_wf1 g /\ Permutation (ml_list (g_mappings g)) (added h).
Proof.
  intros [H1 H2] P. destruct (grun_wf1 h _ _ (gen_new_wf1 file root skip) P H2 H1). auto.
Qed.
Lemma history_wf file root skip h g : history file root skip h g -> orderly false h -> gen_wf g.
Proof.
  intros [H1 H2] P. eapply (grun_wf h false); eauto.
  - intros _. apply gen_new_wf1.
  - apply gen_new_wf1.
Qed.

Lemma mappings_string file root skip h g : history file root skip h g -> Forall plain h ->
  exists g' m es, gen_to_source_map g = Some (g', m) /\
    read_map (map_sources m) (map_names m) (map_mappings m) = Some es /\
    Permutation es (map view (added h)) /\
    StronglySorted (fun a b => place_le (fst a) (fst b)) es.
Proof.
  intros H P. destruct (history_wf1 _ _ _ _ _ H P) as [[W _] Pm].
  destruct (to_source_map_spec g W) as (g' & m & E & _ & _ & _ & _ & _ & _ & R).
  exists g', m, (map view (isort mapping_cmp (ml_list (g_mappings g)))).
  repeat split; auto.
  - apply Permutation_map. rewrite <- Pm. symmetry. apply isort_perm.
  - apply sorted_places. apply isort_sorted; eauto.
Qed.

Lemma mappings_string_apply file root skip h g : history file root skip h g -> orderly false h ->
  exists g' m es, gen_to_source_map g = Some (g', m) /\
    read_map (map_sources m) (map_names m) (map_mappings m) = Some es /\
    Permutation es (map view (ml_list (g_mappings g))) /\
    StronglySorted (fun a b => place_le (fst a) (fst b)) es.
Proof.
  intros H P. pose proof (history_wf _ _ _ _ _ H P) as W.
  destruct (to_source_map_spec g W) as (g' & m & E & _ & _ & _ & _ & _ & _ & R).
  exists g', m, (map view (isort mapping_cmp (ml_list (g_mappings g)))).
  repeat split; auto.
  - apply Permutation_map. symmetry. apply isort_perm.
  - apply sorted_places. apply isort_sorted; eauto.
Qed.

Lemma closest_perm l l' line column m : Permutation l l' -> closest l line column m -> closest l' line column m.
Proof.
  intros P [(A & B & C & D)|(A & B)]; [left|right].
  - repeat split; auto; [eapply Permutation_in; eauto|]. intros m' Hm. apply D.
    eapply Permutation_in; [symmetry; exact P|auto].
  - split; auto. intros m' Hm. apply B. eapply Permutation_in; [symmetry; exact P|auto].
Qed.

Lemma query_closest g line column : ml_ok (g_mappings g) ->
  exists g' m, original_position_for g line column = Some (g', m) /\
    closest (ml_list (g_mappings g)) line column m.
Proof.
  intro Hok. set (l := isort mapping_cmp (ml_list (g_mappings g))).
  assert (Pl : Permutation l (ml_list (g_mappings g))) by (symmetry; apply isort_perm).
  pose proof (find_entry_max (map view l) (Z.of_N line) (Z.of_N column)) as Hmax.
  destruct (original_position_entry g line column Hok) as [(m & E & Hin & Hf)|[E Hf]]; fold l in Hf;
    rewrite Hf in Hmax; eexists _, _; (split; [exact E|]); apply (closest_perm l); auto.
  - left. apply find_entry_in in Hf as (_ & Hl & Hc). cbn in Hl, Hc. repeat split; auto; try lia.
    intros m' Hm' El Ec. specialize (Hmax (view m') (in_map view _ _ Hm')). cbn in Hmax. lia.
  - right. split; auto. intros m' Hm' El. specialize (Hmax (view m') (in_map view _ _ Hm')). cbn in Hmax. lia.
Qed.

Lemma order_independent f1 r1 s1 h1 g1 f2 r2 s2 h2 g2 :
  history f1 r1 s1 h1 g1 -> history f2 r2 s2 h2 g2 -> Forall plain h1 -> Forall plain h2 ->
  Permutation (added h1) (added h2) ->
  emitted g1 = emitted g2 /\ (forall line column, answer g1 line column = answer g2 line column).
Proof.
  intros H1 H2 P1 P2 Pm.
  destruct (history_wf1 _ _ _ _ _ H1 P1) as [[W1 _] Q1].
  destruct (history_wf1 _ _ _ _ _ H2 P2) as [[W2 _] Q2].
  assert (El : isort mapping_cmp (ml_list (g_mappings g1)) = isort mapping_cmp (ml_list (g_mappings g2))).
  { apply isort_unique; eauto. rewrite Q1, Q2. exact Pm. }
  assert (O1 : ml_ok (g_mappings g1)) by apply W1.
  assert (O2 : ml_ok (g_mappings g2)) by apply W2.
  split.
  - unfold emitted.
    destruct (to_source_map_spec g1 W1) as (g1' & m1 & -> & _ & _ & _ & _ & _ & _ & R1).
    destruct (to_source_map_spec g2 W2) as (g2' & m2 & -> & _ & _ & _ & _ & _ & _ & R2).
    cbn [bind]. rewrite R1, R2, El. reflexivity.
  - intros line column. unfold answer, original_position_for.
    cbn [g_mappings gen_set_mappings]. rewrite !ml_sort_isort by auto. rewrite El.
    destruct (binary_search_by _ _) as [i|[|i]]; auto;
      destruct (nth_error _ i); cbn [bind]; auto;
      destruct (fst (m_gen m) =? line)%N; reflexivity.
Qed.

(** C26 *)
Lemma tables file root skip h g : history file root skip h g -> orderly false h ->
  exists g' m, gen_to_source_map g = Some (g', m) /\
    NoDup (map_sources m) /\ NoDup (map_names m) /\
    forall x, In x (ml_list (g_mappings g)) ->
      (forall s, m_src x = Some s -> In s (map_sources m)) /\
      (forall n, m_name x = Some n -> In n (map_names m)).
Proof.
  intros H P. pose proof (history_wf _ _ _ _ _ H P) as W.
  destruct (to_source_map_spec g W) as (g' & m & E & _ & Es & En & _).
  destruct W as (W1 & W2 & W3 & _). exists g', m. rewrite Es, En.
  repeat split; auto; try apply W1; try apply W2; rewrite Forall_forall in W3; apply W3; auto.
Qed.

Lemma tables_order file root skip h g : history file root skip h g -> Forall plain h ->
  exists g' m, gen_to_source_map g = Some (g', m) /\
    map_sources m = firsts (srcs (added h)) /\ map_names m = firsts (nams (added h)).
Proof.
  intros H P. destruct (history_wf1 _ _ _ _ _ H P) as [[W _] _].
  destruct (to_source_map_spec g W) as (g' & m & E & _ & Es & En & _).
  exists g', m. rewrite Es, En.
  destruct (grun_tables h (gen_new file root skip) g [] [] P eq_refl eq_refl (proj1 H)) as [A B]. auto.
Qed.

(** C27 *)
Lemma contents_aligned g g' m : gen_to_source_map g = Some (g', m) ->
  (forall s, In s (map_sources m) -> exists c, al_get (g_contents g) s = Some c) ->
  length (map_contents m) = length (map_sources m) /\
  forall i s, nth_error (map_sources m) i = Some s ->
    nth_error (map_contents m) i = al_get (g_contents g) s.
Proof.
  unfold gen_to_source_map, serialize_mappings. intro H. cbv zeta in H. unbind H.
  destruct v as [g1 b]. unbind E. injection E as <- <-. injection H as <- <-.
  cbn [map_sources map_contents g_contents gen_set_mappings].
  generalize (map fst (g_sources g)). intros ss Hall.
  pose proof (collect_contents_spec ss (g_contents g) Hall) as Hc. split.
  - apply (f_equal (@length _)) in Hc. now rewrite !map_length in Hc.
  - intros i s Hi. apply (f_equal (fun l => nth_error l i)) in Hc.
    rewrite !nth_error_map, Hi in Hc. cbn in Hc.
    destruct (nth_error (collect_contents _ _) i); cbn in Hc; congruence.
Qed.

(** C28 *)
Lemma roundtrip file root skip h g check : history file root skip h g -> orderly false h -> gen_fits g ->
  exists g1 m g2,
    gen_to_source_map g = Some (g1, m) /\
    from_source_map (map_sources m) (map_contents m) (map_mappings m) (map_names m)
      (map_file m) (map_root m) check = Some g2 /\
    Permutation (ml_list (g_mappings g2)) (ml_list (g_mappings g)) /\
    emitted g2 = emitted g /\
    (forall line column, answer g2 line column = answer g line column) /\
    g_file g2 = g_file g /\ g_root g2 = g_root g /\
    (check = true -> map fst (g_sources g2) = map fst (g_sources g)) /\
    ((forall s, In s (map fst (g_sources g)) -> exists c, al_get (g_contents g) s = Some c) ->
     forall s, In s (map fst (g_sources g)) -> al_get (g_contents g2) s = al_get (g_contents g) s).
Proof.
  intros H P F. pose proof (history_wf _ _ _ _ _ H P) as W.
  destruct (roundtrip_spec g check W F) as (g1 & m & g2 & E1 & E2 & W2 & Pm & Ef & Er & Es & Ec).
  exists g1, m, g2. repeat split; auto.
  - unfold emitted.
    destruct (to_source_map_spec g W) as (g1' & m1 & -> & _ & _ & _ & _ & _ & _ & R1).
    destruct (to_source_map_spec g2 (proj1 W2)) as (g2' & m2 & -> & _ & _ & _ & _ & _ & _ & R2).
    cbn [bind]. rewrite R1, R2. do 2 f_equal. apply isort_unique; eauto.
  - intros line column. unfold answer, original_position_for.
    assert (O1 : ml_ok (g_mappings g)) by apply W.
    assert (O2 : ml_ok (g_mappings g2)) by apply W2.
    cbn [g_mappings gen_set_mappings]. rewrite !ml_sort_isort by auto.
    rewrite (isort_unique mapping_cmp mapping_sym mapping_trans _ _ (fun x y _ _ => mapping_eq x y) Pm).
    destruct (binary_search_by _ _) as [i|[|i]]; auto;
      destruct (nth_error _ i); cbn [bind]; auto;
      destruct (fst (m_gen m0) =? line)%N; reflexivity.
Qed.

(** C29 *)
Lemma index_resolution sources contents mappings names file root check segs es :
  (check = true -> NoDup sources /\ NoDup names) ->
  decode mappings = Some segs -> Forall small segs ->
  all_some (map (resolve sources names) segs) = Some es ->
  exists g, from_source_map sources contents mappings names file root check = Some g /\
    Permutation (map view (ml_list (g_mappings g))) es /\
    (NoDup sources -> forall i s, nth_error sources i = Some s ->
       al_get (g_contents g) s = nth_error contents i).
Proof.
  intros Hn Hd Hs Hr.
  destruct (from_source_map_spec sources contents mappings names file root check segs es Hn Hd Hs Hr)
    as (g & A & B & C & _ & _ & _ & _ & _ & D). eauto.
Qed.

(** C26 for every history, also those that add mappings after applying a generator *)
Definition gen_tab (g : generator) : Prop :=
  tbl_ok (g_sources g) /\ tbl_ok (g_names g) /\ Forall (mapping_ok g) (ml_list (g_mappings g)).

Lemma gen_tab_sort g : gen_tab g -> gen_tab (gen_set_mappings g (ml_sort (g_mappings g))).
Proof.
  intros (A & B & C). split; [exact A|]. split; [exact B|].
  cbn. eapply Permutation_Forall; [apply ml_sort_perm|]. exact C.
Qed.
(** [gen_wf] of the same generator marked unsorted. *)
Lemma gen_tab_unsorted g : gen_tab g -> gen_wf (gen_set_mappings g (ml_set_unsorted (g_mappings g))).
Proof. intros (A & B & C). split; [exact A|]. split; [exact B|]. split; [exact C|]. discriminate. Qed.
Lemma apply_unsorted g i f :
  apply_source_map_generator (gen_set_mappings g (ml_set_unsorted (g_mappings g))) i f =
  apply_source_map_generator g i f.
Proof. reflexivity. Qed.

Lemma gstep_tab g o g' : gen_tab g -> op_ok o -> gstep g o = Some g' -> gen_tab g'.
Proof.
  intros W O E. destruct o as [m|ln c| |s c|inner f]; cbn [gstep] in E.
  - cbn in O. destruct W as (A & B & C). rewrite gen_add_mapping_eq in E by auto. injection E as <-.
    repeat split.
    1-2: destruct (m_src m), (m_name m); cbn; try apply tbl_ok_add; try apply A; auto.
    1-2: destruct (m_src m), (m_name m); cbn; try apply tbl_ok_add; try apply B; auto.
    cbn [g_mappings gen_set_mappings]. rewrite ml_add_list. apply Forall_app. split.
    + eapply Forall_impl; [|exact C]. intros x. apply mapping_ok_mono;
      destruct (m_src m), (m_name m); cbn; auto; intros y Hy; apply al_or_insert_keys; auto.
    + repeat constructor; auto.
      * intros s Hs. rewrite Hs. destruct (m_name m); cbn; apply al_or_insert_keys; auto.
      * intros n Hn. rewrite Hn. destruct (m_src m); cbn; apply al_or_insert_keys; auto.
  - unbind E. destruct v as [g1 m1]. injection E as <-. unfold original_position_for in E0.
    assert (Eg : g1 = gen_set_mappings g (ml_sort (g_mappings g))).
    { repeat (case_match_in E0; try discriminate); try (unbind E0; case_match_in E0);
        injection E0 as <- <-; auto. }
    rewrite Eg. now apply gen_tab_sort.
  - unbind E. destruct v as [g1 m1]. injection E as <-.
    unfold gen_to_source_map, serialize_mappings in E0. cbv zeta in E0. unbind E0. destruct v as [g2 b].
    unbind E. injection E as <- <-. injection E0 as <- <-. now apply gen_tab_sort.
  - injection E as <-. destruct c; exact W.
  - unbind E. destruct v as [g1 i1]. injection E as <-. rewrite <- apply_unsorted in E0.
    destruct (apply_wf _ _ _ _ _ (gen_tab_unsorted g W) O E0) as ((A & B & C & _) & _).
    split; [exact A|]. split; [exact B|exact C].
Qed.

Lemma grun_tab h : forall g g', gen_tab g -> Forall op_ok h -> grun g h = Some g' -> gen_tab g'.
Proof.
  induction h as [|o h IH]; intros g g' W O E; cbn [grun] in E; [injection E as <-; auto|].
  unbind E. inv O. apply (IH v g'); auto. eapply gstep_tab; eauto.
Qed.

Lemma to_source_map_tables g g' m : gen_to_source_map g = Some (g', m) ->
  map_sources m = map fst (g_sources g) /\ map_names m = map fst (g_names g).
Proof.
  unfold gen_to_source_map, serialize_mappings. intro H. cbv zeta in H. unbind H.
  destruct v as [g1 b]. injection H as <- <-. auto.
Qed.

Lemma tables_all file root skip h g g' m : history file root skip h g ->
  gen_to_source_map g = Some (g', m) ->
    NoDup (map_sources m) /\ NoDup (map_names m) /\
    forall x, In x (ml_list (g_mappings g)) ->
      (forall s, m_src x = Some s -> In s (map_sources m)) /\
      (forall n, m_name x = Some n -> In n (map_names m)).
Proof.
  intros [H O] E. destruct (to_source_map_tables _ _ _ E) as [Es En].
  assert (W0 : gen_tab (gen_new file root skip)) by (repeat split; try apply tbl_ok_nil; constructor).
  destruct (grun_tab h _ _ W0 O H) as (A & B & C).
  rewrite Es, En. repeat split; try apply A; try apply B; rewrite Forall_forall in C; apply C; auto.
Qed.

Lemma tables_order_apply g inner file g1 inner' h g2 g3 m :
  apply_source_map_generator g inner file = Some (g1, inner') -> ml_list (g_mappings g1) <> [] ->
  Forall plain h -> grun g1 h = Some g2 -> gen_to_source_map g2 = Some (g3, m) ->
  map_sources m = firsts (srcs (ml_list (g_mappings g1) ++ added h)) /\
  map_names m = firsts (nams (ml_list (g_mappings g1) ++ added h)).
Proof.
  intros H Hne P Hr E. destruct (apply_tables _ _ _ _ _ H Hne) as [A B].
  destruct (grun_tables h g1 g2 _ _ P A B Hr) as [C D].
  destruct (to_source_map_tables _ _ _ E) as [-> ->]. unfold srcs, nams in *.
  rewrite !flat_map_app. auto.
Qed.
