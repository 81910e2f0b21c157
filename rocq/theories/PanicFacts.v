(** No panics: totality of the class methods and of reads over built graphs. *)
From Verif Require Import Base Tactics ModelString StringFacts ModelVlq ModelSm ModelSlm ModelSources ModelTree ModelHeap
  SortFacts SpecText TextFacts EditFacts TreeText SpecMap VlqFacts MapFacts ParseFacts GenFacts LoadFacts
  SpecAttr SpecEdit NodeFacts LeafFacts ReplaceNode SmsNode SmsProps NodeTree
  SpecList SlmFacts SlmMap SlmRead SlmReplace SlmTree SpecHeap HeapFacts HeapGraph HeapProps SpecBuilt.
Require Import Relations.

(** ** SourceMapSource *)
Definition sound_cell (c : sm_cell) : Prop :=
  match ce_gen c with
  | Some g => gen_wf g /\ forall d, ce_data c = Some d -> well_formed (sc_mappings d)
  | None => exists d, ce_data c = Some d /\ fine_map d
  end.
Definition sound (x : sms) : Prop :=
  sound_cell (sms_map x) /\ match sms_inner x with Some c => sound_cell c | None => True end.

Lemma fine_well d : fine_map d -> well_formed (sc_mappings d).
Proof. intros (_ & _ & (segs & D & _) & _). eapply decode_numbers; eauto. Qed.

Lemma sound_generator c : sound_cell c ->
  exists g, cell_get_generator c = Some (mk_cell (ce_data c) (Some g), g) /\ gen_wf g /\
    forall d, ce_data c = Some d -> well_formed (sc_mappings d).
Proof.
  unfold sound_cell, cell_get_generator. destruct c as [d [g|]]; cbn [ce_gen ce_data].
  - intros [W H]. exists g. auto.
  - intros (d0 & -> & F). pose proof (fine_well _ F) as Wd. destruct F as (N1 & N2 & (segs & D & S) & (es & R)).
    unfold read_map in R. rewrite D in R. cbn [bind] in R.
    destruct (from_source_map_spec (sc_sources d0) (sc_contents d0) (sc_mappings d0) (sc_names d0) None None true segs es
                (fun _ => conj N1 N2) D S R) as (g & E & (W & _) & _).
    cbn [bind]. rewrite E. cbn [bind]. exists g. split; [reflexivity|]. split; [exact W|].
    intros d Hd. injection Hd as <-. exact Wd.
Qed.
Lemma sound_data c : sound_cell c ->
  exists c' d, cell_get_data c = Some (c', d) /\ sound_cell c' /\ well_formed (sc_mappings d).
Proof.
  unfold sound_cell, cell_get_data. destruct c as [[d|] [g|]]; cbn [ce_gen ce_data].
  - intros [W H]. exists (mk_cell (Some d) (Some g)), d. cbn. auto.
  - intros (d0 & E & F). injection E as <-. exists (mk_cell (Some d) None), d.
    split; [reflexivity|]. split; [eexists; split; [reflexivity|exact F]|]. now apply fine_well.
  - intros [W _]. destruct (to_source_map_spec g W) as (g' & m & E & -> & _ & _ & _ & _ & _ & R).
    cbn [bind]. rewrite E. cbn [bind]. eexists _, _. split; [reflexivity|]. cbn.
    unfold read_map in R. unbind R. apply decode_numbers in E0.
    split; [|exact E0]. split; [now apply gen_wf_sort|]. intros d Hd. injection Hd as <-. exact E0.
  - intros (d0 & E & _). discriminate.
Qed.

Definition good_node (n : smnode) : Prop := is_node n /\ nlined n.
Definition good_lines (m : slm) : Prop := Forall node_ok m.

Lemma gen_node v g : gen_wf g -> exists n, sm_from_string v g = Some n /\ good_node n.
Proof.
  intros (_ & _ & W & _).
  assert (V : Forall valid (ml_list (g_mappings g))) by (eapply Forall_impl; [|exact W]; intros m Hm; apply Hm).
  destruct (from_string_solid v g V) as (ch & E & S & _). eexists. split; [exact E|]. split; [exact I|].
  unfold nlined. rewrite leaves_root. eapply Forall_impl; [apply solid_lined|exact S].
Qed.

Lemma apply_inner_wf g inner file g' inner' : gen_wf g -> gen_wf inner ->
  apply_source_map_generator g inner (Some file) = Some (g', inner') -> gen_wf inner'.
Proof.
  intros Wg Wi E.
  assert (V : Forall valid (ml_list (ml_set_unsorted (g_mappings g)))).
  { destruct Wg as (_ & _ & W & _). eapply Forall_impl; [|exact W]. intros m Hm. apply Hm. }
  destruct (apply_loop_views _ inner file Wi V) as (in1 & l & El & _ & Hin).
  unfold apply_source_map_generator in E. cbn [bind] in E. rewrite El in E. cbn [bind] in E.
  injection E as _ <-. destruct Hin as [-> | ->]; [exact Wi|now apply gen_wf_sort].
Qed.

Theorem sound_node x : sound x -> exists x' n, sms_node x = Some (x', n) /\ sound x' /\ good_node n.
Proof.
  destruct x as [v vi name c orig inner applied]. intros [H1 H2]. cbn [sms_map sms_inner] in *.
  destruct (sound_generator c H1) as (g & E & W & Wd).
  unfold sms_node. cbn [sms_map sms_inner sms_value sms_original sms_name sms_value_idx sms_applied]. rewrite E. cbn [bind].
  match goal with |- context [bind ?M _] =>
    assert (G : exists g1 in1 ap, M = Some (g1, in1, ap) /\ gen_wf g1 /\
                  match in1 with Some c => sound_cell c | None => True end) end.
  { destruct inner as [ic|]; [|eexists _, _, _; split; [reflexivity|split; [exact W|exact I]]].
    destruct (sound_generator ic H2) as (ig & Ei & Wi & Wdi). rewrite Ei. cbn [bind].
    set (g0 := match orig with Some o => gen_set_source_content g name (Some o) | None => g end).
    assert (W0 : gen_wf g0) by (unfold g0; destruct orig; [now apply content_wf0|exact W]). clearbody g0.
    destruct applied; cbn [negb].
    - eexists _, _, _. split; [reflexivity|]. split; [exact W0|]. cbn. auto.
    - destruct (apply_views g0 ig name W0 Wi) as (g' & ig' & Ea & W' & _). rewrite Ea. cbn [bind ce_data].
      eexists _, _, _. split; [reflexivity|]. split; [exact W'|]. cbn. split; [|exact Wdi].
      exact (apply_inner_wf _ _ _ _ _ W0 Wi Ea). }
  destruct G as (g1 & in1 & ap & -> & W1 & S1). cbn [bind].
  destruct (gen_node v g1 W1) as (n & En & Gn). rewrite En. cbn [bind]. eexists _, n. split; [reflexivity|].
  split; [|exact Gn]. split; [|exact S1]. cbn. auto.
Qed.

Theorem sound_lines x m : sound x -> exists x' l, sms_list_map x m = Some (x', l) /\ sound x' /\ good_lines l.
Proof.
  intros H. unfold sms_list_map. destruct m; cbn [negb].
  - destruct H as [H1 H2]. destruct (sound_data _ H1) as (c' & d & E & S & Wf). rewrite E. cbn [bind].
    destruct (reader_text (sc_sources d) (sc_contents d) (sms_value x) (sc_mappings d) Wf) as (lm & El & O & _).
    rewrite El. cbn [bind]. eexists _, lm. split; [reflexivity|]. split; [|exact O]. split; [exact S|exact H2].
  - cbn [slm_new slm_add is_some bind]. eexists _, _. split; [reflexivity|]. split; [exact H|].
    destruct (one_source_ok (sms_name x) (Some (sms_value_idx x)) (sms_value x)) as (O & _). exact O.
Qed.

(** ** Methods that cannot fail *)
Record safe {A} (a : alg A) (Q : A -> Prop) : Prop := mk_safe {
  s_raw : forall v, exists y, a_raw a v = Some y /\ Q y;
  s_original : forall v vi n, exists y, a_original a v vi n = Some y /\ Q y;
  s_l2l : forall v n o, exists y, a_l2l a v n o = Some y /\ Q y;
  s_prefix : forall p x, Q x -> exists y, a_prefix a p x = Some y /\ Q y;
  s_replace : forall rs x, Q x -> exists y, a_replace a rs x = Some y /\ Q y;
  s_concat : forall l, Forall (fun y => match y with inl _ => True | inr v => Q v end) l ->
    exists y, a_concat a l = Some y /\ Q y;
  s_sms : forall x, sound x -> exists x' y, a_sms a x = Some (x', y) /\ sound x' /\ Q y }.

Theorem safe_node c m : safe (node_alg c m) good_node.
Proof.
  constructor; cbn [node_alg a_raw a_original a_l2l a_prefix a_replace a_concat a_sms].
  - intro v. eexists. split; [reflexivity|]. split; [exact I|]. unfold nlined. cbn. destruct v; repeat constructor.
  - intros v i n. destruct (original_node_text c v i n) as (nd & E & S & _). exists nd. split; [exact E|].
    split; [unfold original_node in E; unbind E; unbind E; injection E as <-; exact I|].
    eapply Forall_impl; [apply solid_lined|exact S].
  - intros v n o. destruct (l2l_node_spec v n o) as (nd & E & _ & S). exists nd. split; [exact E|].
    split; [unfold l2l_node in E; unbind E; injection E as <-; exact I|].
    eapply Forall_impl; [apply solid_lined|exact S].
  - intros p nd [Hn Hl]. destruct nd as [|po sr nm ch ct]; [destruct Hn|].
    destruct (prefix_node_leaves p po sr nm ch ct) as (n' & E' & L'). exists n'. split; [exact E'|].
    split; [unfold prefix_node in E'; unbind E'; destruct v as [z nd]; injection E' as <-; exact I|].
    unfold nlined. rewrite L'. clear -Hl. unfold nlined in Hl. generalize true as st.
    induction Hl as [|x l Hx _ IH]; intro st; [constructor|]. cbn [pre_leaves].
    specialize (IH (ends_with NL (leaf_text x))). destruct (pre_leaves p (ends_with NL (leaf_text x)) l).
    constructor; auto. destruct x as [[[s src] pos] name]. exact Hx.
  - intros rs n [Hn Hl]. destruct (replace_node_text rs n Hn) as (n' & E' & In & _). exists n'. split; [exact E'|].
    split; [exact In|]. eapply replace_node_lined; eauto.
  - intros l H. eexists. split; [reflexivity|]. split; [exact I|]. unfold nlined.
    change (Forall lined (leaves (concat_node l))). rewrite concat_leaves.
    induction H as [|y l Hy _ IH]; cbn [flat_map]; [constructor|]. apply Forall_app. split; [|exact IH].
    destruct y; [repeat constructor|apply Hy].
  - exact sound_node.
Qed.

Theorem safe_lines c m : safe (list_map_alg c m) good_lines.
Proof.
  constructor; cbn [list_map_alg a_raw a_original a_l2l a_prefix a_replace a_concat a_sms].
  - intro v. eexists. split; [reflexivity|]. repeat constructor.
  - intros v i n. destruct (one_source_ok n (Some i) v) as (O & _). eexists. split; [reflexivity|exact O].
  - intros v n o. destruct (one_source_ok n (Some o) v) as (O & _). eexists. split; [reflexivity|exact O].
  - intros p x H. destruct (prefix_list_map_spec p x H) as (lm & E & O & _). eauto.
  - intros rs x H. exact (replace_list_map_total rs x H).
  - intros l H. destruct (concat_list_map_spec l [] H (Forall_nil _)) as (lm & E & O & _). exists lm. auto.
  - intros x H. apply sound_lines. exact H.
Qed.

(** ** Graphs *)
Definition fine_obj (o : obj) : Prop :=
  match o with
  | OPrefix _ s | OReplace s _ => match s with SRef _ => True | SStr _ => False end
  | OSms x => sound x
  | _ => True
  end.
Definition fine (h : heap) : Prop := closed h /\ forall i o, nth_error h i = Some o -> fine_obj o.
Definition stays (_ y : sms) : Prop := sound y.
Notation all := (fun _ : nat => True).

Lemma fine_later h : fine h -> later stays all h h.
Proof.
  intros [_ F] i _. destruct (nth_error h i) as [o|] eqn:E; [|exact I]. specialize (F i o E).
  destruct o; cbn; auto.
Qed.
Lemma later_fine h0 h : fine h0 -> later stays all h0 h -> fine h.
Proof.
  intros [C F] L. split.
  - intros i j (o & E & Hin). destruct (later_items _ _ _ _ _ L E) as (o0 & E0 & _ & Ei).
    assert (Hj : j < length h0) by (apply (C i j); exists o0; rewrite Ei; auto).
    specialize (L j I). apply nth_error_Some in Hj. destruct (nth_error h0 j); [|congruence].
    apply nth_error_Some. destruct (nth_error h j); [discriminate|contradiction].
  - intros i o E. destruct (later_items _ _ _ _ _ L E) as (o0 & E0 & Lo & Ei). specialize (F _ _ E0).
    destruct o0; cbn in Lo; try (subst; exact F); destruct o; try contradiction; cbn in *.
    + injection Ei as <-. exact F.
    + exact Lo.
Qed.

Section Safe.
  Context {A : Type} (a : alg A) (Q : A -> Prop) (Sa : safe a Q) (h0 : heap) (F0 : fine h0).
  Definition fares (r : res (heap * A)) : Prop :=
    r = NoFuel \/ exists h' v, r = Val (h', v) /\ later stays all h0 h' /\ Q v.

  Lemma fares_one h i o' (y : option A) : later stays all h0 h -> (exists v, y = Some v /\ Q v) ->
    (match nth_error h0 i with Some o0 => later_obj stays o0 o' | None => False end) -> i < length h ->
    fares (do* y := lift y in Val (h_set h i o', y)).
  Proof.
    intros L (v & -> & Hv) Ho Hi. right. cbn. eexists _, _. split; [reflexivity|]. split; [|exact Hv].
    apply later_set'; auto.
  Qed.
  Lemma fares_same h (y : option A) : later stays all h0 h -> (exists v, y = Some v /\ Q v) ->
    fares (do* y := lift y in Val (h, y)).
  Proof. intros L (v & -> & Hv). right. cbn. eexists _, _. split; [reflexivity|]. auto. Qed.

  Lemma safe_eval : forall f busy h i, later stays all h0 h -> i < length h0 -> ~ cyclic h0 i ->
    (forall b, In b busy -> clos_trans nat (edge h0) b i) -> fares (h_eval a f busy h (SRef i)).
  Proof.
    destruct F0 as [C F].
    induction f as [|f IH]; intros busy h i L Hi Ac B; [left; reflexivity|].
    rewrite h_eval_ref.
    destruct (is_busy busy i) eqn:Eb.
    { apply is_busy_In in Eb. destruct Ac. exists i. split; [apply rt_refl|]. exact (B i Eb). }
    pose proof (L i I) as Li. apply nth_error_Some in Hi. destruct (nth_error h0 i) as [o0|] eqn:E0; [|congruence].
    destruct (nth_error h i) as [o|] eqn:Ei; [|contradiction]. cbn [lift rbind].
    assert (Hil : i < length h) by (apply nth_error_Some; congruence).
    assert (Down : forall j, In (SRef j) (items o0) -> j < length h0 /\ ~ cyclic h0 j /\
        forall b, In b (i :: busy) -> clos_trans nat (edge h0) b j).
    { intros j Hj. assert (Ej : edge h0 i j) by (exists o0; auto). split; [exact (C i j Ej)|].
      split; [eapply acyclic_item; eauto|]. intros b [<-|Hb]; [now apply t_step|].
      eapply t_trans; [exact (B b Hb)|now apply t_step]. }
    pose proof (F i o0 E0) as Fo.
    destruct o0 as [w|w wi n|w n og|p s|s st|l|x]; cbn [later_obj] in Li.
    - subst o. apply fares_same; [exact L|apply (s_raw a Q Sa)].
    - subst o. apply fares_same; [exact L|apply (s_original a Q Sa)].
    - subst o. apply fares_same; [exact L|apply (s_l2l a Q Sa)].
    - subst o. destruct s as [t|j]; [destruct Fo|]. destruct (Down j (or_introl eq_refl)) as (D1 & D2 & D3).
      destruct (IH (i :: busy) h j L D1 D2 D3) as [-> |(h1 & v & -> & L1 & Hv)]; [left; reflexivity|]. cbn [rbind].
      apply fares_same; [exact L1|]. now apply (s_prefix a Q Sa).
    - destruct o as [w|w wi n|w n og|p s1|s1 st1|l|x]; try contradiction. destruct Li as [<- El].
      destruct s as [t|j]; [destruct Fo|]. destruct (Down j (or_introl eq_refl)) as (D1 & D2 & D3).
      destruct (IH (i :: busy) h j L D1 D2 D3) as [-> |(h1 & v & E1 & L1 & Hv)]; [left; reflexivity|].
      pose proof (h_eval_length _ _ _ _ _ _ _ E1) as Hlen. rewrite E1. cbn [rbind].
      apply fares_one; [exact L1|now apply (s_replace a Q Sa)| |lia]. rewrite E0. cbn. split; [reflexivity|].
      rewrite sort_sort. exact El.
    - subst o.
      assert (G : h_items (h_eval a f (i :: busy)) h l = NoFuel \/
        exists h' ys, h_items (h_eval a f (i :: busy)) h l = Val (h', ys) /\ later stays all h0 h' /\
          Forall (fun y => match y with inl _ => True | inr v => Q v end) ys).
      { clear E0 Ei Hil Fo Hi. cbn [items] in Down. revert h L. induction l as [|x l IHl]; intros h L; cbn [h_items].
        - right. eexists _, _. split; [reflexivity|]. auto.
        - assert (Dl : forall j, In (SRef j) l -> j < length h0 /\ ~ cyclic h0 j /\
            forall b, In b (i :: busy) -> clos_trans nat (edge h0) b j) by (intros j Hj; apply Down; now right).
          destruct x as [s|j].
          + cbn [rbind]. destruct (IHl Dl h L) as [-> |(h' & ys & -> & L' & Hys)]; [left; reflexivity|].
            right. cbn [rbind]. eexists _, _. split; [reflexivity|]. auto.
          + destruct (Down j (or_introl eq_refl)) as (D1 & D2 & D3).
            destruct (IH (i :: busy) h j L D1 D2 D3) as [-> |(h1 & v & -> & L1 & Hv)]; [left; reflexivity|]. cbn [rbind].
            destruct (IHl Dl h1 L1) as [-> |(h' & ys & -> & L' & Hys)]; [left; reflexivity|].
            right. cbn [rbind]. eexists _, _. split; [reflexivity|]. auto. }
      destruct G as [-> |(h' & ys & -> & L' & Hys)]; [left; reflexivity|]. cbn [rbind].
      apply fares_same; [exact L'|now apply (s_concat a Q Sa)].
    - destruct o as [w|w wi n|w n og|p s1|s1 st1|l|y]; try contradiction. cbn in Li.
      destruct (s_sms a Q Sa y Li) as (y' & v & Ey & Hy' & Hv). rewrite Ey. cbn [lift rbind].
      right. eexists _, _. split; [reflexivity|]. split; [|exact Hv].
      apply later_set'; [exact L|exact Hil|]. intros _. rewrite E0. exact Hy'.
  Qed.
End Safe.

Lemma stays_keeps {A} (a : alg A) Q : safe a Q -> keeps stays a.
Proof.
  intros Sa x y y' v Hy E. destruct (s_sms a Q Sa y Hy) as (y2 & u & E2 & H & _). rewrite E in E2. injection E2 as <- _. exact H.
Qed.
Lemma stays_source : keeps stays source_alg.
Proof. intros x y y' v Hy E. injection E as <- _. exact Hy. Qed.

Lemma put_fine h i q h' v : fine h -> put h i q = Val (h', v) -> fine h'.
Proof.
  intros F E. apply (later_fine h h' F). pose proof (fine_later h F) as L.
  destruct q as [| |c m|c m]; cbn [put] in E; unfold rmap, h_read, h_size in E;
    match type of E with rbind ?r _ = _ => destruct r as [[h1 w]| |] eqn:E1; try discriminate end; cbn [rbind] in E; injection E as <- _.
  - eapply (h_eval_later stays source_alg); eauto. apply stays_source.
  - eapply h_size_later; eauto. apply stays_source.
  - eapply (h_eval_later stays (node_alg c m)); eauto. eapply stays_keeps, safe_node.
  - eapply (h_eval_later stays (list_map_alg c m)); eauto. eapply stays_keeps, safe_lines.
Qed.

(** The value read, for acyclic objects. *)
Lemma safe_read {A} (a : alg A) Q h i : safe a Q -> fine h -> i < length h -> ~ cyclic h i ->
  exists h' v, h_read a h i = Val (h', v) /\ Q v.
Proof.
  intros Sa F Hi Ac. unfold h_read.
  destruct (safe_eval a Q Sa h F (S (length h)) [] h i (fine_later h F) Hi Ac) as [E|(h' & v & E & _ & Hv)].
  - intros b [].
  - exfalso. eapply h_eval_fuel; [| |exact E]; [apply fresh_nil|cbn; lia].
  - eauto.
Qed.

Definition good_answer (v : answer) : Prop :=
  match v with GotNode n => good_node n | GotLines m => good_lines m | _ => True end.

Theorem fine_reply h i q : fine h -> i < length h -> ~ cyclic h i -> exists v, reply h i q = Val v /\ good_answer v.
Proof.
  intros F Hi Ac. destruct q as [| |c m|c m].
  1-2: destruct (acyclic_unfolds h (proj1 F) (S (length h)) [] i (fresh_nil _) ltac:(cbn; lia) Hi ltac:(intros b []) Ac) as (t & U).
  - rewrite (source_tree h i t AskSource (or_introl eq_refl) U). cbn [t_answer]. destruct (source_total t) as (s & ->).
    cbn. eexists. split; [reflexivity|exact I].
  - rewrite (source_tree h i t AskSize (or_intror eq_refl) U). cbn [t_answer]. destruct (source_total t) as (s & Hs).
    rewrite (size_spec t s Hs). cbn. eexists. split; [reflexivity|exact I].
  - destruct (safe_read _ _ h i (safe_node c m) F Hi Ac) as (h' & v & E & Hv). unfold reply. cbn [put]. rewrite E.
    cbn. eexists. split; [reflexivity|exact Hv].
  - destruct (safe_read _ _ h i (safe_lines c m) F Hi Ac) as (h' & v & E & Hv). unfold reply. cbn [put]. rewrite E.
    cbn. eexists. split; [reflexivity|exact Hv].
Qed.
