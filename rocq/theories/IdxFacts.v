(** The string indices in nodes, generators and maps are those the sources were made with. *)
From Verif Require Import Base Tactics ModelString ModelVlq ModelSm ModelSlm ModelSources ModelTree SortFacts NodeFacts NodeTree TextFacts.
From Verif Require Export SpecOpt.

Tactic Notation "unb" hyp(H) "as" simple_intropattern(p) ident(E) := apply bind_some in H; destruct H as (p & E & H).

Section Idx.
  Variables (P Q : Z -> Prop) (R : Z -> Z -> Prop).

  Definition pair_idx (p : Z * Z) : Prop := R (fst p) (snd p).
  Fixpoint node_idx (n : smnode) : Prop :=
    match n with
    | SmStr _ => True
    | SmNode _ src name ch ct =>
        opt_all P src /\ opt_all Q name /\ Forall pair_idx ct /\
        (fix all l := match l with [] => True | x :: r => node_idx x /\ all r end) ch
    end.
  Lemma node_idx_all ch : (fix all l := match l with [] => True | x :: r => node_idx x /\ all r end) ch <-> Forall node_idx ch.
  Proof. induction ch as [|x r IH]; [split; constructor|]. rewrite IH. split; [intros [H1 H2]; auto|]. intro H. now inversion H. Qed.
  Lemma node_idx_node pos src name ch ct :
    node_idx (SmNode pos src name ch ct) <-> opt_all P src /\ opt_all Q name /\ Forall pair_idx ct /\ Forall node_idx ch.
  Proof. cbn [node_idx]. now rewrite node_idx_all. Qed.

  Definition mapping_idx (m : mapping) : Prop := opt_all P (m_src m) /\ opt_all Q (m_name m).
  Definition gen_idx (g : generator) : Prop :=
    Forall mapping_idx (ml_list (g_mappings g)) /\ Forall P (map fst (g_sources g)) /\ Forall Q (map fst (g_names g)) /\
    Forall pair_idx (g_contents g).

  Lemma gen_new_idx f r s : gen_idx (gen_new f r s).
  Proof. repeat split; constructor. Qed.
  Lemma or_insert_all {A} (X : Z * A -> Prop) l k v : Forall X l -> X (k, v) -> Forall X (al_or_insert l k v).
  Proof. intros H Hk. unfold al_or_insert. destruct (al_get l k); [exact H|]. apply Forall_app. auto. Qed.
  Lemma remove_all {A} (X : Z * A -> Prop) l k : Forall X l -> Forall X (al_remove l k).
  Proof. induction 1 as [|[k' v] l H1 H2 IH]; cbn [al_remove]; [constructor|]. destruct (k =? k')%Z; auto. Qed.
  Lemma keys_all {A} (X : Z -> Prop) (l : list (Z * A)) : Forall X (map fst l) <-> Forall (fun p => X (fst p)) l.
  Proof. induction l as [|p l IH]; cbn; split; intro H; try constructor; inversion H; subst; try apply IH; auto. Qed.
  Lemma add_source_idx g s : gen_idx g -> P s -> gen_idx (gen_add_source g s).
  Proof.
    intros (H1 & H2 & H3 & H4) Hs. split; [exact H1|]. split; [|split; [exact H3|exact H4]]. cbn.
    rewrite keys_all in *. now apply or_insert_all.
  Qed.
  Lemma add_name_idx g s : gen_idx g -> Q s -> gen_idx (gen_add_name g s).
  Proof.
    intros (H1 & H2 & H3 & H4) Hs. split; [exact H1|]. split; [exact H2|]. split; [|exact H4]. cbn.
    rewrite keys_all in *. now apply or_insert_all.
  Qed.
  Lemma set_mappings_idx g ml : gen_idx g -> Forall mapping_idx (ml_list ml) -> gen_idx (gen_set_mappings g ml).
  Proof. intros (H1 & H2 & H3 & H4) H. now split. Qed.
  Lemma set_content_idx g s c : gen_idx g -> opt_all (R s) c -> gen_idx (gen_set_source_content g s c).
  Proof.
    intros (H1 & H2 & H3 & H4) Hc. unfold gen_set_source_content. destruct c as [c|]; (split; [exact H1|]; split; [exact H2|]; split; [exact H3|]); cbn.
    - now apply or_insert_all.
    - now apply remove_all.
  Qed.
  Lemma ml_add_idx ml m : Forall mapping_idx (ml_list ml) -> mapping_idx m -> Forall mapping_idx (ml_list (ml_add ml m)).
  Proof.
    intros H Hm. unfold ml_add. destruct (match ml_last ml with Some last => _ | None => true end); cbn; apply Forall_app; auto.
  Qed.
  Lemma ml_sort_idx ml : Forall mapping_idx (ml_list ml) -> Forall mapping_idx (ml_list (ml_sort ml)).
  Proof. intro H. unfold ml_sort. destruct (ml_sorted ml); [exact H|]. cbn. now apply Forall_isort. Qed.
  Lemma add_mapping_idx g m g' : gen_idx g -> mapping_idx m -> gen_add_mapping g m = Some g' -> gen_idx g'.
  Proof.
    intros H Hm E. unfold gen_add_mapping in E. destruct (g_skip g || validate_mapping m); [|discriminate]. injection E as <-.
    destruct Hm as [Hs Hn].
    set (g1 := match m_src m with Some s => gen_add_source g s | None => g end).
    assert (H1 : gen_idx g1) by (unfold g1; destruct (m_src m); [now apply add_source_idx|exact H]).
    set (g2 := match m_name m with Some n => gen_add_name g1 n | None => g1 end).
    assert (H2 : gen_idx g2) by (unfold g2; destruct (m_name m); [now apply add_name_idx|exact H1]).
    apply set_mappings_idx; [exact H2|]. apply ml_add_idx; [apply H2|now split].
  Qed.

  (** ** Walking a node *)
  Lemma chunk_loop_idx src pos name len : opt_all P src -> opt_all Q name -> forall s cx b cx',
    gen_idx (cx_map cx) -> chunk_loop cx src pos name len b s = Some cx' -> gen_idx (cx_map cx').
  Proof.
    intros Hs Hn. induction s as [|c s IH]; intros cx b cx' H E; cbn [chunk_loop] in E; [injection E as <-; exact H|].
    unbind E. eapply IH; [|exact E]. destruct (N.eqb c NL).
    - destruct (b + 1 =? len); [injection E0 as <-; exact H|]. destruct (cx_active cx); [|injection E0 as <-; exact H].
      unbind E0. injection E0 as <-. cbn. eapply add_mapping_idx; [exact H| |exact E1]. now split.
    - injection E0 as <-. exact H.
  Qed.
  Lemma process_chunk_idx cx s src pos name cx' : opt_all P src -> opt_all Q name ->
    gen_idx (cx_map cx) -> process_chunk cx s src pos name = Some cx' -> gen_idx (cx_map cx').
  Proof.
    intros Hs Hn H E. unfold process_chunk in E. unbind E. eapply (chunk_loop_idx src pos name); [exact Hs|exact Hn| |exact E].
    destruct (is_some src && is_some pos).
    - unbind E0. injection E0 as <-. cbn. destruct (_ || _ || _) in E1; [|injection E1 as <-; exact H].
      eapply add_mapping_idx; [exact H| |exact E1]. now split.
    - destruct (cx_active cx); [|injection E0 as <-; exact H]. unbind E0. injection E0 as <-. cbn.
      eapply add_mapping_idx; [exact H| |exact E1]. now split.
  Qed.
  Lemma process_contents_idx ct : forall cx, Forall pair_idx ct -> gen_idx (cx_map cx) -> gen_idx (cx_map (process_contents cx ct)).
  Proof.
    induction ct as [|[s c] ct IH]; intros cx Hc H; [exact H|]. inversion Hc as [|? ? H1 H2]; subst. cbn [process_contents fold_left].
    apply IH; [exact H2|]. cbn [cx_map]. now apply (set_content_idx (cx_map cx) s (Some c)).
  Qed.
  Lemma walk_idx n : node_idx n -> forall psrc ppos pname cx cx', opt_all P psrc -> opt_all Q pname -> gen_idx (cx_map cx) ->
    walk_node psrc ppos pname n cx = Some cx' -> gen_idx (cx_map cx').
  Proof.
    induction n as [s|pos src name ch ct IH] using smnode_ind'; intros Hn psrc ppos pname cx cx' Hs Hm H E; cbn [walk_node] in E.
    - eapply process_chunk_idx; [exact Hs|exact Hm|exact H|exact E].
    - apply node_idx_node in Hn as (H1 & H2 & H3 & H4). unbind E. injection E as <-. apply process_contents_idx; [exact H3|].
      revert cx v H E0. induction ch as [|x ch IHc]; intros cx v H E; [injection E as <-; exact H|].
      unbind E. inversion IH as [|? ? I1 I2]; subst. inversion H4 as [|? ? N1 N2]; subst.
      eapply IHc; [exact I2|exact N2| |exact E]. eapply I1; [exact N1|exact H1|exact H2|exact H|exact E0].
  Qed.
  Theorem generator_idx n file root s g : node_idx n -> to_string_with_generator n file root = Some (s, g) -> gen_idx g.
  Proof.
    intros Hn E. unfold to_string_with_generator in E. unbind E. injection E as _ <-. unfold walk in E0.
    refine (walk_idx n Hn None None None _ _ I I _ E0). apply gen_new_idx.
  Qed.
  Definition map_idx (mp : source_map) : Prop :=
    Forall P (map_sources mp) /\ Forall Q (map_names mp) /\ Forall (fun c => exists s, In s (map_sources mp) /\ R s c) (map_contents mp).
  Lemma get_all {A} (X : Z * A -> Prop) l k v : Forall X l -> al_get l k = Some v -> X (k, v).
  Proof.
    induction 1 as [|[k' v'] l H1 H2 IH]; cbn [al_get]; [discriminate|]. destruct (Z.eqb_spec k k') as [->|]; [|exact IH]. intro H. now injection H as ->.
  Qed.
  Lemma source_map_idx g g' mp : gen_idx g -> gen_to_source_map g = Some (g', mp) -> gen_idx g' /\ map_idx mp.
  Proof.
    intros (H1 & H2 & H3 & H4) E. unfold gen_to_source_map, serialize_mappings in E. unbind E. destruct v as [g1 ms]. unbind E0. injection E0 as <- <-.
    injection E as <- <-. split; [apply set_mappings_idx; [now split|]; now apply ml_sort_idx|].
    cbn. split; [exact H2|]. split; [exact H3|]. cbn. clear - H4. induction (map fst (g_sources g)) as [|s l IH]; cbn [collect_contents]; [constructor|].
    assert (X : Forall (fun c : Z => exists s0 : Z, In s0 (s :: l) /\ R s0 c) (collect_contents l (g_contents g))).
    { eapply Forall_impl; [|exact IH]. intros c (s0 & Hs & Hr). exists s0. split; [now right|exact Hr]. }
    destruct (al_get (g_contents g) s) as [c|] eqn:Eg; [|exact X]. constructor; [|exact X]. exists s. split; [now left|].
    exact (get_all pair_idx _ _ _ H4 Eg).
  Qed.

  (** ** Reading a map *)
  Lemma dedup_incl l : forall seen x, In x (dedup seen l) -> In x l.
  Proof.
    induction l as [|y l IH]; intros seen x; cbn [dedup]; [auto|]. destruct (existsb (Z.eqb y) seen); intro H; [right; eauto|].
    destruct H as [<-|H]; [now left|right; eauto].
  Qed.
  Fixpoint contents_idx (sources contents : list Z) : Prop :=
    match sources, contents with
    | s :: r, c :: k => R s c /\ contents_idx r k
    | _, _ => True
    end.
  Lemma load_sources_idx check : forall sources contents g, gen_idx g -> Forall P sources -> contents_idx sources contents ->
    gen_idx (load_sources check g sources contents).
  Proof.
    induction sources as [|s r IH]; intros contents g H Hs Hc; cbn [load_sources]; [exact H|].
    inversion Hs as [|? ? H1 H2]; subst. apply IH; [|exact H2|destruct contents as [|c k]; cbn; [now destruct r|apply Hc]].
    apply set_content_idx; [destruct check; [now apply add_source_idx|exact H]|]. destruct contents as [|c k]; cbn; [exact I|apply Hc].
  Qed.
  Lemma load_mappings_idx sources names : Forall P sources -> Forall Q names -> forall l g g', gen_idx g ->
    load_mappings g sources names l = Some g' -> gen_idx g'.
  Proof.
    intros Hs Hn. induction l as [|rm l IH]; intros g g' H E; cbn [load_mappings] in E; [injection E as <-; exact H|].
    unbind E. unbind E. eapply IH; [|exact E]. eapply add_mapping_idx; [exact H| |exact E1]. clear E1 E IH.
    destruct (rm_orig rm) as [[[[si ol] oc] no]|]; [|injection E0 as <-; now split]. unbind E0. unbind E0. injection E0 as <-.
    split; cbn.
    - apply nth_error_In in E1. rewrite Forall_forall in Hs. auto.
    - destruct no as [ni|]; [|injection E as <-; exact I]. unbind E. injection E as <-. cbn. apply nth_error_In in E0. rewrite Forall_forall in Hn. auto.
  Qed.
  Lemma from_source_map_idx sources contents mappings names file root check g : Forall P sources -> Forall Q names ->
    contents_idx sources contents -> from_source_map sources contents mappings names file root check = Some g -> gen_idx g.
  Proof.
    intros Hs Hn Hc E. unfold from_source_map in E. unbind E. eapply load_mappings_idx; [| | |exact E].
    - destruct check; [|exact Hs]. rewrite Forall_forall in *. intros x Hx. apply Hs. now apply dedup_incl in Hx.
    - destruct check; [|exact Hn]. rewrite Forall_forall in *. intros x Hx. apply Hn. now apply dedup_incl in Hx.
    - apply load_sources_idx; [apply gen_new_idx|exact Hs|exact Hc].
  Qed.
  Lemma position_idx g l c g' m : gen_idx g -> original_position_for g l c = Some (g', m) -> gen_idx g' /\ mapping_idx m.
  Proof.
    intros H E. unfold original_position_for in E. set (g1 := gen_set_mappings g (ml_sort (g_mappings g))) in *.
    assert (H1 : gen_idx g1) by (apply set_mappings_idx; [exact H|apply ml_sort_idx, H]).
    assert (X : forall i, (let* m := nth_error (ml_list (g_mappings g1)) i in
       if (fst (m_gen m) =? l)%N then Some (g1, m) else Some (g1, empty_mapping)) = Some (g', m) -> gen_idx g' /\ mapping_idx m).
    { intros i Ei. unbind Ei. destruct (fst (m_gen v) =? l)%N; injection Ei as <- <-; (split; [exact H1|]); [|now split].
      destruct H1 as [H1 _]. rewrite Forall_forall in H1. apply H1. now apply nth_error_In in E0. }
    destruct (binary_search_by _ _) as [i|[|i]]; [now apply (X i)| |now apply (X i)]. injection E as <- <-. split; [exact H1|now split].
  Qed.
  Lemma apply_loop_idx file : forall l inner inner' l', Forall mapping_idx l -> gen_idx inner ->
    apply_loop inner file l = Some (inner', l') -> gen_idx inner' /\ Forall mapping_idx l'.
  Proof.
    induction l as [|m l IH]; intros inner inner' l' Hl Hi E; cbn [apply_loop] in E; [injection E as <- <-; auto|].
    inversion Hl as [|? ? H1 H2]; subst. unbind E. destruct v as [i1 m']. unbind E. destruct v as [i2 r']. injection E as <- <-.
    assert (X : gen_idx i1 /\ mapping_idx m').
    { destruct (m_orig m) as [[li co]|]; [|injection E0 as <- <-; auto]. destruct (optZ_eqb (m_src m) file); [|injection E0 as <- <-; auto].
      unbind E0. destruct v as [i3 o]. destruct (position_idx _ _ _ _ _ Hi E) as [X1 X2].
      destruct (m_src o) as [z|] eqn:Es; injection E0 as <- <-; (split; [exact X1|]); [|exact H1].
      destruct X2 as [X3 X4]. split; cbn; [now rewrite Es in X3|]. destruct (m_name o); [exact X4|apply H1]. }
    destruct X as [X1 X2]. destruct (IH _ _ _ H2 X1 E1) as [Y1 Y2]. auto.
  Qed.
  Lemma fold_source_idx l : forall g, gen_idx g -> Forall P l -> gen_idx (fold_left gen_add_source l g).
  Proof. induction l as [|x l IH]; intros g H Hl; [exact H|]. inversion Hl; subst. cbn. apply IH; auto using add_source_idx. Qed.
  Lemma fold_name_idx l : forall g, gen_idx g -> Forall Q l -> gen_idx (fold_left gen_add_name l g).
  Proof. induction l as [|x l IH]; intros g H Hl; [exact H|]. inversion Hl; subst. cbn. apply IH; auto using add_name_idx. Qed.
  Lemma opt_list_all {A} (X : Z -> Prop) (f : A -> option Z) l : Forall (fun m => opt_all X (f m)) l -> Forall X (flat_map (fun m => opt_list (f m)) l).
  Proof.
    induction 1 as [|m l H1 H2 IH]; cbn; [constructor|]. apply Forall_app. split; [|exact IH]. destruct (f m); cbn in *; auto.
  Qed.
  Lemma apply_idx g inner file g' inner' : gen_idx g -> gen_idx inner ->
    apply_source_map_generator g inner file = Some (g', inner') -> gen_idx g' /\ gen_idx inner'.
  Proof.
    intros Hg Hi E. unfold apply_source_map_generator in E. unbind E. unbind E. destruct v0 as [i l]. injection E as <- <-.
    destruct (apply_loop_idx _ _ _ _ _ (proj1 Hg) Hi E1) as [I1 I2]. split; [|exact I1].
    assert (F : forall ct g, Forall pair_idx ct -> gen_idx g ->
      gen_idx (fold_left (fun g '(s, c) => gen_set_source_content g s (Some c)) ct g)).
    { induction ct as [|[s c] ct IH]; intros g0 Hc H; [exact H|]. inversion Hc; subst. cbn. apply IH; [assumption|]. now apply (set_content_idx g0 s (Some c)). }
    apply F; [apply I1|]. apply fold_name_idx; [|apply opt_list_all; eapply Forall_impl; [|exact I2]; intros m Hm; apply Hm].
    set (g2 := match l with [] => _ | _ => _ end).
    assert (H2 : gen_idx g2).
    { unfold g2. set (ml := mk_ml l _ _). assert (X : gen_idx (gen_set_mappings g ml)) by (apply set_mappings_idx; auto).
      destruct l; [exact X|]. destruct X as (X1 & X2 & X3 & X4). repeat split; auto; constructor. }
    assert (H3 : gen_idx (fold_left gen_add_source (flat_map (fun m => opt_list (m_src m)) l) g2)).
    { apply fold_source_idx; [exact H2|]. apply opt_list_all. eapply Forall_impl; [|exact I2]. intros m Hm. apply Hm. }
    destruct H3 as (X1 & X2 & X3 & X4). repeat split; auto; constructor.
  Qed.

  (** ** Nodes of the sources *)
  Lemma add_chunk_idx ch n : Forall node_idx ch -> node_idx n -> Forall node_idx (add_chunk ch (CNode n)).
  Proof. intros H Hn. unfold add_chunk. destruct n as [[|x s]|]; [exact H|..]; apply Forall_app; auto. Qed.
  Ltac addc := lazymatch goal with |- Forall node_idx (match ?s with [] => ?c | _ => _ end) => apply (add_chunk_idx c (SmStr s)) end.
  Lemma sn_new_idx pos src name n : opt_all P src -> opt_all Q name -> node_idx n -> node_idx (sn_new pos src name (Some (CNode n))).
  Proof.
    intros Hs Hn H. unfold sn_new. apply node_idx_node. split; [exact Hs|]. split; [exact Hn|]. split; [constructor|]. apply add_chunk_idx; auto.
  Qed.
  Lemma with_code_idx ch m s : Forall node_idx ch -> opt_all mapping_idx m -> Forall node_idx (add_mapping_with_code ch m s).
  Proof.
    intros H Hm. unfold add_mapping_with_code. destruct m as [m|]; [|now apply add_chunk_idx].
    destruct Hm as [Hs Hn]. destruct (m_src m) eqn:Es; [|now apply add_chunk_idx].
    apply add_chunk_idx; [exact H|]. apply sn_new_idx; auto. exact I.
  Qed.
  Definition fs_idx (st : fs_st) : Prop := Forall node_idx (fs_children st) /\ opt_all mapping_idx (fs_last st).
  Lemma skip_lines_idx k : forall st, fs_idx st -> fs_idx (skip_lines k st).
  Proof.
    induction k as [|k IH]; intros st H; [exact H|]. cbn [skip_lines]. destruct (next_of (fs_iter st)) as [nl it]. apply IH.
    split; [|apply H]. cbn [fs_children]. apply add_chunk_idx; [apply H|exact I].
  Qed.
  Lemma fs_tail_idx st m st' : fs_idx st -> mapping_idx m -> fs_tail st m = Some st' -> fs_idx st'.
  Proof.
    intros H Hm E. unfold fs_tail in E. destruct (m_gen m) as [gl gc]. set (st1 := skip_lines _ st) in *.
    assert (H1 : fs_idx st1) by now apply skip_lines_idx. unbind E. injection E as <-. split; [|exact Hm]. cbn [fs_children].
    destruct (snd (fs_pos st1) <? gc)%N; [|injection E0 as <-; apply H1]. destruct (fs_line st1) as [[txt ex] sbc]. unbind E0.
    destruct v0 as [[l r] rf]. injection E0 as <-. cbn [fs_children]. apply (add_chunk_idx (fs_children st1) (SmStr l)); [apply H1|exact I].
  Qed.
  Lemma fs_step_idx st m st' : fs_idx st -> mapping_idx m -> fs_step st m = Some st' -> fs_idx st'.
  Proof.
    intros H Hm E. unfold fs_step in E. destruct (m_gen m) as [gl gc]. destruct (fs_last st) as [lm|] eqn:El; [|now apply (fs_tail_idx st m)].
    destruct (fs_line st) as [[txt ex] sbc]. assert (Hl : opt_all mapping_idx (Some lm)) by (rewrite <- El; apply H).
    destruct (fst (fs_pos st) <? gl)%N.
    - destruct (next_of (fs_iter st)) as [nl it]. eapply fs_tail_idx; [|exact Hm|exact E]. split; [|exact Hl]. cbn [fs_children].
      apply with_code_idx; [apply H|exact Hl].
    - unbind E. destruct v as [[l r] rf]. injection E as <-. split; [|exact Hm]. apply (with_code_idx (fs_children st) (Some lm) l); [apply H|exact Hl].
  Qed.
  Lemma fs_loop_idx : forall l st st', fs_idx st -> Forall mapping_idx l -> fs_loop st l = Some st' -> fs_idx st'.
  Proof.
    induction l as [|m l IH]; intros st st' H Hl E; cbn [fs_loop] in E; [injection E as <-; exact H|].
    inversion Hl; subst. unbind E. eapply IH; [|eassumption|exact E]. eapply fs_step_idx; eauto.
  Qed.
  Lemma from_string_idx code g n : gen_idx g -> sm_from_string code g = Some n -> node_idx n.
  Proof.
    intros Hg E. unfold sm_from_string in E. unbind E. destruct (next_of v) as [nl it]. unbind E. injection E as <-.
    assert (H : fs_idx v0).
    { eapply fs_loop_idx; [|exact (proj1 Hg)|exact E1]. split; [constructor|exact I]. }
    apply node_idx_node. split; [exact I|]. split; [exact I|]. split; [apply Hg|].
    destruct (snd (fst (fs_line v0))); [|apply H].
    destruct (fs_last v0) as [m|] eqn:El.
    - destruct (next_of (fs_iter v0)) as [nl' it']. addc; [|exact I]. apply with_code_idx; [apply H|]. rewrite <- El. apply H.
    - addc; [apply H|exact I].
  Qed.
  Definition cell_idx (c : sm_cell) : Prop :=
    opt_all (fun d => Forall P (sc_sources d) /\ Forall Q (sc_names d) /\ contents_idx (sc_sources d) (sc_contents d)) (ce_data c) /\
    opt_all gen_idx (ce_gen c).
  Definition sms_idx (x : sms) : Prop :=
    cell_idx (sms_map x) /\ opt_all cell_idx (sms_inner x) /\ (sms_inner x <> None -> opt_all (R (sms_name x)) (sms_original x)).
  Lemma cell_gen_idx c c' g : cell_idx c -> cell_get_generator c = Some (c', g) -> gen_idx g.
  Proof.
    intros [H1 H2] E. unfold cell_get_generator in E. destruct (ce_gen c) as [g0|]; [injection E as _ <-; exact H2|].
    unbind E. unbind E. injection E as _ <-. rewrite E0 in H1. destruct H1 as (X1 & X2 & X3). eapply from_source_map_idx; [exact X1|exact X2|exact X3|exact E1].
  Qed.
  Lemma sms_node_idx x x' n : sms_idx x -> sms_node x = Some (x', n) -> node_idx n.
  Proof.
    intros (H1 & H2 & H3) E. unfold sms_node in E. unbind E. destruct v as [c g]. unbind E. destruct v as [[g1 inner] applied].
    unbind E. injection E as _ <-. pose proof (cell_gen_idx _ _ _ H1 E0) as Hg.
    eapply from_string_idx; [|exact E2]. destruct (sms_inner x) as [ic|]; [|injection E1 as <- _ _; exact Hg].
    unb E1 as [ic' ig] Ei. pose proof (cell_gen_idx _ _ _ H2 Ei) as Hi.
    set (g2 := match sms_original x with Some o => _ | None => g end) in *.
    specialize (H3 ltac:(discriminate)). assert (Hg2 : gen_idx g2) by (unfold g2; destruct (sms_original x); [now apply set_content_idx|exact Hg]).
    destruct (negb (sms_applied x)); [|injection E1 as <- _ _; exact Hg2]. unb E1 as [g3 ig3] E3. injection E1 as <- _ _.
    exact (proj1 (apply_idx _ _ _ _ _ Hg2 Hi E3)).
  Qed.
  Lemma orig_tokens_idx name : P name -> forall fuel i pos line acc ch, Forall node_idx acc ->
    orig_tokens fuel name i pos line acc = Some ch -> Forall node_idx ch.
  Proof.
    intro Hp. induction fuel as [|f IH]; intros i pos line acc ch H E; destruct line as [|x line]; cbn [orig_tokens] in E; try discriminate;
      try (injection E as <-; exact H).
    unbind E. destruct v as [item rest]. destruct (blank item); (eapply IH; [|exact E]).
    - apply add_chunk_idx; [exact H|exact I].
    - apply add_chunk_idx; [exact H|]. apply sn_new_idx; [exact Hp|exact I|exact I].
  Qed.
  Lemma orig_lines_idx columns name : P name -> forall lines i acc ch, Forall node_idx acc ->
    orig_lines columns name i lines acc = Some ch -> Forall node_idx ch.
  Proof.
    intro Hp. induction lines as [|line r IH]; intros i acc ch H E; cbn [orig_lines] in E; [injection E as <-; exact H|].
    destruct (negb columns); [|unbind E]; (eapply IH; [|exact E]); (apply add_chunk_idx; [exact H|]).
    - apply sn_new_idx; [exact Hp|exact I|exact I].
    - apply node_idx_node. split; [exact I|]. split; [exact I|]. split; [constructor|]. eapply orig_tokens_idx; [exact Hp| |exact E0]. constructor.
  Qed.
  Lemma l2l_lines_idx name : P name -> forall lines i, Forall node_idx (l2l_lines name i lines).
  Proof. intro Hp. induction lines as [|x l IH]; intro i; cbn [l2l_lines]; constructor; auto. apply sn_new_idx; [exact Hp|exact I|exact I]. Qed.
  Lemma prefix_idx p n : node_idx n -> forall k n' k', clone_and_prefix n p k = Some (n', k') -> node_idx n'.
  Proof.
    induction n as [s|pos src name ch ct IH] using smnode_ind'; intros Hn k n' k' E; cbn [clone_and_prefix] in E.
    - unbind E. destruct v. injection E as <- _. exact I.
    - apply node_idx_node in Hn as (H1 & H2 & H3 & H4). unbind E. destruct v as [ch' k1]. injection E as <- _.
      apply node_idx_node. split; [exact H1|]. split; [exact H2|]. split; [exact H3|]. clear H1 H2 H3.
      revert k ch' k1 E0. induction ch as [|x ch IHc]; intros k ch' k1 E; [injection E as <- _; constructor|].
      inversion IH as [|? ? I1 I2]; subst. inversion H4 as [|? ? N1 N2]; subst. unbind E. destruct v as [x' k2]. unbind E. destruct v as [r' k3].
      injection E as <- _. constructor; [eapply I1; eauto|]. eapply IHc; eauto.
  Qed.
  Definition split_idx (o : node_split) : Prop := match o with NOk a b => node_idx a /\ node_idx b | NErr _ a => node_idx a end.
  Lemma split_node_idx n : node_idx n -> forall pos o, split_sourcenode n pos = Some o -> split_idx o.
  Proof.
    induction n as [s|p src name ch ct IH] using smnode_ind'; intros Hn pos o E; cbn [split_sourcenode] in E.
    - unbind E. destruct v; injection E as <-; now cbn.
    - apply node_idx_node in Hn as (H1 & H2 & H3 & H4). unbind E. destruct v as [[[split pos'] lefts] rights].
      assert (X : Forall node_idx lefts /\ Forall node_idx rights).
      { clear E. assert (A : forall (b : bool) (ls rs : list smnode), Forall node_idx ls -> Forall node_idx rs -> forall pos,
          (fix go (l : list smnode) (is_split : bool) (pos : Z) (lefts rights : list smnode)
           : option (bool * Z * list smnode * list smnode) :=
           match l with
           | [] => Some (is_split, pos, lefts, rights)
           | x :: r =>
               if negb is_split then
                 let* o := split_sourcenode x pos in
                 match o with
                 | NOk a b => go r true pos (lefts ++ [a]) (rights ++ [b])
                 | NErr pos x => go r false pos (lefts ++ [x]) rights
                 end
               else go r true pos lefts (rights ++ [x])
           end) ch b pos ls rs = Some (split, pos', lefts, rights) -> Forall node_idx lefts /\ Forall node_idx rights).
        { clear E0. induction ch as [|x ch IHc]; intros b ls rs Hls Hrs pos1 E; [injection E as _ _ <- <-; auto|].
          inversion IH as [|? ? I1 I2]; subst. inversion H4 as [|? ? N1 N2]; subst. destruct b; cbn [negb] in E.
          - eapply (IHc I2 N2 true); [exact Hls| |exact E]. apply Forall_app. auto.
          - unbind E. pose proof (I1 N1 _ _ E0) as Hv. destruct v as [a b|q a]; cbn in Hv.
            + eapply (IHc I2 N2 true); [| |exact E]; apply Forall_app; intuition.
            + eapply (IHc I2 N2 false); [| |exact E]; [apply Forall_app; intuition|exact Hrs]. }
        eapply (A false [] []); eauto. }
      destruct X as [X1 X2]. destruct split; injection E as <-; cbn [split_idx]; [split|]; apply node_idx_node;
        (split; [exact H1|]; split; [exact H2|]; split; [try exact H3; constructor|]); assumption.
  Qed.
  Lemma replacement_idx old text n : node_idx old -> replacement_to_sourcenode old text = Some n -> node_idx n.
  Proof.
    intros H E. unfold replacement_to_sourcenode in E. destruct old as [|p s nm ch ct]; [discriminate|]. unbind E. destruct v as [s0 g].
    unbind E. destruct v as [g' m]. injection E as <-. pose proof (generator_idx _ _ _ _ _ H E0) as Hg.
    destruct (position_idx _ _ _ _ _ Hg E1) as [_ Hm]. apply sn_new_idx; [apply Hm|exact I|exact I].
  Qed.
  Lemma replace_loop_idx : forall repls result res, Forall node_idx result -> replace_node_loop repls result = Some res -> Forall node_idx res.
  Proof.
    induction repls as [|r repls IH]; intros result res H E; cbn [replace_node_loop] in E; [injection E as <-; exact H|].
    destruct result as [|rem result]; [discriminate|]. inversion H as [|? ? H1 H2]; subst. unbind E.
    pose proof (split_node_idx _ H1 _ _ E0) as S1. destruct v as [l1 r1|q rem1]; cbn [split_idx] in S1.
    - destruct S1 as [S1 S2]. unb E as o2 E2. pose proof (split_node_idx _ S1 _ _ E2) as S3. destruct o2 as [l2 r2|q2 l1']; cbn [split_idx] in S3;
        unb E as x Ex; (eapply IH; [|exact E]).
      + destruct S3 as [S3 S4]. pose proof (replacement_idx _ _ _ S4 Ex). auto.
      + pose proof (replacement_idx _ _ _ S2 Ex). auto.
    - unb E as o2 E2. pose proof (split_node_idx _ S1 _ _ E2) as S3. destruct o2 as [l2 r2|q2 l1']; cbn [split_idx] in S3.
      + unb E as x Ex. destruct S3 as [S3 S4]. pose proof (replacement_idx _ _ _ S4 Ex). eapply IH; [|exact E]. auto.
      + eapply IH; [|exact E]. constructor; [exact S3|]. constructor; [exact I|exact H2].
  Qed.

  (** ** Trees *)
  Fixpoint tree_idx (t : tree) : Prop :=
    match t with
    | TStr _ | TRaw _ => True
    | TOriginal _ vi n => P n /\ R n vi
    | TL2L _ n o => P n /\ R n o
    | TPrefix _ t | TReplace t _ => tree_idx t
    | TConcat l => (fix all l := match l with [] => True | x :: r => tree_idx x /\ all r end) l
    | TSms x => sms_idx x
    end.
  Lemma tree_idx_concat l : tree_idx (TConcat l) <-> Forall tree_idx l.
  Proof.
    induction l as [|x r IH]; cbn [tree_idx] in *; [split; constructor|]. rewrite IH. split; [intros [H1 H2]; auto|]. intro H. now inversion H.
  Qed.
  Theorem t_node_idx c m t : tree_idx t -> forall n, t_node c m t = Some n -> node_idx n.
  Proof.
    induction t as [s|v|v i nm|v nm o|p t IH|t st IH|l IH|x] using tree_ind'; intros H n E; unfold t_node in *; cbn [fold_tree] in E.
    - discriminate.
    - injection E as <-. apply sn_new_idx; exact I.
    - destruct H as [H1 H2]. cbn [node_alg a_original] in E. unfold original_node in E. unbind E. unbind E. injection E as <-. apply node_idx_node.
      split; [exact I|]. split; [exact I|]. split; [repeat constructor; exact H2|]. eapply orig_lines_idx; [exact H1|constructor|exact E1].
    - destruct H as [H1 H2]. cbn [node_alg a_l2l] in E. unfold l2l_node in E. unbind E. injection E as <-. apply node_idx_node.
      split; [exact I|]. split; [exact I|]. split; [repeat constructor; exact H2|]. now apply l2l_lines_idx.
    - unbind E. cbn [node_alg a_prefix] in E. unfold prefix_node in E. unbind E. destruct v0 as [n' k]. injection E as <-.
      apply sn_new_idx; [exact I|exact I|]. eapply prefix_idx; [apply (IH H); exact E0|exact E1].
    - unbind E. cbn [node_alg a_replace] in E. unfold replace_node in E. unbind E. injection E as <-. apply node_idx_node.
      split; [exact I|]. split; [exact I|]. split; [constructor|]. cbn [add_chunk app]. eapply replace_loop_idx; [|exact E1]. constructor; [|constructor]. now apply (IH H).
    - unbind E. cbn [node_alg a_concat] in E. injection E as <-. apply node_idx_node. split; [exact I|]. split; [exact I|]. split; [constructor|].
      cbn [add_chunk app]. apply tree_idx_concat in H. revert v E0. induction l as [|x l IHl]; intros ys E; [injection E as <-; constructor|].
      inversion IH as [|? ? I1 I2]; subst. inversion H as [|? ? H1 H2]; subst. unbind E. unbind E. injection E as <-. cbn [map]. constructor; [|eauto].
      destruct x; try (unbind E0; injection E0 as <-; now apply I1). injection E0 as <-. exact I.
    - unbind E. destruct v as [x' n']. injection E as <-. cbn [node_alg a_sms] in E0. eapply sms_node_idx; [exact H|exact E0].
  Qed.
End Idx.
