(** The segments emitted for a source node. *)
From Verif Require Import Base Tactics ModelString StringFacts ModelVlq ModelSm SpecMap SpecAttr SpecLeast
  SortFacts MapFacts ParseFacts GenFacts LoadFacts NodeFacts LeafFacts.

Definition after (cur : option target) (M : marked) : option target :=
  fold_left (fun (_ : option target) (x : char * option target) => if N.eqb (fst x) NL then None else snd x) M cur.
Lemma changes_app M N : forall p cur,
  changes p cur (M ++ N) = changes p cur M ++ changes (fold_left advance (text_of M) p) (after cur M) N.
Proof.
  induction M as [|[c a] M IH]; intros p cur; [reflexivity|]. cbn [app changes]. rewrite IH, app_assoc. reflexivity.
Qed.
Lemma after_app M N cur : after cur (M ++ N) = after (after cur M) N.
Proof. apply fold_left_app. Qed.

(** ** The walk *)
Definition esrcs (l : list (place * option target)) : list Z :=
  flat_map (fun x : place * option target => match snd x with Some (s, _, _) => [s] | None => [] end) l.
Definition enames (l : list (place * option target)) : list Z :=
  flat_map (fun x : place * option target => match snd x with Some (_, _, Some n) => [n] | _ => [] end) l.
Definition tables (g : generator) : Prop :=
  g_skip g = true /\ map fst (g_sources g) = firsts (esrcs (map view (ml_list (g_mappings g)))) /\
  map fst (g_names g) = firsts (enames (map view (ml_list (g_mappings g)))).
Definition knows (cx : ctx) (cur : option target) : Prop :=
  if cx_active cx
  then is_some (cx_last_src cx) && is_some (cx_last_pos cx) = true /\ attr_of (cx_last_src cx) (cx_last_pos cx) (cx_last_name cx) = cur
  else cx_last_src cx = None /\ cur = None.
Definition kept (cx : ctx) (p : place) (cur : option target) (es : list (place * option target)) : Prop :=
  zpos (cx_pos cx) = p /\ tables (cx_map cx) /\ entries cx = es /\ knows cx cur.

Lemma add_tables g gp src name pos : tables g -> attr_of src pos name <> None \/ (src = None /\ name = None) ->
  exists g', gen_add_mapping g (mk_mapping gp src name pos) = Some g' /\ tables g' /\
    map view (ml_list (g_mappings g')) = map view (ml_list (g_mappings g)) ++ [(zpos gp, attr_of src pos name)].
Proof.
  intros (T1 & T2 & T3) H. rewrite gen_add_mapping_eq by now left. eexists. split; [reflexivity|].
  assert (L : map view (ml_list (g_mappings (gen_set_mappings g (ml_add (g_mappings g) (mk_mapping gp src name pos)))))
            = map view (ml_list (g_mappings g)) ++ [(zpos gp, attr_of src pos name)]).
  { cbn [g_mappings gen_set_mappings]. rewrite ml_add_list, map_app. cbn [map]. now rewrite view_mk. }
  cbn [g_mappings gen_set_mappings] in L.
  assert (E : attr_of src pos name = match src, pos with Some s, Some (l, c) => Some (s, (Z.of_N l, Z.of_N c), name) | _, _ => None end) by reflexivity.
  unfold tables. cbn [m_src m_name].
  destruct src as [s|]; [destruct pos as [[l c]|]|].
  - destruct name as [nm|]; cbn [g_skip g_sources g_names g_mappings gen_set_mappings gen_add_source gen_add_name]; rewrite L; unfold esrcs, enames; rewrite !flat_map_app;
      cbn [flat_map snd attr_of app]; rewrite ?app_nil_r; (split; [split; [exact T1|]; split|reflexivity]); try (now apply add_firsts); assumption.
  - exfalso. destruct H as [H|[H _]]; [now apply H|discriminate].
  - destruct name as [nm|]; [destruct H as [H|[_ H]]; [now exfalso|discriminate]|].
    cbn [g_skip g_sources g_names g_mappings gen_set_mappings]. rewrite L. unfold esrcs, enames. rewrite !flat_map_app. cbn [flat_map snd attr_of app].
    rewrite !app_nil_r. split; [split; [exact T1|]; split; assumption|reflexivity].
Qed.

Lemma loop_kept src pos name : forall s cx b n es, b + blen s = n ->
  let a := attr_of src pos name in
  (cx_active cx = is_some src && is_some pos) ->
  kept cx (zpos (cx_pos cx)) a es ->
  exists cx', chunk_loop cx src pos name n b s = Some cx' /\
    kept cx' (fold_left advance s (zpos (cx_pos cx))) (after a (mark a s)) (es ++ changes (zpos (cx_pos cx)) a (mark a s)).
Proof.
  intros s. induction s as [|c s IH]; intros cx b n es Hb a Ha HK.
  - exists cx. split; [reflexivity|]. cbn. now rewrite app_nil_r.
  - destruct HK as (_ & T & Es & K). cbn [chunk_loop]. cbn [blen] in Hb. cbn [fold_left mark map].
    change (map (fun c0 : char => (c0, a)) s) with (mark a s). cbn [changes].
    destruct (same_target a a) as [_|NE]; [|congruence]. cbn [app]. unfold after. cbn [fold_left fst snd]. fold (after (if N.eqb c NL then None else a) (mark a s)).
    destruct (N.eqb c NL) eqn:Ec.
    + apply N.eqb_eq in Ec. assert (E1 : len_utf8 c = 1) by (rewrite Ec; reflexivity).
      assert (Hgp : zpos ((fst (cx_pos cx) + 1)%N, 0%N) = advance (zpos (cx_pos cx)) c).
      { unfold advance. rewrite Ec, N.eqb_refl. unfold zpos. cbn. f_equal. lia. }
      rewrite <- Hgp.
      destruct (Nat.eqb_spec (b + 1) n) as [En|En].
      * assert (s = []). { destruct s as [|d s]; auto. exfalso.
          assert (0 < blen (d :: s)) by (apply blen_pos; congruence). lia. }
        subst s. cbn [bind chunk_loop mark map changes after fold_left]. rewrite app_nil_r. eexists. split; [reflexivity|].
        split; [reflexivity|]. split; [exact T|]. split; [exact Es|]. split; reflexivity.
      * assert (Hs : s <> []) by (intros ->; cbn in Hb; lia).
        destruct (cx_active cx) eqn:Eact.
        -- destruct (attr_of_some src pos name (eq_sym Ha)) as (z & l & q & -> & -> & Eat).
           destruct (add_tables (cx_map cx) ((fst (cx_pos cx) + 1)%N, 0%N) (Some z) name (Some (l, q)) T) as (g & Eg & Tg & Lg); [left; congruence|].
           unfold pos2 in *. rewrite Eg. cbn [bind].
           assert (Ne : a <> None) by (unfold a, pos2; congruence).
           destruct s as [|d s]; [congruence|].
           edestruct (IH (mk_ctx g true (cx_last_src cx) (cx_last_pos cx) (cx_last_name cx) (cx_code cx) ((fst (cx_pos cx) + 1)%N, 0%N)) (b + len_utf8 c) n
                       (es ++ [(zpos ((fst (cx_pos cx) + 1)%N, 0%N), a)])) as (cx' & E' & K'); [lia|reflexivity| |].
           { split; [reflexivity|]. split; [exact Tg|]. split; [|].
             - unfold entries in *. cbn [cx_map]. unfold pos2 in *. rewrite Lg, Es. reflexivity.
             - unfold knows in *. cbn [cx_active cx_last_src cx_last_pos cx_last_name]. rewrite Eact in K. exact K. }
           exists cx'. split; [exact E'|]. fold a in K'. cbn [cx_pos] in K'. rewrite <- app_assoc in K'. cbn [mark map changes app] in K' |- *.
           destruct (same_target a a) as [_|NE]; [|congruence]. destruct (same_target a None) as [NE|_]; [congruence|].
           exact K'.
        -- cbn [bind].
           assert (Ne : a = None) by (apply attr_of_none; symmetry; exact Ha).
           edestruct (IH (mk_ctx (cx_map cx) false (cx_last_src cx) (cx_last_pos cx) (cx_last_name cx) (cx_code cx) ((fst (cx_pos cx) + 1)%N, 0%N)) (b + len_utf8 c) n es)
             as (cx' & E' & K'); [lia|exact Ha| |].
           { split; [reflexivity|]. split; [exact T|]. split; [exact Es|]. unfold knows in *. cbn [cx_active]. rewrite Eact in K. exact K. }
           exists cx'. split; [exact E'|]. fold a in K'. cbn [cx_pos] in K'. rewrite Ne in K' |- *. exact K'.
    + cbn [bind].
      assert (Hgp : zpos (fst (cx_pos cx), (snd (cx_pos cx) + 1)%N) = advance (zpos (cx_pos cx)) c).
      { unfold advance. rewrite Ec. unfold zpos. cbn. f_equal. lia. }
      rewrite <- Hgp.
      edestruct (IH (mk_ctx (cx_map cx) (cx_active cx) (cx_last_src cx) (cx_last_pos cx) (cx_last_name cx) (cx_code cx) (fst (cx_pos cx), (snd (cx_pos cx) + 1)%N)) (b + len_utf8 c) n es)
             as (cx' & E' & K'); [lia|exact Ha| |].
      { split; [reflexivity|]. split; [exact T|]. split; [exact Es|]. exact K. }
      exists cx'. split; [exact E'|]. exact K'.
Qed.

Lemma changes_mark p cur a s : s <> [] ->
  changes p cur (mark a s) = (if same_target a cur then [] else [(p, a)]) ++ changes p a (mark a s).
Proof. destruct s as [|c s]; [congruence|]. intros _. cbn [mark map changes]. destruct (same_target a a); [reflexivity|congruence]. Qed.
Lemma after_mark cur a s : s <> [] -> after cur (mark a s) = after a (mark a s).
Proof. destruct s as [|c s]; [congruence|]. reflexivity. Qed.

Lemma chunk_kept cx s src pos name cur es : s <> [] -> kept cx (zpos (cx_pos cx)) cur es ->
  let a := attr_of src pos name in
  exists cx', process_chunk cx s src pos name = Some cx' /\
    kept cx' (fold_left advance s (zpos (cx_pos cx))) (after cur (mark a s)) (es ++ changes (zpos (cx_pos cx)) cur (mark a s)).
Proof.
  intros Hs (_ & T & Es & K) a. rewrite changes_mark, after_mark, app_assoc by exact Hs. unfold process_chunk.
  destruct (is_some src && is_some pos) eqn:Ep.
  - set (d := negb _ || _ || _).
    assert (Hd : d = if same_target a cur then false else true).
    { destruct (attr_of_some src pos name Ep) as (z & l & q & -> & -> & Eat). unfold knows in K. subst d.
      destruct (cx_active cx).
      - destruct K as [Ks K]. destruct (attr_of_some _ _ (cx_last_name cx) Ks) as (z' & l' & q' & Z1 & Z2 & Z3). rewrite Z1, Z2. rewrite Z3 in K. subst cur a. unfold pos2 in *. rewrite Eat.
        destruct (same_target _ _) as [E|E].
        + injection E as -> E1 E2 ->. apply N2Z.inj in E1, E2. subst l' q'.
          rewrite !(proj2 (optZ_eqb_eq _ _) eq_refl), !(proj2 (optpos_eqb_eq _ _) eq_refl). reflexivity.
        + apply not_false_is_true. intro F. apply orb_false_iff in F as [F F3]. apply orb_false_iff in F as [F1 F2].
          apply negb_false_iff in F1, F2, F3. apply optZ_eqb_eq in F1, F3. apply optpos_eqb_eq in F2. apply E. congruence.
      - destruct K as [Ks ->]. rewrite Ks. subst a. unfold pos2 in *. rewrite Eat. cbn. reflexivity. }
    clearbody d.
    assert (G : exists g, (if d then gen_add_mapping (cx_map cx) (mk_mapping (cx_pos cx) src name pos) else Some (cx_map cx)) = Some g /\ tables g /\
                map view (ml_list (g_mappings g)) = es ++ (if same_target a cur then [] else [(zpos (cx_pos cx), a)])).
    { rewrite Hd. destruct (same_target a cur).
      - exists (cx_map cx). split; [reflexivity|]. split; [exact T|]. now rewrite app_nil_r.
      - destruct (add_tables (cx_map cx) (cx_pos cx) src name pos T) as (g & Eg & Tg & Lg).
        { left. destruct (attr_of_some src pos name Ep) as (z & l & q & _ & _ & Eat). congruence. }
        exists g. split; [exact Eg|]. split; [exact Tg|]. rewrite Lg. unfold entries in Es. now rewrite Es. }
    destruct G as (g & Eg & Tg & Lg). unfold pos2 in *. rewrite Eg. cbn [bind].
    destruct (loop_kept src pos name s (mk_ctx g true src pos name (cx_code cx ++ s) (cx_pos cx)) 0 (blen s) (es ++ (if same_target a cur then [] else [(zpos (cx_pos cx), a)])))
      as (cx' & E' & K'); [reflexivity|symmetry; exact Ep| |].
    { split; [reflexivity|]. split; [exact Tg|]. split; [exact Lg|]. unfold knows. cbn [cx_active cx_last_src cx_last_pos cx_last_name]. split; [exact Ep|reflexivity]. }
    exists cx'. split; [exact E'|exact K'].
  - assert (Ne : a = None) by now apply attr_of_none.
    unfold knows in K. destruct (cx_active cx) eqn:Eact.
    + destruct K as [Ks K]. destruct (attr_of_some _ _ (cx_last_name cx) Ks) as (z' & l' & q' & Z1 & Z2 & Z3).
      destruct (add_tables (cx_map cx) (cx_pos cx) None None None T) as (g & Eg & Tg & Lg); [now right|]. rewrite Eg. cbn [bind].
      destruct (loop_kept src pos name s (mk_ctx g false None (cx_last_pos cx) (cx_last_name cx) (cx_code cx ++ s) (cx_pos cx)) 0 (blen s) (es ++ [(zpos (cx_pos cx), a)]))
        as (cx' & E' & K'); [reflexivity|symmetry; exact Ep| |].
      { split; [reflexivity|]. split; [exact Tg|]. split; [|split; [reflexivity|exact Ne]].
        unfold entries in *. cbn [cx_map]. rewrite Lg, Es, Ne. reflexivity. }
      exists cx'. split; [exact E'|]. fold a in K'. destruct (same_target a cur) as [E|_]; [exfalso; congruence|]. exact K'.
    + destruct K as [Ks ->]. cbn [bind].
      destruct (loop_kept src pos name s (mk_ctx (cx_map cx) false (cx_last_src cx) (cx_last_pos cx) (cx_last_name cx) (cx_code cx ++ s) (cx_pos cx)) 0 (blen s) es)
        as (cx' & E' & K'); [reflexivity|symmetry; exact Ep| |].
      { split; [reflexivity|]. split; [exact T|]. split; [exact Es|]. split; [exact Ks|exact Ne]. }
      exists cx'. split; [exact E'|]. fold a in K'. destruct (same_target a None) as [_|E]; [|congruence]. rewrite app_nil_r. exact K'.
Qed.

Theorem walk_kept n file root : Forall (fun x => leaf_text x <> []) (leaves n) ->
  exists cx, walk n (ctx_new file root true) = Some cx /\
    kept cx (fold_left advance (text_of (flat n)) (1, 0)%Z) (after None (flat n)) (least (flat n)).
Proof.
  intro H.
  set (P := fun cx (done : list leaf) => kept cx (fold_left advance (text_of (flat_leaves done)) (1, 0)%Z) (after None (flat_leaves done)) (least (flat_leaves done))).
  destruct (walk_inv_ok (fun x => leaf_text x <> []) P) with (n := n) (src := @None Z) (pos := @None pos2) (name := @None Z)
    (cx := ctx_new file root true) (done := @nil leaf) as (cx & E & K).
  - intros cx done [[[s src] pos] name] Hs (Kp & K'). cbn [process_leaf leaf_text fst] in *.
    destruct (chunk_kept cx s src pos name (after None (flat_leaves done)) (least (flat_leaves done)) Hs) as (cx' & E' & Q); [split; [reflexivity|exact K']|].
    exists cx'. split; [exact E'|]. unfold P.
    assert (Ef : flat_leaves (done ++ [(s, src, pos, name)]) = flat_leaves done ++ mark (attr_of src pos name) s).
    { unfold flat_leaves. rewrite flat_map_app. cbn. now rewrite app_nil_r. }
    match goal with |- kept _ (fold_left _ (text_of ?D) _) _ _ => change D with (flat_leaves (done ++ [(s, src, pos, name)])) end.
    unfold pos2, leaf in *. rewrite Ef.
    unfold least. rewrite changes_app, after_app, text_app, fold_left_app, text_mark, <- Kp. exact Q.
  - intros cx done s c K. exact K.
  - exact H.
  - split; [reflexivity|]. split; [|split; [reflexivity|split; reflexivity]]. repeat split; reflexivity.
  - exists cx. split; [exact E|exact K].
Qed.

(** ** Sources and names of the segments *)
Definition src_of (a : option target) : list Z := match a with Some (s, _, _) => [s] | None => [] end.
Definition name_of (a : option target) : list Z := match a with Some (_, _, Some n) => [n] | _ => [] end.
Lemma firsts_changes (f : option target -> list Z) : f None = [] -> (forall a, f a = [] \/ exists z, f a = [z]) ->
  forall M, firsts (flat_map (fun x : place * option target => f (snd x)) (least M)) = firsts (flat_map (fun x : char * option target => f (snd x)) M).
Proof.
  intros F0 F1. induction M as [|[c a] M IH] using rev_ind; [reflexivity|]. unfold least in *. rewrite changes_app. cbn [changes]. rewrite app_nil_r, !flat_map_app.
  cbn [flat_map snd]. rewrite app_nil_r. destruct (F1 a) as [E|[z E]].
  - destruct (same_target a (after None M)); cbn [flat_map snd]; rewrite ?E, ?app_nil_r; exact IH.
  - rewrite E. assert (X : forall x : Z, existsb (Z.eqb x) (flat_map (fun x : place * option target => f (snd x)) (changes (1, 0)%Z None M))
                          = existsb (Z.eqb x) (flat_map (fun x : char * option target => f (snd x)) M)).
    { intro x. rewrite <- existsb_firsts, IH. apply existsb_firsts. }
    destruct (same_target a (after None M)) as [Ea|_]; cbn [flat_map snd]; [|now rewrite E, app_nil_r, !firsts_snoc, X, IH].
    rewrite app_nil_r, firsts_snoc, IH. replace (existsb (Z.eqb z) _) with true; [reflexivity|]. symmetry. apply existsb_exists. exists z. split; [|apply Z.eqb_refl].
    clear - F0 Ea E. destruct M as [|[d b] M _] using rev_ind; [cbn in Ea; subst; rewrite F0 in E; discriminate|].
    rewrite after_app in Ea. cbn in Ea. destruct (N.eqb d NL); [subst; rewrite F0 in E; discriminate|]. subst b. rewrite flat_map_app, in_app_iff. right. cbn. rewrite E. now left.
Qed.
Lemma least_sources M : firsts (esrcs (least M)) = firsts (srcs_of M).
Proof. apply (firsts_changes src_of); [reflexivity|]. intros [[[s p] n]|]; cbn; eauto. Qed.
Lemma least_names M : firsts (enames (least M)) = firsts (names_of M).
Proof. apply (firsts_changes name_of); [reflexivity|]. intros [[[s p] [n|]]|]; cbn; eauto. Qed.

(** The map, as read by a consumer. *)
Theorem emitted_least n file root : Forall solid (leaves n) ->
  exists code m, to_string_with_source_map n file root = Some (code, m) /\ code = text_of (flat n) /\
    map_sources m = firsts (srcs_of (flat n)) /\ map_names m = firsts (names_of (flat n)) /\
    read_map (map_sources m) (map_names m) (map_mappings m) = Some (least (flat n)).
Proof.
  intro Hok. destruct (walk_sorted n file root (Forall_impl _ solid_ok Hok)) as (cx & E & ((W & S & _) & _)).
  destruct (walk_exact n file root) as (cx' & E' & (_ & _ & Hcode)). rewrite E in E'. injection E' as <-.
  destruct (walk_kept n file root) as (cx' & E' & (_ & (T1 & T2 & T3) & Es & _)); [eapply Forall_impl; [|exact Hok]; intros x Hx; apply Hx|].
  rewrite E in E'. injection E' as <-.
  destruct W as [W _]. destruct (to_source_map_spec (cx_map cx) W) as (g' & m & Em & _ & Ms & Mn & _ & _ & _ & Hr).
  rewrite isort_id in Hr by (auto using mapping_sym).
  unfold to_string_with_source_map. rewrite E. cbn [bind]. rewrite Em. cbn [bind].
  unfold entries in Es. rewrite Es in *. rewrite least_sources in T2. rewrite least_names in T3.
  eexists _, _. split; [reflexivity|]. split; [exact Hcode|]. split; [congruence|]. split; [congruence|exact Hr].
Qed.

(** ** The least list says what it should, and no list with fewer places does *)
Lemma least_says M :
  annotate (least M) (text_of M) = M /\
  Forall (fun e : place * option target => plt (fst e) (fold_left advance (text_of M) (1, 0)%Z)) (least M) /\
  let p := fold_left advance (text_of M) (1, 0)%Z in lookup (least M) (fst p) (snd p) = after None M.
Proof.
  induction M as [|[c a] M (IH1 & IH2 & IH3)] using rev_ind; [repeat split; constructor|].
  unfold least in *. rewrite changes_app, text_app, fold_left_app. cbn [text_of map fst fold_left changes]. rewrite app_nil_r, after_app. cbn [after fold_left fst snd].
  change (map fst M) with (text_of M). set (p := fold_left advance (text_of M) (1, 0)%Z) in *. set (es := changes (1, 0)%Z None M) in *. cbn zeta in IH3.
  set (es' := es ++ (if same_target a (after None M) then [] else [(p, a)])).
  assert (F1 : Forall (fun e : place * option target => ple (fst e) p) es) by (eapply Forall_impl; [|exact IH2]; unfold plt, ple; intros; lia).
  assert (F2 : Forall (fun e : place * option target => ple (fst e) p) es').
  { apply Forall_app. split; [exact F1|]. destruct (same_target _ _); [constructor|]. constructor; [unfold ple; cbn; lia|constructor]. }
  assert (L : lookup es' (fst p) (snd p) = a).
  { unfold es'. destruct (same_target a (after None M)) as [->|_]; [rewrite app_nil_r; exact IH3|]. now apply (lookup_snoc_at es (p, a) p). }
  split; [|split].
  - unfold annotate in *. rewrite annotate_from_app. fold p. cbn [annotate_from]. rewrite L. f_equal. unfold es'.
    destruct (same_target a (after None M)); [now rewrite app_nil_r|]. rewrite annotate_freeze; [exact IH1|]. fold p. unfold ple. cbn. lia.
  - eapply Forall_impl; [|exact F2]. intros e He. pose proof (advance_lt p c). unfold plt, ple in *. lia.
  - unfold advance. destruct (N.eqb c NL); cbn [fst snd].
    + apply (lookup_new_line es' (fst p) (snd p)). destruct p; exact F2.
    + rewrite (lookup_later es' (fst p) (snd p)); [exact L| |lia]. destruct p; exact F2.
Qed.
Lemma lookup_step es l c : ~ In (l, c) (map fst es) -> lookup es l c = lookup es l (c - 1).
Proof.
  intro H. unfold lookup, find_entry. f_equal. generalize (@None (place * option target)). induction es as [|[[l' c'] t] es IH]; intro b; [reflexivity|].
  cbn [map fst In] in H. cbn [fold_left]. rewrite IH by tauto. f_equal. unfold better. cbn [fst snd].
  destruct (Z.eqb_spec l' l) as [->|]; [|reflexivity]. cbn [andb].
  destruct (Z.leb_spec c' c), (Z.leb_spec c' (c - 1)); try lia; [reflexivity| |reflexivity]. exfalso. apply H. left. f_equal. lia.
Qed.
Lemma changes_needed es M : Forall (fun e : place * option target => 0 <= snd (fst e))%Z es -> forall p cur,
  annotate_from es p (text_of M) = M -> cur = lookup es (fst p) (snd p - 1) -> incl (map fst (changes p cur M)) (map fst es).
Proof.
  intro Hes. induction M as [|[c a] M IH]; intros p cur E Hc; [intros x []|]. cbn [text_of map fst annotate_from] in E. injection E as E1 E2.
  cbn [changes]. rewrite map_app. intros x Hx. apply in_app_iff in Hx as [Hx|Hx].
  - destruct (same_target a cur) as [|N]; [destruct Hx|]. destruct Hx as [<-|[]]. cbn [fst].
    assert (D : forall x y : place, {x = y} + {x <> y}) by (repeat decide equality).
    destruct (in_dec D p (map fst es)) as [I|I]; [exact I|]. exfalso. apply N. rewrite <- E1, Hc. apply lookup_step. destruct p; exact I.
  - apply IH in Hx; [exact Hx|exact E2|]. unfold advance. destruct (N.eqb c NL); cbn [fst snd].
    + unfold lookup. destruct (find_entry es (fst p + 1) (0 - 1)) as [e|] eqn:Ef; [|reflexivity]. apply find_entry_in in Ef as (I1 & _ & I2).
      rewrite Forall_forall in Hes. specialize (Hes e I1). lia.
    + rewrite <- E1. f_equal. lia.
Qed.
Theorem least_minimal es M : Forall (fun e : place * option target => 0 <= snd (fst e))%Z es ->
  annotate es (text_of M) = M -> incl (map fst (least M)) (map fst es).
Proof.
  intros Hes E. apply changes_needed; [exact Hes|exact E|]. cbn [fst snd]. unfold lookup. destruct (find_entry es 1 (0 - 1)) as [e|] eqn:Ef; [|reflexivity].
  apply find_entry_in in Ef as (I1 & _ & I2). rewrite Forall_forall in Hes. specialize (Hes e I1). lia.
Qed.
Lemma changes_later M : forall p cur q a, In (q, a) (changes p cur M) -> ple p q.
Proof.
  induction M as [|[c b] M IH]; intros p cur q a H; [destruct H|]. cbn [changes] in H. apply in_app_iff in H as [H|H].
  - destruct (same_target b cur); [destruct H|]. destruct H as [H|[]]. injection H as <- _. unfold ple. lia.
  - apply IH in H. pose proof (advance_lt p c). unfold ple, plt in *. lia.
Qed.
Lemma least_places M : NoDup (map fst (least M)).
Proof.
  unfold least. generalize (1, 0)%Z (@None target). induction M as [|[c a] M IH]; intros p cur; [constructor|]. cbn [changes].
  destruct (same_target a cur); [apply IH|]. cbn [app map fst]. constructor; [|apply IH]. intro H. apply in_map_iff in H as ((q & b) & <- & H). cbn [fst] in H.
  apply changes_later in H. pose proof (advance_lt q c). unfold ple, plt in *. lia.
Qed.
Theorem least_shortest es M : Forall (fun e : place * option target => 0 <= snd (fst e))%Z es ->
  annotate es (text_of M) = M -> length (least M) <= length es.
Proof.
  intros Hes E. rewrite <- (map_length fst (least M)), <- (map_length fst es). apply NoDup_incl_length; [apply least_places|now apply least_minimal].
Qed.
