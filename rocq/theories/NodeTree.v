(** Maps of source trees: totality, text, attribution through every class. *)
From Verif Require Import Base Tactics ModelString StringFacts ModelVlq ModelSm ModelSlm
  ModelSources ModelTree SpecText SortFacts TextFacts EditFacts TreeText SpecMap VlqFacts MapFacts ParseFacts
  GenFacts LoadFacts SpecAttr SpecEdit NodeFacts LeafFacts ReplaceNode SmsNode SmsProps.
From Verif Require Export SpecTree.

(** ** Emission never fails *)
Lemma solid_lined x : solid x -> lined x.
Proof. intros [_ H]. exact H. Qed.

Definition walk_ok (cx : ctx) : Prop := gen_wf1 (cx_map cx) /\ (0 < fst (cx_pos cx))%N.

Lemma walk_ok_add cx src name pos : walk_ok cx -> valid (mk_mapping (cx_pos cx) src name pos) ->
  exists g, gen_add_mapping (cx_map cx) (mk_mapping (cx_pos cx) src name pos) = Some g /\
    forall act ls lp ln code, walk_ok (mk_ctx g act ls lp ln code (cx_pos cx)).
Proof.
  intros [W P] V.
  destruct (gen_add_mapping (cx_map cx) (mk_mapping (cx_pos cx) src name pos)) as [g|] eqn:Eg.
  2:{ rewrite gen_add_mapping_eq in Eg by auto. discriminate. }
  exists g. split; [reflexivity|]. apply gen_add_wf1 in Eg as (W' & _); auto.
  intros. split; auto.
Qed.

Lemma chunk_loop_ok src pos name : forall s cx b n, walk_ok cx ->
  (cx_active cx = true -> exists s l c, src = Some s /\ pos = Some (l, c) /\ (0 < l)%N) ->
  exists cx', chunk_loop cx src pos name n b s = Some cx' /\ walk_ok cx'.
Proof.
  induction s as [|c s IH]; intros cx b n HW HA.
  - exists cx. auto.
  - cbn [chunk_loop].
    assert (Hmv : forall act ls lp ln code gp, (0 < fst gp)%N -> walk_ok (mk_ctx (cx_map cx) act ls lp ln code gp))
      by (intros; split; [apply HW|auto]).
    destruct (N.eqb c NL) eqn:Ec.
    + destruct (b + 1 =? n).
      * cbn [bind]. apply IH; [apply Hmv; cbn; lia|cbn; discriminate].
      * destruct (cx_active cx) eqn:Ea.
        -- destruct (HA eq_refl) as (s0 & l0 & c0 & -> & -> & Hl).
           destruct (walk_ok_add (mk_ctx (cx_map cx) true (cx_last_src cx) (cx_last_pos cx) (cx_last_name cx)
                     (cx_code cx) ((fst (cx_pos cx) + 1)%N, 0%N)) (Some s0) name (Some (l0, c0))) as (g & Eg & Hg).
           { apply Hmv. cbn. lia. }
           { unfold valid, validate_mapping. cbn. rewrite andb_true_iff, !N.ltb_lt. lia. }
           cbn [cx_map cx_pos] in Eg. rewrite Eg. cbn [bind]. apply IH; [apply Hg|eauto 6].
        -- cbn [bind]. apply IH; [apply Hmv; cbn; lia|cbn; discriminate].
    + cbn [bind]. apply IH; [apply Hmv; cbn; apply HW|exact HA].
Qed.

Lemma process_leaf_ok cx x : lined x -> walk_ok cx ->
  exists cx', process_leaf cx x = Some cx' /\ walk_ok cx'.
Proof.
  destruct x as [[[s src] pos] name]. intros Hl HW. cbn [process_leaf]. unfold process_chunk.
  destruct (is_some src && is_some pos) eqn:Es.
  - destruct src as [s0|]; [|discriminate]. destruct pos as [[l0 c0]|]; [|discriminate]. cbn in Hl.
    set (d := negb _ || _ || _).
    assert (G : exists g, (if d then gen_add_mapping (cx_map cx)
                   (mk_mapping (cx_pos cx) (Some s0) name (Some (l0, c0))) else Some (cx_map cx)) = Some g /\
              forall act ls lp ln code, walk_ok (mk_ctx g act ls lp ln code (cx_pos cx))).
    { destruct d.
      - apply walk_ok_add; auto. unfold valid, validate_mapping. cbn. destruct HW as [_ Hp].
        rewrite andb_true_iff, !N.ltb_lt. lia.
      - exists (cx_map cx). split; auto. }
    clearbody d. destruct G as (g & Eg & Hg). unfold pos2 in *. rewrite Eg. cbn [bind].
    apply chunk_loop_ok; auto. eauto 6.
  - destruct (cx_active cx) eqn:Ea.
    + destruct (walk_ok_add cx None None None HW) as (g & Eg & Hg).
      { unfold valid, validate_mapping. cbn. destruct HW as [_ Hp]. rewrite N.ltb_lt. lia. }
      rewrite Eg. cbn [bind]. apply chunk_loop_ok; auto. cbn. discriminate.
    + cbn [bind]. apply chunk_loop_ok; auto. cbn. discriminate.
Qed.

Theorem walk_total n file root : Forall lined (leaves n) ->
  exists cx, walk n (ctx_new file root true) = Some cx /\ walk_ok cx.
Proof.
  intro Hok.
  assert (H1 : forall cx (done : list leaf) x, lined x -> walk_ok cx ->
            exists cx', process_leaf cx x = Some cx' /\ walk_ok cx')
    by (intros cx done x Hx H; now apply process_leaf_ok).
  assert (H2 : forall cx (done : list leaf) s c, walk_ok cx -> walk_ok (process_source_content cx s c)).
  { intros cx done s c [A B]. split; [|exact B]. now apply (content_wf _ s (Some c)). }
  assert (H3 : walk_ok (ctx_new file root true)) by (split; [apply gen_new_wf1|cbn; lia]).
  destruct (walk_inv_ok lined (fun cx _ => walk_ok cx) H1 H2 n None None None _ [] Hok H3)
    as (cx & E & H). exists cx. auto.
Qed.

(** The text of the emitted pair; the emitted map reads as the sorted list of entries. *)
Theorem emitted_total n file root : Forall lined (leaves n) ->
  exists code m g, to_string_with_source_map n file root = Some (code, m) /\
    to_string_with_generator n file root = Some (code, g) /\
    code = text_of (flat n) /\ gen_wf g /\
    read_map (map_sources m) (map_names m) (map_mappings m) =
      Some (map view (isort mapping_cmp (ml_list (g_mappings g)))).
Proof.
  intro Hok. destruct (walk_total n file root Hok) as (cx & E & (W & _)).
  destruct (walk_exact n file root) as (cx' & E' & (HC & _ & Hcode)).
  rewrite E in E'. injection E' as <-. destruct W as [W _].
  destruct (to_source_map_spec (cx_map cx) W) as (g' & m & Em & _ & _ & _ & _ & _ & _ & Hr).
  unfold to_string_with_source_map, to_string_with_generator. rewrite E. cbn [bind]. rewrite Em. cbn [bind].
  eexists _, _, _. split; [reflexivity|]. split; [reflexivity|]. auto.
Qed.

(** If the walk succeeds at all, its text is that of the node. *)
Lemma emitted_text n file root code m : to_string_with_source_map n file root = Some (code, m) ->
  code = text_of (flat n).
Proof.
  unfold to_string_with_source_map. destruct (walk_exact n file root) as (cx & -> & (_ & _ & Hcode)).
  cbn [bind]. intro H. unbind H. destruct v as [g m']. injection H as H1 H2. congruence.
Qed.

(** ** ReplaceSource *)
Lemma combine_rev {A B} (a : list A) (b : list B) : length a = length b ->
  combine (rev a) (rev b) = rev (combine a b).
Proof.
  revert b; induction a as [|x a IH]; intros [|y b] H; try discriminate; [reflexivity|].
  cbn [rev combine]. injection H as H. rewrite <- IH by auto.
  assert (G : forall (a : list A) (b : list B), length a = length b -> combine (a ++ [x]) (b ++ [y]) = combine a b ++ [(x, y)]).
  { clear. induction a as [|x' a IH]; intros [|y' b] H; try discriminate; [reflexivity|].
    cbn. now rewrite IH by auto. }
  apply G. now rewrite !rev_length.
Qed.
Lemma Forall2_rev' {A B} (R : A -> B -> Prop) a b : Forall2 R a b -> Forall2 R (rev a) (rev b).
Proof. induction 1; cbn; [constructor|]. apply Forall2_app; auto. Qed.

(** Edits in descending order, none reaching into a later one. *)
Definition clear_of (a b : edit) : Prop := (e_to b < e_from a /\ e_to b <= e_to a)%Z.

Lemma steps_desc len : forall (d : list (edit * nat)) L,
  Forall (fun x => edit_ok (fst x)) d -> Forall (fun x => forward (fst x)) d ->
  ForallOrdPairs (fun a b => clear_of (fst a) (fst b)) d ->
  Forall (fun x => Z.min (e_to (fst x) + 1) (Z.of_nat len) <= Z.of_nat L)%Z d ->
  steps_ok (map to_repl d) len L.
Proof.
  induction d as [|x d IH]; intros L HO HF HP HL; cbn [map steps_ok]; [exact I|].
  inversion HO as [|? ? O1 O2]; inversion HF as [|? ? F1 F2]; inversion HP as [|? ? P1 P2];
    inversion HL as [|? ? L1 L2]; subst.
  destruct (rep_ok_to_repl x O1) as (Es & Ee & _). rewrite Es, Ee.
  split; [unfold forward in *; lia|]. split; [assumption|].
  apply IH; auto. rewrite Forall_forall in *. intros y Hy.
  specialize (P1 y Hy). specialize (L2 y Hy). unfold clear_of in P1. lia.
Qed.

Lemma apart_clear a b : key_le a b = true -> apart a b -> forward a -> forward b -> edit_ok a -> edit_ok b ->
  clear_of b a.
Proof. unfold key_le, apart, before, forward, edit_ok, clear_of, e_hi, e_lo. lia. Qed.

Lemma FOP_sorted {A} (R Q : A -> A -> Prop) l :
  ForallOrdPairs R l -> StronglySorted Q l -> ForallOrdPairs (fun a b => R a b /\ Q a b) l.
Proof.
  induction 1 as [|x l H1 H2 IH]; intro S; constructor; inv S; auto.
  rewrite Forall_forall in *. auto.
Qed.
Lemma FOP_rev {A} (R : A -> A -> Prop) l : ForallOrdPairs R l -> ForallOrdPairs (fun a b => R b a) (rev l).
Proof.
  induction 1 as [|x l H1 H2 IH]; cbn [rev]; [constructor|].
  assert (HF : Forall (fun y => R x y) (rev l)) by (rewrite Forall_forall in *; intros y Hy; apply H1; now apply in_rev).
  clear -IH HF. induction IH as [|y r H3 H4 IH]; cbn [app]; [repeat constructor|].
  inv HF. constructor; [apply Forall_app; auto|]. now apply IH.
Qed.
Lemma FOP_map {A B} (f : A -> B) (R : B -> B -> Prop) l :
  ForallOrdPairs R (map f l) <-> ForallOrdPairs (fun a b => R (f a) (f b)) l.
Proof.
  induction l as [|x l IH]; cbn [map]; split; intro H; try constructor; inv H.
  - now rewrite <- Forall_map.
  - now apply IH.
  - now rewrite Forall_map.
  - now apply IH.
Qed.
Lemma FOP_impl {A} (R Q : A -> A -> Prop) (P : A -> Prop) l :
  (forall a b, P a -> P b -> R a b -> Q a b) -> Forall P l -> ForallOrdPairs R l -> ForallOrdPairs Q l.
Proof.
  intros H HP. induction 1 as [|x l H1 H2 IH]; constructor; inv HP; auto.
  rewrite Forall_forall in *. auto.
Qed.

Lemma newly_target m e t : edit_ok e ->
  newly m (e_from e) (e_to e + 1) t -> new_target m e t.
Proof.
  intros He (H1 & H2 & H3 & H4). split; [|split].
  - intro Ha. unfold attr_at. change (Z.to_nat 0) with 0. destruct m as [|[c x] m].
    + rewrite H1 by auto. reflexivity.
    + cbn. eapply H3; [exact Ha|reflexivity].
  - exact H2.
  - intro Ha. destruct (H4 Ha) as (z & (c & x & N1 & N2) & ->).
    assert (E : forall n k v, nth_error (firstn n m) k = Some v -> nth_error m k = Some v /\ k < n).
    { clear. intros n k. revert n m; induction k as [|k IH]; intros [|n] [|y m] v; cbn; try discriminate.
      - intros ->. split; auto; lia.
      - intro H. destruct (IH _ _ _ H). split; auto; lia. }
    destruct (E _ _ _ N1) as [N1' _].
    assert (Ea : attr_at m (e_from e - 1) = x).
    { unfold attr_at. replace (Z.to_nat (e_from e - 1)) with (Z.to_nat (e_from e) - 1) by lia. now rewrite N1'. }
    destruct N2 as [-> |(c' & y & N2 & ->)]; [left; now rewrite Ea|]. right.
    destruct (E _ _ _ N2) as [N2' Hlt]. split; [lia|]. unfold attr_at. now rewrite N2'.
Qed.

Theorem replace_node_run h n : Forall call_ok h -> Forall edit_ok (edits_of h) -> is_node n ->
  exists n' ts, replace_node (rs_repls (sort_replacements (run h))) n = Some n' /\ is_node n' /\
    length ts = length (edits_of h) /\
    flat n' = edited_marked (edits_of h) ts (flat n) /\
    (Forall nonempty (leaves n) -> ForallOrdPairs apart (edits_of h) -> Forall forward (edits_of h) ->
     Forall2 (new_target (flat n)) (arrange key_le (edits_of h)) ts).
Proof.
  intros Hh Hok Hn. set (es := edits_of h) in *. rewrite run_sorted by auto. fold es.
  set (d := rev (arranged es)).
  assert (Hd : map fst d = rev (arrange key_le es)) by (unfold d; rewrite map_rev, arranged_fst; reflexivity).
  destruct (replace_loop_flat (map to_repl d) (flat n) (length (flat n)) n [] Hn) as (res & ts & E & Hlen & Hf & Hnew).
  { now rewrite firstn_all. }
  { lia. }
  unfold replace_node. rewrite E. cbn [bind]. eexists _, (rev ts). split; [reflexivity|]. split; [exact I|].
  rewrite map_length in Hlen.
  assert (Hld : length d = length es).
  { rewrite <- (map_length fst d), Hd, rev_length. symmetry. apply Permutation_length, arrange_perm. }
  split; [rewrite rev_length; lia|].
  assert (HokD : Forall (fun x => edit_ok (fst x)) d).
  { rewrite <- Forall_map, Hd, <- Permutation_rev, <- arrange_perm. exact Hok. }
  split.
  - unfold sn_new, flat. rewrite leaves_root. cbn [add_chunk app]. rewrite flat_all_leaves, Hf. cbn [flat_map].
    rewrite app_nil_r. change (flat_leaves (leaves n)) with (flat n).
    set (F := fun p : edit * option target => (fst p, mark (snd p) (e_text (fst p)) : list (char * option target))).
    set (o := map F (combine (arrange key_le es) (rev ts)) : list (edit * list (char * option target))).
    assert (Hrev : rev o = map F (combine (map fst d) ts)).
    { unfold o. rewrite <- map_rev. f_equal. rewrite <- combine_rev.
      - now rewrite <- Hd, rev_involutive.
      - rewrite rev_length, Hlen, Hld. symmetry. apply Permutation_length, arrange_perm. }
    assert (Hfst : map fst o = arrange key_le es).
    { unfold o, F. rewrite map_map. cbn [fst].
      assert (G : forall (a : list edit) (b : list (option target)), length a = length b -> map (fun x => fst x) (combine a b) = a).
      { clear. induction a as [|x a IH]; intros [|y b] H; try discriminate; [reflexivity|]. cbn. now rewrite IH by auto. }
      apply G. rewrite rev_length, Hlen, Hld. symmetry. apply Permutation_length, arrange_perm. }
    rewrite (gsplice_woven o); [|apply Nat.le_refl| |].
    + rewrite firstn_all. unfold edited_marked. fold F. fold o. apply woven_ext; auto.
      intro j. f_equal. transitivity (covered (arrange key_le es) j).
      { exact (f_equal (fun l => covered l j) Hfst). } apply covered_perm. symmetry. apply arrange_perm.
    + rewrite Hrev. clear -HokD Hlen. revert ts Hlen. induction HokD as [|x d Hx _ IH]; intros [|t ts] Hlen; try discriminate; [constructor|].
      cbn [map combine]. constructor; [|apply IH; auto].
      destruct (rep_ok_to_repl x Hx) as (Es & Ee & Et). unfold grep_ok, mrep, F. cbn [fst snd].
      rewrite Et. auto.
    + pose proof (arrange_sorted_to es Hok) as S. rewrite <- Hfst in S. clear -S.
      induction o as [|x o IH]; [constructor|]. cbn [map] in S. inv S. constructor; auto. now rewrite Forall_map in H2.
  - intros Hne HA HF.
    assert (Hnt : Forall2 (fun r t => newly (flat n) (rp_start_pos r) (rp_end_pos r) t) (map to_repl d) ts).
    { apply Hnew.
      - unfold rem_ok. destruct (leaves n) as [|x l] eqn:El.
        + right. right. split; [|auto]. unfold flat. now rewrite El.
        + left. split; [|auto]. unfold flat. rewrite El. inv Hne. destruct x as [[[[|c s] src] pos] name]; [now cbn in H1|].
          cbn. lia.
      - apply steps_desc; auto.
        + rewrite <- Forall_map, Hd, <- Permutation_rev, <- arrange_perm. exact HF.
        + rewrite <- (FOP_map fst clear_of), Hd.
          apply (FOP_rev (fun a b => clear_of b a)).
          apply (FOP_impl (fun a b => apart a b /\ key_le a b = true) _ (fun e => edit_ok e /\ forward e)).
          * intros a b [] [] []. now apply apart_clear.
          * rewrite <- arrange_perm. rewrite Forall_forall in *. auto.
          * apply FOP_sorted; [|apply key_le_sorted]. eapply FOP_perm; eauto using apart_sym, arrange_perm.
        + apply Forall_forall. intros; lia. }
    replace (arrange key_le es) with (rev (map fst d)) by (rewrite Hd; apply rev_involutive).
    apply Forall2_rev'. clear -Hnt HokD. revert ts Hnt. induction HokD as [|x d Hx _ IH]; intros ts H; inv H; [constructor|].
    cbn [map]. constructor; [|now apply IH].
    destruct (rep_ok_to_repl x Hx) as (Es & Ee & _). rewrite Es, Ee in H2. now apply newly_target.
Qed.

(** For any replacement list: the result exists and its text is that of source(). *)
Lemma gsplice_map {A B} (f : A -> B) : forall rs s L,
  map f (gsplice rs s L) = gsplice (map (fun r => (fst r, map f (snd r))) rs) (map f s) L.
Proof.
  induction rs as [|[[a b] t] rs IH]; intros s L; cbn [gsplice map fst snd].
  - symmetry. apply firstn_map.
  - rewrite !map_app, IH. do 2 f_equal. unfold piece_of. now rewrite skipn_map, firstn_map.
Qed.
Lemma replace_node_text rs n : is_node n ->
  exists n', replace_node rs n = Some n' /\ is_node n' /\
    replace_text rs (text_of (flat n)) = Some (text_of (flat n')).
Proof.
  intro Hn. destruct (replace_loop_flat rs (flat n) (length (flat n)) n [] Hn) as (res & ts & E & Hlen & Hf & _).
  { now rewrite firstn_all. }
  { lia. }
  unfold replace_node. rewrite E. cbn [bind]. eexists. split; [reflexivity|]. split; [exact I|].
  unfold sn_new, flat. rewrite leaves_root. cbn [add_chunk app]. rewrite flat_all_leaves, Hf. cbn [flat_map].
  rewrite app_nil_r. change (flat_leaves (leaves n)) with (flat n).
  rewrite replace_text_spec, splice_gsplice. unfold text_of. rewrite gsplice_map, map_length. do 2 f_equal.
  clear -Hlen. revert ts Hlen. induction rs as [|r rs IH]; intros [|t ts] H; try discriminate; [reflexivity|].
  cbn [map combine fst snd]. f_equal; [|apply IH; now injection H]. unfold mrep, as_triple. cbn [fst snd].
  f_equal. symmetry. apply text_mark.
Qed.

(** Chunks with 1-based lines stay so. *)
Lemma split_leaves_lined l : forall pos a b, split_leaves l pos = inl (a, b) ->
  Forall lined l -> Forall lined a /\ Forall lined b.
Proof.
  assert (Hw : forall x t, lined x -> lined (with_text x t)) by (intros [[[s src] pos] name] t H; exact H).
  induction l as [|x l IH]; intros pos a b E HF; cbn [split_leaves] in E; [discriminate|].
  inversion HF as [|? ? Hx Hl]; subst.
  destruct (_ <=? _)%Z.
  - injection E as E1 E2. subst a b. split; constructor; auto.
  - destruct (split_leaves l _) as [[a' b']|] eqn:E'; [|discriminate]. injection E as E1 E2. subst a b.
    destruct (IH _ _ _ E' Hl). split; auto.
Qed.
Lemma split_lined n pos : (pos < 2147483648)%Z -> nlined n ->
  exists o, split_sourcenode n pos = Some o /\
    match o with NOk a b => nlined a /\ nlined b | NErr _ n' => nlined n' end.
Proof.
  intros Hp H. destruct (split_node_flat n pos Hp) as (o & E & Ho). exists o. split; [exact E|].
  destruct o as [a b|p n'].
  - destruct Ho as (_ & _ & _ & _ & _ & S). apply (split_leaves_lined _ _ _ _ S H).
  - destruct Ho as (S & _). unfold nlined. now rewrite S.
Qed.
Lemma replacement_lined n t x : nlined n -> replacement_to_sourcenode n t = Some x -> nlined x.
Proof.
  intros H E. destruct n as [|po sr nm ch ct]; [discriminate|]. cbn [replacement_to_sourcenode] in E.
  set (n := SmNode po sr nm ch ct) in *. unbind E. destruct v as [code g]. unbind E. destruct v as [g' m].
  injection E as E. subst x.
  destruct (emitted_total n None None H) as (code' & mp & g0 & _ & Eg & _ & W & _).
  rewrite Eg in E0. injection E0 as E2 E3. subst code' g0.
  assert (V : m = empty_mapping \/ valid m).
  { destruct (original_position_entry g 1%N 0%N) as [(o & Eo & Ho & _)|[Eo _]]; [apply W| |];
      rewrite Eo in E1; injection E1 as _ E1; subst m; [right|left; reflexivity].
    destruct W as (_ & _ & W & _). rewrite Forall_forall in W. apply (fun H => proj1 (W _ H)).
    eapply Permutation_in; [symmetry; apply isort_perm|exact Ho]. }
  unfold nlined. rewrite leaves_sn_new. destruct t as [|c t]; [constructor|].
  constructor; [|constructor]. destruct V as [-> |V]; [exact I|]. destruct m as [gp src name orig]. apply valid_cases in V as [_ V].
  cbn [m_src m_orig m_name m_gen] in *. destruct V as [(-> & -> & _)|(s & l & c' & -> & -> & V)]; cbn; auto.
Qed.
Lemma replace_loop_lined rs : forall rem stack res, nlined rem -> Forall nlined stack ->
  replace_node_loop rs (rem :: stack) = Some res -> Forall nlined res.
Proof.
  induction rs as [|r rs IH]; intros rem stack res Hr Hs E; cbn [replace_node_loop] in E.
  - injection E as <-. constructor; auto.
  - assert (Ha : (rp_start_pos r < 2147483648)%Z) by apply to_i32_range.
    assert (Hb : (rp_end_pos r < 2147483648)%Z) by (unfold rp_end_pos; apply to_i32_range).
    destruct (split_lined rem _ Hb Hr) as (o & Eo & Ho). rewrite Eo in E. cbn [bind] in E.
    destruct o as [l1 r1|p rem1].
    + destruct Ho as [H1 H2]. destruct (split_lined l1 _ Ha H1) as (o & Eo2 & Ho). rewrite Eo2 in E. cbn [bind] in E.
      destruct o as [l2 r2|p' l1'].
      * destruct Ho as [H3 H4]. unbind E. apply replacement_lined in E0; auto. eapply IH; [| |exact E]; auto.
      * unbind E. apply replacement_lined in E0; auto. eapply IH; [| |exact E]; auto.
    + destruct (split_lined rem1 _ Ha Ho) as (o & Eo2 & Ho2). rewrite Eo2 in E. cbn [bind] in E.
      destruct o as [l2 r2|p' l1'].
      * destruct Ho2 as [H3 H4]. unbind E. apply replacement_lined in E0; auto. eapply IH; [| |exact E]; auto.
      * eapply IH; [| |exact E]; auto. constructor; auto. unfold nlined. cbn. destruct (rp_text r); repeat constructor.
Qed.
Lemma replace_node_lined rs n n' : nlined n -> replace_node rs n = Some n' -> nlined n'.
Proof.
  intros H E. unfold replace_node in E. unbind E. injection E as <-.
  apply replace_loop_lined in E0; auto. unfold nlined, sn_new. rewrite leaves_root. cbn [add_chunk app].
  unfold all_leaves. clear -E0. induction E0; cbn [flat_map]; [constructor|]. apply Forall_app. auto.
Qed.

(** ** SourceMapSource *)
Lemma sms_node_chunks x x' n : sms_node x = Some (x', n) ->
  is_node n /\ Forall nonempty (leaves n) /\ texts (leaves n) = sms_value x.
Proof.
  intro E. unfold sms_node in E. unbind E. destruct v as [c g]. unbind E. destruct v as [[g1 inner] applied].
  destruct (from_string_nonempty (sms_value x) g1) as (ch & Ech & H1 & H2). rewrite Ech in E. cbn [bind] in E.
  injection E as _ E. subst n. rewrite leaves_root. split; [exact I|]. auto.
Qed.

Lemma fleaves_flat ch ct : flat (SmNode None None None ch ct) = fleaves ch.
Proof. unfold flat. rewrite leaves_root. reflexivity. Qed.

Lemma ordered_node v g : ordered g ->
  exists n, sm_from_string v g = Some n /\ is_node n /\ Forall solid (leaves n) /\
    flat n = annotate (map view (ml_list (g_mappings g))) v.
Proof.
  intros (H1 & H2 & H3).
  assert (V : Forall valid (ml_list (g_mappings g))) by (destruct H3 as (_ & _ & H3 & _); eapply Forall_impl; [|exact H3]; intros m Hm; apply Hm).
  destruct (from_string_solid v g V) as (ch & E & S & _).
  destruct (from_string_flat v g H1 H2) as (ch' & E' & F).
  { eapply Forall_impl; [|exact V]. intros m Hm. now apply valid_cases in Hm. }
  rewrite E in E'. injection E' as <-. eexists. split; [exact E|]. split; [exact I|].
  rewrite fleaves_flat, leaves_root. auto.
Qed.

Lemma annotate_perm es es' v : Permutation es es' -> unambiguous es' -> annotate es v = annotate es' v.
Proof.
  intros P U. apply annotate_ext. intros a b. symmetry. apply lookup_perm; auto. now symmetry.
Qed.

(** Applying an inner map to a generator. *)
Lemma fold_contents_list l g :
  ml_list (g_mappings (fold_left (fun g '(s, c) => gen_set_source_content g s (Some c)) l g)) = ml_list (g_mappings g).
Proof. revert g; induction l as [|[s c] l IH]; intro g; cbn [fold_left]; [reflexivity|]. rewrite IH. reflexivity. Qed.
Lemma fold_source_list l g : ml_list (g_mappings (fold_left gen_add_source l g)) = ml_list (g_mappings g).
Proof. revert g; induction l as [|x l IH]; intro g; cbn [fold_left]; [reflexivity|]. rewrite IH. reflexivity. Qed.
Lemma fold_name_list l g : ml_list (g_mappings (fold_left gen_add_name l g)) = ml_list (g_mappings g).
Proof. revert g; induction l as [|x l IH]; intro g; cbn [fold_left]; [reflexivity|]. rewrite IH. reflexivity. Qed.

Lemma apply_views g inner file : gen_wf g -> gen_wf inner ->
  exists g' inner', apply_source_map_generator g inner (Some file) = Some (g', inner') /\ gen_wf g' /\
    map view (ml_list (g_mappings g')) =
    map (fun e => (fst e, through (Some file) (entries_of inner) (snd e))) (map view (ml_list (g_mappings g))).
Proof.
  intros Wg Wi.
  assert (V : Forall valid (ml_list (ml_set_unsorted (g_mappings g)))).
  { destruct Wg as (_ & _ & W & _). eapply Forall_impl; [|exact W]. intros m Hm. apply Hm. }
  destruct (apply_loop_views _ inner file Wi V) as (in1 & l & E & Vw & _).
  destruct (apply_source_map_generator g inner (Some file)) as [[g' inner']|] eqn:Ea.
  2:{ unfold apply_source_map_generator in Ea. cbn [bind] in Ea. rewrite E in Ea. cbn [bind] in Ea. discriminate. }
  exists g', inner'. split; [reflexivity|]. split; [apply (apply_wf _ _ _ _ _ Wg Wi Ea)|].
  unfold apply_source_map_generator in Ea. cbn [bind] in Ea. rewrite E in Ea. cbn [bind] in Ea.
  injection Ea as Ea _. rewrite <- Ea.
  rewrite fold_contents_list, fold_name_list. change (ml_list (g_mappings (gen_set_names ?g _))) with (ml_list (g_mappings g)).
  rewrite fold_source_list. destruct l; exact Vw.
Qed.

(** Places only. *)
Lemma places_sorted ms ms' : map (fun m => fst (view m)) ms = map (fun m => fst (view m)) ms' -> vsorted ms -> vsorted ms'.
Proof.
  unfold vsorted, vplace. intros E H. revert ms' E. induction H as [|m ms H1 IH H2]; intros [|m' ms'] E; try discriminate; [constructor|].
  cbn [map] in E. injection E as E1 E2 E3. constructor; [now apply IH|].
  assert (E' : fst (view m') = fst (view m)) by (unfold view; cbn [fst]; congruence).
  clear -H2 E3 E'. revert ms' E3. induction H2 as [|x ms Hx _ IH]; intros [|x' ms'] E; try discriminate; [constructor|].
  cbn [map] in E. injection E as E1 E2 E3. constructor; [|now apply IH].
  assert (E4 : fst (view x') = fst (view x)) by (unfold view; cbn [fst]; congruence). now rewrite E', E4.
Qed.
Lemma places_small ms ms' : map (fun m => fst (view m)) ms = map (fun m => fst (view m)) ms' ->
  Forall small_col ms -> Forall small_col ms'.
Proof.
  intros E H. revert ms' E. induction H as [|m ms H1 IH]; intros [|m' ms'] E; try discriminate; constructor;
    cbn [map] in E; injection E as E1 E2 E3.
  - unfold small_col in *. lia.
  - now apply IHIH.
Qed.

Lemma apply_ordered g inner file : ordered g -> gen_wf inner ->
  exists g' inner', apply_source_map_generator g inner (Some file) = Some (g', inner') /\ ordered g' /\
    map view (ml_list (g_mappings g')) =
    map (fun e => (fst e, through (Some file) (entries_of inner) (snd e))) (map view (ml_list (g_mappings g))).
Proof.
  intros (S & C & W) Wi. destruct (apply_views g inner file W Wi) as (g' & inner' & E & W' & V).
  exists g', inner'. split; [exact E|]. split; [|exact V].
  assert (P : map (fun m => fst (view m)) (ml_list (g_mappings g)) = map (fun m => fst (view m)) (ml_list (g_mappings g'))).
  { apply (f_equal (map fst)) in V. rewrite !map_map in V. cbn [fst] in V. symmetry. exact V. }
  split; [exact (places_sorted _ _ P S)|]. split; [exact (places_small _ _ P C)|exact W'].
Qed.

Lemma cell_generator c es : cell_entries c es ->
  exists g, cell_get_generator c = Some (mk_cell (ce_data c) (Some g), g) /\ ordered g /\
    Permutation (map view (ml_list (g_mappings g))) es /\ unambiguous es.
Proof.
  unfold cell_entries, cell_get_generator. destruct c as [d [g|]]; cbn [ce_gen ce_data].
  - intros (H1 & H2 & H3). exists g. auto.
  - intros (d0 & -> & R). destruct (readable_gen d0 es R) as (g & E & W & P & S & V & C).
    cbn [bind]. rewrite E. cbn [bind]. exists g. split; [reflexivity|]. split; [|split; [exact P|apply R]].
    split; [exact S|]. split; [exact C|apply W].
Qed.

Lemma ordered_perm_annotate g es v : Permutation (map view (ml_list (g_mappings g))) es -> unambiguous es ->
  annotate (map view (ml_list (g_mappings g))) v = annotate es v.
Proof. apply annotate_perm. Qed.

Lemma through_ext file l l' t : (forall a b, lookup l a b = lookup l' a b) -> through file l t = through file l' t.
Proof. intro H. unfold through. destruct t as [[[s [a b]] n]|]; auto. destruct file; auto. now rewrite H. Qed.
Lemma retarget_ext F G m : (forall t, F t = G t) -> retarget F m = retarget G m.
Proof. intro H. unfold retarget. apply map_ext. intro x. now rewrite H. Qed.

(** A SourceMapSource without an inner map. *)
Theorem sms_flat x es : cell_entries (sms_map x) es -> sms_inner x = None ->
  exists x' n, sms_node x = Some (x', n) /\ is_node n /\ Forall solid (leaves n) /\
    flat n = annotate es (sms_value x) /\
    sms_value x' = sms_value x /\ cell_entries (sms_map x') es /\ sms_inner x' = None.
Proof.
  intros Hc Hi. destruct (cell_generator _ _ Hc) as (g & Eg & Ho & P & U).
  unfold sms_node. rewrite Eg. cbn [bind]. rewrite Hi. cbn [bind].
  destruct (ordered_node (sms_value x) g Ho) as (n & -> & In & Sn & Fn). cbn [bind].
  eexists _, n. split; [reflexivity|]. split; [exact In|]. split; [exact Sn|].
  split; [rewrite Fn; now apply annotate_perm|]. cbn [sms_value sms_map sms_inner]. split; [reflexivity|].
  split; [|reflexivity]. unfold cell_entries. cbn [ce_gen]. auto.
Qed.

Lemma ordered_content g s c : ordered g -> ordered (gen_set_source_content g s c).
Proof. destruct c; intros (A & B & C); split; auto. Qed.
Lemma content_list g s c : ml_list (g_mappings (gen_set_source_content g s c)) = ml_list (g_mappings g).
Proof. destruct c; reflexivity. Qed.

(** With an inner map that is not applied yet.  The result keeps the composed map. *)
Theorem sms_flat_inner x es ic ei : cell_entries (sms_map x) es ->
  sms_inner x = Some ic -> cell_entries ic ei -> sms_applied x = false ->
  exists x' n, sms_node x = Some (x', n) /\ is_node n /\ Forall solid (leaves n) /\
    flat n = retarget (through (Some (sms_name x)) ei) (annotate es (sms_value x)) /\
    sms_value x' = sms_value x /\ sms_applied x' = true /\ sms_inner x' <> None /\
    exists g', ce_gen (sms_map x') = Some g' /\ ordered g' /\
      annotate (map view (ml_list (g_mappings g'))) (sms_value x) =
      retarget (through (Some (sms_name x)) ei) (annotate es (sms_value x)).
Proof.
  intros Hc Hi Hic Ha. destruct (cell_generator _ _ Hc) as (g & Eg & Ho & P & U).
  destruct (cell_generator _ _ Hic) as (ig & Eig & Hio & Pi & Ui).
  unfold sms_node. rewrite Eg. cbn [bind]. rewrite Hi, Eig. cbn [bind]. rewrite Ha. cbn [negb].
  set (g0 := match sms_original x with Some o => _ | None => g end).
  assert (Hg0 : ordered g0 /\ ml_list (g_mappings g0) = ml_list (g_mappings g)).
  { unfold g0. destruct (sms_original x); [|auto]. split; [now apply ordered_content|apply content_list]. }
  clearbody g0. destruct Hg0 as [Ho0 Hl0].
  assert (Wi : gen_wf ig) by apply Hio.
  destruct (apply_ordered g0 ig (sms_name x) Ho0 Wi) as (g' & ig' & Ea & Ho' & V). rewrite Ea. cbn [bind].
  destruct (ordered_node (sms_value x) g' Ho') as (n & -> & In & Sn & Fn). cbn [bind].
  assert (Fl : annotate (map view (ml_list (g_mappings g'))) (sms_value x) =
               retarget (through (Some (sms_name x)) ei) (annotate es (sms_value x))).
  { rewrite V. unfold annotate. rewrite annotate_map by reflexivity.
    change (annotate_from (map view (ml_list (g_mappings g0))) (1, 0)%Z (sms_value x))
      with (annotate (map view (ml_list (g_mappings g0))) (sms_value x)).
    rewrite Hl0, (annotate_perm _ es) by auto. apply retarget_ext. intro t. apply through_ext. intros a b.
    symmetry. apply lookup_perm; auto. unfold entries_of. rewrite <- Pi. apply Permutation_map, isort_perm. }
  eexists _, n. split; [reflexivity|]. split; [exact In|]. split; [exact Sn|].
  split; [rewrite Fn; exact Fl|]. cbn [sms_value sms_map sms_inner sms_applied ce_gen].
  split; [reflexivity|]. split; [reflexivity|]. split; [discriminate|]. exists g'. auto.
Qed.

(** Later reads: the composed map is used as it is. *)
Theorem sms_flat_applied x g ic d ig : sms_map x = mk_cell d (Some g) -> ordered g ->
  sms_inner x = Some ic -> ce_gen ic = Some ig -> sms_applied x = true ->
  exists x' n, sms_node x = Some (x', n) /\ flat n = annotate (map view (ml_list (g_mappings g))) (sms_value x).
Proof.
  intros Hm Ho Hi Hg Ha. unfold sms_node, cell_get_generator. rewrite Hm. cbn [ce_gen bind].
  rewrite Hi, Hg. cbn [bind]. rewrite Ha. cbn [negb].
  set (g0 := match sms_original x with Some o => _ | None => g end).
  assert (Hg0 : ordered g0 /\ ml_list (g_mappings g0) = ml_list (g_mappings g)).
  { unfold g0. destruct (sms_original x); [|auto]. split; [now apply ordered_content|apply content_list]. }
  clearbody g0. destruct Hg0 as [Ho0 Hl0]. cbn [bind].
  destruct (ordered_node (sms_value x) g0 Ho0) as (n & -> & In & Sn & Fn). cbn [bind].
  eexists _, n. split; [reflexivity|]. now rewrite Fn, Hl0.
Qed.

(** ** Trees *)
Definition usable_child (x : tree) : Prop := match x with TStr _ => True | _ => usable x end.
Lemma usable_concat l : usable (TConcat l) <-> Forall usable_child l.
Proof.
  induction l as [|x l IH]; cbn [usable] in *; split; intro H; try constructor; auto;
    try (destruct H as [H1 H2]; try exact H1; now apply IH); inversion H as [|? ? H1 H2]; subst; auto.
  now apply IH.
Qed.

Definition child_node (c m : bool) (x : tree) (y : str + smnode) : Prop :=
  match x with TStr s => y = inl s | _ => exists n, y = inr n /\ t_node c m x = Some n end.
Lemma children_nodes c m l ys : Forall2 (child_node c m) l ys ->
  t_node c m (TConcat l) = Some (concat_node ys).
Proof.
  intro H. unfold t_node. rewrite fold_concat.
  assert (E : children (node_alg c m) l = Some ys).
  { induction H as [|x y l ys Hx _ IH]; [reflexivity|]. cbn [children].
    assert (Ec : child (node_alg c m) x = Some y).
    { unfold child, child_node, t_node in *. destruct x; try (destruct Hx as (n & -> & ->); reflexivity). now subst. }
    rewrite Ec. cbn [bind]. rewrite IH. reflexivity. }
  rewrite E. reflexivity.
Qed.
Lemma concat_leaves ys : leaves (concat_node ys) =
  flat_map (fun y => match y with inl s => [(s, None, None, None)] | inr n => leaves n end) ys.
Proof.
  unfold concat_node, sn_new. rewrite leaves_root. cbn [add_chunk app]. unfold all_leaves.
  induction ys as [|y ys IH]; [reflexivity|]. cbn [map flat_map]. rewrite IH. f_equal. now destruct y.
Qed.

Theorem node_total c m t : usable t -> exists n, t_node c m t = Some n /\ is_node n /\ nlined n.
Proof.
  induction t as [s|v|v i n|v n o|p t IH|t st IH|l IH|x] using tree_ind'; intro U.
  - destruct U.
  - eexists. split; [reflexivity|]. split; [exact I|]. unfold nlined. cbn. destruct v; repeat constructor.
  - unfold t_node. cbn [fold_tree node_alg a_original].
    destruct (original_node_text c v i n) as (nd & E & S & _). exists nd. split; [exact E|].
    split; [unfold original_node in E; unbind E; unbind E; injection E as <-; exact I|].
    eapply Forall_impl; [apply solid_lined|exact S].
  - unfold t_node. cbn [fold_tree node_alg a_l2l].
    destruct (l2l_node_spec v n o) as (nd & E & _ & S). exists nd. split; [exact E|].
    split; [unfold l2l_node in E; unbind E; injection E as <-; exact I|].
    eapply Forall_impl; [apply solid_lined|exact S].
  - destruct (IH U) as (nd & E & Hn & Hl). unfold t_node in *. cbn [fold_tree]. rewrite E. cbn [bind node_alg a_prefix].
    destruct nd as [|po sr nm ch ct]; [destruct Hn|].
    destruct (prefix_node_leaves p po sr nm ch ct) as (n' & E' & L'). exists n'. split; [exact E'|].
    split; [unfold prefix_node in E'; unbind E'; destruct v as [z nd]; injection E' as <-; exact I|].
    unfold nlined. rewrite L'. clear -Hl. unfold nlined in Hl. generalize true as st.
    induction Hl as [|x l Hx _ IH]; intro st; [constructor|]. cbn [pre_leaves].
    specialize (IH (ends_with NL (leaf_text x))). destruct (pre_leaves p (ends_with NL (leaf_text x)) l).
    constructor; auto. destruct x as [[[s src] pos] name]. exact Hx.
  - destruct (IH U) as (nd & E & Hn & Hl). unfold t_node in *. cbn [fold_tree]. rewrite E. cbn [bind node_alg a_replace].
    destruct (replace_node_text (rs_repls (sort_replacements st)) nd Hn) as (n' & E' & In & _). exists n'. split; [exact E'|].
    split; [exact In|]. eapply replace_node_lined; eauto.
  - apply usable_concat in U.
    assert (G : exists ys, Forall2 (child_node c m) l ys /\
      Forall lined (flat_map (fun y : str + smnode => match y with inl s => [(s, None, None, None)] | inr n => leaves n end) ys)).
    { induction IH as [|x l Hx _ IHl]; [exists []; split; constructor|].
      inversion U as [|? ? U1 U2]; subst. destruct (IHl U2) as (ys & E & F).
      assert (G : exists y, child_node c m x y /\
         Forall lined (match y with inl s => [(s, None, None, None)] | inr n => leaves n end)).
      { unfold child_node, usable_child in *.
        destruct x; try (destruct (Hx U1) as (nd & En & _ & Hl); exists (inr nd); split; [eauto|exact Hl]).
        eexists. split; [reflexivity|]. repeat constructor. }
      destruct G as (y & Ey & Fy). exists (y :: ys). split; [constructor; auto|]. cbn [flat_map]. apply Forall_app. auto. }
    destruct G as (ys & E & F). eexists. split; [apply children_nodes; exact E|]. split; [exact I|].
    unfold nlined. rewrite concat_leaves. exact F.
  - destruct U as (x' & n & E & Hl). unfold t_node. cbn [fold_tree node_alg a_sms]. rewrite E. cbn [bind].
    exists n. split; [reflexivity|]. split; [|exact Hl]. now apply sms_node_chunks in E.
Qed.

(** *** Text *)
Lemma prefix_fine_concat c m l : prefix_fine c m (TConcat l) <-> Forall (prefix_fine c m) l.
Proof.
  induction l as [|x l IH]; cbn [prefix_fine] in *; split; intro H; try constructor; auto;
    try (destruct H as [H1 H2]; try exact H1; now apply IH); inversion H as [|? ? H1 H2]; subst; auto.
  now apply IH.
Qed.

Theorem node_text c m t n s : t_node c m t = Some n -> prefix_fine c m t -> t_source t = Some s ->
  is_node n /\ text_of (flat n) = s.
Proof.
  revert n s.
  induction t as [z|v|v i nm|v nm o|p t IH|t st IH|l IH|x] using tree_ind'; intros n s En Hp Hs.
  - discriminate.
  - injection En as <-. injection Hs as <-. split; [exact I|]. unfold flat. cbn. destruct v; [reflexivity|].
    cbn. rewrite app_nil_r. f_equal. apply text_mark.
  - injection Hs as <-. unfold t_node in En. cbn [fold_tree node_alg a_original] in En.
    destruct (original_node_text c v i nm) as (nd & E & _ & T). rewrite E in En. injection En as <-.
    split; [|exact T]. unfold original_node in E. unbind E. unbind E. injection E as <-. exact I.
  - injection Hs as <-. unfold t_node in En. cbn [fold_tree node_alg a_l2l] in En.
    destruct (l2l_node_spec v nm o) as (nd & E & F & _). rewrite E in En. injection En as <-.
    split; [unfold l2l_node in E; unbind E; injection E as <-; exact I|]. rewrite F. apply text_mark_lines.
  - destruct Hp as [Hp1 Hp2]. unfold t_node, t_source in *. cbn [fold_tree] in *.
    unbind En. rename v into nd. unbind Hs. rename v into s0.
    destruct (IH nd s0 E Hp1 E0) as [In T]. destruct (Hp2 nd E) as [Hne Hle].
    destruct nd as [|po sr nm ch ct]; [destruct In|]. set (nd := SmNode po sr nm ch ct) in *.
    cbn [node_alg a_prefix source_alg] in En, Hs.
    destruct (prefix_node_leaves p po sr nm ch ct) as (n' & E' & L'). fold nd in E', L'. rewrite E' in En. injection En as <-.
    split; [unfold prefix_node in E'; unbind E'; destruct v as [z nd']; injection E' as <-; exact I|].
    rewrite text_flat, L', (pre_leaves_text p (leaves nd) true Hne).
    rewrite prefix_source_spec in Hs. injection Hs as <-.
    rewrite text_flat in T. rewrite T in *.
    destruct (ends_with NL s0); [rewrite Hle by auto|]; cbn [andb]; rewrite app_nil_r; reflexivity.
  - unfold t_node, t_source in *. cbn [fold_tree] in *.
    unbind En. rename v into nd. unbind Hs. rename v into s0.
    destruct (IH nd s0 E Hp E0) as [In T]. cbn [node_alg a_replace source_alg] in En, Hs.
    destruct (replace_node_text (rs_repls (sort_replacements st)) nd In) as (n' & E' & In' & T').
    rewrite E' in En. injection En as <-. split; [exact In'|]. rewrite T, Hs in T'. now injection T'.
  - apply prefix_fine_concat in Hp. unfold t_node, t_source in En, Hs. rewrite fold_concat in En. rewrite fold_concat in Hs.
    unbind En. unbind Hs. cbn [node_alg a_concat source_alg] in En, Hs. injection En as <-. injection Hs as <-.
    split; [exact I|]. change (sn_new None None None _) with (concat_node v). rewrite concat_flat.
    revert v v0 E E0. induction IH as [|x l Hx _ IHl]; intros ys zs E E0; cbn [children] in E, E0.
    + injection E as <-. injection E0 as <-. reflexivity.
    + unbind E. rename v into y. unbind E. rename v into ys'. injection E as <-.
      unbind E0. rename v into z. unbind E0. rename v into zs'. injection E0 as <-.
      inversion Hp as [|? ? P1 P2]; subst. cbn [flat_map]. rewrite text_app. f_equal; [|eapply IHl; eauto].
      unfold child in E1, E. unfold t_node, t_source in Hx.
      destruct x; try (unbind E1; unbind E; injection E1 as <-; injection E as <-;
        cbn [child_flat]; eapply Hx; [eassumption|exact P1|eassumption]).
      injection E1 as <-. injection E as <-. apply text_mark.
  - injection Hs as <-. unfold t_node in En. cbn [fold_tree node_alg a_sms] in En. unbind En. destruct v as [x' nd].
    injection En as <-. apply sms_node_chunks in E as (H1 & _ & H2). rewrite text_flat. auto.
Qed.

(** *** Attribution *)

Lemma attributed_flat c m t M : attributed c m t M <-> exists n, t_node c m t = Some n /\ flat n = M.
Proof.
  split.
  - intros (n & code & g & E & Eg & A). exists n. split; [exact E|].
    destruct (generator_exact n None None) as (code' & g' & Eg' & _ & A'). rewrite Eg in Eg'. injection Eg' as <- <-. congruence.
  - intros (n & E & F). destruct (generator_exact n None None) as (code' & g' & Eg' & _ & A').
    exists n, code', g'. split; [exact E|]. split; [exact Eg'|]. congruence.
Qed.
Lemma attributed_emits c m t M : chunks leaf_ok c m t -> attributed c m t M -> emits c m t M.
Proof.
  intros H A. apply attributed_flat in A as (n & E & F).
  destruct (emitted_exact n None None (H n E)) as (code & mp & es & E1 & _ & E2 & E3).
  exists n, code, mp, es. split; [exact E|]. split; [exact E1|]. split; [exact E2|]. congruence.
Qed.
Lemma attributed_text c m t M s : attributed c m t M -> prefix_fine c m t -> t_source t = Some s -> text_of M = s.
Proof. intros A P S. apply attributed_flat in A as (n & E & <-). eapply node_text; eauto. Qed.
Lemma chunks_impl (P Q : leaf -> Prop) c m t : (forall x, P x -> Q x) -> chunks P c m t -> chunks Q c m t.
Proof. intros H HP n E. eapply Forall_impl; [|apply HP; exact E]. exact H. Qed.
Lemma solid_nonempty x : solid x -> nonempty x.
Proof. intros [H _]. exact H. Qed.
Theorem concat_attributed c m l Ms : Forall2 (child_attr c m) l Ms ->
  attributed c m (TConcat l) (concat Ms).
Proof.
  intro H.
  assert (G : exists ys, Forall2 (child_node c m) l ys /\ flat_map child_flat ys = concat Ms).
  { induction H as [|x M l Ms Hx _ (ys & E & F)]; [exists []; auto|].
    assert (G : exists y, child_node c m x y /\ child_flat y = M).
    { unfold child_attr in Hx. destruct x;
        try (apply attributed_flat in Hx as (n & En & Fn); exists (inr n); split; [exists n; auto|exact Fn]).
      exists (inl s). split; [reflexivity|]. now subst. }
    destruct G as (y & Ey & Fy). exists (y :: ys). split; [constructor; auto|]. cbn [flat_map concat]. now rewrite Fy, F. }
  destruct G as (ys & E & F). apply attributed_flat. eexists. split; [apply children_nodes; exact E|].
  now rewrite concat_flat.
Qed.

Theorem prefix_attributed c m p t M : chunks nonempty c m t -> usable t -> attributed c m t M ->
  attributed c m (TPrefix p t) (mprefixed p M).
Proof.
  intros Hc U A. apply attributed_flat in A as (n & E & F). apply attributed_flat.
  destruct (node_total c m t U) as (n0 & E0 & In & _). rewrite E in E0. injection E0 as <-.
  unfold t_node in *. cbn [fold_tree]. rewrite E. cbn [bind node_alg a_prefix].
  destruct n as [|po sr nm ch ct]; [destruct In|].
  destruct (prefix_node_leaves p po sr nm ch ct) as (n' & E' & L'). exists n'. split; [exact E'|].
  unfold flat. rewrite L', pre_leaves_flat by (apply (Hc _ E)). unfold flat in F. rewrite F. reflexivity.
Qed.

Theorem replace_attributed c m h t M : Forall call_ok h -> Forall edit_ok (edits_of h) -> usable t ->
  attributed c m t M ->
  exists ts, length ts = length (edits_of h) /\
    attributed c m (TReplace t (run h)) (edited_marked (edits_of h) ts M) /\
    (chunks nonempty c m t -> ForallOrdPairs apart (edits_of h) -> Forall forward (edits_of h) ->
     Forall2 (new_target M) (arrange key_le (edits_of h)) ts).
Proof.
  intros Hh He U A. apply attributed_flat in A as (n & E & F).
  destruct (node_total c m t U) as (n0 & E0 & In & _). rewrite E in E0. injection E0 as <-.
  destruct (replace_node_run h n Hh He In) as (n' & ts & E' & _ & Hl & Hf & Ht).
  exists ts. split; [exact Hl|]. split.
  - apply attributed_flat. exists n'. split; [|now rewrite Hf, F].
    unfold t_node in *. cbn [fold_tree]. rewrite E. cbn [bind node_alg a_replace]. exact E'.
  - intros Hc. specialize (Hc n E). rewrite <- F. auto.
Qed.
Lemma dense_concat l : dense (TConcat l) <-> Forall dense_child l.
Proof.
  induction l as [|x l IH]; cbn [dense] in *; split; intro H; try constructor; auto;
    try (destruct H as [H1 H2]; try exact H1; now apply IH); inversion H as [|? ? H1 H2]; subst; auto.
  now apply IH.
Qed.

Theorem dense_node c m t : dense t -> exists n, t_node c m t = Some n /\ is_node n /\ Forall solid (leaves n).
Proof.
  induction t as [s|v|v i n|v n o|p t IH|t st IH|l IH|x] using tree_ind'; intro U.
  - destruct U.
  - eexists. split; [reflexivity|]. split; [exact I|]. cbn. destruct v; repeat constructor. discriminate.
  - unfold t_node. cbn [fold_tree node_alg a_original].
    destruct (original_node_text c v i n) as (nd & E & S & _). exists nd. split; [exact E|]. split; [|exact S].
    unfold original_node in E. unbind E. unbind E. injection E as <-. exact I.
  - unfold t_node. cbn [fold_tree node_alg a_l2l].
    destruct (l2l_node_spec v n o) as (nd & E & _ & S). exists nd. split; [exact E|]. split; [|exact S].
    unfold l2l_node in E. unbind E. injection E as <-. exact I.
  - destruct (IH U) as (nd & E & Hn & Hl). unfold t_node in *. cbn [fold_tree]. rewrite E. cbn [bind node_alg a_prefix].
    destruct nd as [|po sr nm ch ct]; [destruct Hn|].
    destruct (prefix_node_leaves p po sr nm ch ct) as (n' & E' & L'). exists n'. split; [exact E'|].
    split; [unfold prefix_node in E'; unbind E'; destruct v as [z nd]; injection E' as <-; exact I|].
    rewrite L'. now apply pre_leaves_solid.
  - destruct U.
  - apply dense_concat in U.
    assert (G : exists ys, Forall2 (child_node c m) l ys /\
      Forall solid (flat_map (fun y : str + smnode => match y with inl s => [(s, None, None, None)] | inr n => leaves n end) ys)).
    { induction IH as [|x l Hx _ IHl]; [exists []; split; constructor|].
      inversion U as [|? ? U1 U2]; subst. destruct (IHl U2) as (ys & E & F).
      assert (G : exists y, child_node c m x y /\
         Forall solid (match y with inl s => [(s, None, None, None)] | inr n => leaves n end)).
      { unfold child_node, dense_child in *.
        destruct x; try (destruct (Hx U1) as (nd & En & _ & Hl); exists (inr nd); split; [eauto|exact Hl]).
        eexists. split; [reflexivity|]. constructor; [|constructor]. split; [exact U1|exact I]. }
      destruct G as (y & Ey & Fy). exists (y :: ys). split; [constructor; auto|]. cbn [flat_map]. apply Forall_app. auto. }
    destruct G as (ys & E & F). eexists. split; [apply children_nodes; exact E|]. split; [exact I|].
    rewrite concat_leaves. exact F.
  - destruct U as (es & Hc & [Hi|(ic & ei & Hi & Hic & Ha)]); unfold t_node; cbn [fold_tree node_alg a_sms].
    + destruct (sms_flat x es Hc Hi) as (x' & n & -> & In & S & _). cbn [bind]. eauto.
    + destruct (sms_flat_inner x es ic ei Hc Hi Hic Ha) as (x' & n & -> & In & S & _). cbn [bind]. eauto.
Qed.
Lemma dense_chunks c m t : dense t -> chunks solid c m t.
Proof. intros H n E. destruct (dense_node c m t H) as (n' & E' & _ & S). congruence. Qed.
Lemma dense_usable t : dense t -> usable t.
Proof.
  induction t as [s|v|v i n|v n o|p t IH|t st IH|l IH|x] using tree_ind'; intro U; try exact I; try (now destruct U); auto.
  - apply usable_concat. apply dense_concat in U. induction IH as [|y l Hy _ IHl]; [constructor|].
    inversion U as [|? ? U1 U2]; subst. constructor; [|auto].
    unfold dense_child, usable_child in *. destruct y; auto.
  - destruct U as (es & Hc & [Hi|(ic & ei & Hi & Hic & Ha)]).
    + destruct (sms_flat x es Hc Hi) as (x' & n & E & _ & S & _). exists x', n. split; [exact E|].
      eapply Forall_impl; [apply solid_lined|exact S].
    + destruct (sms_flat_inner x es ic ei Hc Hi Hic Ha) as (x' & n & E & _ & S & _). exists x', n. split; [exact E|].
      eapply Forall_impl; [apply solid_lined|exact S].
Qed.
Lemma dense_emits c m t M : dense t -> attributed c m t M -> emits c m t M.
Proof. intros H. apply attributed_emits. eapply chunks_impl; [apply solid_ok|now apply dense_chunks]. Qed.

Lemma emits_column_map m t M : emits true m t M ->
  exists code mp es, source_and_column_map m t = Some (code, mp) /\
    read_map (map_sources mp) (map_names mp) (map_mappings mp) = Some es /\ annotate es code = M.
Proof.
  intros (n & code & mp & es & E & E1 & E2 & E3). exists code, mp, es. unfold source_and_column_map. rewrite E. auto.
Qed.

(** ** Single classes *)
Lemma dense_exact c m t M : dense t -> attributed c m t M -> attributed c m t M /\ emits c m t M.
Proof. intros D A. split; [exact A|now apply dense_emits]. Qed.

Lemma original_attributed m v vi name : crlf_only v = true ->
  emits true m (TOriginal v vi name) (mark_tokens advance_bytes name (1, 0)%Z (tokens v)).
Proof.
  intro H. apply dense_emits; [exact I|]. apply attributed_flat.
  destruct (original_columns v vi name H) as (n & E & F). exists n. auto.
Qed.
Lemma original_attributed_ascii m v vi name : crlf_only v = true -> forallb is_ascii v = true ->
  emits true m (TOriginal v vi name) (mark_tokens advance name (1, 0)%Z (tokens v)).
Proof.
  intros H1 H2. rewrite <- mark_tokens_ascii by (now rewrite tokens_concat). now apply original_attributed.
Qed.
Lemma original_attributed_lines m v vi name : emits false m (TOriginal v vi name) (mark_lines name 1 v).
Proof.
  apply dense_emits; [exact I|]. apply attributed_flat.
  destruct (original_lines v vi name) as (n & E & F). exists n. auto.
Qed.
Lemma l2l_attributed c m v name orig : emits c m (TL2L v name orig) (mark_lines name 1 v).
Proof.
  apply dense_emits; [exact I|]. apply attributed_flat.
  destruct (l2l_node_spec v name orig) as (n & E & F & _). exists n. auto.
Qed.
Lemma raw_attributed c m v : emits c m (TRaw v) (mark None v).
Proof.
  apply dense_emits; [exact I|]. apply attributed_flat. eexists. split; [reflexivity|]. apply raw_flat.
Qed.

(** ** Edits with one replacement *)
Lemma edited_marked_one e t m : (0 <= e_from e <= e_to e + 1)%Z -> (e_from e <= Z.of_nat (length m))%Z ->
  edited_marked [e] [t] m =
  firstn (Z.to_nat (e_from e)) m ++ mark t (e_text e) ++ skipn (Z.to_nat (e_to e + 1)) m.
Proof.
  intros H1 H2. unfold edited_marked. change (arrange key_le [e]) with [e]. cbn [combine map fst snd].
  set (o := [(e, mark t (e_text e))] : list (edit * list (char * option target))).
  pose proof (gsplice_woven o [(e_from e, (e_to e + 1)%Z, mark t (e_text e))] m (length m) (Nat.le_refl _)) as G.
  rewrite firstn_all in G. unfold gcovered in G. cbn [o map fst] in G.
  etransitivity; [symmetry; apply G|].
  - cbn. constructor; [|constructor]. repeat split.
  - repeat constructor.
  - cbn [gsplice]. do 2 f_equal.
    + f_equal. lia.
    + unfold piece_of. rewrite firstn_all2 by (rewrite skipn_length; lia).
      destruct (Z_le_gt_dec (e_to e + 1) (Z.of_nat (length m))).
      * f_equal. lia.
      * rewrite !skipn_all2 by lia. reflexivity.
Qed.

Lemma replace_one c m t M a b txt x : usable t -> chunks nonempty c m t -> attributed c m t M ->
  (0 < a <= Z.of_nat (length M))%Z -> (a <= b + 1 < 2147483648)%Z ->
  attr_at M (a - 1) = x -> (a <= b -> attr_at M a = x)%Z ->
  attributed c m (TReplace t (rs_replace rstate_new a b txt 0 0))
    (firstn (Z.to_nat a) M ++ mark (drop_name x) txt ++ skipn (Z.to_nat (b + 1)) M).
Proof.
  intros U Hc A Ha Hb X1 X2. set (h := [Replace a b txt 0 0]). set (e := mk_edit a 0 b 0 txt).
  assert (Hok : Forall edit_ok (edits_of h)).
  { repeat constructor; cbn; lia. }
  destruct (replace_attributed c m h t M) as (ts & Hl & HA & HT); auto; [repeat constructor|].
  assert (HF : Forall2 (new_target M) [e] ts).
  { apply HT; auto; [repeat constructor|]. constructor; [|constructor]. unfold forward. cbn. lia. }
  inversion HF as [|? t0 ? ts' H1 H2]; subst. inversion H2; subst.
  change (edits_of h) with [e] in HA. rewrite edited_marked_one in HA by (cbn; lia).
  change (run h) with (rs_replace rstate_new a b txt 0 0) in HA. cbn [e_from e_to e_text e] in HA.
  replace (drop_name (attr_at M (a - 1))) with t0; [exact HA|].
  destruct H1 as (_ & _ & H1). destruct (H1 ltac:(cbn; lia)) as [-> |[H3 ->]]; cbn [e e_from e_to] in *; auto.
  now rewrite X2.
Qed.

(** ** The text that comes with a column map *)
Lemma column_text c m t : usable t -> prefix_fine c m t ->
  exists n code mp, t_node c m t = Some n /\ to_string_with_source_map n None None = Some (code, mp) /\
    t_source t = Some code.
Proof.
  intros U P. destruct (node_total c m t U) as (n & E & In & L).
  destruct (emitted_total n None None L) as (code & mp & _ & E1 & _ & Ec & _).
  exists n, code, mp. split; [exact E|]. split; [exact E1|].
  destruct (source_total t) as (s & Hs). rewrite Hs. f_equal.
  destruct (node_text c m t n s E P Hs) as [_ T]. congruence.
Qed.

(** ** SourceMapSource at tree level *)
Lemma sms_text c m x n : t_node c m (TSms x) = Some n -> Forall nonempty (leaves n) /\ text_of (flat n) = sms_value x.
Proof.
  unfold t_node. cbn [fold_tree node_alg a_sms]. intro E. unbind E. destruct v as [x' nd]. injection E as <-.
  apply sms_node_chunks in E0 as (_ & H1 & H2). split; [exact H1|]. now rewrite text_flat.
Qed.
Lemma any_map_text v g : exists n code mp, sm_from_string v g = Some n /\
  to_string_with_generator n None None = Some (code, mp) /\ code = v.
Proof.
  destruct (from_string_nonempty v g) as (ch & E & _ & T). eexists.
  destruct (generator_exact (SmNode None None None ch (g_contents g)) None None) as (code & g' & Eg & Ec & _).
  exists code, g'. split; [exact E|]. split; [exact Eg|]. rewrite Ec, text_flat, leaves_root. exact T.
Qed.
Lemma sms_emits c m x es : cell_entries (sms_map x) es -> sms_inner x = None ->
  emits c m (TSms x) (annotate es (sms_value x)).
Proof.
  intros Hc Hi. apply dense_emits; [exists es; auto|]. apply attributed_flat.
  destruct (sms_flat x es Hc Hi) as (x' & n & E & _ & _ & F & _). exists n. split; [|exact F].
  unfold t_node. cbn [fold_tree node_alg a_sms]. rewrite E. reflexivity.
Qed.
Lemma sms_emits_inner c m x es ic ei : cell_entries (sms_map x) es ->
  sms_inner x = Some ic -> cell_entries ic ei -> sms_applied x = false ->
  emits c m (TSms x) (retarget (through (Some (sms_name x)) ei) (annotate es (sms_value x))).
Proof.
  intros Hc Hi Hic Ha. apply dense_emits; [exists es; split; [exact Hc|right; eauto]|]. apply attributed_flat.
  destruct (sms_flat_inner x es ic ei Hc Hi Hic Ha) as (x' & n & E & _ & _ & F & _). exists n. split; [|exact F].
  unfold t_node. cbn [fold_tree node_alg a_sms]. rewrite E. reflexivity.
Qed.
Lemma data_entries d es : readable d es -> cell_entries (mk_cell (Some d) None) es.
Proof. intro R. exists d. auto. Qed.
Lemma apply_lookup g inner file : gen_wf g -> gen_wf inner ->
  exists g' inner', apply_source_map_generator g inner (Some file) = Some (g', inner') /\
    map (fun m => m_gen m) (ml_list (g_mappings g')) = map (fun m => m_gen m) (ml_list (g_mappings g)) /\
    forall line col, lookup (map view (ml_list (g_mappings g'))) line col =
      through (Some file) (map view (isort mapping_cmp (ml_list (g_mappings inner))))
        (lookup (map view (ml_list (g_mappings g))) line col).
Proof.
  intros Wg Wi. destruct (apply_views g inner file Wg Wi) as (g' & inner' & E & _ & V).
  exists g', inner'. split; [exact E|]. split.
  - apply (f_equal (map fst)) in V. rewrite !map_map in V. cbn [fst] in V. unfold view in V. cbn [fst] in V.
    revert V. generalize (ml_list (g_mappings g')) as l', (ml_list (g_mappings g)) as l.
    induction l' as [|[[a b] s n o] l' IH]; intros [|[[a' b'] s' n' o'] l] V; try discriminate; [reflexivity|].
    cbn [map m_gen fst snd] in *. injection V as V1 V2 V3. f_equal; [|now apply IH]. f_equal; lia.
  - intros line col. rewrite V. apply lookup_map. reflexivity.
Qed.
