(** The generator: tables, the mapping list, serialization and reading back. *)
From Verif Require Import Base Tactics ModelString StringFacts ModelVlq ModelSm SpecMap
  SortFacts VlqFacts.
From Verif Require Export SpecView.

(** * Comparison of mappings *)
Lemma good_pos : good pos_cmp.
Proof.
  apply (good_lex fst snd); [apply good_N|apply good_N|].
  intros [a b] [c d]; simpl; congruence.
Qed.
Lemma good_mapping : good mapping_cmp.
Proof.
  apply (good_lex m_gen (fun m => (m_src m, (m_orig m, m_name m))) pos_cmp
    (fun a b => cmp_then (opt_cmp Z.compare (fst a) (fst b))
       (cmp_then (opt_cmp pos_cmp (fst (snd a)) (fst (snd b)))
          (opt_cmp Z.compare (snd (snd a)) (snd (snd b)))))).
  - apply good_pos.
  - apply (good_lex fst snd _ (fun a b => cmp_then (opt_cmp pos_cmp (fst a) (fst b))
          (opt_cmp Z.compare (snd a) (snd b)))).
    + apply good_opt, good_Z.
    + apply (good_lex fst snd); [apply good_opt, good_pos|apply good_opt, good_Z|].
      intros [a b] [c d]; simpl; congruence.
    + intros [a b] [c d]; simpl; congruence.
  - intros [a b c d] [a' b' c' d']; simpl. congruence.
Qed.
Lemma mapping_sym x y : mapping_cmp y x = CompOpp (mapping_cmp x y).
Proof. apply (good_sym _ good_mapping). Qed.
Lemma mapping_trans x y z : cle mapping_cmp x y -> cle mapping_cmp y z -> cle mapping_cmp x z.
Proof. apply good_le. apply good_mapping. Qed.
Lemma mapping_eq x y : mapping_cmp x y = Eq -> x = y.
Proof. apply (good_eq _ good_mapping). Qed.
#[export] Hint Resolve mapping_sym mapping_trans mapping_eq : core.

(** * Tables *)

Lemma al_get_none {A} (t : list (Z * A)) k : al_get t k = None <-> ~ In k (map fst t).
Proof.
  induction t as [|[k' v] t IH]; simpl; [tauto|].
  destruct (Z.eqb_spec k k'); [subst; split; [discriminate|tauto]|].
  rewrite IH. intuition congruence.
Qed.
Lemma al_get_in {A} (t : list (Z * A)) k v : al_get t k = Some v -> In k (map fst t).
Proof.
  intro H. destruct (in_dec Z.eq_dec k (map fst t)); auto.
  apply al_get_none in n. congruence.
Qed.
Lemma al_get_some {A} (t : list (Z * A)) k : In k (map fst t) -> exists v, al_get t k = Some v.
Proof.
  intro H. destruct (al_get t k) eqn:E; eauto. apply al_get_none in E. tauto.
Qed.
Lemma tbl_get_gen t n k i : map snd t = seq n (length t) -> al_get t k = Some i ->
  n <= i /\ nth_error (map fst t) (i - n) = Some k.
Proof.
  revert n; induction t as [|[k' v] t IH]; intros n E H; simpl in *; [discriminate|].
  injection E as -> E. destruct (Z.eqb_spec k k').
  - injection H as <-. subst. rewrite Nat.sub_diag. auto.
  - destruct (IH (S n) E H) as [L G]. split; [lia|].
    replace (i - n) with (S (i - S n)) by lia. exact G.
Qed.
Lemma tbl_get t k i : tbl_ok t -> al_get t k = Some i -> nth_error (map fst t) i = Some k.
Proof.
  intros [_ E] H. destruct (tbl_get_gen t 0 k i E H) as [_ G]. now rewrite Nat.sub_0_r in G.
Qed.
Lemma tbl_ok_nil : tbl_ok [].
Proof. split; [constructor|reflexivity]. Qed.
Lemma tbl_ok_add t k : tbl_ok t -> tbl_ok (al_or_insert t k (length t)).
Proof.
  intros [H1 H2]. unfold al_or_insert. destruct (al_get t k) eqn:E; [split; auto|].
  apply al_get_none in E. split.
  - rewrite map_app. simpl. eapply Permutation_NoDup; [apply Permutation_cons_append|].
    constructor; auto.
  - rewrite map_app, H2, app_length, seq_app. reflexivity.
Qed.
Lemma al_or_insert_keys {A} (t : list (Z * A)) k v x :
  In x (map fst (al_or_insert t k v)) <-> In x (map fst t) \/ x = k.
Proof.
  unfold al_or_insert. destruct (al_get t k) eqn:E.
  - apply al_get_in in E. intuition congruence.
  - rewrite map_app, in_app_iff. simpl. intuition congruence.
Qed.

(** Order of first occurrence. *)
Lemma al_or_insert_fst (t : list (Z * nat)) k :
  map fst (al_or_insert t k (length t)) =
  if existsb (Z.eqb k) (map fst t) then map fst t else map fst t ++ [k].
Proof.
  unfold al_or_insert. destruct (existsb (Z.eqb k) (map fst t)) eqn:E.
  - apply existsb_exists in E as (x & Hx & Ex). apply Z.eqb_eq in Ex. subst.
    apply al_get_some in Hx as [v ->]. reflexivity.
  - destruct (al_get t k) eqn:G.
    + apply al_get_in in G. exfalso.
      assert (existsb (Z.eqb k) (map fst t) = true); [|congruence].
      apply existsb_exists. exists k. split; auto. apply Z.eqb_refl.
    + now rewrite map_app.
Qed.

(** * Well-formed generators *)

Lemma valid_cases m : valid m ->
  (0 < fst (m_gen m))%N /\
  ((m_src m = None /\ m_orig m = None /\ m_name m = None) \/
   exists s ol oc, m_src m = Some s /\ m_orig m = Some (ol, oc) /\ (0 < ol)%N).
Proof.
  destruct m as [[gl gc] src name orig]. unfold valid, validate_mapping; simpl.
  destruct orig as [[ol oc]|]; destruct src as [s|]; simpl; try discriminate.
  - intro H. split; [lia|]. right. exists s, ol, oc. repeat split; auto. lia.
  - destruct name; [discriminate|]. intro H. split; [lia|]. auto.
Qed.

Lemma view_inj a b : valid a -> valid b -> view a = view b -> a = b.
Proof.
  intros Ha Hb. apply valid_cases in Ha as [_ Ha], Hb as [_ Hb].
  destruct a as [[gl gc] src name orig], b as [[gl' gc'] src' name' orig']. unfold view. simpl in *.
  destruct Ha as [(-> & -> & ->)|(s & ol & oc & -> & -> & _)],
    Hb as [(-> & -> & ->)|(s' & ol' & oc' & -> & -> & _)]; intro E; inversion E;
  repeat match goal with H : Z.of_N _ = Z.of_N _ |- _ => apply N2Z.inj in H end; congruence.
Qed.

(** The segment that stands for a mapping. *)
Definition seg_of (sources names : list (Z * nat)) (m : mapping) : option seg :=
  match m_src m, m_orig m with
  | Some s, Some (ol, oc) =>
      let* si := al_get sources s in
      let* ni := (match m_name m with
                  | None => Some None
                  | Some n => let* i := al_get names n in Some (Some (Z.of_nat i))
                  end) in
      Some (mk_seg (Z.of_N (fst (m_gen m)) - 1) (Z.of_N (snd (m_gen m)))
              (Some (Z.of_nat si, Z.of_N ol - 1, Z.of_N oc, ni)%Z))
  | _, _ => Some (mk_seg (Z.of_N (fst (m_gen m)) - 1) (Z.of_N (snd (m_gen m))) None)
  end.

Lemma entry_of_nat l i : entry l (Z.of_nat i) = nth_error l i.
Proof. unfold entry. destruct (Z.ltb_spec (Z.of_nat i) 0); [lia|]. now rewrite Nat2Z.id. Qed.

Lemma resolve_seg_of g m : tbl_ok (g_sources g) -> tbl_ok (g_names g) -> mapping_ok g m ->
  exists s, seg_of (g_sources g) (g_names g) m = Some s /\
            resolve (map fst (g_sources g)) (map fst (g_names g)) s = Some (view m).
Proof.
  intros Hs Hn (Hv & Is & In_). apply valid_cases in Hv as [Hp Hv].
  destruct m as [[gl gc] src name orig]; unfold seg_of, view; simpl in *.
  destruct Hv as [(-> & -> & ->)|(s & ol & oc & -> & -> & Hol)].
  - eexists; split; [reflexivity|]. unfold resolve; simpl. now rewrite Z.sub_add.
  - destruct (al_get_some (g_sources g) s) as [si Ei]; [auto|]. rewrite Ei. cbn [bind].
    apply tbl_get in Ei; auto.
    destruct name as [n|].
    + destruct (al_get_some (g_names g) n) as [ni En]; [auto|]. rewrite En. cbn [bind].
      apply tbl_get in En; auto.
      eexists; split; [reflexivity|]. unfold resolve; simpl.
      rewrite !entry_of_nat, Ei, En. cbn [bind]. now rewrite !Z.sub_add.
    + cbn [bind]. eexists; split; [reflexivity|]. unfold resolve; simpl.
      rewrite !entry_of_nat, Ei. cbn [bind]. now rewrite !Z.sub_add.
Qed.

(** * Serialization *)

(** The decoder's state when the serializer is in state [st] (within a line). *)
Definition sums_of (st : ser_st) : sums :=
  mk_sums (Z.of_N (snd (se_gen st))) (Z.of_nat (se_src st)) (Z.of_N (fst (se_orig st)))
    (Z.of_N (snd (se_orig st))) (Z.of_nat (se_name st)).

Lemma decode_line_cons line st x h st' a : decode_seg line st x = Some (st', a) ->
  decode_line line st (x :: h) =
  (let* (s2, b) := decode_line line st' h in Some (s2, a ++ b)).
Proof. intro H. cbn [decode_line]. rewrite H. reflexivity. Qed.

Definition next_line (st : sums) : sums :=
  mk_sums 0 (su_src st) (su_line st) (su_ocol st) (su_name st).

Lemma decode_seg_nil line st : decode_seg line st [] = Some (st, []).
Proof. reflexivity. Qed.

(** Skipping empty lines. *)
Lemma decode_semis k line st t :
  decode_lines line st (cells (repeat SEMI (S k) ++ t)) =
  decode_lines (line + Z.of_nat (S k)) (next_line st) (cells t).
Proof.
  revert line st; induction k as [|k IH]; intros line st.
  - change (repeat SEMI 1 ++ t) with ([] ++ SEMI :: t).
    rewrite cells_semi by (split; intros []). cbn [decode_lines decode_line].
    rewrite decode_seg_nil. cbn [bind app]. change (Z.of_nat 1) with 1%Z. unfold next_line.
    destruct (decode_lines _ _ _); reflexivity.
  - change (repeat SEMI (S (S k)) ++ t) with ([] ++ SEMI :: (repeat SEMI (S k) ++ t)).
    rewrite cells_semi by (split; intros []). cbn [decode_lines decode_line].
    rewrite decode_seg_nil. cbn [bind app].
    rewrite IH. unfold next_line. cbn [su_src su_line su_ocol su_name].
    replace (line + 1 + Z.of_nat (S k))%Z with (line + Z.of_nat (S (S k)))%Z by lia.
    destruct (decode_lines _ _ _); reflexivity.
Qed.

Ltac eq_lia := repeat match goal with
  | |- @eq Z _ _ => lia
  | |- _ => reflexivity
  | |- Some _ = Some _ => f_equal
  | |- (_, _) = (_, _) => f_equal
  | |- mk_sums _ _ _ _ _ = _ => f_equal
  | |- mk_seg _ _ _ = _ => f_equal
  | |- _ :: _ = _ :: _ => f_equal
  end.

(** After a segment (or at the very start, with [x = []]) the rest of the string is what
    [serialize_loop] produces. *)
Lemma decode_serialize sources names l : forall first st s x pre qs line segs,
  serialize_loop sources names first st l = Some s ->
  all_some (map (seg_of sources names) l) = Some segs ->
  no_sep x ->
  line = (Z.of_N (fst (se_gen st)) - 1)%Z ->
  decode_seg line pre x = Some (sums_of st, qs) ->
  (first = true -> x = []) ->
  decode_lines line pre (cells (x ++ s)) = Some (qs ++ segs).
Proof.
  induction l as [|m l IH]; intros first st s x pre qs line segs Hs Hseg Hx Hline Hd Hfirst.
  - cbn in Hs, Hseg. injection Hs as <-. injection Hseg as <-.
    rewrite !app_nil_r, cells_seg by auto. cbn [decode_lines decode_line]. rewrite Hd.
    cbn [bind]. now rewrite !app_nil_r.
  - cbn [serialize_loop] in Hs. unbind Hs. destruct v as [st' b]. unbind Hs. injection Hs as <-.
    rename v into rest. cbn [map all_some] in Hseg. unbind Hseg. unbind Hseg.
    injection Hseg as <-. rename v into sg, v0 into segs.
    (* the body of this mapping, decoded from the state after the separator *)
    destruct st as [[pl pc] [pol poc] pn psrc]. destruct m as [[gl gc] src name orig].
    unfold serialize_one in E. cbn [se_gen se_orig se_name se_src m_gen m_src m_orig m_name fst snd] in *.
    unbind E. destruct v as [sep pc'].
    assert (Hsep : exists body, b = sep ++ body /\ no_sep body /\
              let l' := (Z.of_N gl - 1)%Z in
              fst (se_gen st') = gl /\
              decode_seg l' (mk_sums (Z.of_N pc') (Z.of_nat psrc) (Z.of_N pol) (Z.of_N poc) (Z.of_nat pn)) body
              = Some (sums_of st', [sg])).
    { unfold seg_of in E1. cbn [m_gen m_src m_orig m_name fst snd] in E1.
      destruct src as [src|].
      - unbind E. rename v into si. unbind E. destruct v as [ol oc]. subst orig. rewrite E4 in E1. cbn [bind] in E1.
        cbn [fst snd] in E.
        destruct (0 <? ol)%N eqn:Hol; [|discriminate].
        destruct name as [nm|].
        + unbind E. rename v into ni. injection E as <- <-. rewrite E5 in E1. cbn [bind] in E1.
          injection E1 as <-.
          eexists. split; [reflexivity|]. split.
          { repeat apply no_sep_app; apply no_sep_encode. }
          cbn zeta. split; [reflexivity|]. unfold decode_seg.
          rewrite !numbers_encode.
          rewrite <- (app_nil_r (vlq_encode (Z.of_nat ni - Z.of_nat pn))), numbers_encode.
          cbn [numbers bind]. change (1 =? 1)%Z with true. cbn [bind].
          unfold sums_of. cbn [se_gen se_orig se_name se_src fst snd su_col su_src su_line su_ocol su_name].
          eq_lia.
        + injection E as <- <-. cbn [bind] in E1. injection E1 as <-.
          eexists. split; [reflexivity|]. split.
          { repeat apply no_sep_app; apply no_sep_encode. }
          cbn zeta. split; [reflexivity|]. unfold decode_seg.
          rewrite !numbers_encode.
          rewrite <- (app_nil_r (vlq_encode (Z.of_N oc - Z.of_N poc))), numbers_encode.
          cbn [numbers bind]. change (1 =? 1)%Z with true. cbn [bind].
          unfold sums_of. cbn [se_gen se_orig se_name se_src fst snd su_col su_src su_line su_ocol su_name].
          eq_lia.
      - injection E as <- <-. injection E1 as <-.
        eexists. split; [reflexivity|]. split; [apply no_sep_encode|].
        cbn zeta. split; [reflexivity|]. unfold decode_seg.
        rewrite <- (app_nil_r (vlq_encode _)), numbers_encode. cbn [numbers bind].
        change (1 =? 1)%Z with true. cbn [bind].
        unfold sums_of. cbn [se_gen se_orig se_name se_src fst snd su_col su_src su_line su_ocol su_name].
        eq_lia. }
    destruct Hsep as (body & -> & Hbody & Hgl & Hdec). clear E.
    rewrite <- app_assoc.
    assert (Hrest : decode_lines (Z.of_N gl - 1)
        (mk_sums (Z.of_N pc') (Z.of_nat psrc) (Z.of_N pol) (Z.of_N poc) (Z.of_nat pn))
        (cells (body ++ rest)) = Some ([sg] ++ segs)).
    { eapply IH; eauto; [now rewrite Hgl|discriminate]. }
    clear IH. revert E3. destruct (N.eqb_spec gl pl) as [Egl|Egl]; cbn [negb].
    + destruct first; cbn [negb]; intros [= <- <-].
      * rewrite Hfirst in * by auto. cbn [app] in *.
        cbn in Hd. injection Hd as -> <-. rewrite Egl, <- Hline in Hrest. exact Hrest.
      * cbn [app]. destruct (cells_comma x (body ++ rest) Hx) as (h & tl & C1 & C2).
        rewrite C2. rewrite C1 in Hrest. rewrite Egl, <- Hline in Hrest.
        cbn [decode_lines] in Hrest |- *.
        rewrite (decode_line_cons _ _ _ _ _ _ Hd). unbind Hrest. destruct v as [st2 a].
        unbind Hrest. injection Hrest as Hrest.
        change (sums_of (mk_ser (pl, pc) (pol, poc) pn psrc)) with
          (mk_sums (Z.of_N pc) (Z.of_nat psrc) (Z.of_N pol) (Z.of_N poc) (Z.of_nat pn)).
        rewrite E. cbn [bind]. rewrite E3. cbn [bind]. now rewrite <- app_assoc, Hrest.
    + destruct (N.leb_spec pl gl); cbn; [|discriminate]. intros [= <- <-].
      destruct (N.to_nat (gl - pl)) as [|k] eqn:Ek; [lia|].
      change (x ++ repeat SEMI (S k) ++ body ++ rest) with
        (x ++ SEMI :: (repeat SEMI k ++ body ++ rest)).
      rewrite cells_semi by auto. cbn [decode_lines decode_line]. rewrite Hd. cbn [bind].
      change (Z.of_N 0) with 0%Z in Hrest.
      unfold sums_of. cbn [se_gen se_orig se_name se_src fst snd su_col su_src su_line su_ocol su_name].
      assert (Hk : decode_lines (line + 1)
                     (mk_sums 0 (Z.of_nat psrc) (Z.of_N pol) (Z.of_N poc) (Z.of_nat pn))
                     (cells (repeat SEMI k ++ body ++ rest)) = Some ([sg] ++ segs)).
      { destruct k as [|k].
        - cbn [repeat app]. replace (line + 1)%Z with (Z.of_N gl - 1)%Z by lia. exact Hrest.
        - rewrite decode_semis. unfold next_line. cbn [su_src su_line su_ocol su_name].
          replace (line + 1 + Z.of_nat (S k))%Z with (Z.of_N gl - 1)%Z by lia. exact Hrest. }
      rewrite Hk. cbn [bind]. now rewrite !app_nil_r.
Qed.

(** Serialization succeeds on sorted valid mappings. *)
Lemma serialize_total sources names l : forall first st,
  (forall m, In m l -> valid m /\ (forall s, m_src m = Some s -> exists i, al_get sources s = Some i) /\
     (forall n, m_name m = Some n -> exists i, al_get names n = Some i)) ->
  msorted l ->
  (forall m, In m l -> (fst (se_gen st) <= fst (m_gen m))%N) ->
  exists s, serialize_loop sources names first st l = Some s.
Proof.
  induction l as [|m l IH]; intros first st Hv Hs Hst; [eexists; reflexivity|].
  cbn [serialize_loop]. apply StronglySorted_inv in Hs as [Hs H3].
  destruct (Hv m (or_introl eq_refl)) as (V & Vs & Vn). apply valid_cases in V as [Vp V].
  specialize (Hst m (or_introl eq_refl)) as Hm.
  assert (H : exists st' b, serialize_one sources names first st m = Some (st', b) /\
                            fst (se_gen st') = fst (m_gen m)).
  { destruct st as [[pl pc] [pol poc] pn psrc]. destruct m as [[gl gc] src name orig].
    cbn [se_gen se_orig se_name se_src m_gen m_src m_orig m_name fst snd] in *.
    unfold serialize_one. cbn [se_gen se_orig se_name se_src m_gen m_src m_orig m_name fst snd].
    assert (Hsep : exists sep pc', (if negb (gl =? pl)%N
       then guard* (pl <=? gl)%N in Some (repeat SEMI (N.to_nat (gl - pl)), 0%N)
       else if negb first then Some ([COMMA], pc) else Some ([], pc)) = Some (sep, pc')).
    { destruct (gl =? pl)%N; cbn [negb]; [destruct first; cbn; eauto|].
      destruct (N.leb_spec pl gl); [cbn; eauto|lia]. }
    destruct Hsep as (sep & pc' & ->). cbn [bind].
    destruct V as [(-> & -> & ->)|(s & ol & oc & -> & -> & Hol)].
    - eexists _, _; split; reflexivity.
    - destruct (Vs s eq_refl) as [si ->]. cbn [bind].
      destruct (N.ltb_spec 0 ol); [|lia].
      destruct name as [n|].
      + destruct (Vn n eq_refl) as [ni ->]. cbn [bind]. eexists _, _; split; reflexivity.
      + eexists _, _; split; reflexivity. }
  destruct H as (st' & b & -> & Est). cbn [bind].
  destruct (IH false st') as [s ->].
  - intros x Hx. apply Hv. now right.
  - auto.
  - intros x Hx. rewrite Est. rewrite Forall_forall in H3. specialize (H3 x Hx).
    unfold cle, mapping_cmp, pos_cmp in H3.
    destruct (N.compare_spec (fst (m_gen m)) (fst (m_gen x))); try lia.
    cbn in H3. congruence.
  - cbn [bind]. eexists; reflexivity.
Qed.

Lemma ml_sort_perm ml : Permutation (ml_list ml) (ml_list (ml_sort ml)).
Proof. unfold ml_sort. destruct (ml_sorted ml); auto. apply isort_perm. Qed.
Lemma ml_sort_sorted ml : ml_ok ml -> msorted (ml_list (ml_sort ml)).
Proof.
  unfold ml_sort. intro H. destruct (ml_sorted ml) eqn:E; auto. simpl. apply isort_sorted; eauto.
Qed.
Lemma ml_sort_isort ml : ml_ok ml -> ml_list (ml_sort ml) = isort mapping_cmp (ml_list ml).
Proof.
  intro H. unfold ml_sort. destruct (ml_sorted ml) eqn:E; auto.
  symmetry. apply isort_id; eauto.
Qed.

Lemma all_some_map {A B} (f : A -> option B) (P : A -> B -> Prop) l :
  Forall (fun x => exists y, f x = Some y /\ P x y) l ->
  exists l', all_some (map f l) = Some l' /\ Forall2 P l l'.
Proof.
  induction 1 as [|x l (y & E & Hp) _ (l' & E' & F)]; simpl; [eauto|].
  rewrite E. cbn [bind]. rewrite E'. cbn [bind]. eauto.
Qed.

Theorem to_source_map_spec g : gen_wf g ->
  exists g' m, gen_to_source_map g = Some (g', m) /\
    g' = gen_set_mappings g (ml_sort (g_mappings g)) /\
    map_sources m = map fst (g_sources g) /\ map_names m = map fst (g_names g) /\
    map_contents m = collect_contents (map fst (g_sources g)) (g_contents g) /\
    map_file m = g_file g /\ map_root m = g_root g /\
    read_map (map_sources m) (map_names m) (map_mappings m)
      = Some (map view (isort mapping_cmp (ml_list (g_mappings g)))).
Proof.
  intros (Hs & Hn & Hok & Hml). unfold gen_to_source_map, serialize_mappings.
  set (l := ml_list (ml_sort (g_mappings g))).
  assert (Hok' : Forall (mapping_ok g) l).
  { rewrite Forall_forall in *. intros m Hm. apply Hok.
    eapply Permutation_in; try exact Hm. symmetry. apply ml_sort_perm. }
  destruct (serialize_total (g_sources g) (g_names g) l true ser_init) as [b Eb].
  - intros m Hm. rewrite Forall_forall in Hok'. destruct (Hok' m Hm) as (V & A & B).
    repeat split; auto; intros; apply al_get_some; auto.
  - apply ml_sort_sorted; auto.
  - intros m Hm. rewrite Forall_forall in Hok'. destruct (Hok' m Hm) as (V & _).
    apply valid_cases in V as [V _]. cbn. lia.
  - cbn [g_sources g_names gen_set_mappings g_mappings]. fold l. rewrite Eb. cbn [bind].
    eexists _, _. repeat split; try reflexivity.
    cbn [map_sources map_names map_mappings]. unfold read_map, decode.
    destruct (all_some_map (seg_of (g_sources g) (g_names g))
       (fun m s => resolve (map fst (g_sources g)) (map fst (g_names g)) s = Some (view m)) l)
      as (segs & Es & F).
    { eapply Forall_impl; [|exact Hok']. intros m Hm. apply resolve_seg_of; auto. }
    change b with ([] ++ b).
    rewrite (decode_serialize (g_sources g) (g_names g) l true ser_init b [] (mk_sums 0 0 0 0 0)
              [] 0 segs); auto; try reflexivity; [|split; intros []].
    cbn [bind app]. rewrite <- ml_sort_isort by auto. fold l.
    clear -F. induction F as [|m s l segs H _ IH]; simpl; [reflexivity|].
    rewrite H. cbn [bind]. rewrite IH. reflexivity.
Qed.
