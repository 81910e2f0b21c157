(** The emitted map of any node reads as [effective] says. *)
From Verif Require Import Base Tactics ModelString StringFacts ModelVlq ModelSm SortFacts SpecText
  SpecMap SpecAttr SpecEffect MapFacts GenFacts NodeFacts LeafFacts ReplaceNode NodeTree.
From Verif Require Export SpecTurn.

(** ** The answer of a sorted list is that of the greatest mapping in reach *)
Definition covers (q : place) (m : mapping) : bool :=
  ((fst (zpos (m_gen m)) =? fst q) && (snd (zpos (m_gen m)) <=? snd q))%Z.
Definition best (q : place) (b : option mapping) (m : mapping) : option mapping :=
  if covers q m then
    match b with
    | None => Some m
    | Some x => match mapping_cmp x m with Gt => b | _ => Some m end
    end
  else b.
Definition peak (L : list mapping) (q : place) : option mapping := fold_left (best q) L None.
Definition answer (L : list mapping) (q : place) : option target :=
  match peak L q with Some m => snd (view m) | None => None end.

Lemma cle_refl x : cle mapping_cmp x x.
Proof. unfold cle. pose proof (mapping_sym x x) as H. destruct (mapping_cmp x x); cbn in H; congruence. Qed.

Definition is_peak (L : list mapping) (q : place) (b : option mapping) : Prop :=
  match b with
  | None => forall y, In y L -> covers q y = false
  | Some x => In x L /\ covers q x = true /\ forall y, In y L -> covers q y = true -> cle mapping_cmp y x
  end.

Lemma peak_snoc L m q : peak (L ++ [m]) q = best q (peak L q) m.
Proof. unfold peak. rewrite fold_left_app. reflexivity. Qed.

Lemma peak_is L q : is_peak L q (peak L q).
Proof.
  induction L as [|m L IH] using rev_ind; [now intros y Hy|]. rewrite peak_snoc. unfold best.
  destruct (covers q m) eqn:Ec.
  - destruct (peak L q) as [x|] eqn:Ep; cbn [is_peak] in IH |- *.
    + destruct IH as (H1 & H2 & H3). destruct (mapping_cmp x m) eqn:E; cbn [is_peak].
      * split; [apply in_or_app; cbn; auto|]. split; [exact Ec|]. intros y Hy Hc.
        apply in_app_or in Hy as [Hy|[<- |[]]]; [|apply cle_refl].
        eapply mapping_trans; [apply H3; auto|]. unfold cle. congruence.
      * split; [apply in_or_app; cbn; auto|]. split; [exact Ec|]. intros y Hy Hc.
        apply in_app_or in Hy as [Hy|[<- |[]]]; [|apply cle_refl].
        eapply mapping_trans; [apply H3; auto|]. unfold cle. congruence.
      * split; [apply in_or_app; auto|]. split; [exact H2|]. intros y Hy Hc.
        apply in_app_or in Hy as [Hy|[<- |[]]]; auto. unfold cle. rewrite (mapping_sym x m), E. cbn. discriminate.
    + split; [apply in_or_app; cbn; auto|]. split; [exact Ec|]. intros y Hy Hc.
      apply in_app_or in Hy as [Hy|[<- |[]]]; [|apply cle_refl]. rewrite IH in Hc by auto. discriminate.
  - destruct (peak L q) as [x|] eqn:Ep; cbn [is_peak] in IH |- *.
    + destruct IH as (H1 & H2 & H3). split; [apply in_or_app; auto|]. split; [exact H2|]. intros y Hy Hc.
      apply in_app_or in Hy as [Hy|[<- |[]]]; auto. congruence.
    + intros y Hy. apply in_app_or in Hy as [Hy|[<- |[]]]; auto.
Qed.

Lemma is_peak_unique L L' q b b' : (forall y, In y L <-> In y L') ->
  is_peak L q b -> is_peak L' q b' -> b = b'.
Proof.
  intros HL. destruct b as [x|], b' as [x'|]; cbn [is_peak]; auto.
  - intros (A1 & A2 & A3) (B1 & B2 & B3). f_equal. apply mapping_eq.
    assert (U : cle mapping_cmp x x') by (apply B3; auto; now apply HL).
    assert (V : cle mapping_cmp x' x) by (apply A3; auto; now apply HL).
    unfold cle in U, V. rewrite (mapping_sym x x') in V. destruct (mapping_cmp x x'); cbn in *; congruence.
  - intros (A1 & A2 & _) B. rewrite B in A2; [discriminate|now apply HL].
  - intros A (B1 & B2 & _). rewrite A in B2; [discriminate|now apply HL].
Qed.

Lemma peak_perm L L' q : Permutation L L' -> peak L q = peak L' q.
Proof.
  intro P. apply (is_peak_unique L L' q); [|apply peak_is|apply peak_is].
  intro y. split; apply Permutation_in; [exact P|now apply Permutation_sym].
Qed.

Lemma cle_places x y q : cle mapping_cmp x y -> covers q x = true -> covers q y = true ->
  (snd (zpos (m_gen x)) <= snd (zpos (m_gen y)))%Z.
Proof.
  unfold covers, cle, mapping_cmp, pos_cmp, zpos. cbn [fst snd]. rewrite !andb_true_iff, !Z.eqb_eq.
  intros H [H1 _] [H2 _]. assert (E : fst (m_gen x) = fst (m_gen y)) by lia. rewrite E, N.compare_refl in H.
  cbn [cmp_then] in H. destruct (N.compare_spec (snd (m_gen x)) (snd (m_gen y))); cbn in H; try lia; congruence.
Qed.

Lemma find_peak q : forall S b, msorted S ->
  (forall x, b = Some x -> covers q x = true /\ Forall (cle mapping_cmp x) S) ->
  fold_left (better (fst q) (snd q)) (map view S) (option_map view b) = option_map view (fold_left (best q) S b).
Proof.
  induction S as [|m S IH]; intros b HS Hb; [reflexivity|]. cbn [map fold_left].
  inversion HS as [|m0 S0 HS1 HS2 Em]; subst.
  assert (Es : better (fst q) (snd q) (option_map view b) (view m) = option_map view (best q b m)).
  { unfold better, best. change (fst (view m)) with (zpos (m_gen m)). fold (covers q m).
    destruct (covers q m) eqn:Ec; [|reflexivity]. destruct b as [x|]; [|reflexivity]. cbn [option_map].
    destruct (Hb x eq_refl) as [H1 H2]. inversion H2 as [|m0 S0 H3 H4 Em]; subst.
    pose proof (cle_places x m q H3 H1 Ec) as Hl. change (fst (view x)) with (zpos (m_gen x)).
    rewrite (proj2 (Z.leb_le _ _) Hl). unfold cle in H3. destruct (mapping_cmp x m); [reflexivity|reflexivity|congruence]. }
  rewrite Es. apply IH; auto. intros x Hx. unfold best in Hx. destruct (covers q m) eqn:Ec.
  - destruct b as [x0|].
    + destruct (Hb x0 eq_refl) as [H1 H2]. inversion H2 as [|m0 S0 H3 H4 Em]; subst.
      unfold cle in H3. destruct (mapping_cmp x0 m); try congruence; injection Hx as <-; auto.
    + injection Hx as <-. auto.
  - destruct (Hb x Hx) as [H1 H2]. inversion H2; auto.
Qed.

Lemma lookup_sorted L q : lookup (map view (isort mapping_cmp L)) (fst q) (snd q) = answer L q.
Proof.
  unfold lookup, find_entry, answer. rewrite (peak_perm L (isort mapping_cmp L) q) by apply isort_perm.
  assert (S : msorted (isort mapping_cmp L)) by (apply isort_sorted; [exact mapping_sym|exact mapping_trans]).
  pose proof (find_peak q (isort mapping_cmp L) None S) as F. cbn [option_map] in F.
  rewrite F by discriminate. unfold peak.
  destruct (fold_left (best q) (isort mapping_cmp L) None) as [m|]; [|reflexivity]. cbn [option_map].
  destruct (view m). reflexivity.
Qed.

(** ** Annotations by an arbitrary answer *)
Fixpoint annotate_by (f : place -> option target) (p : place) (s : str) : marked :=
  match s with
  | [] => []
  | c :: r => (c, f p) :: annotate_by f (advance p c) r
  end.
Lemma annotate_by_app f p a b :
  annotate_by f p (a ++ b) = annotate_by f p a ++ annotate_by f (fold_left advance a p) b.
Proof. revert p; induction a as [|c a IH]; intro p; cbn; [reflexivity|]. f_equal. apply IH. Qed.
Lemma annotate_by_eq es f s : (forall q, lookup es (fst q) (snd q) = f q) -> forall p, annotate_from es p s = annotate_by f p s.
Proof. intro H. induction s as [|c s IH]; intro p; cbn; [reflexivity|]. now rewrite H, IH. Qed.

Lemma answer_before L m q : plt q (zpos (m_gen m)) -> answer (L ++ [m]) q = answer L q.
Proof.
  intro H. unfold answer. rewrite peak_snoc. unfold best, covers. unfold plt in H.
  destruct (Z.eqb_spec (fst (zpos (m_gen m))) (fst q)), (Z.leb_spec (snd (zpos (m_gen m))) (snd q)); cbn [andb];
    try reflexivity. lia.
Qed.
Lemma annotate_by_freeze L m s p : ple (fold_left advance s p) (zpos (m_gen m)) ->
  annotate_by (answer (L ++ [m])) p s = annotate_by (answer L) p s.
Proof.
  revert p; induction s as [|c s IH]; intros p H; [reflexivity|]. cbn in H |- *.
  rewrite IH by auto. rewrite answer_before; [reflexivity|].
  pose proof (advance_lt p c). pose proof (advances_le s (advance p c)). unfold plt, ple in *. lia.
Qed.

Definition tidy (m : mapping) : Prop :=
  match m_src m, m_orig m with
  | Some _, Some _ => True
  | None, None => m_name m = None
  | _, _ => False
  end.

Lemma above_cmp x m : m_gen x = m_gen m -> tidy x -> tidy m ->
  (mapping_cmp x m = Gt <-> above (snd (view x)) (snd (view m)) = true).
Proof.
  destruct x as [g src name orig], m as [g' src' name' orig']. cbn [m_gen]. intros <-.
  unfold tidy, mapping_cmp, view. cbn [m_gen m_src m_name m_orig snd].
  assert (E : pos_cmp g g = Eq) by (unfold pos_cmp; now rewrite !N.compare_refl).
  rewrite E. cbn [cmp_then].
  destruct src as [s|], orig as [[l c]|]; try contradiction;
  destruct src' as [s'|], orig' as [[l' c']|]; try contradiction.
  - intros _ _. cbn [opt_cmp above]. unfold pos_cmp. cbn [fst snd].
    destruct (Z.compare_spec s s') as [Es|Es|Es]; cbn [cmp_then].
    + subst s'. rewrite Z.ltb_irrefl, Z.eqb_refl. cbn [orb andb].
      destruct (N.compare_spec l l') as [El|El|El]; cbn [cmp_then].
      * subst l'. rewrite Z.ltb_irrefl, Z.eqb_refl. cbn [orb andb].
        destruct (N.compare_spec c c') as [Ec|Ec|Ec]; cbn [cmp_then].
        -- subst c'. rewrite Z.ltb_irrefl, Z.eqb_refl. cbn [orb andb].
           destruct name as [a|], name' as [b|]; cbn [opt_cmp name_above]; try (split; congruence).
           destruct (Z.compare_spec a b), (Z.ltb_spec b a); split; try congruence; lia.
        -- rewrite (proj2 (Z.ltb_ge _ _)) by lia. rewrite (proj2 (Z.eqb_neq _ _)) by lia. cbn. split; congruence.
        -- rewrite (proj2 (Z.ltb_lt _ _)) by lia. cbn. split; congruence.
      * rewrite (proj2 (Z.ltb_ge _ _)) by lia. rewrite (proj2 (Z.eqb_neq _ _)) by lia. cbn. split; congruence.
      * rewrite (proj2 (Z.ltb_lt _ _)) by lia. cbn. split; congruence.
    + rewrite (proj2 (Z.ltb_ge _ _)) by lia. rewrite (proj2 (Z.eqb_neq _ _)) by lia. cbn. split; congruence.
    + rewrite (proj2 (Z.ltb_lt _ _)) by lia. cbn. split; congruence.
  - intros _ ->. cbn. split; congruence.
  - intros -> _. cbn. split; congruence.
  - intros -> ->. cbn. split; congruence.
Qed.

Lemma same_target_eq a b : same_target a b = true <-> a = b.
Proof.
  unfold same_target. rewrite andb_true_iff, !negb_true_iff. split.
  - intros [H1 H2]. destruct a as [[[s [l c]] n]|], b as [[[s' [l' c']] n']|]; cbn [above] in *; try congruence.
    rewrite !orb_false_iff, !andb_false_iff, !orb_false_iff, !andb_false_iff, !orb_false_iff, !andb_false_iff in *.
    assert (s = s') by lia. subst s'. assert (l = l') by lia. subst l'. assert (c = c') by lia. subst c'.
    rewrite !Z.eqb_refl in *. destruct H1 as [_ [H1|[_ [H1|[_ [H1|H1]]]]]]; try congruence.
    destruct H2 as [_ [H2|[_ [H2|[_ [H2|H2]]]]]]; try congruence.
    destruct n as [n|], n' as [n'|]; cbn in *; try congruence. do 2 f_equal. f_equal. lia.
  - intros <-. assert (G : above a a = false); [|auto]. destruct a as [[[s [l c]] n]|]; cbn [above]; [|reflexivity].
    rewrite !Z.ltb_irrefl, !Z.eqb_refl. cbn. destruct n; cbn; [apply Z.ltb_irrefl|reflexivity].
Qed.

(** ** The walk *)
Definition listed (cx : ctx) : list mapping := ml_list (g_mappings (cx_map cx)).

Definition page (cx : ctx) (mt : marked) (cur : option target) (fresh : bool) : Prop :=
  zpos (cx_pos cx) = fold_left advance (text_of mt) (1, 0)%Z /\
  g_skip (cx_map cx) = true /\
  Forall (fun m => ple (zpos (m_gen m)) (zpos (cx_pos cx))) (listed cx) /\
  Forall tidy (listed cx) /\
  annotate_by (answer (listed cx)) (1, 0)%Z (text_of mt) = mt /\
  answer (listed cx) (zpos (cx_pos cx)) = cur /\
  (if fresh then exists m, In m (listed cx) /\ m_gen m = cx_pos cx
   else Forall (fun m => plt (zpos (m_gen m)) (zpos (cx_pos cx))) (listed cx)).

Definition held (cx : ctx) (last : option target) : Prop :=
  if cx_active cx
  then last = attr_of (cx_last_src cx) (cx_last_pos cx) (cx_last_name cx) /\ last <> None
  else cx_last_src cx = None /\ last = None.

Lemma zpos_inj a b : zpos a = zpos b -> a = b.
Proof. destruct a, b. unfold zpos. cbn. intro H. injection H as H1 H2. f_equal; lia. Qed.

Lemma page_add cx mt cur fresh src name pos : page cx mt cur fresh ->
  tidy (mk_mapping (cx_pos cx) src name pos) ->
  exists g, gen_add_mapping (cx_map cx) (mk_mapping (cx_pos cx) src name pos) = Some g /\
    forall act ls lp ln code,
      page (mk_ctx g act ls lp ln code (cx_pos cx)) mt
        (if fresh then greater cur (attr_of src pos name) else attr_of src pos name) true.
Proof.
  intros (H1 & H2 & H3 & H4 & H5 & H6 & H7) Ht. rewrite gen_add_mapping_eq by auto. eexists. split; [reflexivity|].
  intros act ls lp ln code. set (m := mk_mapping _ _ _ _) in *. set (cx' := mk_ctx _ _ _ _ _ _ _).
  assert (El : listed cx' = listed cx ++ [m]).
  { unfold listed, cx'. cbn [cx_map g_mappings gen_set_mappings]. now rewrite ml_add_list. }
  split; [exact H1|]. split; [unfold cx'; destruct src, name; exact H2|]. rewrite El.
  split. { apply Forall_app. split; [exact H3|]. constructor; [|constructor]. unfold ple, m, cx'. cbn. lia. }
  split. { apply Forall_app. split; [exact H4|]. constructor; [exact Ht|constructor]. }
  split. { rewrite annotate_by_freeze; [exact H5|]. rewrite <- H1. unfold ple, m. cbn. lia. }
  split; [|exists m; split; [apply in_or_app; cbn; auto|reflexivity]].
  change (zpos (cx_pos cx')) with (zpos (cx_pos cx)). unfold answer in H6 |- *. rewrite peak_snoc.
  assert (Cm : covers (zpos (cx_pos cx)) m = true).
  { unfold covers, m. cbn [m_gen]. rewrite Z.eqb_refl, Z.leb_refl. reflexivity. }
  unfold best. rewrite Cm. pose proof (peak_is (listed cx) (zpos (cx_pos cx))) as PK.
  assert (Vm : snd (view m) = attr_of src pos name) by (unfold m; now rewrite view_mk).
  destruct fresh.
  - destruct H7 as (m0 & I0 & G0).
    assert (C0 : covers (zpos (cx_pos cx)) m0 = true).
    { unfold covers. rewrite G0, Z.eqb_refl, Z.leb_refl. reflexivity. }
    destruct (peak (listed cx) (zpos (cx_pos cx))) as [x|] eqn:Ep; cbn [is_peak] in PK.
    2:{ rewrite PK in C0 by auto. discriminate. }
    destruct PK as (P1 & P2 & P3).
    assert (Gx : m_gen x = m_gen m).
    { pose proof (cle_places m0 x _ (P3 m0 I0 C0) C0 P2) as Hl. rewrite G0 in Hl.
      apply zpos_inj. unfold covers in P2. rewrite andb_true_iff, Z.eqb_eq, Z.leb_le in P2.
      change (m_gen m) with (cx_pos cx). destruct (zpos (m_gen x)), (zpos (cx_pos cx)). cbn in *. f_equal; lia. }
    pose proof (above_cmp x m Gx (proj1 (Forall_forall _ _) H4 x P1) Ht) as AC. rewrite Vm in AC.
    unfold greater. subst cur.
    destruct (mapping_cmp x m) eqn:Ec.
    + destruct (above _ _); [destruct AC as [_ AC]; specialize (AC eq_refl); congruence|exact Vm].
    + destruct (above _ _); [destruct AC as [_ AC]; specialize (AC eq_refl); congruence|exact Vm].
    + rewrite (proj1 AC eq_refl). reflexivity.
  - destruct (peak (listed cx) (zpos (cx_pos cx))) as [x|] eqn:Ep; cbn [is_peak] in PK; [|exact Vm].
    destruct PK as (P1 & P2 & P3). pose proof (proj1 (Forall_forall _ _) H7 x P1) as Lx. cbn beta in Lx.
    assert (Ec : mapping_cmp x m = Lt).
    { unfold mapping_cmp. assert (E : pos_cmp (m_gen x) (m_gen m) = Lt); [|now rewrite E].
      apply pos_cmp_lt_iff. unfold plt, zpos in Lx. cbn [fst snd] in Lx. unfold m. cbn [m_gen]. lia. }
    rewrite Ec. exact Vm.
Qed.

Lemma page_step cx mt cur fresh c gp act ls lp ln code : page cx mt cur fresh ->
  zpos gp = advance (zpos (cx_pos cx)) c ->
  page (mk_ctx (cx_map cx) act ls lp ln code gp) (mt ++ [(c, cur)])
    (if N.eqb c NL then None else cur) false.
Proof.
  intros (H1 & H2 & H3 & H4 & H5 & H6 & H7) Hgp. set (cx' := mk_ctx _ _ _ _ _ _ _).
  assert (Ee : listed cx' = listed cx) by reflexivity. pose proof (advance_lt (zpos (cx_pos cx)) c) as AL.
  assert (F : Forall (fun m => plt (zpos (m_gen m)) (zpos (cx_pos cx'))) (listed cx)).
  { eapply Forall_impl; [|exact H3]. intros m Hm. unfold cx'. cbn [cx_pos]. rewrite Hgp.
    unfold plt, ple in *. lia. }
  unfold page. rewrite Ee.
  split; [rewrite text_app, fold_left_app; cbn; now rewrite <- H1|]. split; [exact H2|].
  split; [eapply Forall_impl; [|exact F]; intros m Hm; unfold plt, ple in *; lia|]. split; [exact H4|].
  split; [rewrite text_app, annotate_by_app, H5; cbn [text_of map fst annotate_by]; rewrite <- H1, H6; reflexivity|].
  split; [|exact F]. unfold cx'. cbn [cx_pos]. rewrite Hgp. unfold advance.
  pose proof (peak_is (listed cx) (zpos (cx_pos cx))) as PK. unfold answer in H6 |- *.
  destruct (N.eqb c NL).
  - assert (E : peak (listed cx) (fst (zpos (cx_pos cx)) + 1, 0)%Z = None); [|now rewrite E].
    apply (is_peak_unique (listed cx) (listed cx) (fst (zpos (cx_pos cx)) + 1, 0)%Z); [tauto|apply peak_is|].
    intros y Hy. unfold covers. rewrite Forall_forall in H3. specialize (H3 y Hy). unfold ple in H3. cbn [fst snd].
    rewrite (proj2 (Z.eqb_neq _ _)) by lia. reflexivity.
  - assert (E : peak (listed cx) (fst (zpos (cx_pos cx)), snd (zpos (cx_pos cx)) + 1)%Z = peak (listed cx) (zpos (cx_pos cx))).
    { assert (C : forall y, In y (listed cx) -> covers (fst (zpos (cx_pos cx)), snd (zpos (cx_pos cx)) + 1)%Z y = covers (zpos (cx_pos cx)) y).
      { intros y Hy. rewrite Forall_forall in H3. specialize (H3 y Hy). unfold ple in H3. unfold covers. cbn [fst snd].
        destruct (Z.eqb_spec (fst (zpos (m_gen y))) (fst (zpos (cx_pos cx)))); [|reflexivity]. cbn [andb].
        rewrite !(proj2 (Z.leb_le _ _)) by lia. reflexivity. }
      apply (is_peak_unique (listed cx) (listed cx) (fst (zpos (cx_pos cx)), snd (zpos (cx_pos cx)) + 1)%Z); [tauto|apply peak_is|].
      destruct (peak (listed cx) (zpos (cx_pos cx))) as [x|]; cbn [is_peak] in *.
      - destruct PK as (P1 & P2 & P3). split; [exact P1|]. split; [now rewrite C|]. intros y Hy Hc. apply P3; auto. now rewrite <- C.
      - intros y Hy. rewrite C by auto. auto. }
    rewrite E. exact H6.
Qed.

Lemma page_other cx mt cur fresh act ls lp ln code : page cx mt cur fresh ->
  page (mk_ctx (cx_map cx) act ls lp ln code (cx_pos cx)) mt cur fresh.
Proof. intro H. exact H. Qed.

Lemma chunk_loop_page src pos name : forall s cx mt p b n,
  page cx mt (p_cur p) (p_fresh p) -> held cx (p_last p) -> p_last p = attr_of src pos name ->
  b + blen s = n ->
  exists cx', chunk_loop cx src pos name n b s = Some cx' /\
    (let (m, p') := ink (attr_of src pos name) s p in
     page cx' (mt ++ m) (p_cur p') (p_fresh p') /\ held cx' (p_last p')) /\
    cx_code cx' = cx_code cx.
Proof.
  induction s as [|c s IH]; intros cx mt p b n HC HH HL Hb.
  - exists cx. cbn [chunk_loop ink]. rewrite app_nil_r. auto.
  - cbn [chunk_loop ink]. cbn [blen] in Hb.
    destruct (N.eqb c NL) eqn:Ec.
    + pose proof (proj1 (N.eqb_eq _ _) Ec) as Ec'. assert (E1 : len_utf8 c = 1) by (rewrite Ec'; reflexivity).
      assert (Hgp : zpos ((fst (cx_pos cx) + 1)%N, 0%N) = advance (zpos (cx_pos cx)) c).
      { unfold advance. rewrite Ec. unfold zpos. cbn. f_equal. lia. }
      destruct s as [|d s'].
      * cbn [blen] in Hb. destruct (Nat.eqb_spec (b + 1) n) as [En|En]; [|lia]. cbn [bind chunk_loop ink].
        eexists. split; [reflexivity|]. split; [|reflexivity]. split.
        -- pose proof (page_step cx mt _ _ c _ false None (cx_last_pos cx) (cx_last_name cx) (cx_code cx) HC Hgp) as G.
           rewrite Ec in G. exact G.
        -- split; reflexivity.
      * assert (0 < blen (d :: s')) as Hp by (apply blen_pos; congruence).
        destruct (Nat.eqb_spec (b + 1) n) as [En|En]; [lia|].
        pose proof (page_step cx mt _ _ c _ (cx_active cx) (cx_last_src cx) (cx_last_pos cx) (cx_last_name cx) (cx_code cx) HC Hgp) as G.
        rewrite Ec in G.
        destruct (cx_active cx) eqn:Ea.
        -- unfold held in HH. rewrite Ea in HH. destruct HH as [HH1 HH2].
           destruct src as [s0|]; [|rewrite HL in HH2; now cbn in HH2].
           destruct pos as [[l0 c0]|]; [|rewrite HL in HH2; now cbn in HH2].
           destruct (page_add _ _ _ _ (Some s0) name (Some (l0, c0)) G I) as (g & Eg & Hg).
           cbn [cx_map cx_pos] in Eg. unfold pos2 in *. rewrite Eg. cbn [bind].
           specialize (Hg true (cx_last_src cx) (cx_last_pos cx) (cx_last_name cx) (cx_code cx)). cbn [cx_pos] in Hg.
           set (a := attr_of (Some s0) (Some (l0, c0)) name) in *.
           (* the answer is that of the chunk whether or not the entry counts as fresh *)
           destruct (IH (mk_ctx g true (cx_last_src cx) (cx_last_pos cx) (cx_last_name cx) (cx_code cx) ((fst (cx_pos cx) + 1)%N, 0%N))
                       (mt ++ [(c, p_cur p)]) (mk_pen a true a) (b + len_utf8 c) n) as (cx' & E' & R & K).
           { exact Hg. }
           { unfold held. cbn [cx_active cx_last_src cx_last_pos cx_last_name p_last]. rewrite <- HL. auto. }
           { reflexivity. }
           { lia. }
           exists cx'. split; [exact E'|]. split; [|exact K].
           cbn [ink] in R |- *. cbn [p_cur p_last] in R |- *.
           destruct (ink a s' _) as [m p'']. rewrite <- app_assoc in R. exact R.
        -- cbn [bind]. unfold held in HH. rewrite Ea in HH. destruct HH as [HH1 HH2].
           assert (Na : attr_of src pos name = None) by congruence.
           destruct (IH (mk_ctx (cx_map cx) false (cx_last_src cx) (cx_last_pos cx) (cx_last_name cx) (cx_code cx) ((fst (cx_pos cx) + 1)%N, 0%N))
                       (mt ++ [(c, p_cur p)]) (mk_pen None false None) (b + len_utf8 c) n) as (cx' & E' & R & K).
           { exact G. }
           { unfold held. cbn. auto. }
           { now rewrite Na. }
           { lia. }
           exists cx'. split; [exact E'|]. split; [|exact K]. rewrite Na in R |- *.
           destruct (ink None (d :: s') _) as [m p'']. rewrite <- app_assoc in R. exact R.
    + cbn [bind].
      assert (Hgp : zpos (fst (cx_pos cx), (snd (cx_pos cx) + 1)%N) = advance (zpos (cx_pos cx)) c).
      { unfold advance. rewrite Ec. unfold zpos. cbn. f_equal. lia. }
      pose proof (page_step cx mt _ _ c _ (cx_active cx) (cx_last_src cx) (cx_last_pos cx) (cx_last_name cx) (cx_code cx) HC Hgp) as G.
      rewrite Ec in G.
      destruct (IH (mk_ctx (cx_map cx) (cx_active cx) (cx_last_src cx) (cx_last_pos cx) (cx_last_name cx) (cx_code cx) (fst (cx_pos cx), (snd (cx_pos cx) + 1)%N))
                  (mt ++ [(c, p_cur p)]) (mk_pen (p_cur p) false (p_last p)) (b + len_utf8 c) n) as (cx' & E' & R & K).
      { exact G. }
      { exact HH. }
      { exact HL. }
      { lia. }
      exists cx'. split; [exact E'|]. split; [|exact K].
      destruct (ink _ s _) as [m p'']. rewrite <- app_assoc in R. exact R.
Qed.

Lemma process_leaf_page cx mt p x : page cx mt (p_cur p) (p_fresh p) -> held cx (p_last p) ->
  exists cx', process_leaf cx x = Some cx' /\
    let (m, p') := ink (leaf_attr x) (leaf_text x) (aim (leaf_attr x) p) in
    page cx' (mt ++ m) (p_cur p') (p_fresh p') /\ held cx' (p_last p').
Proof.
  destruct x as [[[s src] pos] name]. intros HC HH. cbn [process_leaf leaf_attr]. change (leaf_text (s, src, pos, name)) with s.
  unfold process_chunk. set (a := attr_of src pos name) in *.
  assert (Fin : forall cx1, page cx1 mt (p_cur (aim a p)) (p_fresh (aim a p)) -> held cx1 (p_last (aim a p)) ->
     exists cx', chunk_loop cx1 src pos name (blen s) 0 s = Some cx' /\
       let (m, p') := ink a s (aim a p) in page cx' (mt ++ m) (p_cur p') (p_fresh p') /\ held cx' (p_last p')).
  { intros cx1 H1 H2. destruct (chunk_loop_page src pos name s cx1 mt (aim a p) 0 (blen s) H1 H2) as (cx' & E & R & _); eauto.
    unfold aim. destruct (same_target a (p_last p)) eqn:Es; [|reflexivity]. apply same_target_eq in Es. now symmetry. }
  destruct (is_some src && is_some pos) eqn:Es.
  - destruct src as [s0|]; [|discriminate]. destruct pos as [[l0 c0]|]; [|discriminate].
    set (d := negb _ || _ || _).
    assert (Ed : d = negb (same_target a (p_last p))).
    { assert (Q : d = false <-> a = p_last p).
      { unfold d. rewrite !orb_false_iff, !negb_false_iff, !optZ_eqb_eq, optpos_eqb_eq. unfold held in HH.
        destruct (cx_active cx).
        - destruct HH as [-> HH]. unfold a. destruct (cx_last_src cx) as [s1|]; [|now cbn in HH].
          destruct (cx_last_pos cx) as [[l1 c1]|]; [|now cbn in HH]. cbn [attr_of].
          split; [intros [[E1 E2] E3]; congruence|]. intro E. injection E as E1 E2 E3 E4.
          repeat split; try congruence. do 2 f_equal; lia.
        - destruct HH as [-> ->]. unfold a. split; [intros [[E1 _] _]; congruence|cbn; congruence]. }
      pose proof (same_target_eq a (p_last p)) as R. destruct d, (same_target a (p_last p)); cbn; auto.
      - destruct R as [R _]. destruct Q as [_ Q]. rewrite Q in * by auto. discriminate Q; auto.
      - destruct Q as [Q _]. destruct R as [_ R]. rewrite R in * by auto. congruence. }
    clearbody d. subst d. unfold aim in Fin |- *.
    destruct (same_target a (p_last p)) eqn:Eq; cbn [negb].
    + cbn [bind]. apply Fin; [exact HC|]. apply same_target_eq in Eq. unfold held. cbn [cx_active cx_last_src cx_last_pos cx_last_name].
      split; [now rewrite <- Eq|]. rewrite <- Eq. cbn. discriminate.
    + destruct (page_add cx mt _ _ (Some s0) name (Some (l0, c0)) HC I) as (g & Eg & Hg).
      unfold pos2 in *. rewrite Eg. cbn [bind]. apply Fin; [apply Hg|]. split; [reflexivity|discriminate].
  - assert (Na : a = None) by (now apply attr_of_none). unfold aim in Fin |- *. rewrite Na in *.
    pose proof (same_target_eq None (p_last p)) as R. unfold held in HH.
    destruct (cx_active cx) eqn:Ea.
    + destruct HH as [_ HH]. destruct (same_target None (p_last p)); [destruct R as [R _]; now rewrite <- R in HH by auto|].
      destruct (page_add cx mt _ _ None None None HC eq_refl) as (g & Eg & Hg). rewrite Eg. cbn [bind].
      apply Fin; [apply Hg|]. split; reflexivity.
    + destruct HH as [HH1 HH2]. rewrite HH2 in R. rewrite HH2 in Fin |- *. destruct (same_target None None); [|discriminate (proj2 R eq_refl)].
      cbn [bind]. apply Fin; [exact HC|]. unfold held. cbn [cx_active cx_last_src]. auto.
Qed.

Lemma write_app l1 l2 p : write (l1 ++ l2) p =
  let (m1, p1) := write l1 p in let (m2, p2) := write l2 p1 in (m1 ++ m2, p2).
Proof.
  revert p; induction l1 as [|[a s] l1 IH]; intro p; cbn [write app]; [now destruct (write l2 p)|].
  destruct (ink a s (aim a p)) as [m0 p0]. rewrite IH. destruct (write l1 p0) as [m1 p1].
  destruct (write l2 p1) as [m2 p2]. now rewrite app_assoc.
Qed.

Theorem walk_effective n file root :
  exists cx, walk n (ctx_new file root true) = Some cx /\
    annotate_by (answer (listed cx)) (1, 0)%Z (text_of (effective (map turn (leaves n)))) = effective (map turn (leaves n)).
Proof.
  set (start := mk_pen None false None).
  destruct (walk_inv (fun cx done => let (m, p) := write (map turn done) start in page cx m (p_cur p) (p_fresh p) /\ held cx (p_last p))) with
    (n := n) (src := @None Z) (pos := @None pos2) (name := @None Z)
    (cx := ctx_new file root true) (done := @nil leaf) as (cx & E & H).
  - intros cx done x H. rewrite map_app. cbn [map]. rewrite write_app. destruct (write (map turn done) start) as [m p].
    destruct H as [H1 H2]. destruct (process_leaf_page cx m p x H1 H2) as (cx' & E & R). exists cx'. split; [exact E|].
    unfold turn. cbn [write]. destruct (ink _ _ _) as [m' p']. rewrite app_nil_r. exact R.
  - intros cx done s c H. exact H.
  - cbn [write map]. split; [|split; reflexivity]. repeat split; constructor.
  - exists cx. split; [exact E|]. cbn [app] in H. change (leaves_in None None None n) with (leaves n) in H. unfold effective. fold start.
    destruct (write (map turn (leaves n)) start) as [m p]. cbn [fst]. apply H.
Qed.

Lemma text_ink a s : forall p, text_of (fst (ink a s p)) = s.
Proof.
  induction s as [|c s IH]; intro p; [reflexivity|]. cbn [ink].
  destruct (ink a s _) as [m p''] eqn:E. cbn [fst text_of map]. f_equal.
  change m with (fst (m, p'')). rewrite <- E. apply IH.
Qed.
Lemma text_write l : forall p, text_of (fst (write l p)) = flat_map snd l.
Proof.
  induction l as [|[a s] l IH]; intro p; [reflexivity|]. cbn [write flat_map snd].
  pose proof (text_ink a s (aim a p)) as T. destruct (ink a s (aim a p)) as [m1 p1]. cbn [fst] in T.
  specialize (IH p1). destruct (write l p1) as [m2 p2]. cbn [fst] in *. rewrite text_app. congruence.
Qed.

Theorem emitted_effective n file root : Forall lined (leaves n) ->
  exists code m es, to_string_with_source_map n file root = Some (code, m) /\
    code = text_of (flat n) /\
    read_map (map_sources m) (map_names m) (map_mappings m) = Some es /\
    annotate es code = effective (map turn (leaves n)).
Proof.
  intro Hok. destruct (emitted_total n file root Hok) as (code & m & g & E & Eg & Hc & _ & Hr).
  destruct (walk_effective n file root) as (cx & Ew & Ha).
  unfold to_string_with_generator in Eg. rewrite Ew in Eg. cbn [bind] in Eg. injection Eg as Ec <-.
  eexists code, m, _. split; [exact E|]. split; [exact Hc|]. split; [exact Hr|].
  assert (T : text_of (effective (map turn (leaves n))) = code).
  { unfold effective. rewrite text_write, Hc. unfold flat, flat_leaves. clear.
    induction (leaves n) as [|[[[s src] pos] name] l IH]; [reflexivity|]. cbn [map flat_map turn flat_leaf].
    rewrite text_app, text_mark, IH. reflexivity. }
  rewrite T in Ha. rewrite <- Ha. unfold annotate. apply annotate_by_eq. intro q. apply lookup_sorted.
Qed.
