(** The walk of a SourceNode produces a map that attributes every character exactly. *)
From Verif Require Import Base Tactics ModelString StringFacts ModelVlq ModelSm SortFacts SpecText
  SpecMap SpecAttr MapFacts GenFacts.
From Verif Require Export SpecNode.

(** ** Annotations *)
Lemma annotate_from_app l p a b :
  annotate_from l p (a ++ b) = annotate_from l p a ++ annotate_from l (fold_left advance a p) b.
Proof. revert p; induction a as [|c a IH]; intro p; cbn; [reflexivity|]. f_equal. apply IH. Qed.
Lemma text_annotate l p s : text_of (annotate_from l p s) = s.
Proof. revert p; induction s as [|c s IH]; intro p; cbn; [reflexivity|]. f_equal. apply IH. Qed.
Lemma text_mark a s : text_of (mark a s) = s.
Proof. unfold text_of, mark. rewrite map_map. apply map_id. Qed.
Lemma text_app a b : text_of (a ++ b) = text_of a ++ text_of b.
Proof. apply map_app. Qed.
Lemma mark_app a s t : mark a (s ++ t) = mark a s ++ mark a t.
Proof. apply map_app. Qed.

Definition plt (a b : place) : Prop := (fst a < fst b \/ (fst a = fst b /\ snd a < snd b))%Z.
Lemma advance_lt p c : plt p (advance p c).
Proof. unfold advance, plt. destruct (N.eqb c NL); cbn; lia. Qed.
Lemma advances_le s p : ple p (fold_left advance s p).
Proof.
  revert p; induction s as [|c s IH]; intro p; cbn; [unfold ple; lia|].
  pose proof (advance_lt p c). pose proof (IH (advance p c)). unfold plt, ple in *. lia.
Qed.

Lemma lookup_snoc_before l (e : place * option target) p : plt p (fst e) ->
  lookup (l ++ [e]) (fst p) (snd p) = lookup l (fst p) (snd p).
Proof.
  intro H. unfold lookup. rewrite find_entry_app. cbn [fold_left].
  rewrite better_skip; auto. unfold plt in H. lia.
Qed.
Lemma lookup_snoc_at l (e : place * option target) p :
  fst e = p -> Forall (fun x : place * option target => ple (fst x) p) l ->
  lookup (l ++ [e]) (fst p) (snd p) = snd e.
Proof.
  intros <- HF. unfold lookup. rewrite find_entry_app. cbn [fold_left].
  unfold better. rewrite Z.eqb_refl, Z.leb_refl. cbn [andb].
  destruct (find_entry l _ _) as [b|] eqn:E; [|destruct e; reflexivity].
  apply find_entry_in in E as (Hin & Hl & Hc). rewrite (proj2 (Z.leb_le _ _)) by lia.
  destruct e; reflexivity.
Qed.
Lemma lookup_later l line col col' :
  Forall (fun x : place * option target => ple (fst x) (line, col)) l -> (col <= col')%Z ->
  lookup l line col' = lookup l line col.
Proof.
  intros HF Hc. unfold lookup, find_entry. f_equal. generalize (@None (place * option target)).
  induction HF as [|e l He _ IH]; intro b; [reflexivity|]. cbn [fold_left]. rewrite IH.
  f_equal. unfold better. unfold ple in He. cbn in He.
  destruct (Z.eqb_spec (fst (fst e)) line); [|reflexivity]. cbn [andb].
  rewrite !(proj2 (Z.leb_le _ _)) by lia. reflexivity.
Qed.
Lemma lookup_new_line l line col col' :
  Forall (fun x : place * option target => ple (fst x) (line, col)) l ->
  lookup l (line + 1) col' = None.
Proof.
  intros HF. unfold lookup, find_entry. rewrite fold_better_skip; [reflexivity|].
  eapply Forall_impl; [|exact HF]. intros e He. unfold ple in He. cbn in He. lia.
Qed.
Lemma annotate_freeze l (e : place * option target) s p :
  ple (fold_left advance s p) (fst e) -> annotate_from (l ++ [e]) p s = annotate_from l p s.
Proof.
  revert p; induction s as [|c s IH]; intros p H; [reflexivity|]. cbn in H |- *.
  rewrite IH by auto. rewrite lookup_snoc_before; [reflexivity|].
  pose proof (advance_lt p c). pose proof (advances_le s (advance p c)). unfold plt, ple in *. lia.
Qed.

(** ** Leaves of a node *)
Fixpoint smnode_ind' (P : smnode -> Prop) (HS : forall s, P (SmStr s))
    (HN : forall pos src name ch ct, Forall P ch -> P (SmNode pos src name ch ct)) (n : smnode) : P n :=
  match n with
  | SmStr s => HS s
  | SmNode pos src name ch ct =>
      HN pos src name ch ct
        ((fix go (l : list smnode) : Forall P l :=
            match l with
            | [] => Forall_nil P
            | x :: r => Forall_cons x (smnode_ind' P HS HN x) (go r)
            end) ch)
  end.

Definition process_leaf (cx : ctx) (x : leaf) : option ctx :=
  match x with (s, src, pos, name) => process_chunk cx s src pos name end.
Fixpoint process_leaves (l : list leaf) (cx : ctx) : option ctx :=
  match l with
  | [] => Some cx
  | x :: r => let* cx := process_leaf cx x in process_leaves r cx
  end.

(** ** Invariants of a walk that also changes the contents *)
Lemma walk_inv (P : ctx -> list leaf -> Prop) :
  (forall cx done x, P cx done -> exists cx', process_leaf cx x = Some cx' /\ P cx' (done ++ [x])) ->
  (forall cx done s c, P cx done -> P (process_source_content cx s c) done) ->
  forall n src pos name cx done, P cx done ->
    exists cx', walk_node src pos name n cx = Some cx' /\ P cx' (done ++ leaves_in src pos name n).
Proof.
  intros Hleaf Hct. induction n as [s|pos src name ch ct IH] using smnode_ind'; intros src0 pos0 name0 cx done HP.
  - exact (Hleaf cx done (s, src0, pos0, name0) HP).
  - cbn [walk_node leaves_in].
    assert (G : forall cx done, P cx done -> exists cx',
      (fix go (l : list smnode) (cx : ctx) : option ctx :=
           match l with
           | [] => Some cx
           | x :: r => let* cx := walk_node src pos name x cx in go r cx
           end) ch cx = Some cx' /\ P cx' (done ++ flat_map (leaves_in src pos name) ch)).
    { clear cx done HP. induction IH as [|x ch Hx _ IHch]; intros cx done HP.
      - exists cx. cbn. rewrite app_nil_r. auto.
      - destruct (Hx src pos name cx done HP) as (cx1 & E1 & H1). rewrite E1. cbn [bind flat_map].
        destruct (IHch cx1 _ H1) as (cx2 & E2 & H2). exists cx2. rewrite app_assoc. auto. }
    destruct (G cx done HP) as (cx1 & -> & H1). cbn [bind]. eexists. split; [reflexivity|].
    clear -H1 Hct. revert cx1 H1. unfold process_contents.
    induction ct as [|[s c] ct IH]; intros cx1 H1; cbn; auto.
Qed.

(** The same when the invariant only needs to hold as long as the leaves are fine. *)
Lemma walk_inv_ok (ok : leaf -> Prop) (P : ctx -> list leaf -> Prop) :
  (forall cx done x, ok x -> P cx done -> exists cx', process_leaf cx x = Some cx' /\ P cx' (done ++ [x])) ->
  (forall cx done s c, P cx done -> P (process_source_content cx s c) done) ->
  forall n src pos name cx done, Forall ok (leaves_in src pos name n) -> P cx done ->
    exists cx', walk_node src pos name n cx = Some cx' /\ P cx' (done ++ leaves_in src pos name n).
Proof.
  intros Hleaf Hct. induction n as [s|pos src name ch ct IH] using smnode_ind'; intros src0 pos0 name0 cx done Hok HP.
  - inv Hok. exact (Hleaf cx done (s, src0, pos0, name0) H1 HP).
  - cbn [walk_node leaves_in] in *.
    assert (G : forall cx done, P cx done -> exists cx',
      (fix go (l : list smnode) (cx : ctx) : option ctx :=
           match l with
           | [] => Some cx
           | x :: r => let* cx := walk_node src pos name x cx in go r cx
           end) ch cx = Some cx' /\ P cx' (done ++ flat_map (leaves_in src pos name) ch)).
    { clear cx done HP. induction IH as [|x ch Hx _ IHch]; intros cx done HP.
      - exists cx. cbn. rewrite app_nil_r. auto.
      - cbn [flat_map] in Hok. apply Forall_app in Hok as [Hok1 Hok2].
        destruct (Hx src pos name cx done Hok1 HP) as (cx1 & E1 & H1). rewrite E1. cbn [bind flat_map].
        destruct (IHch Hok2 cx1 _ H1) as (cx2 & E2 & H2). exists cx2. rewrite app_assoc. auto. }
    destruct (G cx done HP) as (cx1 & -> & H1). cbn [bind]. eexists. split; [reflexivity|].
    clear -H1 Hct. revert cx1 H1. unfold process_contents.
    induction ct as [|[s c] ct IH]; intros cx1 H1; cbn; auto.
Qed.

(** ** Exactness *)
Definition zpos (p : pos2) : place := (Z.of_N (fst p), Z.of_N (snd p)).
Definition entries (cx : ctx) : list (place * option target) := map view (ml_list (g_mappings (cx_map cx))).
Definition here (cx : ctx) : option target :=
  lookup (entries cx) (fst (zpos (cx_pos cx))) (snd (zpos (cx_pos cx))).

Definition core (cx : ctx) (mt : marked) : Prop :=
  zpos (cx_pos cx) = fold_left advance (text_of mt) (1, 0)%Z /\
  (g_skip (cx_map cx) = true /\ ml_ok (g_mappings (cx_map cx)) /\ last_ok (g_mappings (cx_map cx))) /\
  Forall (fun e : place * option target => ple (fst e) (zpos (cx_pos cx))) (entries cx) /\
  annotate (entries cx) (text_of mt) = mt.

(** Between chunks: the current answer is the last chunk's attribution. *)
Definition state_ok (cx : ctx) : Prop :=
  if cx_active cx
  then cx_last_src cx <> None /\ cx_last_pos cx <> None /\
       here cx = attr_of (cx_last_src cx) (cx_last_pos cx) (cx_last_name cx)
  else cx_last_src cx = None /\ here cx = None.

Lemma attr_of_some src pos name : is_some src && is_some pos = true ->
  exists s l c, src = Some s /\ pos = Some (l, c) /\
    attr_of src pos name = Some (s, (Z.of_N l, Z.of_N c), name).
Proof. destruct src as [s|], pos as [[l c]|]; cbn; try discriminate. eauto 6. Qed.
Lemma attr_of_none src pos name : is_some src && is_some pos = false -> attr_of src pos name = None.
Proof. destruct src as [s|], pos as [[l c]|]; cbn; try discriminate; reflexivity. Qed.

Lemma view_mk p src name pos :
  view (mk_mapping p src name pos) = (zpos p, attr_of src pos name).
Proof. unfold view, zpos, attr_of. cbn. destruct src, pos as [[l c]|]; reflexivity. Qed.

(** Adding an entry at the current position. *)
Lemma core_add cx mt src name pos : core cx mt ->
  exists g, gen_add_mapping (cx_map cx) (mk_mapping (cx_pos cx) src name pos) = Some g /\
    ml_list (g_mappings g) = ml_list (g_mappings (cx_map cx)) ++ [mk_mapping (cx_pos cx) src name pos] /\
    forall act ls lp ln code,
      let cx' := mk_ctx g act ls lp ln code (cx_pos cx) in
      core cx' mt /\ here cx' = attr_of src pos name.
Proof.
  intros (H1 & H2 & H3 & H4). rewrite gen_add_mapping_eq by (left; apply H2). eexists. split; [reflexivity|].
  cbn [g_mappings gen_set_mappings]. rewrite ml_add_list. split; [reflexivity|].
  intros act ls lp ln code. set (cx' := mk_ctx _ _ _ _ _ _ _).
  assert (El : entries cx' = entries cx ++ [(zpos (cx_pos cx), attr_of src pos name)]).
  { unfold entries, cx'. cbn [cx_map g_mappings gen_set_mappings]. rewrite ml_add_list, map_app.
    cbn [map]. now rewrite view_mk. }
  split.
  - split; [exact H1|]. split.
    { unfold cx'. destruct H2 as (H2 & H5 & H6). split; [destruct src, name; exact H2|]. now apply ml_add_ok. }
    split.
    + rewrite El. apply Forall_app. split; [exact H3|]. constructor; [|constructor].
      unfold ple, cx'. cbn. lia.
    + rewrite El. unfold annotate. rewrite annotate_freeze; [exact H4|]. cbn.
      rewrite <- H1. unfold ple. lia.
  - unfold here. rewrite El. apply (lookup_snoc_at _ (zpos (cx_pos cx), attr_of src pos name)); auto.
Qed.

(** A change of the fields the map does not depend on. *)
Lemma core_other cx mt act ls lp ln code : core cx mt ->
  core (mk_ctx (cx_map cx) act ls lp ln code (cx_pos cx)) mt.
Proof. intro H. exact H. Qed.

(** Moving over one character attributed to the current answer. *)
Lemma core_step cx mt c gp act ls lp ln code : core cx mt ->
  zpos gp = advance (zpos (cx_pos cx)) c ->
  let cx' := mk_ctx (cx_map cx) act ls lp ln code gp in
  core cx' (mt ++ [(c, here cx)]) /\ here cx' = if N.eqb c NL then None else here cx.
Proof.
  intros (H1 & H2 & H3 & H4) Hgp cx'. assert (Ee : entries cx' = entries cx) by reflexivity.
  split.
  - split; [|split; [exact H2|split]].
    + rewrite text_app, fold_left_app. cbn. now rewrite <- H1.
    + rewrite Ee. eapply Forall_impl; [|exact H3]. intros e He. unfold cx'. cbn [cx_pos].
      rewrite Hgp. pose proof (advance_lt (zpos (cx_pos cx)) c). unfold plt, ple in *. lia.
    + rewrite Ee. unfold annotate in *. rewrite text_app, annotate_from_app, H4. cbn [text_of map fst].
      unfold annotate_from. rewrite <- H1. reflexivity.
  - unfold here. rewrite Ee. unfold cx'. cbn [cx_pos]. rewrite Hgp. unfold advance.
    destruct (N.eqb c NL).
    + cbn. eapply lookup_new_line. exact H3.
    + cbn. apply lookup_later; [exact H3|lia].
Qed.

Lemma blen_pos s : s <> [] -> 0 < blen s.
Proof. destruct s as [|c s]; [congruence|]. intros _. cbn. pose proof (len_utf8_pos c). lia. Qed.

Lemma chunk_loop_exact src pos name code : forall s cx mt b chunk_len,
  core cx mt -> here cx = attr_of src pos name ->
  cx_active cx = is_some src && is_some pos ->
  (if is_some src && is_some pos
   then cx_last_src cx = src /\ cx_last_pos cx = pos /\ cx_last_name cx = name
   else cx_last_src cx = None) ->
  cx_code cx = code -> b + blen s = chunk_len ->
  exists cx', chunk_loop cx src pos name chunk_len b s = Some cx' /\
    core cx' (mt ++ mark (attr_of src pos name) s) /\ state_ok cx' /\ cx_code cx' = code.
Proof.
  induction s as [|c s IH]; intros cx mt b n HC HH HA HL Hcode Hb.
  - exists cx. cbn [chunk_loop mark map]. rewrite app_nil_r. repeat split; auto; try apply HC.
    unfold state_ok. rewrite HA. destruct (is_some src && is_some pos) eqn:Es.
    + destruct HL as (-> & -> & ->). destruct src, pos; try discriminate. repeat split; congruence || auto.
    + split; auto. rewrite HH. now apply attr_of_none.
  - cbn [chunk_loop]. cbn [blen] in Hb.
    change (mark (attr_of src pos name) (c :: s)) with
      ([(c, attr_of src pos name)] ++ mark (attr_of src pos name) s). rewrite app_assoc.
    destruct (N.eqb c NL) eqn:Ec.
    + apply N.eqb_eq in Ec.
      assert (Hgp : zpos ((fst (cx_pos cx) + 1)%N, 0%N) = advance (zpos (cx_pos cx)) c).
      { unfold advance. rewrite Ec, N.eqb_refl. unfold zpos. cbn. f_equal. lia. }
      assert (E1 : len_utf8 c = 1) by (rewrite Ec; reflexivity).
      destruct (Nat.eqb_spec (b + 1) n) as [En|En].
      * assert (s = []). { destruct s as [|d s]; auto. pose proof (blen_pos (d :: s)). rewrite E1 in Hb.
          assert (0 < blen (d :: s)) by (apply H; congruence). lia. }
        subst s. cbn [bind chunk_loop mark map]. rewrite app_nil_r.
        destruct (core_step cx mt c _ false None (cx_last_pos cx) (cx_last_name cx) (cx_code cx) HC Hgp) as [G1 G2].
        eexists. split; [reflexivity|]. rewrite HH in G1. split; [exact G1|]. split; [|exact Hcode].
        unfold state_ok. cbn [cx_active cx_last_src]. split; auto. rewrite G2, Ec, N.eqb_refl. reflexivity.
      * destruct (core_step cx mt c _ (cx_active cx) (cx_last_src cx) (cx_last_pos cx) (cx_last_name cx)
                    (cx_code cx) HC Hgp) as [G1 G2]. rewrite HH in G1.
        rewrite Ec, N.eqb_refl in G2.
        set (cx1 := mk_ctx _ _ _ _ _ _ _) in G1, G2.
        destruct (cx_active cx) eqn:Ea.
        -- destruct (core_add cx1 _ src name pos G1) as (g & Eg & _ & Hg).
           cbn [cx_map cx_pos cx1] in Eg. rewrite Eg. cbn [bind].
           destruct (Hg true (cx_last_src cx) (cx_last_pos cx) (cx_last_name cx) (cx_code cx)) as [C1 C2].
           apply IH; auto. rewrite E1 in Hb. lia.
        -- cbn [bind]. apply IH; auto.
           ++ transitivity (@None target); [exact G2|]. symmetry. apply attr_of_none. congruence.
           ++ lia.
    + cbn [bind].
      assert (Hgp : zpos (fst (cx_pos cx), (snd (cx_pos cx) + 1)%N) = advance (zpos (cx_pos cx)) c).
      { unfold advance. rewrite Ec. unfold zpos. cbn. f_equal. lia. }
      destruct (core_step cx mt c _ (cx_active cx) (cx_last_src cx) (cx_last_pos cx) (cx_last_name cx)
                    (cx_code cx) HC Hgp) as [G1 G2]. rewrite HH in G1. rewrite Ec, HH in G2.
      apply IH; auto. lia.
Qed.

Definition exact_inv (cx : ctx) (mt : marked) : Prop :=
  core cx mt /\ state_ok cx /\ cx_code cx = text_of mt.

Lemma optZ_eqb_eq a b : optZ_eqb a b = true <-> a = b.
Proof.
  destruct a as [a|], b as [b|]; cbn; try (split; congruence).
  rewrite Z.eqb_eq. split; congruence.
Qed.
Lemma optpos_eqb_eq a b : optpos_eqb a b = true <-> a = b.
Proof.
  destruct a as [[a1 a2]|], b as [[b1 b2]|]; cbn; try (split; congruence).
  rewrite andb_true_iff, !N.eqb_eq. split; [intros [-> ->]|intros [= -> ->]]; auto.
Qed.

Lemma process_chunk_exact cx mt s src pos name : exact_inv cx mt ->
  exists cx', process_chunk cx s src pos name = Some cx' /\
    exact_inv cx' (mt ++ mark (attr_of src pos name) s).
Proof.
  intros (HC & HS & Hcode). unfold process_chunk. unfold exact_inv.
  rewrite text_app, text_mark, <- Hcode.
  destruct (is_some src && is_some pos) eqn:Es.
  - destruct (negb (optZ_eqb (cx_last_src cx) src) || negb (optpos_eqb (cx_last_pos cx) pos)
              || negb (optZ_eqb (cx_last_name cx) name)) eqn:Ed.
    + destruct (core_add cx mt src name pos HC) as (g & Eg & _ & Hg). rewrite Eg. cbn [bind].
      destruct (Hg true src pos name (cx_code cx ++ s)) as [C1 C2].
      apply (chunk_loop_exact src pos name (cx_code cx ++ s)); auto. rewrite Es. auto.
    + cbn [bind]. apply orb_false_iff in Ed as [Ed E3]. apply orb_false_iff in Ed as [E1 E2].
      apply negb_false_iff in E1, E2, E3. apply optZ_eqb_eq in E1, E3. apply optpos_eqb_eq in E2.
      apply (chunk_loop_exact src pos name (cx_code cx ++ s)); auto.
      * change (here _) with (here cx). unfold state_ok in HS. destruct (cx_active cx).
        -- destruct HS as (_ & _ & ->). now rewrite E1, E2, E3.
        -- destruct HS as [HS _]. rewrite HS in E1. subst src. discriminate.
      * rewrite Es. auto.
  - unfold state_ok in HS. destruct (cx_active cx) eqn:Ea.
    + destruct (core_add cx mt None None None HC) as (g & Eg & _ & Hg). rewrite Eg. cbn [bind].
      destruct (Hg false None (cx_last_pos cx) (cx_last_name cx) (cx_code cx ++ s)) as [C1 C2].
      apply (chunk_loop_exact src pos name (cx_code cx ++ s)); auto.
      * rewrite C2. symmetry. now apply attr_of_none.
      * now rewrite Es.
    + cbn [bind]. destruct HS as [HS1 HS2].
      apply (chunk_loop_exact src pos name (cx_code cx ++ s)); auto.
      * change (here _) with (here cx). rewrite HS2. symmetry. now apply attr_of_none.
      * now rewrite Es.
Qed.

Lemma exact_contents cx mt s c : exact_inv cx mt -> exact_inv (process_source_content cx s c) mt.
Proof. intro H. exact H. Qed.

Lemma ctx_new_exact file root : exact_inv (ctx_new file root true) [].
Proof.
  split; [|split; [|reflexivity]].
  - split; [reflexivity|]. split; [split; [reflexivity|split; [intros _; constructor|reflexivity]]|].
    split; [constructor|reflexivity].
  - split; reflexivity.
Qed.

Theorem walk_exact n file root :
  exists cx, walk n (ctx_new file root true) = Some cx /\ exact_inv cx (flat n).
Proof.
  destruct (walk_inv (fun cx done => exact_inv cx (flat_leaves done))) with
    (n := n) (src := @None Z) (pos := @None pos2) (name := @None Z)
    (cx := ctx_new file root true) (done := @nil leaf) as (cx & E & H).
  - intros cx done [[[s src] pos] name] H. cbn [process_leaf].
    destruct (process_chunk_exact cx _ s src pos name H) as (cx' & E & H').
    exists cx'. split; auto. unfold flat_leaves. rewrite flat_map_app. cbn. rewrite app_nil_r. exact H'.
  - intros; now apply exact_contents.
  - apply ctx_new_exact.
  - exists cx. auto.
Qed.

Theorem generator_exact n file root :
  exists code g, to_string_with_generator n file root = Some (code, g) /\
    code = text_of (flat n) /\
    annotate (map view (ml_list (g_mappings g))) code = flat n.
Proof.
  destruct (walk_exact n file root) as (cx & E & (HC & _ & Hcode)).
  unfold to_string_with_generator. rewrite E. cbn [bind]. eexists _, _. split; [reflexivity|].
  split; auto. rewrite Hcode. apply HC.
Qed.

(** ** Order of the entries: if no mapped leaf is empty, the list is sorted as it is *)

Definition weak (cx : ctx) : Prop :=
  gen_wf1 (cx_map cx) /\ msorted (ml_list (g_mappings (cx_map cx))) /\ (0 < fst (cx_pos cx))%N /\
  Forall (fun m => pos_cmp (m_gen m) (cx_pos cx) <> Gt) (ml_list (g_mappings (cx_map cx))).
Definition strong (cx : ctx) : Prop :=
  weak cx /\
  Forall (fun m => pos_cmp (m_gen m) (cx_pos cx) = Lt \/ (m_src m = None /\ cx_active cx = false))
    (ml_list (g_mappings (cx_map cx))).

Lemma pos_cmp_lt_iff a b : pos_cmp a b = Lt <->
  (fst a < fst b \/ (fst a = fst b /\ snd a < snd b))%N.
Proof.
  unfold pos_cmp, cmp_then.
  destruct (N.compare_spec (fst a) (fst b)), (N.compare_spec (snd a) (snd b)); split; intro; try lia; try congruence; auto.
Qed.

Lemma weak_move cx gp act ls lp ln code : weak cx ->
  pos_cmp (cx_pos cx) gp = Lt -> strong (mk_ctx (cx_map cx) act ls lp ln code gp).
Proof.
  intros (A & B & C & D) H. apply pos_cmp_lt_iff in H.
  assert (F : Forall (fun m => pos_cmp (m_gen m) gp = Lt) (ml_list (g_mappings (cx_map cx)))).
  { eapply Forall_impl; [|exact D]. intros m Hm. cbn beta in Hm. rewrite pos_cmp_N in Hm. apply pos_cmp_lt_iff. lia. }
  split; [split; [exact A|split; [exact B|split]]|]; cbn.
  - lia.
  - eapply Forall_impl; [|exact F]. intros m Hm. cbn in *. congruence.
  - eapply Forall_impl; [|exact F]. intros m Hm. cbn in *. auto.
Qed.

Lemma strong_add cx src name pos : strong cx -> valid (mk_mapping (cx_pos cx) src name pos) ->
  (is_some src = true \/ cx_active cx = true) ->
  exists g, gen_add_mapping (cx_map cx) (mk_mapping (cx_pos cx) src name pos) = Some g /\
    forall act ls lp ln code,
      weak (mk_ctx g act ls lp ln code (cx_pos cx)) /\
      (src = None -> act = false -> strong (mk_ctx g act ls lp ln code (cx_pos cx))).
Proof.
  intros ((A & B & C & D) & E) V Hs.
  destruct (gen_add_mapping (cx_map cx) (mk_mapping (cx_pos cx) src name pos)) as [g|] eqn:Eg.
  2:{ rewrite gen_add_mapping_eq in Eg by auto. discriminate. }
  exists g. split; [reflexivity|]. apply gen_add_wf1 in Eg as (W & L & _); auto.
  assert (WK : forall act ls lp ln code, weak (mk_ctx g act ls lp ln code (cx_pos cx))).
  { intros. split; [exact W|]. cbn [cx_map]. rewrite L. split; [|split; [exact C|]].
    - apply sorted_snoc; auto. intros y Hy. rewrite Forall_forall in E.
      unfold cle, mapping_cmp. cbn.
      destruct (E y Hy) as [Hl|[Hn Ha]].
      + rewrite Hl. cbn. discriminate.
      + destruct (pos_cmp (m_gen y) (cx_pos cx)) eqn:Ep; cbn; try discriminate.
        * destruct Hs as [Hs|Hs]; [|congruence]. destruct src; [|discriminate]. rewrite Hn. cbn. discriminate.
        * rewrite Forall_forall in D. exfalso. now apply (D y Hy).
    - apply Forall_app. split; [exact D|]. constructor; [|constructor]. cbn.
      rewrite pos_cmp_N. lia. }
  intros act ls lp ln code. split; [apply WK|]. intros -> ->. split; [apply WK|].
  cbn [cx_map cx_pos cx_active]. rewrite L. apply Forall_app. split.
  - rewrite Forall_forall in *. intros m Hm. destruct (E m Hm) as [H|[H _]]; auto.
  - constructor; [|constructor]. auto.
Qed.

Lemma chunk_loop_sorted src pos name : forall s cx b n,
  weak cx -> (s = [] -> strong cx) -> b + blen s = n ->
  (cx_active cx = true -> exists s l c, src = Some s /\ pos = Some (l, c) /\ (0 < l)%N) ->
  exists cx', chunk_loop cx src pos name n b s = Some cx' /\ strong cx'.
Proof.
  induction s as [|c s IH]; intros cx b n HW HS Hb HA.
  - exists cx. split; [reflexivity|auto].
  - cbn [chunk_loop]. cbn [blen] in Hb.
    destruct (N.eqb c NL) eqn:Ec.
    + apply N.eqb_eq in Ec. assert (E1 : len_utf8 c = 1) by (rewrite Ec; reflexivity).
      assert (Hgp : pos_cmp (cx_pos cx) ((fst (cx_pos cx) + 1)%N, 0%N) = Lt)
        by (apply pos_cmp_lt_iff; cbn; lia).
      destruct (Nat.eqb_spec (b + 1) n) as [En|En].
      * assert (s = []). { destruct s as [|d s]; auto. exfalso.
          assert (0 < blen (d :: s)) by (apply blen_pos; congruence). lia. }
        subst s. cbn [bind chunk_loop].
        eexists. split; [reflexivity|]. apply weak_move; auto.
      * assert (Hs : s <> []) by (intros ->; cbn in Hb; lia).
        destruct (cx_active cx) eqn:Ea.
        -- pose proof (weak_move cx _ true (cx_last_src cx) (cx_last_pos cx) (cx_last_name cx) (cx_code cx) HW Hgp) as G.
           destruct (HA eq_refl) as (s0 & l0 & c0 & -> & -> & Hl).
           destruct (strong_add _ (Some s0) name (Some (l0, c0)) G) as (g & Eg & Hg); auto.
           { unfold valid, validate_mapping. cbn. rewrite andb_true_iff, !N.ltb_lt. lia. }
           cbn [cx_map cx_pos] in Eg. rewrite Eg. cbn [bind].
           destruct (Hg true (cx_last_src cx) (cx_last_pos cx) (cx_last_name cx) (cx_code cx)) as [C1 _].
           apply IH; auto; [congruence|lia].
        -- cbn [bind].
           pose proof (weak_move cx _ false (cx_last_src cx) (cx_last_pos cx) (cx_last_name cx) (cx_code cx) HW Hgp) as G.
           apply IH; [apply G|intros; exact G|lia|cbn; discriminate].
    + cbn [bind].
      assert (Hgp : pos_cmp (cx_pos cx) (fst (cx_pos cx), (snd (cx_pos cx) + 1)%N) = Lt)
        by (apply pos_cmp_lt_iff; cbn; lia).
      pose proof (weak_move cx _ (cx_active cx) (cx_last_src cx) (cx_last_pos cx) (cx_last_name cx) (cx_code cx) HW Hgp) as G.
      apply IH; [apply G|intros; exact G|lia|exact HA].
Qed.

Lemma process_leaf_sorted cx x : leaf_ok x -> strong cx ->
  exists cx', process_leaf cx x = Some cx' /\ strong cx'.
Proof.
  destruct x as [[[s src] pos] name]. intros Hok HS. cbn [process_leaf]. unfold process_chunk.
  destruct (is_some src && is_some pos) eqn:Es.
  - destruct src as [s0|]; [|discriminate]. destruct pos as [[l0 c0]|]; [|discriminate].
    destruct Hok as [Hne Hl].
    set (d := negb _ || _ || _).
    assert (G : exists g, (if d then gen_add_mapping (cx_map cx)
                   (mk_mapping (cx_pos cx) (Some s0) name (Some (l0, c0))) else Some (cx_map cx)) = Some g /\
              forall act ls lp ln code, weak (mk_ctx g act ls lp ln code (cx_pos cx))).
    { destruct d.
      - destruct (strong_add cx (Some s0) name (Some (l0, c0)) HS) as (g & Eg & Hg); auto.
        + unfold valid, validate_mapping. cbn. destruct HS as ((_ & _ & Hp & _) & _).
          rewrite andb_true_iff, !N.ltb_lt. lia.
        + exists g. split; auto. intros act ls lp ln code. exact (proj1 (Hg act ls lp ln code)).
      - exists (cx_map cx). split; auto. intros. apply HS. }
    clearbody d. destruct G as (g & Eg & Hg). unfold pos2 in *. rewrite Eg. cbn [bind].
    apply chunk_loop_sorted; auto; [congruence|eauto 6].
  - destruct (cx_active cx) eqn:Ea.
    + destruct (strong_add cx None None None HS) as (g & Eg & Hg); auto.
      { unfold valid, validate_mapping. cbn. destruct HS as ((_ & _ & Hp & _) & _).
        rewrite N.ltb_lt. lia. }
      rewrite Eg. cbn [bind].
      destruct (Hg false None (cx_last_pos cx) (cx_last_name cx) (cx_code cx ++ s)) as [C1 C2].
      apply chunk_loop_sorted; auto. cbn. discriminate.
    + cbn [bind]. apply chunk_loop_sorted; auto; cbn.
      * apply HS.
      * intros _. destruct HS as [HW HF]. split; [exact HW|]. cbn in *. rewrite Ea in HF. exact HF.
      * discriminate.
Qed.

Theorem walk_sorted n file root : Forall leaf_ok (leaves n) ->
  exists cx, walk n (ctx_new file root true) = Some cx /\ strong cx.
Proof.
  intro Hok.
  assert (H1 : forall cx (done : list leaf) x, leaf_ok x -> strong cx ->
            exists cx', process_leaf cx x = Some cx' /\ strong cx')
    by (intros cx done x Hx H; now apply process_leaf_sorted).
  assert (H2 : forall cx (done : list leaf) s c, strong cx -> strong (process_source_content cx s c)).
  { intros cx done s c ((A & B & C & D) & E). split; [|exact E]. split; [|auto].
    now apply (content_wf _ s (Some c)). }
  assert (H3 : strong (ctx_new file root true)).
  { split; [split; [apply gen_new_wf1|]|]; cbn; repeat split; constructor. }
  destruct (walk_inv_ok leaf_ok (fun cx _ => strong cx) H1 H2 n None None None _ [] Hok H3)
    as (cx & E & H). exists cx. auto.
Qed.

(** The emitted map, as read by a consumer. *)
Theorem emitted_exact n file root : Forall leaf_ok (leaves n) ->
  exists code m es, to_string_with_source_map n file root = Some (code, m) /\
    code = text_of (flat n) /\
    read_map (map_sources m) (map_names m) (map_mappings m) = Some es /\
    annotate es code = flat n.
Proof.
  intro Hok. destruct (walk_sorted n file root Hok) as (cx & E & ((W & S & _) & _)).
  destruct (walk_exact n file root) as (cx' & E' & (HC & _ & Hcode)).
  rewrite E in E'. injection E' as <-.
  destruct W as [W _]. destruct (to_source_map_spec (cx_map cx) W) as (g' & m & Em & _ & _ & _ & _ & _ & _ & Hr).
  rewrite isort_id in Hr by (auto using mapping_sym).
  unfold to_string_with_source_map. rewrite E. cbn [bind]. rewrite Em. cbn [bind].
  eexists _, _, _. split; [reflexivity|]. split; [exact Hcode|]. split; [exact Hr|].
  rewrite Hcode. apply HC.
Qed.
