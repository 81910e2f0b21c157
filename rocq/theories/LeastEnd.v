(** The mappings string is determined by its segments, and what is read off a result by the
    expression. *)
From Verif Require Import Base Tactics ModelString StringFacts ModelVlq ModelSm ModelSlm ModelSources ModelTree ModelWasm
  ModelJs ModelJsApi SpecText SpecMap SpecAttr SpecLeast SortFacts TextFacts MapFacts NodeFacts LeafFacts ParseFacts GenFacts LoadFacts SmsProps NodeTree LeastFacts
  IdxFacts JsFacts Utf16Facts JsTextProps SpecResult ModelJsResult ResultFacts ResultProps SpecJs ModelEnd SpecEnd EndFacts MadeFacts EndProps ContentFacts EndMap LineEnd.

(** ** Trees *)
Theorem tree_least m t M : dense t -> emits true m t M ->
  exists mp, source_and_column_map m t = Some (text_of M, mp) /\
    map_sources mp = firsts (srcs_of M) /\ map_names mp = firsts (names_of M) /\
    read_map (map_sources mp) (map_names mp) (map_mappings mp) = Some (least M).
Proof.
  intros D (n & code & mp & es & En & Em & Er & Ea). destruct (emitted_least n None None (dense_chunks true m t D n En)) as (code' & mp' & Em' & Ec & Fs & Fn & Er').
  rewrite Em in Em'. injection Em' as <- <-.
  assert (F : flat n = M) by (rewrite <- Ea; rewrite Er in Er'; injection Er' as ->; rewrite Ec; symmetry; apply least_says).
  rewrite F in *. subst code. exists mp. split; [unfold source_and_column_map; now rewrite En|]. auto.
Qed.

(** ** Spelling *)
Fixpoint spell (first : bool) (line col os ol oc on : Z) (l : list seg) : str :=
  match l with
  | [] => []
  | s :: r =>
      let new := negb (sg_line s =? line)%Z in
      (if new then repeat SEMI (Z.to_nat (sg_line s - line)) else if first then [] else [COMMA]) ++
      vlq_encode (sg_col s - (if new then 0 else col)) ++
      match sg_orig s with
      | None => spell false (sg_line s) (sg_col s) os ol oc on r
      | Some (a, b, c, None) =>
          vlq_encode (a - os) ++ vlq_encode (b - ol) ++ vlq_encode (c - oc) ++ spell false (sg_line s) (sg_col s) a b c on r
      | Some (a, b, c, Some n) =>
          vlq_encode (a - os) ++ vlq_encode (b - ol) ++ vlq_encode (c - oc) ++ vlq_encode (n - on) ++ spell false (sg_line s) (sg_col s) a b c n r
      end
  end.
Lemma serialize_spell sources names : forall l first st b segs,
  serialize_loop sources names first st l = Some b -> all_some (map (seg_of sources names) l) = Some segs ->
  b = spell first (Z.of_N (fst (se_gen st)) - 1) (Z.of_N (snd (se_gen st))) (Z.of_nat (se_src st)) (Z.of_N (fst (se_orig st))) (Z.of_N (snd (se_orig st))) (Z.of_nat (se_name st)) segs.
Proof.
  induction l as [|m l IH]; intros first st b segs E Es; cbn [serialize_loop map all_some] in *.
  - injection E as <-. injection Es as <-. reflexivity.
  - unb E as [st1 b1] E1. unb E as b2 E2. injection E as <-. unb Es as s Es1. unb Es as segs2 Es2. injection Es as <-.
    specialize (IH _ _ _ _ E2 Es2). subst b2. unfold serialize_one in E1. destruct st as [[pl pc] [sol soc] sn ss]. cbn [se_gen se_orig se_name se_src fst snd] in *.
    destruct m as [[gl gc] src name orig]. cbn [m_gen m_src m_name m_orig] in *.
    unb E1 as [sep pc'] E3.
    assert (Q : sep = (if negb (Z.of_N gl - 1 =? Z.of_N pl - 1)%Z then repeat SEMI (Z.to_nat (Z.of_N gl - 1 - (Z.of_N pl - 1))) else if first then [] else [COMMA]) /\
                Z.of_N pc' = if negb (Z.of_N gl - 1 =? Z.of_N pl - 1)%Z then 0%Z else Z.of_N pc).
    { destruct (N.eqb_spec gl pl) as [->|Ne].
      - cbn [negb] in E3. rewrite Z.eqb_refl. cbn [negb]. destruct first; injection E3 as <- <-; auto.
      - cbn [negb] in E3. destruct (Z.eqb_spec (Z.of_N gl - 1) (Z.of_N pl - 1)) as [Eq|_]; [lia|]. cbn [negb].
        destruct (N.leb_spec pl gl) as [Le|_]; [|discriminate]. injection E3 as <- <-. split; [f_equal; lia|reflexivity]. }
    clear E3. destruct Q as [-> Qc].
    unfold seg_of in Es1. cbn [m_gen m_src m_name m_orig fst snd] in Es1.
    destruct src as [z|].
    + unb E1 as si Ei. destruct orig as [[ol oc]|]; [|discriminate]. cbn [bind] in E1. destruct (N.ltb_spec 0 ol) as [Hol|_]; [|discriminate].
      rewrite Ei in Es1. cbn [bind] in Es1. destruct name as [nm|].
      * unb E1 as ni En. injection E1 as <- <-. rewrite En in Es1. cbn [bind] in Es1. injection Es1 as <-.
        cbn [spell sg_line sg_col sg_orig se_gen se_orig se_name se_src fst snd]. rewrite <- Qc, <- !app_assoc. replace (Z.of_N (ol - 1)) with (Z.of_N ol - 1)%Z by lia. reflexivity.
      * injection E1 as <- <-. injection Es1 as <-.
        cbn [spell sg_line sg_col sg_orig se_gen se_orig se_name se_src fst snd]. rewrite <- Qc, <- !app_assoc. replace (Z.of_N (ol - 1)) with (Z.of_N ol - 1)%Z by lia. reflexivity.
    + injection E1 as <- <-. injection Es1 as <-. cbn [spell sg_line sg_col sg_orig se_gen se_orig se_name se_src fst snd]. rewrite <- Qc, <- !app_assoc. reflexivity.
Qed.
Definition spelled (segs : list seg) : str := spell true 0 0 0 0 0 0 segs.
Lemma mappings_spelled g g' m : gen_wf g -> gen_to_source_map g = Some (g', m) ->
  exists segs, decode (map_mappings m) = Some segs /\ map_mappings m = spelled segs.
Proof.
  intros (Hs & Hn & Hok & Hml) E. unfold gen_to_source_map, serialize_mappings in E. cbn [g_sources g_names gen_set_mappings g_mappings] in E.
  set (l := ml_list (ml_sort (g_mappings g))) in *.
  assert (Hok' : Forall (mapping_ok g) l).
  { rewrite Forall_forall in *. intros x Hx. apply Hok. eapply Permutation_in; try exact Hx. symmetry. apply ml_sort_perm. }
  unb E as [g1 b] E1. unb E1 as b1 Eb. injection E1 as <- <-. injection E as <- <-. cbn [map_mappings].
  destruct (MapFacts.all_some_map (seg_of (g_sources g) (g_names g))
       (fun m s => resolve (map fst (g_sources g)) (map fst (g_names g)) s = Some (view m)) l)
      as (segs & Es & F).
  { eapply Forall_impl; [|exact Hok']. intros x Hx. apply resolve_seg_of; auto. }
  exists segs. split.
  - unfold decode. change b1 with ([] ++ b1).
    rewrite (decode_serialize (g_sources g) (g_names g) l true ser_init b1 [] (mk_sums 0 0 0 0 0)
              [] 0 segs); auto; try reflexivity. split; intros [].
  - exact (serialize_spell _ _ _ _ _ _ _ Eb Es).
Qed.

(** ** Lists of sources and names listed once: the segments can be told from what is read *)
Lemma entry_inj l i j x : NoDup l -> entry l i = Some x -> entry l j = Some x -> i = j.
Proof.
  unfold entry. intros N Ei Ej. destruct (Z.ltb_spec i 0) as [|Hi]; [discriminate|]. destruct (Z.ltb_spec j 0) as [|Hj]; [discriminate|].
  assert (L : Z.to_nat i < length l) by (apply nth_error_Some; congruence).
  assert (K : Z.to_nat i = Z.to_nat j) by (apply (proj1 (NoDup_nth_error l) N); [exact L|congruence]). lia.
Qed.
Lemma resolve_inj ss ns s s' e : NoDup ss -> NoDup ns -> resolve ss ns s = Some e -> resolve ss ns s' = Some e -> s = s'.
Proof.
  intros N1 N2 E E'. destruct s as [l c [[[[a b] d] n]|]], s' as [l' c' [[[[a' b'] d'] n']|]]; unfold resolve in *; cbn [sg_line sg_col sg_orig] in *.
  - unb E as x Ex. unb E as y Ey. injection E as <-. unb E' as x' Ex'. unb E' as y' Ey'. injection E' as E1 E2 E3 E4 E5 E6.
    subst x' y' c' d'. assert (a = a') by (eapply (entry_inj ss); eauto). subst a'.
    assert (n = n').
    { destruct n as [n|], n' as [n'|]; [| | |reflexivity].
      - unb Ey as u Eu. injection Ey as <-. unb Ey' as u' Eu'. injection Ey' as ->. f_equal. eapply (entry_inj ns); eauto.
      - unb Ey as u Eu. injection Ey as <-. discriminate.
      - unb Ey' as u Eu. injection Ey' as <-. discriminate. }
    subst n'. assert (l = l') by lia. assert (b = b') by lia. subst. reflexivity.
  - unb E as x Ex. unb E as y Ey. injection E as <-. discriminate.
  - unb E' as x Ex. unb E' as y Ey. injection E' as <-. discriminate.
  - injection E as <-. injection E' as E1 E2. assert (l = l') by lia. subst. reflexivity.
Qed.
Lemma resolves_inj ss ns : NoDup ss -> NoDup ns -> forall segs segs' es, all_some (map (resolve ss ns) segs) = Some es -> all_some (map (resolve ss ns) segs') = Some es -> segs = segs'.
Proof.
  intros N1 N2. induction segs as [|s segs IH]; intros segs' es E E'; cbn [map all_some] in *.
  - injection E as <-. destruct segs' as [|s' segs']; [reflexivity|]. cbn [map all_some] in E'. unb E' as x Ex. unb E' as y Ey. discriminate.
  - unb E as x Ex. unb E as y Ey. injection E as <-. destruct segs' as [|s' segs']; cbn [map all_some] in E'; [discriminate|].
    unb E' as x' Ex'. unb E' as y' Ey'. injection E' as -> ->. f_equal; [exact (resolve_inj ss ns s s' x N1 N2 Ex Ex')|eapply IH; eassumption].
Qed.
Lemma spelled_unique ss ns ms ms' es segs segs' : NoDup ss -> NoDup ns -> read_map ss ns ms = Some es -> read_map ss ns ms' = Some es ->
  decode ms = Some segs -> ms = spelled segs -> decode ms' = Some segs' -> ms' = spelled segs' -> ms = ms'.
Proof.
  unfold read_map. intros N1 N2 R R' D S D' S'. rewrite D in R. rewrite D' in R'. cbn [bind] in *.
  rewrite S, S'. f_equal. eapply (resolves_inj ss ns); eauto.
Qed.

(** ** Renaming *)
Lemma srcs_rename f M : srcs_of (retarget (rename f) M) = map f (srcs_of M).
Proof.
  induction M as [|[c a] M IH]; [reflexivity|]. unfold srcs_of in *. cbn [retarget map flat_map fst snd]. rewrite map_app. f_equal; [|exact IH].
  destruct a as [[[s p] n]|]; reflexivity.
Qed.
Lemma names_rename f M : names_of (retarget (rename f) M) = map f (names_of M).
Proof.
  induction M as [|[c a] M IH]; [reflexivity|]. unfold names_of in *. cbn [retarget map flat_map fst snd]. rewrite map_app. f_equal; [|exact IH].
  destruct a as [[[s p] [n|]]|]; reflexivity.
Qed.
Definition good_for (X : Z -> Prop) (a : option target) : Prop :=
  match a with Some (s, _, n) => X s /\ match n with Some n => X n | None => True end | None => True end.
Lemma rename_inj f (X : Z -> Prop) a b : (forall x y, X x -> X y -> f x = f y -> x = y) -> good_for X a -> good_for X b -> rename f a = rename f b -> a = b.
Proof.
  intros H Ha Hb. destruct a as [[[s p] n]|], b as [[[s' p'] n']|]; cbn [rename]; try congruence; intro E. injection E as E1 -> E2. destruct Ha as [A1 A2], Hb as [B1 B2].
  assert (s = s') by auto. subst. destruct n as [n|], n' as [n'|]; cbn in E2; try congruence. injection E2 as E2. assert (n = n') by auto. now subst.
Qed.
Lemma changes_rename f (X : Z -> Prop) : (forall x y, X x -> X y -> f x = f y -> x = y) -> forall M, Forall (fun x : char * option target => good_for X (snd x)) M ->
  forall p cur, good_for X cur -> changes p (rename f cur) (retarget (rename f) M) = rename_entries f (changes p cur M).
Proof.
  intros H M. induction 1 as [|[c a] M Ha _ IH]; intros p cur Hc; [reflexivity|]. cbn [snd] in Ha.
  change (retarget (rename f) ((c, a) :: M)) with ((c, rename f a) :: retarget (rename f) M). cbn [changes]. unfold rename_entries. rewrite map_app. f_equal.
  - destruct (same_target a cur) as [->|N]; [destruct (same_target _ _); [reflexivity|congruence]|].
    destruct (same_target (rename f a) (rename f cur)) as [E|_]; [|reflexivity]. exfalso. apply N. eapply rename_inj; eauto.
  - fold (rename_entries f (changes (advance p c) (if N.eqb c NL then None else a) M)). rewrite <- IH; [destruct (N.eqb c NL); reflexivity|]. destruct (N.eqb c NL); [exact I|exact Ha].
Qed.
Lemma good_for_all (X : Z -> Prop) M : Forall X (srcs_of M) -> Forall X (names_of M) -> Forall (fun x : char * option target => good_for X (snd x)) M.
Proof.
  induction M as [|[c a] M IH]; intros H1 H2; constructor.
  - unfold srcs_of, names_of in *. cbn [flat_map snd] in *. apply Forall_app in H1 as [H1 _], H2 as [H2 _]. cbn [snd]. destruct a as [[[s p] [n|]]|]; cbn; [|split; [|exact I]|exact I].
    + split; [now inversion H1|now inversion H2].
    + now inversion H1.
  - unfold srcs_of, names_of in *. cbn [flat_map snd] in *. apply Forall_app in H1 as [_ H1], H2 as [_ H2]. auto.
Qed.

(** ** The whole way *)
Definition contents_from (Cs : list (jstr * jstr)) (Ls : list jstr) : list jstr :=
  flat_map (fun s => match first_content Cs s with Some k => [k] | None => [] end) Ls.
(** Indices that stand for strings. *)
Definition listed (c : cache) (i : Z) : Prop := exists s, True /\ known c i s.
Definition content_listed (c : cache) (i j : Z) : Prop := exists s k, True /\ known c i s /\ at_ c j k.
Lemma node_idx_mono (P P' Q Q' : Z -> Prop) (R R' : Z -> Z -> Prop) n : (forall i, P i -> P' i) -> (forall i, Q i -> Q' i) -> (forall i j, R i j -> R' i j) ->
  node_idx P Q R n -> node_idx P' Q' R' n.
Proof.
  intros H1 H2 H3. induction n as [s|pos src name ch ct IH] using smnode_ind'; intro H; [exact I|]. apply node_idx_node in H as (A & B & C & D). apply node_idx_node.
  split; [destruct src; cbn in *; auto|]. split; [destruct name; cbn in *; auto|].
  split; [eapply Forall_impl; [|exact C]; intros [i j]; unfold pair_idx; cbn; auto|]. clear A B C. induction D as [|x ch Hx D IHd]; [constructor|]. inversion IH as [|? ? I1 I2]; subst. constructor; auto.
Qed.
Lemma node_listed c S N G n : node_idx (PS c S) (PN c N) (RG c G) n -> node_idx (listed c) (listed c) (content_listed c) n.
Proof. apply node_idx_mono; intros; unfold listed, content_listed, PS, PN, RG in *; firstorder eauto. Qed.
(** From a node to what is read off the returned object. *)
Theorem node_least nu c1 n M ps Cs : numbering nu -> reached_cache c1 -> Forall solid (leaves n) ->
  node_idx (listed c1) (listed c1) (content_listed c1) n -> M = retarget (rename (rho nu c1)) (flat n) ->
  same_get (nconts n) ps -> Forall2 (pair_at c1) ps Cs ->
  exists r Ls Ln ms segs, node_result n = Some r /\
    map nu Ls = firsts (srcs_of M) /\ map nu Ln = firsts (names_of M) /\
    reads_as nu Ls Ln ms = Some (least M) /\ decode ms = Some segs /\ ms = spelled segs /\
    forall l, Forall quiet l -> let o := robj_new r true in
      snd (rstep (fst (rrun (c1, o) l)) RSource) = AText (to_js (text_of M)) /\
      snd (rstep (fst (rrun (c1, o) l)) (RGet FSources)) = AVal (VArr (map Some Ls)) /\
      snd (rstep (fst (rrun (c1, o) l)) (RGet FNames)) = AVal (VArr (map Some Ln)) /\
      snd (rstep (fst (rrun (c1, o) l)) (RGet FMappings)) = AVal (VStr ms) /\
      snd (rstep (fst (rrun (c1, o) l)) (RGet FContents)) = AVal (list_value (contents_from Cs Ls)).
Proof.
  intros Hnu Hr1 Sol Ni E0 Sg Cs'. pose proof (reached_ok _ Hr1) as Hc1.
  destruct (walk_sorted n None None (Forall_impl _ solid_ok Sol)) as (cx & Ew & ((W & _) & _)). destruct W as [W _].
  destruct (emitted_least n None None Sol) as (code & mp & Em & Ec & Fs & Fn & Er).
  unfold to_string_with_source_map in Em. rewrite Ew in Em. cbn [bind] in Em. unb Em as [g' m'] Eg. injection Em as <- <-.
  set (mp := m') in *. clearbody mp.
  set (r := jr_from_with_generator (cx_code cx) (cx_map cx)).
  assert (Etg : to_string_with_generator n None None = Some (cx_code cx, cx_map cx)) by (unfold to_string_with_generator; now rewrite Ew).
  assert (Enr : node_result n = Some r) by (unfold node_result; now rewrite Etg).
  assert (Ejr : jr_get_map r = Some (mk_jr (jr_s r) (Some mp) (Some g'), mp)) by (unfold jr_get_map; cbn; now rewrite Eg).
  destruct (mappings_spelled _ _ _ W Eg) as (segs & Hsd & Hsp).
  assert (Idx : map_idx (listed c1) (listed c1) (content_listed c1) mp) by (eapply source_map_idx; [|exact Eg]; eapply generator_idx; [exact Ni|exact Etg]).
  destruct Idx as (I1 & I2 & I3).
  destruct (known_strings c1 (fun _ => True) (map_sources mp) Hc1) as (Ls & KL & NL & IL); [rewrite Fs; apply firsts_nodup|exact I1|].
  destruct (known_strings c1 (fun _ => True) (map_names mp) Hc1) as (Ln & KN & NN' & INm); [rewrite Fn; apply firsts_nodup|exact I2|].
  set (Xk := fun i => exists s, known c1 i s).
  assert (Inj : forall x y, Xk x -> Xk y -> rho nu c1 x = rho nu c1 y -> x = y).
  { intros x y (s & Kx) (s' & Ky) E. pose proof (rho_map nu c1 Hc1 [x] [s]) as R1. pose proof (rho_map nu c1 Hc1 [y] [s']) as R2.
    cbn [map] in R1, R2. specialize (R1 ltac:(repeat constructor; exact Kx)). specialize (R2 ltac:(repeat constructor; exact Ky)). injection R1 as R1. injection R2 as R2.
    assert (s = s') by (apply Hnu; congruence). subst s'. eapply known_index; eauto. }
  assert (G1 : Forall Xk (srcs_of (flat n))).
  { apply Forall_forall. intros x Hx. apply firsts_in in Hx. rewrite <- Fs in Hx. rewrite Forall_forall in I1. destruct (I1 x Hx) as (s & _ & K). now exists s. }
  assert (G2 : Forall Xk (names_of (flat n))).
  { apply Forall_forall. intros x Hx. apply firsts_in in Hx. rewrite <- Fn in Hx. rewrite Forall_forall in I2. destruct (I2 x Hx) as (s & _ & K). now exists s. }
  assert (G : Forall (fun x : char * option target => good_for Xk (snd x)) (flat n)) by now apply good_for_all.
  rewrite Forall_forall in G1, G2.
  exists r, Ls, Ln, (map_mappings mp), segs. split; [exact Enr|].
  split; [rewrite <- (rho_map nu c1 Hc1 _ _ KL), Fs, E0, srcs_rename, firsts_map; [reflexivity|]; intros x y Hx Hy; apply Inj; auto|].
  split; [rewrite <- (rho_map nu c1 Hc1 _ _ KN), Fn, E0, names_rename, firsts_map; [reflexivity|]; intros x y Hx Hy; apply Inj; auto|].
  split.
  { unfold reads_as. rewrite <- (rho_map nu c1 Hc1 _ _ KL), <- (rho_map nu c1 Hc1 _ _ KN), read_map_rename, Er. cbn [option_map]. f_equal. rewrite E0.
    unfold least. rewrite <- (changes_rename (rho nu c1) Xk Inj (flat n) G (1, 0)%Z None I). reflexivity. }
  split; [exact Hsd|]. split; [exact Hsp|].
  assert (Tx : text_of M = cx_code cx) by (rewrite E0, text_retarget, Ec; reflexivity).
  intros l Hl o. subst o.
  assert (Res : resolvable c1 mp).
  { assert (B : forall i s, at_ c1 i s -> (i < Z.of_nat (length (ca_array c1)))%Z).
    { intros i s (k & -> & E). assert (k < length (ca_array c1)) by (apply nth_error_Some; congruence). lia. }
    unfold resolvable. rewrite !Forall_app. split; [|split].
    - eapply Forall_impl; [|exact I1]. intros i (s & _ & K). exact (B _ _ (known_at _ _ _ Hc1 K)).
    - eapply Forall_impl; [|exact I3]. intros i (s & _ & (s' & k & _ & _ & K)). eauto.
    - eapply Forall_impl; [|exact I2]. intros i (s & _ & K). exact (B _ _ (known_at _ _ _ Hc1 K)). }
  assert (Hq : forall f, Forall (fun op => ~ clears op /\ ~ wraps op /\ ~ assigns f op) l).
  { intro f. eapply Forall_impl; [|exact Hl]. intros op Ho. destruct op; cbn in *; try (destruct Ho); repeat split; auto. }
  assert (Pr : produced r true) by (econstructor; exact Enr).
  destruct (produced_map r true _ _ Pr Ejr) as [As _].
  split; [|split; [|split; [|split]]].
  - rewrite source_kept by exact Hl. f_equal. f_equal. cbn. congruence.
  - destruct (shows_map c1 r _ mp true FSources l Hr1 Ejr Res (Hq _)) as (v & Ev & Sh). rewrite Ev. inversion Sh as [l' St| | | | |]; subst. f_equal. f_equal. eapply stands_known; eauto.
  - destruct (shows_map c1 r _ mp true FNames l Hr1 Ejr Res (Hq _)) as (v & Ev & Sh). rewrite Ev. inversion Sh as [| | | |l' Ht St|Ht]; subst; [|discriminate]. f_equal. f_equal. eapply stands_known; eauto.
  - destruct (shows_map c1 r _ mp true FMappings l Hr1 Ejr Res (Hq _)) as (v & Ev & Sh). rewrite Ev. inversion Sh; subst. f_equal. f_equal.
    apply ascii_plain in As as [A1 A2]. now apply plain_out.
  - destruct (shows_map c1 r _ mp true FContents l Hr1 Ejr Res (Hq _)) as (v & Ev & Sh). rewrite Ev. f_equal.
    pose proof (node_contents_of _ _ _ _ _ _ _ ps Etg Eg Sg) as Ek.
    pose proof (collected_at _ _ _ _ _ Hc1 Cs' KL) as Ca. rewrite <- Ek in Ca. fold (contents_from Cs Ls) in Ca. inversion Sh as [|s l' St|St| | |]; subst.
    + pose proof (stands_ats _ _ _ _ Ca St) as Q. destruct (contents_from Cs Ls); [discriminate|]. cbn [list_value]. now rewrite Q.
    + rewrite St in Ca. inversion Ca as [Q|]. reflexivity.
Qed.

Theorem made_least nu e md c1 t : numbering nu -> reached_cache c1 -> exact_expr e -> (forall v, e <> XRaw v) -> made c1 e t ->
  exists o M Ls Ln ms segs, js_source_and_map true md t = Some (ResMap o) /\ marks nu e = Some M /\
    map nu Ls = firsts (srcs_of M) /\ map nu Ln = firsts (names_of M) /\
    reads_as nu Ls Ln ms = Some (least M) /\ decode ms = Some segs /\ ms = spelled segs /\
    forall l, Forall quiet l ->
      snd (rstep (fst (rrun (c1, o) l)) RSource) = AText (to_js (text_of M)) /\
      snd (rstep (fst (rrun (c1, o) l)) (RGet FSources)) = AVal (VArr (map Some Ls)) /\
      snd (rstep (fst (rrun (c1, o) l)) (RGet FNames)) = AVal (VArr (map Some Ln)) /\
      snd (rstep (fst (rrun (c1, o) l)) (RGet FMappings)) = AVal (VStr ms) /\
      snd (rstep (fst (rrun (c1, o) l)) (RGet FContents)) = AVal (list_value (contents_of e Ls)).
Proof.
  intros Hnu Hr1 X NR Hm. pose proof (reached_ok _ Hr1) as Hc1.
  destruct (node_of nu e md c1 t Hnu Hc1 X NR Hm) as (NJ & n & M & En & EM & Sol & Ni & E0 & Pl & Fr & Cs).
  destruct (node_least nu c1 n M _ _ Hnu Hr1 Sol (node_listed _ _ _ _ _ Ni) E0 (t_node_contents true md _ Fr n En) Cs) as (r & Ls & Ln & ms & segs & Enr & H).
  exists (robj_new r true), M, Ls, Ln, ms, segs.
  split; [unfold js_source_and_map; destruct t; try (destruct NJ); rewrite En; cbn [bind]; rewrite Enr; reflexivity|]. split; [exact EM|exact H].
Qed.
Theorem end_least nu c0 e md c1 t : numbering nu -> reached_cache c0 -> exact_expr e -> (forall v, e <> XRaw v) -> build c0 e = (c1, t) ->
  exists o M Ls Ln ms segs, js_source_and_map true md t = Some (ResMap o) /\ marks nu e = Some M /\
    map nu Ls = firsts (srcs_of M) /\ map nu Ln = firsts (names_of M) /\
    reads_as nu Ls Ln ms = Some (least M) /\ decode ms = Some segs /\ ms = spelled segs /\
    forall l, Forall quiet l ->
      snd (rstep (fst (rrun (c1, o) l)) RSource) = AText (to_js (text_of M)) /\
      snd (rstep (fst (rrun (c1, o) l)) (RGet FSources)) = AVal (VArr (map Some Ls)) /\
      snd (rstep (fst (rrun (c1, o) l)) (RGet FNames)) = AVal (VArr (map Some Ln)) /\
      snd (rstep (fst (rrun (c1, o) l)) (RGet FMappings)) = AVal (VStr ms) /\
      snd (rstep (fst (rrun (c1, o) l)) (RGet FContents)) = AVal (list_value (contents_of e Ls)).
Proof.
  intros Hnu Hr0 X NR Eb. apply made_least; auto; [eapply reached_build; eauto|]. now apply (build_made e c0 c1 t (reached_ok _ Hr0) Eb).
Qed.

Theorem made_same e md md' c1 c1' t t' : reached_cache c1 -> reached_cache c1' -> exact_expr e -> (forall v, e <> XRaw v) ->
  made c1 e t -> made c1' e t' ->
  exists o o', js_source_and_map true md t = Some (ResMap o) /\ js_source_and_map true md' t' = Some (ResMap o') /\
    forall l l' q, Forall quiet l -> Forall quiet l' -> (q = RSource \/ exists f, q = RGet f) ->
      snd (rstep (fst (rrun (c1, o) l)) q) = snd (rstep (fst (rrun (c1', o') l')) q).
Proof.
  intros H0 H0' X NR B B'. destruct numbers as (nu & Hnu).
  destruct (made_least nu e md c1 t Hnu H0 X NR B) as (o & M & Ls & Ln & ms & segs & J & EM & A1 & A2 & R & D & S & Q).
  destruct (made_least nu e md' c1' t' Hnu H0' X NR B') as (o' & M' & Ls' & Ln' & ms' & segs' & J' & EM' & A1' & A2' & R' & D' & S' & Q').
  rewrite EM in EM'. injection EM' as <-.
  assert (Hinj : forall a b, map nu a = map nu b -> a = b).
  { induction a as [|x a IH]; intros [|y b] E; try discriminate; [reflexivity|]. injection E as E1 E2. f_equal; [now apply Hnu|auto]. }
  assert (Ls = Ls') by (apply Hinj; congruence). subst Ls'. assert (Ln = Ln') by (apply Hinj; congruence). subst Ln'.
  assert (ms = ms').
  { unfold reads_as in R, R'. eapply (spelled_unique (map nu Ls) (map nu Ln)); eauto; rewrite ?A1, ?A2; apply firsts_nodup. }
  subst ms'. exists o, o'. split; [exact J|]. split; [exact J'|]. intros l l' q Hl Hl' Hq.
  destruct (Q l Hl) as (Q1 & Q2 & Q3 & Q4 & Q5). destruct (Q' l' Hl') as (Q1' & Q2' & Q3' & Q4' & Q5').
  destruct Hq as [->|[f ->]]; [congruence|]. destruct f; congruence.
Qed.
Theorem end_same c0 c0' e md md' c1 c1' t t' : reached_cache c0 -> reached_cache c0' -> exact_expr e -> (forall v, e <> XRaw v) ->
  build c0 e = (c1, t) -> build c0' e = (c1', t') ->
  exists o o', js_source_and_map true md t = Some (ResMap o) /\ js_source_and_map true md' t' = Some (ResMap o') /\
    forall l l' q, Forall quiet l -> Forall quiet l' -> (q = RSource \/ exists f, q = RGet f) ->
      snd (rstep (fst (rrun (c1, o) l)) q) = snd (rstep (fst (rrun (c1', o') l')) q).
Proof.
  intros H0 H0' X NR B B'.
  apply (made_same e md md' c1 c1' t t' (reached_build e c0 c1 t H0 B) (reached_build e c0' c1' t' H0' B') X NR).
  - exact (proj2 (proj2 (build_made e c0 c1 t (reached_ok _ H0) B))).
  - exact (proj2 (proj2 (build_made e c0' c1' t' (reached_ok _ H0') B'))).
Qed.
