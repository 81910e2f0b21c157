(** Reading a source map (from_source_map), and the tables of a generator. *)
From Verif Require Import Base Tactics ModelString StringFacts ModelVlq ModelSm SpecMap
  SortFacts VlqFacts MapFacts ParseFacts GenFacts.
From Verif Require Export SpecLoad.

(** * First occurrences *)
Lemma firsts_in l x : In x (firsts l) <-> In x l.
Proof.
  induction l as [|y l IH]; simpl; [tauto|]. rewrite filter_In, IH.
  destruct (Z.eqb_spec x y); simpl; intuition congruence.
Qed.
Lemma firsts_nodup l : NoDup (firsts l).
Proof.
  induction l as [|y l IH]; simpl; constructor.
  - rewrite filter_In, Z.eqb_refl. simpl. intuition discriminate.
  - now apply NoDup_filter.
Qed.
Lemma firsts_id l : NoDup l -> firsts l = l.
Proof.
  induction 1 as [|x l Hx Hn IH]; [reflexivity|]. simpl. rewrite IH. f_equal.
  rewrite <- (map_id l) at 2. clear IH Hn. induction l as [|y l IH]; [reflexivity|]. simpl.
  destruct (Z.eqb_spec y x); [subst; exfalso; apply Hx; now left|]. simpl. f_equal.
  apply IH. intro; apply Hx; now right.
Qed.
Lemma firsts_snoc l x : firsts (l ++ [x]) = if existsb (Z.eqb x) l then firsts l else firsts l ++ [x].
Proof.
  induction l as [|y l IH]; [reflexivity|]. simpl. rewrite IH.
  destruct (Z.eqb_spec x y) as [->|Hxy]; simpl.
  - destruct (existsb (Z.eqb y) l); auto. rewrite filter_app. simpl. rewrite Z.eqb_refl. simpl.
    now rewrite app_nil_r.
  - destruct (existsb (Z.eqb x) l); auto. rewrite filter_app. simpl.
    destruct (Z.eqb_spec x y); [congruence|]. reflexivity.
Qed.
Lemma existsb_firsts x l : existsb (Z.eqb x) (firsts l) = existsb (Z.eqb x) l.
Proof.
  apply eq_true_iff_eq. rewrite !existsb_exists. setoid_rewrite firsts_in. reflexivity.
Qed.

Lemma add_firsts (t : list (Z * nat)) u k : map fst t = firsts u ->
  map fst (al_or_insert t k (length t)) = firsts (u ++ [k]).
Proof.
  intro H. rewrite al_or_insert_fst, H, existsb_firsts, firsts_snoc. reflexivity.
Qed.

Lemma grun_tables h : forall g g' us un,
  Forall plain h ->
  map fst (g_sources g) = firsts us -> map fst (g_names g) = firsts un ->
  grun g h = Some g' ->
  map fst (g_sources g') = firsts (us ++ srcs (added h)) /\
  map fst (g_names g') = firsts (un ++ nams (added h)).
Proof.
  induction h as [|o h IH]; intros g g' us un P Hs Hn E; cbn [grun] in E.
  - injection E as <-. cbn. now rewrite !app_nil_r.
  - unbind E. inv P.
    assert (Ho : map fst (g_sources v) = firsts (us ++ srcs (added [o])) /\
                 map fst (g_names v) = firsts (un ++ nams (added [o]))).
    { clear E H2 IH. destruct o as [m|ln c| |s c|inner f]; cbn [gstep] in E0; [..|destruct H1].
      - unfold gen_add_mapping in E0. destruct (g_skip g || validate_mapping m); [|discriminate].
        injection E0 as <-. cbn. rewrite !app_nil_r.
        destruct (m_src m), (m_name m); cbn; rewrite ?app_nil_r; auto using add_firsts.
      - unbind E0. destruct v0. injection E0 as <-. cbn. rewrite !app_nil_r.
        unfold original_position_for in E.
        repeat (case_match_in E; try discriminate); try (unbind E; case_match_in E);
          injection E as <- <-; auto.
      - unbind E0. destruct v0. injection E0 as <-. cbn. rewrite !app_nil_r.
        unfold gen_to_source_map, serialize_mappings in E. cbv zeta in E. unbinds.
        repeat match goal with H : Some _ = Some _ |- _ => inversion H; clear H end; subst. auto.
      - injection E0 as <-. cbn. rewrite !app_nil_r. destruct c; auto. }
    destruct Ho as [Ho1 Ho2].
    destruct (IH _ _ _ _ H2 Ho1 Ho2 E) as [A B]. rewrite A, B.
    unfold srcs, nams, added. cbn [flat_map]. rewrite app_nil_r, !flat_map_app, !app_assoc. auto.
Qed.

(** * Resolving *)
Definition unview (e : place * option target) : mapping :=
  let '((l, c), t) := e in
  match t with
  | None => mk_mapping (Z.to_N l, Z.to_N c) None None None
  | Some (s, (ol, oc), n) => mk_mapping (Z.to_N l, Z.to_N c) (Some s) n (Some (Z.to_N ol, Z.to_N oc))
  end.
Lemma unview_view m : valid m -> unview (view m) = m.
Proof.
  intro H. apply valid_cases in H as [_ H]. destruct m as [[gl gc] src name orig].
  unfold view, unview. cbn [m_gen m_src m_name m_orig fst snd] in *.
  destruct H as [(-> & -> & ->)|(s & ol & oc & -> & -> & _)]; rewrite !N2Z.id; reflexivity.
Qed.
Lemma perm_view l1 l2 : Forall valid l1 -> Forall valid l2 ->
  Permutation (map view l1) (map view l2) -> Permutation l1 l2.
Proof.
  intros H1 H2 P. apply (Permutation_map unview) in P. rewrite !map_map in P.
  rewrite (map_ext_in (fun x => unview (view x)) (fun x => x) l1) in P
    by (intros m Hm; apply unview_view; rewrite Forall_forall in H1; auto).
  rewrite (map_ext_in (fun x => unview (view x)) (fun x => x) l2) in P
    by (intros m Hm; apply unview_view; rewrite Forall_forall in H2; auto).
  now rewrite !map_id in P.
Qed.

(** Segments as the crate delivers them: non-negative lines. *)
Lemma entry_to_nat l z : (0 <= z)%Z -> nth_error l (N.to_nat (Z.to_N z)) = entry l z.
Proof.
  intro H. unfold entry. destruct (Z.ltb_spec z 0); [lia|]. f_equal. lia.
Qed.

Definition load_one (sources names : list Z) (rm : raw_mapping) : option mapping :=
  let gen := ((rm_line rm + 1)%N, rm_col rm) in
  match rm_orig rm with
  | Some (si, ol, oc, no) =>
      let* name :=
        (match no with
         | Some ni => let* n := nth_error names (N.to_nat ni) in Some (Some n)
         | None => Some None
         end) in
      let* s := nth_error sources (N.to_nat si) in
      Some (mk_mapping gen (Some s) name (Some ((ol + 1)%N, oc)))
  | None => Some (mk_mapping gen None None None)
  end.
Lemma load_mappings_cons g sources names rm r :
  load_mappings g sources names (rm :: r) =
  (let* m := load_one sources names rm in
   let* g := gen_add_mapping g m in load_mappings g sources names r).
Proof. reflexivity. Qed.

Lemma load_one_valid sources names rm m : load_one sources names rm = Some m -> valid m.
Proof.
  unfold load_one. destruct (rm_orig rm) as [[[[si ol] oc] no]|].
  - intro H. unbind H. unbind H. injection H as <-. unfold valid, validate_mapping. cbn.
    destruct (N.ltb_spec 0 (ol + 1)), (N.ltb_spec 0 (rm_line rm + 1)); try lia; reflexivity.
  - intros [= <-]. unfold valid, validate_mapping. cbn.
    destruct (N.ltb_spec 0 (rm_line rm + 1)); try lia; reflexivity.
Qed.

Lemma load_one_resolve sources names s e :
  small s -> (0 <= sg_line s)%Z -> resolve sources names s = Some e ->
  exists m, load_one sources names (raw_of s) = Some m /\ view m = e.
Proof.
  intros (Hc & Ho) Hl H. unfold resolve in H. unfold load_one, raw_of. cbn [rm_line rm_col rm_orig].
  destruct (sg_orig s) as [[[[a b] c] n]|].
  - destruct Ho as (Ua & Ub & Uc & Un). unbind H. unbind H. injection H as <-.
    rewrite entry_to_nat, E by apply Ua.
    destruct n as [n|]; cbn [option_map].
    + unbind E0. injection E0 as <-. rewrite entry_to_nat, E1 by apply Un. cbn [bind].
      eexists. split; [reflexivity|]. unfold view. cbn. destruct Ua, Ub, Uc, Hc. 
      repeat f_equal; lia.
    + injection E0 as <-. cbn [bind].
      eexists. split; [reflexivity|]. unfold view. cbn. destruct Ua, Ub, Uc, Hc.
      repeat f_equal; lia.
  - injection H as <-. eexists. split; [reflexivity|]. unfold view. cbn. destruct Hc.
    repeat f_equal; lia.
Qed.

Lemma decode_lines_line l : forall line st segs, decode_lines line st l = Some segs ->
  Forall (fun s => (line <= sg_line s)%Z) segs.
Proof.
  assert (Hseg : forall line st x st' a, decode_seg line st x = Some (st', a) ->
            Forall (fun s => sg_line s = line) a).
  { intros line st x st' a H. unfold decode_seg in H. unbind H.
    destruct v as [|? [|? [|? [|? [|? [|? ?]]]]]]; inversion H; subst; repeat constructor. }
  assert (Hline : forall x line st st' a, decode_line line st x = Some (st', a) ->
            Forall (fun s => sg_line s = line) a).
  { induction x as [|y x IH]; intros line st st' a H; cbn in H; [inversion H; constructor|].
    unbind H. destruct v as [s1 a1]. unbind H. destruct v as [s2 a2]. injection H as _ <-.
    apply Forall_app. eauto. }
  induction l as [|x l IH]; intros line st segs H; cbn in H; [inversion H; constructor|].
  unbind H. destruct v as [s1 a1]. unbind H. injection H as <-. apply Forall_app. split.
  - eapply Forall_impl; [|eapply Hline; eauto]. cbn. intros; lia.
  - eapply Forall_impl; [|eapply IH; eauto]. cbn. intros; lia.
Qed.

Lemma all_some_perm {A B} (f : A -> option B) l l' r :
  Permutation l l' -> all_some (map f l) = Some r ->
  exists r', all_some (map f l') = Some r' /\ Permutation r r'.
Proof.
  intro P. revert r. induction P as [|x l l' P IH|x y l|l l' l'' P1 IH1 P2 IH2]; intros r H.
  - exists []. inversion H; subst; auto.
  - cbn [map all_some] in *. unbind H. unbind H. injection H as <-. rewrite E. cbn [bind].
    destruct (IH _ E0) as (r' & -> & P'). cbn. eauto.
  - cbn [map all_some] in *. unbind H. unbind H. unbind E0. unbind E0. injection E0 as <-. injection H as <-.
    rewrite E1, E, E2. cbn. eexists; split; [reflexivity|]. constructor.
  - destruct (IH1 _ H) as (r1 & H1 & P1'). destruct (IH2 _ H1) as (r2 & H2 & P2').
    exists r2. split; auto. now transitivity r1.
Qed.

Lemma all_some_rel {A B} (f : A -> option B) l r : all_some (map f l) = Some r ->
  Forall2 (fun x y => f x = Some y) l r.
Proof.
  revert r; induction l as [|x l IH]; intros r H; cbn [map all_some] in H.
  - injection H as <-. constructor.
  - unbind H. unbind H. injection H as <-. constructor; auto.
Qed.

Lemma load_mappings_spec sources names l : forall g ms,
  gen_wf1 g -> g_skip g = true ->
  all_some (map (load_one sources names) l) = Some ms ->
  exists g', load_mappings g sources names l = Some g' /\ grun g (map OAdd ms) = Some g' /\
    gen_wf1 g' /\ ml_list (g_mappings g') = ml_list (g_mappings g) ++ ms /\
    g_contents g' = g_contents g /\ g_file g' = g_file g /\ g_root g' = g_root g.
Proof.
  induction l as [|rm l IH]; intros g ms W Hskip H; cbn [map all_some] in H.
  - injection H as <-. exists g. cbn. rewrite app_nil_r. auto 10.
  - unbind H. unbind H. injection H as <-. rewrite load_mappings_cons, E. cbn [bind].
    pose proof (load_one_valid _ _ _ _ E) as V.
    assert (Ea : exists g1, gen_add_mapping g v = Some g1).
    { rewrite gen_add_mapping_eq by auto. eauto. }
    destruct Ea as [g1 Ea]. rewrite Ea. cbn [bind map grun gstep]. rewrite Ea. cbn [bind].
    destruct (gen_add_wf1 g v g1 W V Ea) as (W1 & L1 & C1 & S1 & F1 & R1).
    destruct (IH g1 v0 W1) as (g' & A1 & A2 & A3 & A4 & A5 & A6 & A7); auto; [congruence|].
    exists g'. repeat split; auto; try apply A3; try congruence.
    rewrite A4, L1, <- app_assoc. reflexivity.
Qed.

(** * Loading the sources and their contents *)
Lemma al_get_or_insert {A} (t : list (Z * A)) k v x :
  al_get (al_or_insert t k v) x =
  match al_get t x with Some y => Some y | None => if (x =? k)%Z then Some v else None end.
Proof.
  unfold al_or_insert. destruct (al_get t k) eqn:E.
  - destruct (al_get t x) eqn:E'; auto. destruct (Z.eqb_spec x k); auto. congruence.
  - clear E. induction t as [|[k' v'] t IH]; simpl; auto. destruct (Z.eqb_spec x k'); auto.
Qed.
Lemma al_get_remove {A} (t : list (Z * A)) k x : x <> k ->
  al_get (al_remove t k) x = al_get t x.
Proof.
  intro H. induction t as [|[k' v'] t IH]; simpl; auto. destruct (Z.eqb_spec k k').
  - subst. destruct (Z.eqb_spec x k'); [congruence|reflexivity].
  - simpl. now rewrite IH.
Qed.
Lemma al_get_remove_none {A} (t : list (Z * A)) k x : al_get t x = None -> al_get (al_remove t k) x = None.
Proof.
  induction t as [|[k' v'] t IH]; simpl; auto. destruct (Z.eqb_spec x k'); [discriminate|].
  intro H. destruct (Z.eqb_spec k k'); auto. simpl. destruct (Z.eqb_spec x k'); [congruence|auto].
Qed.

Lemma load_sources_spec check sources : forall g contents,
  gen_wf1 g -> (forall us, map fst (g_sources g) = firsts us ->
  let g' := load_sources check g sources contents in
  gen_wf1 g' /\ ml_list (g_mappings g') = ml_list (g_mappings g) /\
  g_skip g' = g_skip g /\ g_file g' = g_file g /\ g_root g' = g_root g /\ g_names g' = g_names g /\
  map fst (g_sources g') = firsts (us ++ if check then sources else [])).
Proof.
  induction sources as [|s r IH]; intros g contents W us U; cbn [load_sources].
  - replace (if check then [] else []) with (@nil Z) by (destruct check; reflexivity).
    rewrite app_nil_r. auto 10.
  - set (g1 := if check then gen_add_source g s else g).
    set (g2 := gen_set_source_content g1 s (hd_error contents)).
    assert (W2 : gen_wf1 g2).
    { apply content_wf. unfold g1. destruct check; auto. destruct W as ((A & B & C & D) & L).
      repeat split; auto; try apply B.
      - now apply tbl_ok_add.
      - now apply tbl_ok_add.
      - cbn. eapply Forall_impl; [|exact C]. intro x. apply mapping_ok_mono; cbn; auto.
        intros y Hy. apply al_or_insert_keys. auto. }
    assert (E2 : g_sources g2 = g_sources g1 /\ g_names g2 = g_names g /\ g_mappings g2 = g_mappings g /\
            g_skip g2 = g_skip g /\ g_file g2 = g_file g /\ g_root g2 = g_root g).
    { unfold g2, g1. destruct check, (hd_error contents); repeat split; reflexivity. }
    destruct E2 as (Es & En & Em & Ek & Ef & Er).
    destruct (IH g2 (tl contents) W2 (us ++ if check then [s] else [])) as (A & B & C & D & F & G & H).
    { rewrite Es. unfold g1. destruct check; [|now rewrite app_nil_r]. cbn. now apply add_firsts. }
    cbn zeta in *. split; [exact A|].
    rewrite B, C, D, F, G, H, Em, Ek, Ef, Er, En. repeat split; auto.
    destruct check; rewrite <- ?app_assoc; auto.
Qed.

Lemma load_contents check sources : forall g contents x i,
  NoDup sources -> nth_error sources i = Some x ->
  (forall y, In y sources -> al_get (g_contents g) y = None) ->
  al_get (g_contents (load_sources check g sources contents)) x = nth_error contents i.
Proof.
  assert (Hkeep : forall ss g contents x, ~ In x ss ->
     al_get (g_contents (load_sources check g ss contents)) x = al_get (g_contents g) x).
  { induction ss as [|s r IH]; intros g contents x Hx; cbn [load_sources]; auto.
    rewrite IH by (intro; apply Hx; now right).
    assert (Hne : x <> s) by (intro; apply Hx; subst; now left).
    destruct check, (hd_error contents); cbn; rewrite ?al_get_or_insert, ?al_get_remove by auto;
      try (destruct (al_get (g_contents g) x); auto; destruct (Z.eqb_spec x s); congruence); auto. }
  induction sources as [|s r IH]; intros g contents x i Hn Hi Hc; [destruct i; discriminate|].
  inv Hn. cbn [load_sources]. destruct i as [|i]; cbn in Hi.
  - injection Hi as ->. rewrite Hkeep by auto.
    assert (H0 := Hc x (or_introl eq_refl)).
    destruct contents as [|c contents]; destruct check; cbn.
    + now apply al_get_remove_none.
    + now apply al_get_remove_none.
    + rewrite al_get_or_insert, H0, Z.eqb_refl. reflexivity.
    + rewrite al_get_or_insert, H0, Z.eqb_refl. reflexivity.
  - replace (nth_error contents (S i)) with (nth_error (tl contents) i)
      by (destruct contents; [destruct i|]; reflexivity).
    apply IH; auto. intros y Hy.
    assert (Hne : y <> s) by (intros ->; auto).
    specialize (Hc y (or_intror Hy)).
    destruct check, (hd_error contents); cbn; rewrite ?al_get_or_insert, ?al_get_remove by auto; rewrite Hc;
      try (destruct (Z.eqb_spec y s)); congruence.
Qed.

Lemma dedup_id seen l : NoDup l -> (forall x, In x seen -> ~ In x l) -> dedup seen l = l.
Proof.
  revert seen; induction l as [|x l IH]; intros seen Hn Hs; [reflexivity|]. cbn [dedup]. inv Hn.
  destruct (existsb (Z.eqb x) seen) eqn:E.
  - apply existsb_exists in E as (y & Hy & Ey). apply Z.eqb_eq in Ey. subst. exfalso.
    apply (Hs y Hy). now left.
  - f_equal. apply IH; auto. intros y [<-|Hy]; auto. intro. apply (Hs y Hy). now right.
Qed.

Theorem from_source_map_spec sources contents mappings names file root check segs es :
  (check = true -> NoDup sources /\ NoDup names) ->
  decode mappings = Some segs -> Forall small segs ->
  all_some (map (resolve sources names) segs) = Some es ->
  exists g, from_source_map sources contents mappings names file root check = Some g /\
    gen_wf1 g /\ Permutation (map view (ml_list (g_mappings g))) es /\
    Forall valid (ml_list (g_mappings g)) /\
    g_file g = file /\ g_root g = root /\
    map fst (g_sources g) = firsts ((if check then sources else []) ++ srcs (ml_list (g_mappings g))) /\
    map fst (g_names g) = firsts (nams (ml_list (g_mappings g))) /\
    (NoDup sources -> forall i s, nth_error sources i = Some s ->
       al_get (g_contents g) s = nth_error contents i).
Proof.
  intros Hn Hd Hs Hr. unfold from_source_map.
  assert (E1 : (if check then dedup [] sources else sources) = sources).
  { destruct check; auto. apply dedup_id; [now apply Hn|intros x []]. }
  assert (E2 : (if check then dedup [] names else names) = names).
  { destruct check; auto. apply dedup_id; [now apply Hn|intros x []]. }
  rewrite E1, E2. rewrite (parse_mappings_decode _ _ Hd Hs). cbn [bind].
  destruct (load_sources_spec check sources (gen_new file root true) contents (gen_new_wf1 _ _ _) [] eq_refl)
    as (W & L & K & F & R & N & S). cbn zeta in *.
  set (g0 := load_sources check (gen_new file root true) sources contents) in *.
  assert (Hl : exists ms, all_some (map (load_one sources names) (map raw_of segs)) = Some ms /\
                          map view ms = es).
  { unfold decode in Hd. apply decode_lines_line in Hd.
    clear -Hr Hs Hd. revert es Hr. induction segs as [|s segs IH]; intros es Hr; cbn [map all_some] in Hr.
    - injection Hr as <-. exists []. auto.
    - unbind Hr. unbind Hr. injection Hr as <-. inv Hs. inv Hd.
      destruct (IH H4 H2 _ E0) as (ms & Em & Ev).
      destruct (load_one_resolve sources names s v H1 H3 E) as (m & El & Evm).
      exists (m :: ms). cbn [map all_some]. rewrite El. cbn [bind]. rewrite Em. cbn. split; auto. congruence. }
  destruct Hl as (ms & Em & Ev).
  destruct (all_some_perm _ _ _ _ (isort_perm raw_cmp (map raw_of segs)) Em) as (ms' & Em' & Pm).
  destruct (load_mappings_spec sources names _ g0 ms' W K Em') as (g' & G1 & G2 & G3 & G4 & G5 & G6 & G7).
  assert (L0 : ml_list (g_mappings g0) = []) by (rewrite L; reflexivity).
  rewrite L0 in G4. cbn [app] in G4.
  exists g'. split; [exact G1|]. split; [exact G3|]. split.
  { rewrite G4, <- Ev. apply Permutation_map. now symmetry. }
  assert (V : Forall valid (ml_list (g_mappings g'))).
  { destruct G3 as ((_ & _ & V & _) & _). eapply Forall_impl; [|exact V]. intros x Hx. apply Hx. }
  split; [exact V|]. split; [rewrite G6, F; reflexivity|]. split; [rewrite G7, R; reflexivity|].
  destruct (grun_tables (map OAdd ms') g0 g' (if check then sources else []) []) as [T1 T2]; auto.
  { rewrite Forall_map. apply Forall_forall. intros; exact I. }
  { rewrite N. reflexivity. }
  assert (Eadd : added (map OAdd ms') = ms').
  { clear. unfold added. induction ms'; simpl; congruence. }
  rewrite Eadd in T1, T2. rewrite G4. split; [exact T1|]. split; [exact T2|].
  intros Hnd i s Hi. rewrite G5. unfold g0. apply load_contents; auto.
Qed.

(** * sourcesContent *)
Lemma collect_contents_spec sources contents :
  (forall s, In s sources -> exists c, al_get contents s = Some c) ->
  map (al_get contents) sources = map Some (collect_contents sources contents).
Proof.
  induction sources as [|s r IH]; intro H; [reflexivity|]. cbn [map collect_contents].
  destruct (H s (or_introl eq_refl)) as [c ->]. cbn [map]. f_equal. apply IH.
  intros; apply H; now right.
Qed.

(** * Round trip *)

Lemma entry_bound l i x : entry l i = Some x -> (0 <= i < Z.of_nat (length l))%Z.
Proof.
  unfold entry. destruct (Z.ltb_spec i 0); [discriminate|]. intro H'.
  assert (nth_error l (Z.to_nat i) <> None) by congruence. apply nth_error_Some in H0. lia.
Qed.

Lemma resolve_small sources names s m :
  resolve sources names s = Some (view m) -> valid m -> fits m ->
  (Z.of_nat (length sources) <= u32_max)%Z -> (Z.of_nat (length names) <= u32_max)%Z -> small s.
Proof.
  intros H V (F1 & F2) Ls Ln. unfold resolve in H. unfold small.
  apply valid_cases in V as [_ V]. destruct m as [[gl gc] src name orig].
  cbn [m_gen m_src m_name m_orig fst snd] in *.
  destruct (sg_orig s) as [[[[a b] c] n]|].
  - unbind H. unbind H. apply entry_bound in E.
    destruct V as [(-> & -> & ->)|(sr & ol & oc & -> & -> & Hp)]; [discriminate|].
    unfold view in H. cbn [m_gen m_src m_name m_orig fst snd] in H. inversion H; subst.
    unfold u32. repeat split; try lia.
    destruct n as [n|]; auto. unbind E0. apply entry_bound in E1. lia.
  - destruct V as [(-> & -> & ->)|(sr & ol & oc & -> & -> & Hp)].
    + inversion H. unfold u32. split; auto. lia.
    + unfold view in H. cbn in H. discriminate.
Qed.

Theorem roundtrip_spec g check :
  gen_wf g -> gen_fits g ->
  exists g1 m g2,
    gen_to_source_map g = Some (g1, m) /\
    from_source_map (map_sources m) (map_contents m) (map_mappings m) (map_names m)
      (map_file m) (map_root m) check = Some g2 /\
    gen_wf1 g2 /\
    Permutation (ml_list (g_mappings g2)) (ml_list (g_mappings g)) /\
    g_file g2 = g_file g /\ g_root g2 = g_root g /\
    (check = true -> map fst (g_sources g2) = map fst (g_sources g)) /\
    ((forall s, In s (map fst (g_sources g)) -> exists c, al_get (g_contents g) s = Some c) ->
     forall s, In s (map fst (g_sources g)) -> al_get (g_contents g2) s = al_get (g_contents g) s).
Proof.
  intros W (Ff & Fs & Fn).
  destruct (to_source_map_spec g W) as (g1 & m & E & Eg1 & Es & En & Ec & Ef & Er & Hread).
  unfold read_map in Hread. unbind Hread. rename v into segs.
  set (l := isort mapping_cmp (ml_list (g_mappings g))) in *.
  assert (Pl : Permutation (ml_list (g_mappings g)) l) by apply isort_perm.
  destruct W as (W1 & W2 & W3 & W4).
  assert (V : Forall valid (ml_list (g_mappings g))).
  { eapply Forall_impl; [|exact W3]. intros x Hx; apply Hx. }
  assert (Hsm : Forall small segs).
  { assert (Vl : Forall valid l) by (eapply Permutation_Forall; eauto).
    assert (Fl : Forall fits l) by (eapply Permutation_Forall; eauto).
    apply all_some_rel in Hread.
    assert (Ls : (Z.of_nat (length (map_sources m)) <= u32_max)%Z) by (rewrite Es, map_length; auto).
    assert (Ln : (Z.of_nat (length (map_names m)) <= u32_max)%Z) by (rewrite En, map_length; auto).
    clearbody l. clear -Hread Vl Fl Ls Ln. remember (map view l) as es eqn:Ees.
    revert l Vl Fl Ees. induction Hread as [|s e segs es H _ IH]; intros l Vl Fl Ees; constructor.
    - destruct l as [|x l]; [discriminate|]. injection Ees as -> ->. inv Vl. inv Fl.
      eapply resolve_small; eauto.
    - destruct l as [|x l]; [discriminate|]. injection Ees as -> ->. inv Vl. inv Fl. apply (IH l); auto. }
  destruct W1 as [Nd1 Nd1']. destruct W2 as [Nd2 Nd2'].
  destruct (from_source_map_spec (map_sources m) (map_contents m) (map_mappings m) (map_names m)
              (map_file m) (map_root m) check segs (map view l))
    as (g2 & G1 & G2 & G3 & G4 & G5 & G6 & G7 & G8 & G9); auto.
  { intros _. rewrite Es, En. auto. }
  assert (P2 : Permutation (ml_list (g_mappings g2)) (ml_list (g_mappings g))).
  { apply perm_view; auto. rewrite G3. apply Permutation_map. now symmetry. }
  exists g1, m, g2. repeat split; auto; try congruence; try apply G2.
  - intros ->. rewrite G7, Es.
    assert (Hx : forall u v, (forall x, In x v -> In x u) -> firsts (u ++ v) = firsts u).
    { intros u v. revert u. induction v as [|x v IH]; intros u H; [now rewrite app_nil_r|].
      change (u ++ x :: v) with (u ++ [x] ++ v). rewrite app_assoc.
      rewrite IH.
      - rewrite firsts_snoc. replace (existsb (Z.eqb x) u) with true; auto. symmetry.
        apply existsb_exists. exists x. split; [apply H; now left|apply Z.eqb_refl].
      - intros y Hy. apply in_or_app. left. apply H. now right. }
    rewrite Hx; [now apply firsts_id|].
    intros x Hin. apply in_flat_map in Hin as (y & Hy & Hxy).
    assert (Hy' : In y (ml_list (g_mappings g))) by (eapply Permutation_in; eauto).
    rewrite Forall_forall in W3. destruct (W3 y Hy') as (_ & A & _).
    destruct (m_src y) eqn:Ey; [destruct Hxy as [<-|[]]|destruct Hxy]. now apply A.
  - intros Hall s Hs. apply In_nth_error in Hs as (i & Hi).
    rewrite (G9 ltac:(now rewrite Es) i s) by (now rewrite Es).
    rewrite Ec.
    pose proof (collect_contents_spec (map fst (g_sources g)) (g_contents g) Hall) as Hc.
    generalize dependent (map fst (g_sources g)). intros ss. intros.
    apply (f_equal (fun l => nth_error l i)) in Hc. rewrite !nth_error_map, Hi in Hc. cbn in Hc.
    destruct (nth_error (collect_contents _ _) i); cbn in Hc; congruence.
Qed.

(** * Tables after applying another generator *)
Lemma fold_source_firsts ss : forall g us, map fst (g_sources g) = firsts us ->
  map fst (g_sources (fold_left gen_add_source ss g)) = firsts (us ++ ss).
Proof.
  induction ss as [|s ss IH]; intros g us H; cbn [fold_left]; [now rewrite app_nil_r|].
  rewrite (IH _ (us ++ [s])), <- app_assoc; auto. cbn. now apply add_firsts.
Qed.
Lemma fold_name_firsts ss : forall g us, map fst (g_names g) = firsts us ->
  map fst (g_names (fold_left gen_add_name ss g)) = firsts (us ++ ss).
Proof.
  induction ss as [|s ss IH]; intros g us H; cbn [fold_left]; [now rewrite app_nil_r|].
  rewrite (IH _ (us ++ [s])), <- app_assoc; auto. cbn. now apply add_firsts.
Qed.
Lemma fold_source_names ss : forall g, g_names (fold_left gen_add_source ss g) = g_names g /\
  g_mappings (fold_left gen_add_source ss g) = g_mappings g.
Proof. induction ss as [|s ss IH]; intro g; cbn [fold_left]; auto. destruct (IH (gen_add_source g s)). auto. Qed.
Lemma fold_name_sources ss : forall g, g_sources (fold_left gen_add_name ss g) = g_sources g /\
  g_mappings (fold_left gen_add_name ss g) = g_mappings g.
Proof. induction ss as [|s ss IH]; intro g; cbn [fold_left]; auto. destruct (IH (gen_add_name g s)). auto. Qed.

Lemma apply_tables g inner file g' inner' :
  apply_source_map_generator g inner file = Some (g', inner') ->
  ml_list (g_mappings g') <> [] ->
  map fst (g_sources g') = firsts (srcs (ml_list (g_mappings g'))) /\
  map fst (g_names g') = firsts (nams (ml_list (g_mappings g'))).
Proof.
  intros H Hne. unfold apply_source_map_generator in H. unbind H.
  unbind H. destruct v0 as [in1 l].
  set (g0 := gen_set_mappings g (mk_ml l (ml_sorted (ml_set_unsorted (g_mappings g))) (ml_last (ml_set_unsorted (g_mappings g))))).
  set (g1 := match l with [] => g0 | _ => gen_set_sources g0 [] end).
  set (g2 := fold_left gen_add_source (srcs l) g1).
  set (g3 := fold_left gen_add_name (nams l) (gen_set_names g2 [])).
  set (g4 := fold_left (fun g '(s, c) => gen_set_source_content g s (Some c)) (g_contents in1) g3).
  assert (Eg : g' = g4) by (injection H as <- _; reflexivity). rewrite Eg in *. clear H Eg g'.
  destruct (fold_contents (g_contents in1) g3) as (K1 & K2 & K3). cbn zeta in *. fold g4 in K1, K2, K3.
  destruct (fold_name_sources (nams l) (gen_set_names g2 [])) as (N1 & N2). fold g3 in N1, N2.
  destruct (fold_source_names (srcs l) g1) as (S1 & S2). fold g2 in S1, S2.
  assert (Em : ml_list (g_mappings g4) = l).
  { rewrite K3, N2. cbn. rewrite S2. unfold g1. destruct l; reflexivity. }
  rewrite Em in *. rewrite K1, K2. split.
  - rewrite N1. cbn. unfold g2. rewrite (fold_source_firsts _ _ []); auto.
    unfold g1. destruct l; [congruence|reflexivity].
  - unfold g3. rewrite (fold_name_firsts _ _ []); auto.
Qed.

(** * Consumers' lookups *)
Lemma find_entry_max l line col :
  match find_entry l line col with
  | Some e => forall e' : place * option target, In e' l -> fst (fst e') = line ->
      (snd (fst e') <= col)%Z -> (snd (fst e') <= snd (fst e))%Z
  | None => forall e' : place * option target, In e' l -> fst (fst e') = line -> (col < snd (fst e'))%Z
  end.
Proof.
  unfold find_entry. rewrite <- fold_left_rev_right.
  assert (Hin : forall e, In e l <-> In e (rev l)) by (intro; apply in_rev).
  revert Hin. generalize (rev l) as r. intros r Hin.
  assert (G : match fold_right (fun y x => better line col x y) None r with
  | Some e => forall e' : place * option target, In e' r -> fst (fst e') = line ->
      (snd (fst e') <= col)%Z -> (snd (fst e') <= snd (fst e))%Z
  | None => forall e' : place * option target, In e' r -> fst (fst e') = line -> (col < snd (fst e'))%Z
  end).
  { clear Hin. induction r as [|x r IH]; cbn [fold_right]; [intros e' []|].
    destruct (fold_right _ None r) as [b|]; unfold better;
      destruct (Z.eqb_spec (fst (fst x)) line) as [E1|E1]; cbn [andb];
      try destruct (Z.leb_spec (snd (fst x)) col) as [E2|E2];
      try destruct (Z.leb_spec (snd (fst b)) (snd (fst x))) as [E3|E3];
      intros e' [<-|He] Hl; try intro Hc; try lia; try congruence; try (specialize (IH e' He Hl); lia). }
  destruct (fold_right _ None r); intros; apply G; auto; now apply Hin.
Qed.
