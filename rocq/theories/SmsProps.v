(** SourceMapSource: maps given as data, inner maps. *)
From Verif Require Import Base Tactics ModelString StringFacts ModelVlq ModelSm ModelSlm ModelSources
  SortFacts SpecText TextFacts SpecMap SpecAttr MapFacts ParseFacts GenFacts LoadFacts NodeFacts LeafFacts SmsNode.
From Verif Require Export SpecReadable.

(** ** Lookups in permuted and in mapped lists *)

Lemma lookup_perm es es' line col : Permutation es es' -> unambiguous es ->
  lookup es line col = lookup es' line col.
Proof.
  intros P U. unfold lookup.
  pose proof (find_entry_max es line col) as M. pose proof (find_entry_max es' line col) as M'.
  destruct (find_entry es line col) as [e|] eqn:E; destruct (find_entry es' line col) as [e'|] eqn:E'; auto.
  - apply find_entry_in in E as (I1 & L1 & C1), E' as (I2 & L2 & C2).
    assert (I2' : In e' es) by (eapply Permutation_in; [symmetry; exact P|exact I2]).
    assert (I1' : In e es') by (eapply Permutation_in; [exact P|exact I1]).
    pose proof (M e' I2' L2 C2). pose proof (M' e I1' L1 C1).
    assert (Hs : snd e = snd e').
    { apply U; auto. destruct e as [[a b] t], e' as [[a' b'] t']. cbn in *. f_equal; lia. }
    destruct e, e'. exact Hs.
  - apply find_entry_in in E as (I1 & L1 & C1).
    assert (I1' : In e es') by (eapply Permutation_in; [exact P|exact I1]).
    pose proof (M' e I1' L1). lia.
  - apply find_entry_in in E' as (I2 & L2 & C2).
    assert (I2' : In e' es) by (eapply Permutation_in; [symmetry; exact P|exact I2]).
    pose proof (M e' I2' L2). lia.
Qed.

Lemma annotate_ext l l' s : forall p, (forall a b, lookup l a b = lookup l' a b) ->
  annotate_from l p s = annotate_from l' p s.
Proof.
  induction s as [|c s IH]; intros p H; [reflexivity|]. cbn [annotate_from]. rewrite H. f_equal. now apply IH.
Qed.

Lemma find_entry_map F l line col :
  find_entry (map (fun e : place * option target => (fst e, F (snd e))) l) line col =
  match find_entry l line col with Some e => Some (fst e, F (snd e)) | None => None end.
Proof.
  unfold find_entry.
  assert (G : forall b, fold_left (better line col) (map (fun e : place * option target => (fst e, F (snd e))) l)
    (match b with Some e => Some (fst e, F (snd e)) | None => None end) =
    match fold_left (better line col) l b with Some e => Some (fst e, F (snd e)) | None => None end).
  { induction l as [|e l IH]; intro b; [reflexivity|]. cbn [map fold_left].
    rewrite <- IH. f_equal. unfold better. cbn [fst snd].
    destruct (_ && _); [|reflexivity]. destruct b as [b|]; [|reflexivity].
    cbn [fst]. destruct (_ <=? _)%Z; reflexivity. }
  exact (G None).
Qed.
Lemma lookup_map F l line col : F None = None ->
  lookup (map (fun e : place * option target => (fst e, F (snd e))) l) line col = F (lookup l line col).
Proof.
  intro H. unfold lookup. rewrite find_entry_map. destruct (find_entry l line col) as [[p t]|]; auto.
Qed.
Lemma annotate_map F l s : F None = None -> forall p,
  annotate_from (map (fun e : place * option target => (fst e, F (snd e))) l) p s =
  retarget F (annotate_from l p s).
Proof.
  intro H. induction s as [|c s IH]; intro p; [reflexivity|].
  cbn [annotate_from retarget map fst snd]. rewrite lookup_map by auto. f_equal. apply IH.
Qed.

(** ** Reading a map gives the mappings in the order of their places *)
Lemma good_raw_orig : good raw_orig_cmp.
Proof.
  pose (p1 := fun a : N * N * N * option N => fst (fst (fst a))).
  pose (p2 := fun a : N * N * N * option N => snd (fst (fst a))).
  pose (p3 := fun a : N * N * N * option N => snd (fst a)).
  pose (p4 := fun a : N * N * N * option N => snd a).
  assert (G : good (fun a b => cmp_then (N.compare (p1 a) (p1 b)) (cmp_then (N.compare (p2 a) (p2 b))
     (cmp_then (N.compare (p3 a) (p3 b)) (opt_cmp N.compare (p4 a) (p4 b)))))).
  { assert (G3 : good (fun a b : N * option N => cmp_then (N.compare (fst a) (fst b)) (opt_cmp N.compare (snd a) (snd b)))).
    { apply good_lex; [apply good_N|apply good_opt, good_N|]. intros [? ?] [? ?]; cbn; congruence. }
    assert (G2 : good (fun a b : N * (N * option N) => cmp_then (N.compare (fst a) (fst b))
        (cmp_then (N.compare (fst (snd a)) (fst (snd b))) (opt_cmp N.compare (snd (snd a)) (snd (snd b)))))).
    { apply (good_lex fst snd N.compare _ good_N G3). intros [? ?] [? ?]; cbn; congruence. }
    apply (good_lex p1 (fun a => (p2 a, (p3 a, p4 a))) N.compare _ good_N G2).
    intros [[[? ?] ?] ?] [[[? ?] ?] ?]; unfold p1, p2, p3, p4; cbn; congruence. }
  destruct G as [A B C D]. split.
  - intros [[[a b] c] d] [[[a' b'] c'] d']. exact (A (a, b, c, d) (a', b', c', d')).
  - intros [[[a b] c] d] [[[a' b'] c'] d']. exact (B (a, b, c, d) (a', b', c', d')).
  - intros [[[a b] c] d]. exact (C (a, b, c, d)).
  - intros [[[a b] c] d] [[[a' b'] c'] d'] [[[a2 b2] c2] d2].
    exact (D (a, b, c, d) (a', b', c', d') (a2, b2, c2, d2)).
Qed.
Lemma good_raw : good raw_cmp.
Proof.
  assert (G2 : good (fun a b : N * option (N * N * N * option N) =>
     cmp_then (N.compare (fst a) (fst b)) (opt_cmp raw_orig_cmp (snd a) (snd b)))).
  { apply good_lex; [apply good_N|apply good_opt, good_raw_orig|]. intros [? ?] [? ?]; cbn; congruence. }
  apply (good_lex rm_line (fun a => (rm_col a, rm_orig a)) N.compare _ good_N G2).
  intros [? ? ?] [? ? ?]; cbn; congruence.
Qed.

Lemma raw_cle_place a b : cle raw_cmp a b ->
  (rm_line a < rm_line b \/ (rm_line a = rm_line b /\ rm_col a <= rm_col b))%N.
Proof.
  unfold cle, raw_cmp, cmp_then. destruct (N.compare_spec (rm_line a) (rm_line b)); try lia; [|congruence].
  destruct (N.compare_spec (rm_col a) (rm_col b)); try lia. congruence.
Qed.

Lemma load_one_place sources names rm m : load_one sources names rm = Some m ->
  m_gen m = ((rm_line rm + 1)%N, rm_col rm).
Proof.
  unfold load_one. destruct (rm_orig rm) as [[[[si ol] oc] no]|]; intro H.
  - unbind H. unbind H. injection H as <-. reflexivity.
  - injection H as <-. reflexivity.
Qed.

Lemma load_all_sorted sources names l ms : StronglySorted (cle raw_cmp) l ->
  all_some (map (load_one sources names) l) = Some ms -> vsorted ms.
Proof.
  intro Hs. revert ms. induction Hs as [|x l Hs IH Hx]; intros ms H; cbn [map all_some] in H.
  - injection H as <-. constructor.
  - unbind H. unbind H. injection H as <-. constructor; [now apply IH|].
    apply all_some_rel in E0. clear IH Hs. apply load_one_place in E.
    induction E0 as [|y m l ms Hy Hr IH]; [constructor|]. inv Hx. constructor; [|now apply IH].
    apply load_one_place in Hy. apply raw_cle_place in H1.
    unfold ple, vplace, view. cbn [fst snd]. rewrite E, Hy. cbn [fst snd]. lia.
Qed.

Theorem from_source_map_sorted sources contents mappings names file root check segs es g :
  (check = true -> NoDup sources /\ NoDup names) ->
  decode mappings = Some segs -> Forall small segs ->
  all_some (map (resolve sources names) segs) = Some es ->
  from_source_map sources contents mappings names file root check = Some g ->
  vsorted (ml_list (g_mappings g)).
Proof.
  intros Hn Hd Hs Hr Hg. unfold from_source_map in Hg.
  assert (E1 : (if check then dedup [] sources else sources) = sources).
  { destruct check; auto. apply dedup_id; [now apply Hn|intros x []]. }
  assert (E2 : (if check then dedup [] names else names) = names).
  { destruct check; auto. apply dedup_id; [now apply Hn|intros x []]. }
  rewrite E1, E2 in Hg. rewrite (parse_mappings_decode _ _ Hd Hs) in Hg. cbn [bind] in Hg.
  destruct (load_sources_spec check sources (gen_new file root true) contents (gen_new_wf1 _ _ _) [] eq_refl)
    as (W & L & K & F & R & N & S). cbn zeta in *.
  set (g0 := load_sources check (gen_new file root true) sources contents) in *.
  assert (Hl : exists ms, all_some (map (load_one sources names) (map raw_of segs)) = Some ms).
  { unfold decode in Hd. apply decode_lines_line in Hd.
    clear -Hr Hs Hd. revert es Hr. induction segs as [|s segs IH]; intros es Hr; cbn [map all_some] in Hr.
    - exists []. auto.
    - unbind Hr. unbind Hr. injection Hr as <-. inv Hs. inv Hd.
      destruct (IH H4 H2 _ E0) as (ms & Em).
      destruct (load_one_resolve sources names s v H1 H3 E) as (m & El & Evm).
      exists (m :: ms). cbn [map all_some]. rewrite El. cbn [bind]. rewrite Em. reflexivity. }
  destruct Hl as (ms & Em).
  destruct (all_some_perm _ _ _ _ (isort_perm raw_cmp (map raw_of segs)) Em) as (ms' & Em' & Pm).
  destruct (load_mappings_spec sources names _ g0 ms' W K Em') as (g' & G1 & G2 & G3 & G4 & G5).
  rewrite G1 in Hg. injection Hg as <-. rewrite G4, L. cbn [app].
  eapply load_all_sorted; [|exact Em'].
  apply isort_sorted; [apply (good_sym _ good_raw)|apply (good_le _ good_raw)].
Qed.

(** ** Data *)

Lemma readable_gen d es : readable d es ->
  exists g, from_source_map (sc_sources d) (sc_contents d) (sc_mappings d) (sc_names d) None None true = Some g /\
    gen_wf1 g /\ Permutation (map view (ml_list (g_mappings g))) es /\
    vsorted (ml_list (g_mappings g)) /\ Forall valid (ml_list (g_mappings g)) /\
    Forall small_col (ml_list (g_mappings g)).
Proof.
  intros (N1 & N2 & R & (segs & Hd & Hs) & U & Hc).
  unfold read_map in R. rewrite Hd in R. cbn [bind] in R.
  destruct (from_source_map_spec (sc_sources d) (sc_contents d) (sc_mappings d) (sc_names d) None None true segs es)
    as (g & E & W & P & V & _); auto.
  exists g. split; [exact E|]. split; [exact W|]. split; [exact P|].
  split; [|split; [exact V|]].
  - eapply (from_source_map_sorted (sc_sources d) (sc_contents d) (sc_mappings d) (sc_names d) None None true segs es); eauto.
  - apply Forall_forall. intros m Hm. rewrite Forall_forall in Hc.
    assert (Hin : In (view m) es) by (eapply Permutation_in; [exact P|now apply in_map]).
    specialize (Hc _ Hin). unfold view in Hc. cbn [fst snd] in Hc. unfold small_col. lia.
Qed.

(** ** Applying an inner map *)
Definition entries_of (g : generator) : list (place * option target) :=
  map view (isort mapping_cmp (ml_list (g_mappings g))).

Lemma apply_loop_views : forall l inner file,
  gen_wf inner -> Forall valid l ->
  exists inner' l', apply_loop inner (Some file) l = Some (inner', l') /\
    map view l' = map (fun e => (fst e, through (Some file) (entries_of inner) (snd e))) (map view l) /\
    (inner' = inner \/ inner' = gen_set_mappings inner (ml_sort (g_mappings inner))).
Proof.
  induction l as [|m l IH]; intros inner file Hw Hv; cbn [apply_loop].
  - exists inner, []. auto.
  - inv Hv.
    assert (Hent : entries_of (gen_set_mappings inner (ml_sort (g_mappings inner))) = entries_of inner).
    { unfold entries_of. cbn [g_mappings gen_set_mappings]. destruct Hw as (_ & _ & _ & Hok).
      rewrite ml_sort_isort by auto. now rewrite isort_idem by eauto. }
    assert (Hstep : exists inner1 m1,
      (match m_orig m with
       | Some (line, column) =>
           if optZ_eqb (m_src m) (Some file) then
             let* (inner, o) := original_position_for inner line column in
             match m_src o with
             | Some _ =>
                 Some (inner,
                       mk_mapping (m_gen m) (m_src o)
                         (match m_name o with Some _ => m_name o | None => m_name m end)
                         (m_orig o))
             | None => Some (inner, m)
             end
           else Some (inner, m)
       | None => Some (inner, m)
       end) = Some (inner1, m1) /\
      view m1 = (fst (view m), through (Some file) (entries_of inner) (snd (view m))) /\
      (inner1 = inner \/ inner1 = gen_set_mappings inner (ml_sort (g_mappings inner)))).
    { destruct m as [gp src name orig]. cbn [m_orig m_src m_name m_gen]. rewrite view_mk.
      apply valid_cases in H1 as [Hg H1]. cbn [m_orig m_src m_name m_gen] in *.
      destruct orig as [[ol oc]|].
      2:{ eexists _, _. split; [reflexivity|]. rewrite view_mk. split; [|auto]. destruct src; reflexivity. }
      destruct src as [s|]; [|destruct H1 as [(_ & ? & _)|(? & ? & ? & ? & _)]; discriminate].
      cbn [optZ_eqb attr_of fst snd through].
      destruct (Z.eqb_spec s file) as [->|Hne].
      2:{ eexists _, _. split; [reflexivity|]. rewrite view_mk. split; auto. }
      destruct (original_position_entry inner ol oc) as [(o & Eo & Ho & Ef)|[Eo Ef]]; [apply Hw| |].
      - rewrite Eo. cbn [bind]. fold (entries_of inner) in Ef. unfold lookup. rewrite Ef.
        assert (Vo : valid o).
        { assert (Hin' : In o (ml_list (g_mappings inner))).
          { eapply Permutation_in; [symmetry; apply isort_perm|exact Ho]. }
          destruct Hw as (_ & _ & W3 & _). rewrite Forall_forall in W3. now apply W3. }
        destruct o as [gp' src' name' orig']. cbn [m_src m_name m_orig]. rewrite view_mk.
        apply valid_cases in Vo as [_ Vo]. cbn [m_src m_name m_orig] in Vo.
        destruct Vo as [(-> & -> & ->)|(s' & ol' & oc' & -> & -> & _)].
        + eexists _, _. split; [reflexivity|]. rewrite view_mk. cbn. auto.
        + eexists _, _. split; [reflexivity|]. rewrite view_mk. cbn. split; auto.
      - rewrite Eo. cbn [bind m_src empty_mapping]. fold (entries_of inner) in Ef. unfold lookup. rewrite Ef.
        eexists _, _. split; [reflexivity|]. rewrite view_mk. cbn. auto. }
    destruct Hstep as (inner1 & m1 & E1 & V1 & I1). rewrite E1. cbn [bind].
    assert (Hw1 : gen_wf inner1) by (destruct I1 as [->| ->]; [exact Hw|now apply gen_wf_sort]).
    destruct (IH inner1 file Hw1 H2) as (inner2 & l' & E2 & V2 & I2). rewrite E2. cbn [bind].
    exists inner2, (m1 :: l'). split; [reflexivity|]. split.
    + cbn [map]. rewrite V1, V2. do 2 f_equal. destruct I1 as [->| ->]; [reflexivity|]. now rewrite Hent.
    + destruct I1 as [->| ->]; [exact I2|]. right. destruct I2 as [->| ->]; [reflexivity|].
      cbn [g_mappings gen_set_mappings]. unfold gen_set_mappings. cbn. f_equal.
      unfold ml_sort at 1. destruct (ml_sorted (ml_sort (g_mappings inner))) eqn:Es; [reflexivity|].
      unfold ml_sort in Es. destruct (ml_sorted (g_mappings inner)) eqn:Es'; cbn in Es; congruence.
Qed.
