(** ReplaceSource::list_map: which lines the characters of the result are attributed to. *)
From Verif Require Import Base Tactics ModelString StringFacts ModelVlq ModelSm ModelSlm ModelSources ModelTree
  SpecText SpecMap SpecAttr SpecEdit SpecList SpecLineEdit SortFacts TextFacts EditFacts NodeFacts SlmFacts SlmMap SlmRead SlmReplace SlmWhole SlmProps SlmTree.
From Verif Require Export SpecSlmPieces.

(** ** Merging, for any texts *)
Definition spread (a : option target) (y : str) (m : marked) : Prop :=
  m = mark a y \/
  exists u v, y = u ++ NL :: v /\ ~ In NL u /\ ~ In NL v /\ m = mark a (u ++ [NL]) ++ mark (next_line a) v.

Lemma mark_lines_spread src line s : count_char NL s <= 1 ->
  spread (Some (src, (line, 0%Z), None)) s (mark_lines src line s).
Proof.
  intro Hc. destruct (in_dec N.eq_dec NL s) as [H|H]; [|left; now apply mark_lines_none].
  destruct (last_line s H) as (a & b & -> & Hb). rewrite count_app in Hc. cbn [count_char] in Hc.
  rewrite N.eqb_refl in Hc. assert (Ha : ~ In NL a) by (rewrite <- count_pos_in; lia).
  right. exists a, b. split; [reflexivity|]. split; [exact Ha|]. split; [exact Hb|].
  rewrite mark_lines_app, mark_lines_none by auto. replace (count_char NL a) with 0 by lia.
  cbn [mark_lines]. rewrite N.eqb_refl, mark_lines_none by auto. rewrite mark_app, <- app_assoc. cbn [next_line mark map app].
  rewrite !Z.add_0_r. reflexivity.
Qed.

Definition node_attr (n : slm_node) : option target :=
  match n with
  | LSingle p => Some (source_of p, (Z.of_N (pc_line p), 0%Z), None)
  | _ => None
  end.
Definition normal (n : slm_node) : Prop := match n with LCode _ | LSingle _ => True | _ => False end.

Lemma merge_spread a b x : node_ok a -> node_ok b -> normal b -> node_merge a b = Some x ->
  exists m, node_marks x = node_marks a ++ m /\ spread (node_attr b) (text_node b) m.
Proof.
  destruct a as [?|s|p|p|?|?], b as [?|t|q|q|?|?]; try contradiction; try discriminate; cbn [node_ok node_merge normal]; intros Ha Hb Hq H.
  - injection H as <-. cbn [node_marks]. exists (mark None t). split; [apply mark_app|]. left. reflexivity.
  - unfold source_merge_single in H. destruct (_ && _) eqn:E; [|discriminate]. injection H as <-.
    apply andb_true_iff in E as [E E4]. apply andb_true_iff in E as [E E3]. apply andb_true_iff in E as [E1 E2].
    apply optZ_eqb_eq in E1. apply N.eqb_eq in E3. apply Nat.leb_le in E4. destruct Ha as [P1 P2], Hb as [Q1 Q2].
    unfold node_marks, source_of, piece_append. cbn [pc_src pc_line pc_code]. rewrite mark_lines_app. eexists. split; [reflexivity|].
    cbn [node_attr text_node]. unfold source_of. rewrite <- E1, <- E3, <- P1.
    replace (Z.of_N (pc_line p) + Z.of_nat (pc_n p))%Z with (Z.of_N (pc_line p + N.of_nat (pc_n p))) by lia.
    apply mark_lines_spread. lia.
  - unfold single_merge_single in H. destruct (_ && _) eqn:E; [|discriminate].
    apply andb_true_iff in E as [E1 E2]. apply optZ_eqb_eq in E1.
    destruct (N.eqb_spec (pc_line p) (pc_line q)) as [El|El].
    + injection H as <-. unfold node_marks, source_of, piece_append. cbn [pc_src pc_line pc_code].
      rewrite mark_app. eexists. split; [reflexivity|]. left. cbn [node_attr text_node]. unfold source_of. now rewrite <- E1, <- El.
    + destruct (_ && _) eqn:E; [|discriminate]. injection H as <-.
      apply andb_true_iff in E as [E E6]. apply andb_true_iff in E as [E E5]. apply andb_true_iff in E as [E3 E4].
      apply N.eqb_eq in E3. apply Nat.eqb_eq in E5. apply Nat.leb_le in E6. destruct Ha as [P1 P2], Hb as [Q1 Q2].
      unfold node_marks, source_of, piece_new. cbn [pc_src pc_line pc_code]. rewrite mark_lines_app.
      assert (tidy (pc_code p)) by (intro; auto).
      rewrite (mark_lines_one _ _ (pc_code p)) by (auto; lia). eexists. split; [reflexivity|].
      cbn [node_attr text_node]. unfold source_of. rewrite <- E1, <- E3.
      replace (Z.of_N (pc_line p) + Z.of_nat (count_char NL (pc_code p)))%Z with (Z.of_N (pc_line p + 1)) by lia.
      apply mark_lines_spread. lia.
Qed.

Lemma push_spread acc n : Forall node_ok acc -> node_ok n -> normal n ->
  exists m, list_marks (rev (push_merge acc (Some n))) = list_marks (rev acc) ++ m /\ spread (node_attr n) (text_node n) m.
Proof.
  intros Ha Hn Hq.
  assert (Hself : spread (node_attr n) (text_node n) (node_marks n)) by (destruct n; try contradiction; left; reflexivity).
  destruct acc as [|last rest]; cbn [push_merge].
  - exists (node_marks n). cbn. rewrite app_nil_r. auto.
  - inversion Ha as [|? ? Hl Hr]; subst. unfold list_marks. destruct (node_merge last n) as [x|] eqn:E.
    + destruct (merge_spread _ _ _ Hl Hn Hq E) as (m & E1 & E2). exists m. split; [|exact E2]. cbn [rev].
      rewrite !flat_map_app. cbn. rewrite !app_nil_r, E1, <- !app_assoc. reflexivity.
    + exists (node_marks n). cbn [rev]. rewrite !flat_map_app. cbn. rewrite !app_nil_r. auto.
Qed.

Lemma map_loop_spread {S} (f : mapfun S) : forall l xs, Forall2 says l xs -> forall st acc st' outs acc', Forall node_ok acc ->
  run_fun f st (map snd xs) = Some (st', outs) -> map_loop f st l acc = Some (st', acc') ->
  exists ms, list_marks (rev acc') = list_marks (rev acc) ++ concat ms /\
    Forall2 (fun x m => spread (fst x) (snd x) m) (combine (map fst xs) outs) ms.
Proof.
  induction 1 as [|n [t s] l xs Hn _ IH]; intros st acc st' outs acc' Ha Hr Hl.
  - cbn in Hr, Hl. injection Hr as <- <-. injection Hl as <-. exists []. cbn. rewrite app_nil_r. split; [reflexivity|constructor].
  - cbn [map snd run_fun map_loop] in Hr, Hl.
    assert (G : forall n' y st1, node_ok n' -> normal n' -> node_attr n' = t -> text_node n' = y ->
      (let* (st0, ys) := run_fun f st1 (map snd xs) in Some (st0, y :: ys)) = Some (st', outs) ->
      map_loop f st1 l (push_merge acc (Some n')) = Some (st', acc') ->
      exists ms, list_marks (rev acc') = list_marks (rev acc) ++ concat ms /\
        Forall2 (fun x m => spread (fst x) (snd x) m) (combine (map fst ((t, s) :: xs)) outs) ms).
    { intros n' y st1 O1 O2 Et Ey Hr' Hl'. destruct (run_fun f st1 (map snd xs)) as [[st2 ys]|] eqn:Er; [|discriminate].
      cbn [bind] in Hr'. injection Hr' as <- <-. destruct (push_spread acc n' Ha O1 O2) as (m & M1 & M2).
      destruct (push_spec acc n' Ha O1) as (P1 & _).
      destruct (IH _ _ _ _ _ P1 Er Hl') as (ms & N1 & N2). exists (m :: ms). cbn [concat map combine fst].
      split; [rewrite N1, M1, <- app_assoc; reflexivity|]. constructor; [|exact N2]. cbn [fst snd]. now rewrite <- Et, <- Ey. }
    destruct n as [?|c|p|p|?|?]; try contradiction; cbn [node_map] in Hl.
    + injection Hn as -> ->. destruct (f st c) as [[st1 y]|] eqn:Ef; [|discriminate]. cbn [bind] in Hr, Hl.
      eapply G; try eassumption; try exact I; reflexivity.
    + destruct Hn as [Hp Hx]. injection Hx as -> ->. destruct (f st (pc_code p)) as [[st1 y]|] eqn:Ef; [|discriminate]. cbn [bind] in Hr, Hl.
      eapply G; try eassumption; try exact I; try reflexivity. apply counted_new.
Qed.

Lemma map_code_spread {S} (f : mapfun S) st m st' outs m' : Forall node_ok m ->
  run_fun f st (map snd (list_pieces m)) = Some (st', outs) -> map_generated_code f st m = Some (st', m') ->
  exists ms, list_marks m' = concat ms /\
    Forall2 (fun x m => spread (fst x) (snd x) m) (combine (map fst (list_pieces m)) outs) ms.
Proof.
  intros Hm Hr Hg. unfold map_generated_code in Hg. rewrite normalize_all_spec in Hg. cbn [bind] in Hg.
  destruct (map_loop f st (flat_map normal_node m) []) as [[st1 acc]|] eqn:E; [|discriminate]. cbn [bind] in Hg.
  injection Hg as -> <-.
  destruct (map_loop_spread f _ _ (normals_say m Hm) st [] st' outs acc (Forall_nil _) Hr E) as (ms & M1 & M2).
  exists ms. split; [exact M1|exact M2].
Qed.

(** ** The pass, with the origin of every character *)
Notation atom := (char * (nat + edit))%type.

Lemma nth_firstn {A} n : forall (l : list A) i, i < n -> nth_error (firstn n l) i = nth_error l i.
Proof. induction n as [|n IH]; intros [|x l] [|i] H; try lia; cbn; auto. apply IH. lia. Qed.
Lemma nth_skipn {A} n : forall (l : list A) i, nth_error (skipn n l) i = nth_error l (n + i).
Proof. induction n as [|n IH]; intros [|x l] i; cbn; auto. destruct i; reflexivity. Qed.

Section Trace.
Variable repls : list repl.
Variable E : repl -> edit.
Hypothesis HE : forall r, In r repls -> e_from (E r) = rp_start_pos r.

Definition fresh (r : repl) : list atom := map (fun c => (c, inr (E r))) (rp_text r).
Lemma fresh_text r : map fst (fresh r) = rp_text r.
Proof. unfold fresh. rewrite map_map. cbn. apply map_id. Qed.

Fixpoint gforth (s : list atom) (rs : list repl) (cur : nat) : list atom :=
  match rs with
  | [] => skipn cur s
  | r :: rs =>
      let a := Nat.max cur (Z.to_nat (rp_start_pos r)) in
      let b := Nat.max a (Z.to_nat (rp_end_pos r)) in
      piece_of s cur a ++ fresh r ++ gforth s rs b
  end.

Notation asc := (asc repls).
Lemma asc_in k r : In r (asc k) -> In r repls.
Proof.
  unfold SlmReplace.asc. rewrite <- in_rev. intro H. rewrite <- (firstn_skipn k repls). apply in_or_app. now left.
Qed.

(** What the output for the piece [P .. Q) may contain. *)
Definition ranged (first : bool) (P Q : nat) (x : atom) : Prop :=
  match snd x with
  | inl i => P <= i < Q
  | inr e => (e_from e <= Z.of_nat Q /\ (first = true \/ Z.of_nat P < e_from e))%Z
  end.
Definition past (Q : Z) (rs : list repl) : Prop := Forall (fun r => Q < rp_start_pos r)%Z rs.
Definition places_ok (P : nat) (s : list atom) : Prop := 
  forall i x, nth_error s i = Some x -> snd x = inl (P + i).

Lemma places_ok_app P a b : places_ok P (a ++ b) <-> places_ok P a /\ places_ok (P + length a) b.
Proof.
  unfold places_ok. split.
  - intro H. split; intros i x Hx.
    + apply H. rewrite nth_error_app1; [exact Hx|]. apply nth_error_Some. now rewrite Hx.
    + rewrite <- Nat.add_assoc. apply H. rewrite nth_error_app2 by lia. rewrite <- Hx. f_equal. lia.
  - intros [H1 H2] i x Hx. destruct (Nat.lt_ge_cases i (length a)) as [L|L].
    + apply H1. now rewrite nth_error_app1 in Hx by auto.
    + rewrite nth_error_app2 in Hx by auto. rewrite (H2 _ _ Hx). f_equal. lia.
Qed.
Lemma places_ranged first P Q P' a : places_ok P' a -> P <= P' -> P' + length a <= Q -> Forall (ranged first P Q) a.
Proof.
  intros H H1 H2. apply Forall_forall. intros x Hx. apply In_nth_error in Hx as (i & Hi). unfold ranged.
  rewrite (H _ _ Hi). assert (i < length a) by (apply nth_error_Some; now rewrite Hi). lia.
Qed.

Hypothesis Hup : Forall upright repls.
Hypothesis Hord : StronglySorted (fun a b => ordered b a) repls.

Lemma asc_after k r : nth_error repls k = Some r -> Forall (fun x => rp_end_pos r <= rp_start_pos x)%Z (asc k) /\ upright r.
Proof.
  intro H. split; [|rewrite Forall_forall in Hup; apply Hup; eapply nth_error_In; eauto].
  unfold SlmReplace.asc. apply Forall_rev. clear Hup HE. revert k H Hord. induction repls as [|x l IH]; intros [|k] H Hs; try discriminate.
  - constructor.
  - cbn [firstn]. inversion Hs as [|? ? S1 S2]; subst. constructor; [|apply IH; auto].
    rewrite Forall_forall in S2. apply (S2 r). eapply nth_error_In; eauto.
Qed.

Definition behind (Q : nat) (rem : Z) (r : repl) : Prop :=
  (Z.of_nat Q < rp_start_pos r /\ Z.of_nat Q + rem <= rp_start_pos r)%Z.

Lemma fresh_ranged first P Q r : In r repls -> (rp_start_pos r <= Z.of_nat Q)%Z ->
  (first = true \/ Z.of_nat P < rp_start_pos r)%Z -> Forall (ranged first P Q) (fresh r).
Proof.
  intros Hi H1 H2. unfold fresh. rewrite Forall_map. apply Forall_forall. intros c _. unfold ranged. cbn [snd].
  rewrite HE by exact Hi. auto.
Qed.

Lemma rmap_trace first code w s P : forall k, k <= length repls ->
  forall a (R : list atom) current out, code = a ++ map fst R -> skipn (P + length a) s = R ++ w ->
  places_ok (P + length a) R ->
  at_pos k current (P + length a) -> reached repls k (P + length a) -> (first = true \/ past (Z.of_nat P) (asc k)) ->
  exists st out' sb tail o,
    rmap_loop repls code k (mk_citer (map fst R) (blen a) (blen a)) current out (blen a) = Some (st, out', sb) /\
    str_range code sb (blen code) = Some tail /\ out' ++ tail = out ++ map fst o /\
    gforth s (asc k) (P + length a) = o ++ gforth s (asc (rm_k st)) (P + length code + Z.to_nat (rm_remove st)) /\
    (0 <= rm_remove st)%Z /\ rm_k st <= k /\ at_pos (rm_k st) (rm_current st) (P + length code) /\
    Forall (ranged first P (P + length code)) o /\
    Forall (behind (P + length code) (rm_remove st)) (asc (rm_k st)).
Proof.
  induction k as [|k IH]; intros Hk a R current out Hc Hs Hpl Hp Hre Hfirst.
  all: assert (Lc : length code = length a + length R) by (now rewrite Hc, app_length, map_length).
  - cbn [rmap_loop]. exists (mk_rmap current 0 0), out, (blen a), (map fst R), R. split; [reflexivity|].
    split; [rewrite Hc; apply str_range_tail|]. split; [reflexivity|]. cbn [rm_k rm_remove rm_current SlmReplace.asc firstn rev gforth].
    split; [|split; [lia|split; [lia|split; [left; reflexivity|split; [|constructor]]]]].
    + rewrite Hs, Lc, Nat.add_0_r. f_equal.
      replace (P + (length a + length R)) with (P + length a + length R) by lia.
      rewrite <- skipn_skipn_add, Hs. rewrite skipn_app, skipn_all, Nat.sub_diag. reflexivity.
    + eapply places_ranged; [exact Hpl|lia|lia].
  - destruct Hp as [Hp|Hp]; [lia|]. cbn [rmap_loop].
    destruct (nth_error repls k) as [r|] eqn:En; [|apply nth_error_None in En; lia]. cbn [bind].
    rewrite (asc_S repls k r En) in Hfirst |- *. unfold code_step. cbn [ci_rest ci_p ci_bound].
    assert (Hir : In r repls) by (eapply nth_error_In; eauto).
    destruct (asc_after k r En) as [Haf Hu]. unfold upright in Hu.
    assert (Hf1 : (first = true \/ Z.of_nat P < rp_start_pos r)%Z).
    { destruct Hfirst as [|Hf]; [now left|right]. now inversion Hf. }
    assert (Hf2 : first = true \/ past (Z.of_nat P) (asc k)).
    { destruct Hfirst as [|Hf]; [now left|right]. now inversion Hf. }
    pose proof (start_range r) as Rs. pose proof (end_range r) as Rn. unfold reached in Hre. rewrite (asc_S repls k r En) in Hre. pose proof (Forall_inv Hre) as Hre1. cbn beta in Hre1.
    set (Q := P + length a) in *. rewrite (to_i32_small (rp_start_pos r - current)) by lia.
    rewrite step_chars_spec by lia. rewrite Z.sub_0_r.
    set (m := Z.to_nat (rp_start_pos r - current)).
    assert (Hm : Nat.max Q (Z.to_nat (rp_start_pos r)) = Q + m) by (unfold m; lia).
    rewrite map_length. destruct (Nat.leb_spec m (length R)) as [Hle|Hgt].
    + rewrite firstn_map, skipn_map. set (x := firstn m R). set (y := skipn m R).
      assert (Exy : R = x ++ y) by (symmetry; apply firstn_skipn).
      assert (Lx : length x = m) by (unfold x; rewrite firstn_length; lia).
      assert (Ly : length y = length R - m) by (unfold y; now rewrite skipn_length).
      assert (Ep : piece_of s Q (Q + m) = x).
      { unfold piece_of. replace (Q + m - Q) with m by lia. rewrite Hs. unfold x. rewrite firstn_app.
        replace (m - length R) with 0 by lia. cbn [firstn]. now rewrite app_nil_r. }
      clearbody x y. rewrite Exy, places_ok_app in Hpl. destruct Hpl as [Plx Ply].
      assert (Er : str_range code (blen a) (blen a + blen (map fst x)) = Some (map fst x)).
      { rewrite Hc, Exy, map_app. apply str_range_spec. }
      rewrite Z.add_0_l. rewrite Er. cbn [bind ci_rest ci_p ci_bound].
      rewrite (to_i32_small (current + Z.of_nat m)) by lia. rewrite (to_i32_small (rp_end_pos r - _)) by lia.
      rewrite step_chars_spec by lia. rewrite Z.sub_0_r.
      set (m2 := Z.to_nat (rp_end_pos r - (current + Z.of_nat m))).
      assert (Hm2 : Nat.max (Q + m) (Z.to_nat (rp_end_pos r)) = Q + m + m2) by (unfold m2; lia).
      assert (Rx : Forall (ranged first P (P + length code)) x) by (eapply places_ranged; [exact Plx|lia|lia]).
      assert (Rr : Forall (ranged first P (P + length code)) (fresh r)) by (apply fresh_ranged; auto; lia).
      rewrite map_length. destruct (Nat.leb_spec m2 (length y)) as [Hle2|Hgt2].
      * rewrite firstn_map, skipn_map. set (x2 := firstn m2 y). set (y2 := skipn m2 y).
        assert (Exy2 : y = x2 ++ y2) by (symmetry; apply firstn_skipn).
        assert (Lx2 : length x2 = m2) by (unfold x2; rewrite firstn_length; lia).
        clearbody x2 y2. rewrite Exy2, places_ok_app in Ply. destruct Ply as [_ Ply2].
        replace (blen a + blen (map fst x) + blen (map fst x2)) with (blen (a ++ map fst x ++ map fst x2)) by (rewrite !blen_app; lia).
        assert (Hre3 : reached repls k (P + length (a ++ map fst x ++ map fst x2))).
        { rewrite !app_length, !map_length. eapply Forall_impl; [|exact Haf]. cbn. intros z Hz. unfold Q in *. lia. }
        destruct (IH ltac:(lia) (a ++ map fst x ++ map fst x2) y2 (to_i32 (current + Z.of_nat m + Z.of_nat m2)) (out ++ map fst x ++ rp_text r))
          as (st & out' & sb & tail & o & E1 & E2 & E3 & E4 & E5 & E6 & E7 & E8 & E9).
        { rewrite Hc, Exy, Exy2, !map_app, <- !app_assoc. reflexivity. }
        { rewrite !app_length, !map_length, Lx, Lx2. replace (P + (length a + (m + m2))) with (Q + (m + m2)) by (unfold Q; lia).
          rewrite <- skipn_skipn_add, Hs, Exy, Exy2. rewrite <- !app_assoc, app_assoc.
          rewrite skipn_app. rewrite skipn_all2 by (rewrite app_length; lia).
          replace (m + m2 - length (x ++ x2)) with 0 by (rewrite app_length; lia). reflexivity. }
        { rewrite !app_length, !map_length. replace (P + (length a + (length x + length x2))) with (Q + length x + length x2) by (unfold Q; lia).
          exact Ply2. }
        { apply (at_sum repls k _ (Q + m) m2); [lia|exact Hre3|lia|]. rewrite !app_length, !map_length. unfold Q. lia. }
        { exact Hre3. }
        { exact Hf2. }
        rewrite ?Z.add_0_l. rewrite E1. exists st, out', sb, tail, (x ++ fresh r ++ o). split; [reflexivity|]. split; [exact E2|].
        split; [rewrite E3, !map_app, fresh_text, <- !app_assoc; reflexivity|].
        split; [|split; [exact E5|split; [lia|split; [exact E7|split; [|exact E9]]]]].
        -- cbn [gforth]. rewrite Hm, Hm2, Ep. rewrite <- !app_assoc. f_equal. f_equal. rewrite <- E4. f_equal.
           rewrite !app_length, !map_length. unfold Q. lia.
        -- apply Forall_app. split; [exact Rx|]. apply Forall_app. split; [exact Rr|exact E8].
      * eexists _, _, _, [], (x ++ fresh r). split; [reflexivity|].
        split; [rewrite <- (app_nil_r code) at 1; rewrite <- (app_nil_r code) at 3; apply str_range_tail|].
        split; [rewrite app_nil_r, map_app, fresh_text; reflexivity|]. cbn [rm_k rm_remove rm_current].
        split; [|split; [lia|split; [lia|split; [right; rewrite to_i32_small; unfold Q, m2 in *; lia|split]]]].
        -- cbn [gforth]. rewrite Hm, Hm2, Ep, <- app_assoc. f_equal. f_equal. f_equal. unfold m2, Q in *. lia.
        -- apply Forall_app. split; [exact Rx|exact Rr].
        -- eapply Forall_impl; [|exact Haf]. cbn. intros z Hz. unfold behind, m2, m, Q in *. lia.
    + eexists _, _, _, (map fst R), R. split; [reflexivity|].
      split; [rewrite Hc; apply str_range_tail|]. split; [reflexivity|]. cbn [rm_k rm_remove rm_current].
      split; [|split; [lia|split; [lia|split; [right; rewrite to_i32_small; unfold Q, m in *; lia|split]]]].
      * rewrite (asc_S repls k r En). cbn [gforth]. rewrite Hm.
        replace (P + length code + Z.to_nat 0) with (Q + length R) by (unfold Q; lia).
        replace (Nat.max (Q + length R) (Z.to_nat (rp_start_pos r))) with (Q + m) by (unfold m in *; lia).
        assert (Hp2 : piece_of s Q (Q + m) = R ++ piece_of s (Q + length R) (Q + m)); [|rewrite Hp2, <- app_assoc; reflexivity].
        unfold piece_of. rewrite <- skipn_skipn_add, Hs.
        rewrite skipn_app, skipn_all, Nat.sub_diag. cbn [skipn app].
        replace (Q + m - Q) with (length R + (Q + m - (Q + length R))) by lia. apply firstn_app_2.
      * eapply places_ranged; [exact Hpl|lia|lia].
      * rewrite (asc_S repls k r En). constructor; [unfold behind, m, Q in *; lia|].
        eapply Forall_impl; [|exact Haf]. cbn. intros z Hz. unfold behind, m, Q in *. lia.
Qed.

Lemma mapfun_trace first s P X w st : skipn P s = X ++ w -> places_ok P X -> rm_k st <= length repls -> (0 <= rm_remove st)%Z ->
  at_pos (rm_k st) (rm_current st) P -> reached repls (rm_k st) P -> (first = true \/ past (Z.of_nat P) (asc (rm_k st))) ->
  Forall (fun r => rm_remove st = 0 \/ Z.of_nat P + rm_remove st <= rp_start_pos r)%Z (asc (rm_k st)) ->
  exists st' o, replace_mapfun repls st (map fst X) = Some (st', map fst o) /\
    gforth s (asc (rm_k st)) (P + Z.to_nat (rm_remove st)) =
      o ++ gforth s (asc (rm_k st')) (P + length X + Z.to_nat (rm_remove st')) /\
    (0 <= rm_remove st')%Z /\ rm_k st' <= length repls /\ at_pos (rm_k st') (rm_current st') (P + length X) /\
    Forall (ranged first P (P + length X)) o /\
    Forall (behind (P + length X) (rm_remove st')) (asc (rm_k st')).
Proof.
  intros Hs Hpl Hk Hr Hp Hre Hfirst Hrem.
  assert (Hre2 : reached repls (rm_k st) (P + Z.to_nat (rm_remove st))).
  { unfold reached in *. rewrite Forall_forall in *. intros z Hz. specialize (Hre z Hz). destruct (Hrem z Hz); lia. }
  unfold replace_mapfun. destruct (Z.ltb_spec 0 (rm_remove st)) as [Hpos|Hz].
  - unfold code_step. cbn [ci_rest ci_p ci_bound]. rewrite step_chars_spec by lia. rewrite Z.sub_0_r.
    set (m := Z.to_nat (rm_remove st)). rewrite map_length. destruct (Nat.leb_spec m (length X)) as [Hle|Hgt].
    + rewrite firstn_map, skipn_map. set (a := firstn m X). set (y := skipn m X).
      assert (La : length a = m) by (unfold a; rewrite firstn_length; lia).
      assert (Exy : X = a ++ y) by (symmetry; apply firstn_skipn).
      change (0 + blen (map fst a)) with (blen (map fst a)).
      destruct (rmap_trace first (map fst X) w s P (rm_k st) Hk (map fst a) y (to_i32 (rm_current st + (0 + Z.of_nat m))) [])
        as (st' & out' & sb & tail & o & E1 & E2 & E3 & E4 & E5 & E6 & E7 & E8 & E9).
      { rewrite Exy at 1. apply map_app. }
      { rewrite map_length, La, <- skipn_skipn_add, Hs. rewrite skipn_app. replace (m - length X) with 0 by lia. reflexivity. }
      { rewrite map_length. rewrite Exy, places_ok_app in Hpl. apply Hpl. }
      { rewrite map_length, La. destruct Hp as [->|Hp]; [left; reflexivity|]. rewrite Z.add_0_l. now apply (at_sum repls (rm_k st) _ P m). }
      { rewrite map_length, La. exact Hre2. }
      { exact Hfirst. }
      rewrite E1. cbn [bind]. rewrite E2. cbn [bind]. exists st', o. cbn [app] in E3. rewrite E3.
      rewrite !map_length in *. rewrite La in E4.
      split; [reflexivity|]. split; [exact E4|]. split; [exact E5|]. split; [lia|]. split; [exact E7|]. split; [exact E8|exact E9].
    + eexists _, []. split; [reflexivity|]. cbn [rm_k rm_remove rm_current app].
      split; [f_equal; unfold m in *; lia|]. split; [unfold m in *; lia|]. split; [exact Hk|].
      split.
      { destruct Hp as [->|Hp]; [left; reflexivity|]. rewrite Z.add_0_l. apply (at_sum repls (rm_k st) _ P (length X)); auto.
        eapply Forall_impl; [|exact Hre2]. cbn. intros z Hz. unfold m in *. lia. }
      split; [constructor|].
      eapply Forall_impl; [|exact Hrem]. cbn. intros r [H|H]; [lia|]. unfold behind, m in *. lia.
  - destruct (rmap_trace first (map fst X) w s P (rm_k st) Hk [] X (rm_current st) [])
      as (st' & out' & sb & tail & o & E1 & E2 & E3 & E4 & E5 & E6 & E7 & E8 & E9); auto.
    { cbn [length]. now rewrite Nat.add_0_r. }
    { cbn [length]. now rewrite Nat.add_0_r. }
    { cbn [length]. now rewrite Nat.add_0_r. }
    { cbn [length]. now rewrite Nat.add_0_r. }
    cbn [blen] in E1. rewrite E1. cbn [bind]. rewrite E2. cbn [bind]. exists st', o. cbn [app] in E3. rewrite E3.
    rewrite ?map_length in *.
    split; [reflexivity|]. cbn [length] in E4. replace (P + Z.to_nat (rm_remove st)) with (P + 0) by lia.
    split; [exact E4|]. split; [exact E5|]. split; [lia|]. split; [exact E7|]. split; [exact E8|exact E9].
Qed.

(** The outputs of all pieces. *)
Fixpoint ranges (first : bool) (P : nat) (Xs os : list (list atom)) : Prop :=
  match Xs, os with
  | [], [] => True
  | X :: Xs, o :: os => Forall (ranged first P (P + length X)) o /\ ranges false (P + length X) Xs os
  | _, _ => False
  end.

Lemma run_trace s : forall Xs first P st, skipn P s = concat Xs -> places_ok P (concat Xs) -> rm_k st <= length repls -> (0 <= rm_remove st)%Z ->
  at_pos (rm_k st) (rm_current st) P -> reached repls (rm_k st) P -> (first = true \/ past (Z.of_nat P) (asc (rm_k st))) ->
  Forall (fun r => rm_remove st = 0 \/ Z.of_nat P + rm_remove st <= rp_start_pos r)%Z (asc (rm_k st)) ->
  exists st' os, run_fun (replace_mapfun repls) st (map (map fst) Xs) = Some (st', map (map fst) os) /\
    gforth s (asc (rm_k st)) (P + Z.to_nat (rm_remove st)) =
      concat os ++ gforth s (asc (rm_k st')) (P + length (concat Xs) + Z.to_nat (rm_remove st')) /\
    rm_k st' <= length repls /\ ranges first P Xs os /\
    (Xs = [] \/ past (Z.of_nat (P + length (concat Xs))) (asc (rm_k st'))).
Proof.
  induction Xs as [|X Xs IH]; intros first P st Hs Hpl Hk Hr Hp Hre Hfirst Hrem.
  - exists st, []. split; [reflexivity|]. cbn. rewrite Nat.add_0_r. repeat split; auto.
  - cbn [concat] in Hs, Hpl. rewrite places_ok_app in Hpl. destruct Hpl as [Pl1 Pl2].
    destruct (mapfun_trace first s P X (concat Xs) st Hs Pl1 Hk Hr Hp Hre Hfirst Hrem) as (st1 & o & E1 & E2 & E3 & E4 & E5 & E6 & E7).
    assert (Hpast : past (Z.of_nat (P + length X)) (asc (rm_k st1))).
    { eapply Forall_impl; [|exact E7]. intros r Hb. unfold behind in Hb. lia. }
    destruct (IH false (P + length X) st1) as (st' & os & F1 & F2 & F3 & F4 & F5); auto.
    { rewrite <- skipn_skipn_add, Hs. rewrite skipn_app, skipn_all, Nat.sub_diag. reflexivity. }
    { eapply Forall_impl; [|exact E7]. intros r Hb. unfold behind in Hb. lia. }
    { eapply Forall_impl; [|exact E7]. intros r Hb. unfold behind in Hb. right. lia. }
    exists st', (o :: os). cbn [map run_fun]. rewrite E1. cbn [bind]. rewrite F1. cbn [bind]. split; [reflexivity|].
    split; [|split; [exact F3|split; [split; [exact E6|exact F4]|]]].
    + cbn [concat]. rewrite E2, F2, <- app_assoc. rewrite app_length, Nat.add_assoc. reflexivity.
    + right. destruct F5 as [->|F5].
      * cbn [concat] in *. rewrite app_nil_r. cbn in F1. injection F1 as <- _. exact Hpast.
      * cbn [concat]. rewrite app_length, Nat.add_assoc. exact F5.
Qed.


(** Order of the result: an old character in front of a new one lies before its place. *)
Definition ranked (x y : atom) : Prop :=
  match snd x, snd y with
  | inl i, inl j => i < j
  | inl i, inr e => (Z.of_nat i < e_from e)%Z
  | _, _ => True
  end.
Definition from (s : list atom) (cur : nat) (rs : list repl) (x : atom) : Prop :=
  (exists i, cur <= i /\ snd x = inl i /\ nth_error s i = Some x) \/ (exists r, In r rs /\ In x (fresh r)).
Lemma piece_from s a b x : places_ok 0 s -> In x (piece_of s a b) ->
  exists i, a <= i < b /\ snd x = inl i /\ nth_error s i = Some x.
Proof.
  intros Hs Hx. unfold piece_of in Hx. apply In_nth_error in Hx as (j & Hj).
  assert (Lj : j < b - a).
  { assert (j < length (firstn (b - a) (skipn a s))) by (apply nth_error_Some; now rewrite Hj). rewrite firstn_length in H. lia. }
  rewrite nth_firstn in Hj by exact Lj. rewrite nth_skipn in Hj. exists (a + j). split; [lia|]. split; [|exact Hj].
  exact (Hs _ _ Hj).
Qed.
Lemma gforth_from s : places_ok 0 s -> forall rs cur, Forall (from s cur rs) (gforth s rs cur).
Proof.
  intro Hs. induction rs as [|r rs IH]; intro cur; cbn [gforth].
  - apply Forall_forall. intros x Hx. left. rewrite <- (firstn_all (skipn cur s)), skipn_length in Hx.
    destruct (piece_from s cur (length s) x Hs Hx) as (i & H1 & H2 & H3). exists i. repeat split; auto. lia.
  - apply Forall_app. split; [|apply Forall_app; split].
    + apply Forall_forall. intros x Hx. left. destruct (piece_from s _ _ x Hs Hx) as (i & H1 & H2 & H3). exists i. repeat split; auto; lia.
    + apply Forall_forall. intros x Hx. right. exists r. split; [now left|exact Hx].
    + eapply Forall_impl; [|apply IH]. intros x [(i & H1 & H2 & H3)|(r' & H1 & H2)]; [left|right].
      * exists i. repeat split; auto. lia.
      * exists r'. split; [now right|exact H2].
Qed.
Lemma sorted_app {A} (R : A -> A -> Prop) a b : StronglySorted R a -> StronglySorted R b ->
  Forall (fun x => Forall (R x) b) a -> StronglySorted R (a ++ b).
Proof.
  induction 1 as [|x a Ha IH Hx]; intros Hb Hab; [exact Hb|]. inversion Hab; subst. cbn [app]. constructor; [auto|].
  apply Forall_app. auto.
Qed.
Lemma sorted_app_inv {A} (R : A -> A -> Prop) a b : StronglySorted R (a ++ b) ->
  StronglySorted R a /\ StronglySorted R b /\ Forall (fun x => Forall (R x) b) a.
Proof.
  induction a as [|x a IH]; cbn [app]; intro H; [repeat split; auto; constructor|]. inversion H as [|? ? H1 H2]; subst.
  destruct (IH H1) as (A1 & A2 & A3). apply Forall_app in H2 as [B1 B2]. repeat split; auto; constructor; auto.
Qed.
Lemma piece_sorted s a b : places_ok 0 s -> StronglySorted ranked (piece_of s a b).
Proof.
  intro Hs. assert (G : forall l P, places_ok P l -> StronglySorted ranked l).
  { clear. induction l as [|x l IH]; intros P H; [constructor|]. constructor.
    - apply (IH (S P)). intros i y Hy. rewrite (H (S i) y Hy). f_equal. lia.
    - apply Forall_forall. intros y Hy. apply In_nth_error in Hy as (i & Hi). unfold ranked.
      rewrite (H 0 x eq_refl), (H (S i) y Hi). lia. }
  apply (G _ a). intros i x Hx. assert (Hi : In x (piece_of s a b)) by (eapply nth_error_In; eauto).
  unfold piece_of in Hx. assert (L : i < b - a).
  { assert (i < length (firstn (b - a) (skipn a s))) by (apply nth_error_Some; now rewrite Hx). rewrite firstn_length in H. lia. }
  rewrite nth_firstn in Hx by exact L. rewrite nth_skipn in Hx. exact (Hs _ _ Hx).
Qed.
Lemma fresh_in r x : In x (fresh r) -> exists c, In c (rp_text r) /\ x = (c, inr (E r)).
Proof. unfold fresh. rewrite in_map_iff. intros (c & <- & H). eauto. Qed.

Lemma gforth_sorted s : places_ok 0 s -> forall rs cur, Forall upright rs -> StronglySorted ordered rs ->
  (forall r, In r rs -> In r repls) -> StronglySorted ranked (gforth s rs cur).
Proof.
  intro Hs. induction rs as [|r rs IH]; intros cur Hu Ho Hi; cbn [gforth].
  - rewrite <- (firstn_all (skipn cur s)), skipn_length. now apply piece_sorted.
  - inversion Hu as [|? ? U1 U2]; subst. inversion Ho as [|? ? O1 O2]; subst. unfold upright in U1.
    set (a := Nat.max cur (Z.to_nat (rp_start_pos r))). set (b := Nat.max a (Z.to_nat (rp_end_pos r))).
    assert (Hfr : forall x i r' y, In x (piece_of s cur a) -> snd x = inl i -> In r' (r :: rs) -> In y (fresh r') -> ranked x y).
    { intros x i r' y Hx Ex Hr' Hy. destruct (piece_from s _ _ x Hs Hx) as (j & Hj & Ej & _). rewrite Ej in Ex. injection Ex as ->.
      destruct (fresh_in _ _ Hy) as (c & _ & ->). unfold ranked. rewrite Ej. cbn [snd]. rewrite HE by (apply Hi; exact Hr').
      assert (rp_start_pos r <= rp_start_pos r')%Z.
      { destruct Hr' as [->|Hr']; [lia|]. rewrite Forall_forall in O2. specialize (O2 _ Hr'). unfold ordered in O2. lia. }
      unfold a in Hj. lia. }
    apply sorted_app; [now apply piece_sorted| |].
    + apply sorted_app.
      * assert (G : forall l, StronglySorted ranked (map (fun c : char => (c, inr (E r)) : atom) l)).
        { clear. induction l as [|c l IH]; cbn [map]; constructor; auto. rewrite Forall_map. apply Forall_forall. intros d _. exact I. }
        apply G.
      * apply IH; auto. intros r' H'. apply Hi. now right.
      * apply Forall_forall. intros x Hx. destruct (fresh_in _ _ Hx) as (c & _ & ->). apply Forall_forall. intros y _. exact I.
    + apply Forall_forall. intros x Hx. destruct (piece_from s _ _ x Hs Hx) as (i & Hii & Ei & _).
      apply Forall_app. split.
      * apply Forall_forall. intros y Hy. eapply Hfr; eauto. now left.
      * eapply Forall_impl; [|apply gforth_from; exact Hs]. intros y [(j & J1 & J2 & _)|(r' & J1 & J2)].
        -- unfold ranked. rewrite Ei, J2. unfold b in J1. lia.
        -- eapply Hfr; eauto. now right.
Qed.
End Trace.

(** ** One piece *)
Lemma mark_none_next y u v : y = u ++ NL :: v -> mark None (u ++ [NL]) ++ mark (next_line None) v = mark None y.
Proof. intros ->. cbn [next_line]. rewrite <- mark_app, <- app_assoc. reflexivity. Qed.

Lemma attr_inside A a x B i : length A <= i < length A + length x ->
  attr_at (A ++ mark a x ++ B) (Z.of_nat i) = a.
Proof.
  intro H. unfold attr_at. rewrite Nat2Z.id. rewrite nth_error_app2 by lia.
  rewrite nth_error_app1 by (unfold mark; rewrite map_length; lia). unfold mark.
  destruct (nth_error x (i - length A)) as [c|] eqn:En; [|apply nth_error_None in En; lia].
  now rewrite (map_nth_error _ _ _ En).
Qed.

Lemma map_split {A B} (f : A -> B) : forall l u c v, map f l = u ++ c :: v ->
  exists lu x lv, l = lu ++ x :: lv /\ map f lu = u /\ f x = c /\ map f lv = v.
Proof.
  induction l as [|y l IH]; intros [|d u] c v H; try discriminate; cbn [map app] in H.
  - injection H as H1 H2. exists [], y, l. auto.
  - injection H as H1 H2. destruct (IH _ _ _ H2) as (lu & x & lv & -> & E1 & E2 & E3). exists (y :: lu), x, lv. cbn. rewrite E1, H1. auto.
Qed.

Lemma text_mark_inside A a x B i c : nth_error (text_of (A ++ mark a x ++ B)) i = Some c ->
  length A <= i < length A + length x -> nth_error x (i - length A) = Some c.
Proof.
  intros H Hi. unfold text_of in H. rewrite !map_app in H. rewrite nth_error_app2 in H by (rewrite map_length; lia).
  change (map fst (mark a x)) with (text_of (mark a x)) in H. rewrite text_mark, map_length in H.
  rewrite nth_error_app1 in H by lia. exact H.
Qed.

Lemma piece_kept (starts : Prop) first A a x B o m :
  (first = true -> A = [] /\ (starts -> x <> [])) -> (a = None \/ one_line x) ->
  Forall (ranged first (length A) (length A + length x)) o -> StronglySorted ranked o ->
  (forall y i, In y o -> snd y = inl i -> nth_error (text_of (A ++ mark a x ++ B)) i = Some (fst y)) ->
  (forall y e, In y o -> snd y = inr e -> fst y <> NL) ->
  spread a (map fst o) m ->
  Forall2 (line_kept starts (A ++ mark a x ++ B)) o m.
Proof.
  intros Hfirst Hone Hr Hs Hold Hnew Hm. set (M := A ++ mark a x ++ B) in *.
  assert (Hlen : length M = length A + (length x + length B)).
  { unfold M, mark. rewrite !app_length, map_length. reflexivity. }
  assert (Hnext : forall y, In y o -> line_kept starts M y (fst y, a)).
  { intros y Hy. split; [reflexivity|]. rewrite Forall_forall in Hr. specialize (Hr y Hy). unfold ranged in Hr. cbn [snd].
    destruct (snd y) as [i|e].
    - symmetry. now apply attr_inside.
    - destruct Hr as [R1 R2]. split; [|split].
      + intros H0 Hst. destruct R2 as [F|F]; [|lia]. destruct (Hfirst F) as [-> Hx]. specialize (Hx Hst).
        symmetry. apply (attr_inside [] a x B 0). destruct x; [congruence|]. cbn. lia.
      + lia.
      + intro H0. left. symmetry. replace (e_from e - 1)%Z with (Z.of_nat (Z.to_nat (e_from e - 1))) by lia.
        apply attr_inside. destruct R2 as [F|F]; [|lia]. destruct (Hfirst F) as [-> _]. cbn [length] in *. lia. }
  assert (Hplain : Forall2 (line_kept starts M) o (mark a (map fst o))).
  { unfold mark. rewrite map_map. clear -Hnext. induction o as [|y o IH]; [constructor|]. cbn [map]. constructor.
    - apply Hnext. now left.
    - apply IH. intros z Hz. apply Hnext. now right. }
  destruct Hm as [->|(u & v & Ey & Hu & Hv & ->)]; [exact Hplain|].
  destruct Hone as [->|Hone]; [now rewrite (mark_none_next _ _ _ Ey)|].
  destruct (map_split _ _ _ _ _ Ey) as (ou & z & ov & -> & E1 & E2 & E3).
  assert (Hz : In z (ou ++ z :: ov)) by (apply in_or_app; right; now left).
  rewrite mark_app, <- app_assoc, <- E1, <- E3. apply Forall2_app.
  - unfold mark. rewrite map_map. assert (G : forall y, In y ou -> line_kept starts M y (fst y, a)) by (intros y Hy; apply Hnext, in_or_app; now left).
    clear -G. induction ou as [|y o IH]; [constructor|]. cbn [map]. constructor; [apply G; now left|]. apply IH. intros; apply G; now right.
  - cbn [mark map app]. constructor; [rewrite <- E2; now apply Hnext|].
    destruct (snd z) as [i|e] eqn:Ez; [|exfalso; exact (Hnew z e Hz Ez E2)].
    pose proof (Hold z i Hz Ez) as Hi.
    assert (Ri : length A <= i < length A + length x).
    { rewrite Forall_forall in Hr. specialize (Hr z Hz). unfold ranged in Hr. now rewrite Ez in Hr. }
    assert (Hlast : S i = length A + length x).
    { pose proof (text_mark_inside _ _ _ _ _ _ Hi Ri) as Hn. rewrite E2 in Hn.
      destruct (nth_error_split _ _ Hn) as (p & q & Ex & Lp). rewrite (Hone p q Ex) in Ex. rewrite Ex, app_length. cbn [length]. lia. }
    assert (Hrest : forall y, In y ov -> line_kept starts M y (fst y, next_line a)).
    { intros y Hy. split; [reflexivity|]. cbn [snd].
      assert (Ro : ranked z y).
      { apply sorted_app_inv in Hs as (_ & Hs & _). inversion Hs as [|? ? _ HF]; subst. rewrite Forall_forall in HF. now apply HF. }
      rewrite Forall_forall in Hr. assert (Hry : ranged first (length A) (length A + length x) y) by (apply Hr, in_or_app; right; now right).
      unfold ranged in Hry. unfold ranked in Ro. rewrite Ez in Ro. destruct (snd y) as [j|e]; [lia|].
      destruct Hry as [R1 R2]. split; [|split]; [lia|lia|]. intros _. right.
      replace (Z.to_nat (e_from e - 1)) with i by lia. split; [now rewrite Hi, E2|]. f_equal. symmetry.
      replace (e_from e - 1)%Z with (Z.of_nat i) by lia. now apply attr_inside. }
    clear -Hrest. induction ov as [|y o IH]; [constructor|]. cbn [map]. constructor; [apply Hrest; now left|]. apply IH. intros; apply Hrest; now right.
Qed.

(** ** All pieces *)
Lemma pieces_kept (starts : Prop) B : forall pieces Xs os ms first A,
  (first = true -> A = [] /\ (starts -> match pieces with x :: _ => snd x <> [] | [] => True end)) ->
  map snd pieces = map (map fst) Xs -> Forall (fun x => fst x = None \/ one_line (snd x)) pieces ->
  ranges first (length A) Xs os -> StronglySorted ranked (concat os) ->
  (forall y i, In y (concat os) -> snd y = inl i -> nth_error (text_of (A ++ mark_pieces pieces ++ B)) i = Some (fst y)) ->
  (forall y e, In y (concat os) -> snd y = inr e -> fst y <> NL) ->
  Forall2 (fun x m => spread (fst x) (snd x) m) (combine (map fst pieces) (map (map fst) os)) ms ->
  Forall2 (line_kept starts (A ++ mark_pieces pieces ++ B)) (concat os) (concat ms).
Proof.
  induction pieces as [|[a x] pieces IH]; intros [|X Xs] os ms first A Hf Hx Hone Hr Hs Hold Hnew Hm; try discriminate.
  - destruct os; [|contradiction]. inversion Hm; subst. constructor.
  - destruct os as [|o os]; [contradiction|]. destruct Hr as [R1 R2]. cbn [map fst snd] in Hx, Hm. injection Hx as Ex Hx.
    assert (LX : length X = length x) by (rewrite Ex, map_length; reflexivity).
    cbn [combine] in Hm. inversion Hm as [|? m0 ? ms' M1 M2]; subst ms. cbn [fst snd] in M1.
    inversion Hone as [|? ? O1 O2]; subst. cbn [fst snd] in O1. rewrite map_length in LX.
    cbn [concat] in *. apply sorted_app_inv in Hs as (S1 & S2 & _).
    set (x := map fst X) in *.
    assert (EM : A ++ mark_pieces ((a, x) :: pieces) ++ B = A ++ mark a x ++ (mark_pieces pieces ++ B)).
    { cbn [mark_pieces flat_map fst snd]. now rewrite <- app_assoc. }
    assert (EM2 : A ++ mark a x ++ (mark_pieces pieces ++ B) = (A ++ mark a x) ++ mark_pieces pieces ++ B) by (now rewrite <- app_assoc).
    apply Forall2_app.
    + rewrite EM in Hold |- *. apply piece_kept with (first := first); auto.
      * unfold x. rewrite map_length. exact R1.
      * intros y i Hy. apply Hold. apply in_or_app. now left.
      * intros y e Hy. apply Hnew. apply in_or_app. now left.
    + rewrite EM, EM2 in Hold |- *. apply IH with (Xs := Xs) (first := false); auto.
      * discriminate.
      * rewrite app_length. unfold mark. rewrite map_length. unfold x. rewrite map_length. exact R2.
      * intros y i Hy. apply Hold. apply in_or_app. now right.
      * intros y e Hy. apply Hnew. apply in_or_app. now right.
Qed.

Lemma cut_atoms : forall (xs : list str) (S : list atom), map fst S = concat xs ->
  exists Xs, concat Xs = S /\ map (map fst) Xs = xs.
Proof.
  induction xs as [|x xs IH]; intros S H; cbn [concat] in H.
  - destruct S; [|discriminate]. exists []. auto.
  - destruct (IH (skipn (length x) S)) as (Xs & E1 & E2).
    { rewrite <- skipn_map, H, skipn_app, skipn_all, Nat.sub_diag. reflexivity. }
    exists (firstn (length x) S :: Xs). cbn [concat map]. rewrite E1, E2, firstn_skipn. split; [reflexivity|].
    rewrite <- firstn_map, H, firstn_app, firstn_all, Nat.sub_diag. cbn [firstn]. now rewrite app_nil_r.
Qed.

(** ** The pass puts the texts in like [traced] *)
Section Splice.
Variable E : repl -> edit.
Notation fresh := (fresh E).
Notation gforth := (gforth E).
Lemma gforth_end s : forall rs q, length s <= q -> gforth s rs q = flat_map fresh rs.
Proof.
  induction rs as [|r rs IH]; intros q Hq; cbn [SlmEdits.gforth flat_map].
  - apply skipn_all2. exact Hq.
  - unfold piece_of. rewrite skipn_all2, firstn_nil by lia. cbn [app]. f_equal. apply IH. lia.
Qed.
Fixpoint gforthL (s : list atom) (rs : list repl) (cur L : nat) : list atom :=
  match rs with
  | [] => piece_of s cur L
  | r :: rs =>
      let a := Nat.max cur (Z.to_nat (rp_start_pos r)) in
      let b := Nat.max a (Z.to_nat (rp_end_pos r)) in
      piece_of s cur (Nat.min L a) ++ fresh r ++ gforthL s rs b L
  end.
Lemma gforth_L s : forall rs cur, gforth s rs cur = gforthL s rs cur (length s).
Proof.
  induction rs as [|r rs IH]; intro cur; cbn [SlmEdits.gforth gforthL].
  - unfold piece_of. rewrite firstn_all2; auto. rewrite skipn_length. lia.
  - rewrite piece_min by lia. now rewrite IH.
Qed.
Lemma gforthL_snoc s r : upright r -> forall l cur L, Forall upright l -> Forall (fun x => ordered x r) l ->
  cur <= Z.to_nat (rp_start_pos r) ->
  gforthL s (l ++ [r]) cur L =
  gforthL s l cur (Nat.min L (Z.to_nat (rp_start_pos r))) ++ fresh r ++ piece_of s (Z.to_nat (rp_end_pos r)) L.
Proof.
  intro Hr. unfold upright in Hr. induction l as [|x l IH]; intros cur L Hu Ho Hc.
  - cbn [app gforthL]. rewrite Nat.max_r by lia. rewrite Nat.max_r by lia. rewrite (Nat.min_comm L). reflexivity || (f_equal; f_equal; lia).
  - inversion Hu as [|? ? U1 U2]; subst. inversion Ho as [|? ? O1 O2]; subst. unfold upright, ordered in *.
    cbn [app gforthL]. rewrite IH by (auto; lia). rewrite <- !app_assoc. f_equal. f_equal. lia.
Qed.
Definition gtriple (r : repl) : Z * Z * list atom := (rp_start_pos r, rp_end_pos r, fresh r).
Lemma gforthL_splice s : forall rs L, Forall upright rs -> StronglySorted (fun a b => ordered b a) rs ->
  gforthL s (rev rs) 0 L = gsplice (map gtriple rs) s L.
Proof.
  induction rs as [|r rs IH]; intros L Hu Hs; cbn [rev map gtriple gsplice].
  - cbn [gforthL]. unfold piece_of. cbn [skipn]. now rewrite Nat.sub_0_r.
  - inversion Hu as [|? ? U1 U2]; subst. inversion Hs as [|? ? S1 S2]; subst.
    rewrite gforthL_snoc; [| exact U1 | now apply Forall_rev | now apply Forall_rev | lia].
    unfold upright in U1. rewrite IH by auto. f_equal; [f_equal; lia|]. f_equal.
    unfold piece_of. destruct (Nat.le_gt_cases (Z.to_nat (rp_end_pos r)) L).
    + rewrite Nat.min_r by lia. reflexivity.
    + rewrite Nat.min_l by lia. replace (L - Z.to_nat (rp_end_pos r)) with 0 by lia. rewrite Nat.sub_diag. reflexivity.
Qed.
End Splice.

Definition edit_from (r : repl) : edit :=
  mk_edit (rp_start r / 16) (rp_start r mod 16) (rp_end r / 16) (rp_end r mod 16) (rp_text r).
Lemma edit_from_to x : edit_ok (fst x) -> edit_from (to_repl x) = fst x.
Proof.
  intros (H1 & H2 & H3 & H4). unfold edit_from, to_repl. cbn [rp_start rp_end rp_text]. unfold e_lo, e_hi.
  assert (D : forall a b, (0 <= b < 16 -> (16 * a + b) / 16 = a /\ (16 * a + b) mod 16 = b)%Z).
  { intros a b H. split; [symmetry; apply Z.div_unique with b; lia|symmetry; apply Z.mod_unique with a; lia]. }
  destruct (D (e_from (fst x)) (e_subf (fst x)) H3) as [-> ->]. destruct (D (e_to (fst x)) (e_subt (fst x)) H4) as [-> ->].
  destruct (fst x); reflexivity.
Qed.

Lemma gplaces_own {A} (f : edit -> list A) len o :
  ForallOrdPairs apart o -> Forall forward o -> Forall edit_ok o ->
  StronglySorted (fun a b => key_le a b = true) o ->
  gplaces len (map (fun e => (e, f e)) o) = map (fun e => (clamp len (e_from e), f e)) o.
Proof.
  intros H1 H2 H3 H4. pose proof (places_apart len o H1 H2 H3 H4) as P. clear H1 H2 H3 H4.
  induction o as [|e o IH]; [reflexivity|]. cbn [places map own_place] in P. injection P as P1 P2.
  cbn [map gplaces fst snd]. rewrite map_map. cbn [fst]. rewrite map_id. f_equal; [f_equal; exact P1|]. now apply IH.
Qed.

Lemma gforth_traced h s : Forall call_ok h -> Forall edit_ok (edits_of h) -> Forall forward (edits_of h) ->
  ForallOrdPairs apart (edits_of h) ->
  gforth edit_from (combine s (map (@inl nat edit) (seq 0 (length s)))) (rev (rs_repls (sort_replacements (run h)))) 0 = traced (edits_of h) s.
Proof.
  intros Hc Hok Hf Ha. destruct (history_ordered h Hc Hok Hf Ha) as [U O]. cbn zeta in U, O.
  set (S := combine s (map (@inl nat edit) (seq 0 (length s)))).
  assert (LS : length S = length s) by (unfold S; rewrite combine_length, map_length, seq_length; lia).
  rewrite gforth_L, gforthL_splice by auto. rewrite (run_sorted h Hc). set (es := edits_of h) in *.
  set (f := fun e : edit => map (fun c : char => (c, inr e)) (e_text e) : list atom).
  rewrite (gsplice_woven (map (fun e => (e, f e)) (arrange key_le es))); [|lia| |].
  - rewrite LS, gplaces_own.
    + rewrite firstn_all2 by lia. unfold traced. fold S. fold f. apply woven_ext; auto. intro j. f_equal.
      unfold gcovered. rewrite map_map. cbn [fst]. rewrite map_id. apply covered_perm. symmetry. apply arrange_perm.
    + eapply FOP_perm; eauto using apart_sym, arrange_perm.
    + now rewrite <- arrange_perm.
    + now rewrite <- arrange_perm.
    + apply key_le_sorted.
  - rewrite <- arranged_fst, <- map_rev, <- map_rev.
    assert (Hok' : Forall (fun x => edit_ok (fst x)) (rev (arranged es))).
    { rewrite <- Forall_map, map_rev, arranged_fst. rewrite <- Permutation_rev. now rewrite <- arrange_perm. }
    clear -Hok'. induction Hok' as [|x l Hx _ IH]; cbn [map]; constructor; auto.
    destruct (rep_ok_to_repl x Hx) as (A & B & C). unfold grep_ok, gtriple. cbn [fst snd]. repeat split; auto.
    unfold fresh, f. rewrite edit_from_to by exact Hx. now rewrite C.
  - pose proof (arrange_sorted_to es Hok) as S1. clear -S1. induction S1 as [|x o H1 IH H2]; cbn [map]; constructor; auto.
    rewrite Forall_map. exact H2.
Qed.

(** ** The theorem *)

Lemma indexed_ok s : places_ok 0 (combine s (map (@inl nat edit) (seq 0 (length s))) : list atom).
Proof.
  assert (G : forall s P, places_ok P (combine s (map (@inl nat edit) (seq P (length s))) : list atom)).
  { clear. induction s as [|c s IH]; intros P i x H; [destruct i; discriminate|]. destruct i as [|i]; cbn in H.
    - injection H as <-. cbn. now rewrite Nat.add_0_r.
    - rewrite (IH (S P) i x H). f_equal. lia. }
  apply G.
Qed.
Lemma indexed_text s : map fst (combine s (map (@inl nat edit) (seq 0 (length s))) : list atom) = s.
Proof.
  assert (G : forall (s : str) (l : list (nat + edit)), length s = length l -> map fst (combine s l) = s).
  { clear. induction s as [|c s IH]; intros [|x l] H; try discriminate; [reflexivity|]. cbn. f_equal. apply IH. cbn in H. lia. }
  apply G. now rewrite map_length, seq_length.
Qed.

Lemma replace_full h lm : Forall call_ok h -> Forall edit_ok (edits_of h) -> Forall forward (edits_of h) ->
  ForallOrdPairs apart (edits_of h) -> Forall node_ok lm ->
  exists lm' Xs os ms rest,
    replace_list_map (rs_repls (sort_replacements (run h))) lm = Some lm' /\ Forall node_ok lm' /\
    list_marks lm' = concat ms ++ mark None (flat_map rp_text rest) /\
    traced (edits_of h) (slm_text lm) = concat os ++ flat_map (fresh edit_from) rest /\
    map (map fst) Xs = map snd (list_pieces lm) /\ ranges true 0 Xs os /\
    Forall2 (fun x m => spread (fst x) (snd x) m) (combine (map fst (list_pieces lm)) (map (map fst) os)) ms /\
    StronglySorted ranked (concat os) /\
    (forall y i, In y (concat os) -> snd y = inl i -> nth_error (slm_text lm) i = Some (fst y)) /\
    (forall y e, In y (concat os) -> snd y = inr e -> exists r, In r (rs_repls (sort_replacements (run h))) /\ In (fst y) (rp_text r)) /\
    (forall r, In r rest -> e_from (edit_from r) = rp_start_pos r /\
        (list_pieces lm = [] \/ (Z.of_nat (length (mark_pieces (list_pieces lm))) < rp_start_pos r)%Z)) /\
    (exists st, run_fun (replace_mapfun (rs_repls (sort_replacements (run h)))) (mk_rmap 0 (length (rs_repls (sort_replacements (run h)))) 0) (map snd (list_pieces lm)) = Some (st, map (map fst) os) /\
       (rest = [] -> map_generated_code (replace_mapfun (rs_repls (sort_replacements (run h)))) (mk_rmap 0 (length (rs_repls (sort_replacements (run h)))) 0) lm = Some (st, lm'))) /\
    (forall r, In r rest -> In (edit_from r) (edits_of h)) /\
    (forall y e, In y (concat os) -> snd y = inr e -> In e (edits_of h) /\ In (fst y) (e_text e)).
Proof.
  intros Hc Hok Hf Ha Hm. destruct (history_ordered h Hc Hok Hf Ha) as [U O]. cbn zeta in U, O.
  rewrite <- (gforth_traced h _ Hc Hok Hf Ha).
  assert (Hrep : forall r, In r (rs_repls (sort_replacements (run h))) -> exists x, In (fst x) (edits_of h) /\ r = to_repl x).
  { intros r Hr. rewrite (run_sorted h Hc) in Hr. apply in_map_iff in Hr as (x & <- & Hx). exists x.
    split; [|reflexivity]. rewrite <- in_rev in Hx. apply (in_map fst) in Hx. rewrite arranged_fst in Hx.
    eapply Permutation_in; [|exact Hx]. symmetry. apply arrange_perm. }
  set (repls := rs_repls (sort_replacements (run h))) in *. set (s := slm_text lm).
  set (S := combine s (map (@inl nat edit) (seq 0 (length s))) : list atom).
  assert (HS : places_ok 0 S) by apply indexed_ok. assert (TS : map fst S = s) by apply indexed_text.
  assert (LS : length S = length s) by (rewrite <- TS, map_length; reflexivity).
  assert (HE : forall r, In r repls -> e_from (edit_from r) = rp_start_pos r).
  { intros r Hr. destruct (Hrep r Hr) as (x & Hx & ->). rewrite Forall_forall in Hok. specialize (Hok _ Hx).
    rewrite edit_from_to by exact Hok. destruct (rep_ok_to_repl x Hok) as (A & _). now rewrite A. }
  destruct (cut_atoms (map snd (list_pieces lm)) S) as (Xs & X1 & X2).
  { rewrite TS. symmetry. now apply pieces_text. }
  destruct (run_trace repls edit_from HE U O S Xs true 0 (mk_rmap 0 (length repls) 0)) as (st & os & E1 & E2 & E3 & E4 & E5).
  { now rewrite X1. }
  { now rewrite X1. }
  { cbn. lia. }
  { cbn. lia. }
  { right. reflexivity. }
  { apply Forall_forall. intros r _. cbn. lia. }
  { now left. }
  { apply Forall_forall. intros r _. now left. }
  rewrite X2 in E1. cbn [rm_k rm_remove] in E2. unfold SlmReplace.asc in E2 at 1. rewrite firstn_all in E2. cbn [Z.to_nat] in E2.
  rewrite !Nat.add_0_l in E2. rewrite (gforth_end edit_from S (SlmReplace.asc repls (rm_k st))) in E2 by (rewrite X1; lia).
  unfold replace_list_map.
  pose proof (map_generated_code_spec (replace_mapfun repls) (mk_rmap 0 (length repls) 0) lm Hm) as G.
  rewrite E1 in G. destruct G as (m' & Em & Ok & _ & _). rewrite Em. cbn [bind].
  destruct (map_code_spread _ _ _ _ _ _ Hm E1 Em) as (ms & M1 & M2).
  rewrite extra_code_spec by exact E3. cbn [bind].
  set (ex := flat_map rp_text (SlmReplace.asc repls (rm_k st))).
  assert (Hfin : exists lm', (match ex with [] => Some m' | _ :: _ => slm_add m' (LStr ex) None None end) = Some lm' /\ Forall node_ok lm' /\
    list_marks lm' = list_marks m' ++ mark None ex).
  { destruct ex as [|c e]; [exists m'; rewrite app_nil_r; auto|]. cbn [slm_add is_some]. eexists. split; [reflexivity|].
    destruct (add_code_ok_text m' (c :: e) Ok) as [O1 _]. split; [exact O1|]. apply add_code_marks. }
  assert (Hso : StronglySorted ranked (gforth edit_from S (rev repls) 0)).
  { apply (gforth_sorted repls edit_from HE S HS).
    - now apply Forall_rev.
    - apply sorted_rev. exact O.
    - intros r Hr. now apply in_rev. }
  pose proof (gforth_from repls edit_from HE S HS (rev repls) 0) as Hfrom. rewrite E2 in Hso, Hfrom.
  apply sorted_app_inv in Hso as (Hso & _ & _). apply Forall_app in Hfrom as [Hfrom _]. rewrite Forall_forall in Hfrom.
  destruct Hfin as (lm' & F1 & F2 & F3). exists lm', Xs, os, ms, (SlmReplace.asc repls (rm_k st)).
  split; [exact F1|]. split; [exact F2|]. split; [rewrite F3, M1; reflexivity|]. split; [exact E2|]. split; [exact X2|].
  assert (Hin : forall r, In r repls -> In (edit_from r) (edits_of h) /\ rp_text r = e_text (edit_from r)).
  { intros r Hr. destruct (Hrep r Hr) as (x & Hx & ->). rewrite Forall_forall in Hok. rewrite edit_from_to by exact (Hok _ Hx). split; [exact Hx|reflexivity]. }
  split; [exact E4|]. split; [exact M2|]. split; [exact Hso|]. split; [|split; [|split; [|split; [|split]]]].
  - intros y i Hy Ey. destruct (Hfrom y Hy) as [(j & _ & J2 & J3)|(r & R1 & R2)].
    + rewrite Ey in J2. injection J2 as ->. rewrite <- TS. now apply map_nth_error.
    + destruct (fresh_in _ _ _ R2) as (c & _ & ->). discriminate.
  - intros y e Hy Ey. destruct (Hfrom y Hy) as [(j & _ & J2 & J3)|(r & R1 & R2)]; [congruence|].
    destruct (fresh_in _ _ _ R2) as (c & C1 & ->). cbn [fst]. apply in_rev in R1. eauto.
  - intros r Hr. split; [apply HE; eapply asc_in; eauto|]. destruct E5 as [->|E5].
    + left. cbn in X2. destruct (list_pieces lm); [reflexivity|discriminate].
    + right. unfold past in E5. rewrite Forall_forall in E5. specialize (E5 r Hr). rewrite X1, LS in E5.
      rewrite pieces_marks by exact Hm. rewrite <- (map_length fst). change (map fst (list_marks lm)) with (text_of (list_marks lm)).
      rewrite text_list_marks by exact Hm. exact E5.
  - exists st. split; [exact E1|]. intro Hr. unfold ex in F1. rewrite Hr in F1. cbn in F1. injection F1 as <-. reflexivity.
  - intros r Hr. apply Hin. eapply asc_in; eauto.
  - intros y e Hy Ey. destruct (Hfrom y Hy) as [(j & _ & J2 & J3)|(r & R1 & R2)]; [congruence|].
    destruct (fresh_in _ _ _ R2) as (c & C1 & ->). cbn [fst snd] in *. injection Ey as <-. apply in_rev in R1. destruct (Hin r R1) as [A B]. split; [exact A|]. now rewrite <- B.
Qed.
Lemma replace_raw h lm : Forall call_ok h -> Forall edit_ok (edits_of h) -> Forall forward (edits_of h) ->
  ForallOrdPairs apart (edits_of h) -> Forall node_ok lm ->
  exists lm' Xs os ms rest,
    replace_list_map (rs_repls (sort_replacements (run h))) lm = Some lm' /\ Forall node_ok lm' /\
    list_marks lm' = concat ms ++ mark None (flat_map rp_text rest) /\
    traced (edits_of h) (slm_text lm) = concat os ++ flat_map (fresh edit_from) rest /\
    map (map fst) Xs = map snd (list_pieces lm) /\ ranges true 0 Xs os /\
    Forall2 (fun x m => spread (fst x) (snd x) m) (combine (map fst (list_pieces lm)) (map (map fst) os)) ms /\
    StronglySorted ranked (concat os) /\
    (forall y i, In y (concat os) -> snd y = inl i -> nth_error (slm_text lm) i = Some (fst y)) /\
    (forall y e, In y (concat os) -> snd y = inr e -> exists r, In r (rs_repls (sort_replacements (run h))) /\ In (fst y) (rp_text r)) /\
    (forall r, In r rest -> e_from (edit_from r) = rp_start_pos r /\
        (list_pieces lm = [] \/ (Z.of_nat (length (mark_pieces (list_pieces lm))) < rp_start_pos r)%Z)).
Proof.
  intros Hc Hok Hf Ha Hm. destruct (replace_full h lm Hc Hok Hf Ha Hm) as (lm' & Xs & os & ms & rest & E1 & E2 & E3 & E4 & E5 & E6 & E7 & E8 & E9 & E10 & E11 & _).
  exists lm', Xs, os, ms, rest. repeat (split; [assumption|]). exact E11.
Qed.

Theorem replace_marks h lm : Forall call_ok h -> Forall edit_ok (edits_of h) -> Forall forward (edits_of h) ->
  ForallOrdPairs apart (edits_of h) -> Forall (fun e => ~ In NL (e_text e)) (edits_of h) ->
  Forall node_ok lm -> simple_pieces lm ->
  exists lm', replace_list_map (rs_repls (sort_replacements (run h))) lm = Some lm' /\ Forall node_ok lm' /\
    Forall2 (line_kept (starts_with_text lm) (list_marks lm)) (traced (edits_of h) (slm_text lm)) (list_marks lm').
Proof.
  intros Hc Hok Hf Ha Hnl Hm Hsim.
  destruct (replace_raw h lm Hc Hok Hf Ha Hm) as (lm' & Xs & os & ms & rest & E1 & E2 & E3 & E4 & E5 & E6 & E7 & E8 & E9 & E10 & E11).
  exists lm'. split; [exact E1|]. split; [exact E2|]. rewrite E3, E4. rewrite <- (pieces_marks lm Hm). apply Forall2_app.
  - rewrite <- (app_nil_r (mark_pieces (list_pieces lm))).
    change (mark_pieces (list_pieces lm) ++ []) with ([] ++ mark_pieces (list_pieces lm) ++ []).
    apply pieces_kept with (Xs := Xs) (first := true); auto.
    + intros y i Hy Ey. cbn [app]. rewrite app_nil_r, pieces_marks, text_list_marks by exact Hm. now apply E9.
    + intros y e Hy Ey. destruct (E10 y e Hy Ey) as (r & R1 & R2). rewrite (run_sorted h Hc) in R1.
      apply in_map_iff in R1 as (x & <- & Hx). rewrite <- in_rev in Hx. apply (in_map fst) in Hx. rewrite arranged_fst in Hx.
      rewrite Forall_forall in Hnl. intro Ec. rewrite Ec in R2. apply (Hnl (fst x)); [|exact R2].
      eapply Permutation_in; [|exact Hx]. symmetry. apply arrange_perm.
  - clear -E11. induction rest as [|r l IH]; [constructor|]. cbn [flat_map].
    rewrite mark_app. apply Forall2_app; [|apply IH; intros; apply E11; now right].
    destruct (E11 r (or_introl eq_refl)) as [K1 K2]. unfold fresh, mark. clear -K1 K2.
    induction (rp_text r) as [|c l IH]; [constructor|]. cbn [map]. constructor; [|exact IH].
    split; [reflexivity|]. cbn [snd]. unfold new_line_target. rewrite K1. destruct K2 as [->|K2].
    + cbn. split; [reflexivity|]. split; [reflexivity|]. lia.
    + split; [lia|]. split; [reflexivity|]. lia.
Qed.

(** Any texts: at most one line off. *)
Lemma spread_near a y m : spread a y m -> Forall (fun x => near a (snd x)) m /\ text_of m = y.
Proof.
  assert (G : forall b s, near a b -> Forall (fun x => near a (snd x)) (mark b s)).
  { intros b s H. unfold mark. rewrite Forall_map. apply Forall_forall. intros; exact H. }
  intros [->|(u & v & -> & _ & _ & ->)].
  - split; [apply G; now left|apply text_mark].
  - split; [apply Forall_app; split; apply G; [now left|now right]|].
    unfold text_of. rewrite map_app. change (map fst (mark a (u ++ [NL]))) with (text_of (mark a (u ++ [NL]))).
    change (map fst (mark (next_line a) v)) with (text_of (mark (next_line a) v)). rewrite !text_mark, <- app_assoc. reflexivity.
Qed.
Lemma pieces_near (starts : Prop) B : forall pieces Xs os ms first A,
  (first = true -> A = [] /\ (starts -> match pieces with x :: _ => snd x <> [] | [] => True end)) ->
  map snd pieces = map (map fst) Xs -> ranges first (length A) Xs os ->
  Forall2 (fun x m => spread (fst x) (snd x) m) (combine (map fst pieces) (map (map fst) os)) ms ->
  Forall2 (line_near starts (A ++ mark_pieces pieces ++ B)) (concat os) (concat ms).
Proof.
  induction pieces as [|[a x] pieces IH]; intros [|X Xs] os ms first A Hf Hx Hr Hm; try discriminate.
  - destruct os; [|contradiction]. inversion Hm; subst. constructor.
  - destruct os as [|o os]; [contradiction|]. destruct Hr as [R1 R2]. cbn [map fst snd] in Hx, Hm. injection Hx as Ex Hx.
    cbn [combine] in Hm. inversion Hm as [|? m0 ? ms' M1 M2]; subst ms. cbn [fst snd] in M1.
    assert (EM : A ++ mark_pieces ((a, x) :: pieces) ++ B = A ++ mark a x ++ (mark_pieces pieces ++ B)).
    { cbn [mark_pieces flat_map fst snd]. now rewrite <- app_assoc. }
    assert (EM2 : A ++ mark a x ++ (mark_pieces pieces ++ B) = (A ++ mark a x) ++ mark_pieces pieces ++ B) by (now rewrite <- app_assoc).
    assert (LX : length X = length x) by (rewrite Ex, map_length; reflexivity). rewrite LX in *.
    cbn [concat] in *. apply Forall2_app.
    + rewrite EM. destruct (spread_near _ _ _ M1) as [N1 N2]. set (M := A ++ mark a x ++ (mark_pieces pieces ++ B)).
      assert (HM : length A + length x <= length M) by (unfold M, mark; rewrite !app_length, map_length; lia).
      assert (G : forall y t, ranged first (length A) (length A + length x) y -> near a t -> line_near starts M y (fst y, t)).
      { intros y t Hy Ht. split; [reflexivity|]. unfold ranged in Hy. cbn [snd]. destruct (snd y) as [i|e].
        - unfold M. now rewrite attr_inside.
        - destruct Hy as [Y1 Y2]. split; [|split].
          + intros Hle Hst. destruct Y2 as [F|F]; [|lia]. destruct (Hf F) as [EA Hne]. specialize (Hne Hst). unfold M. rewrite EA.
            change 0%Z with (Z.of_nat 0). rewrite attr_inside; [exact Ht|]. cbn [snd] in Hne. destruct x; [congruence|]. cbn. lia.
          + lia.
          + intro Hle. replace (e_from e - 1)%Z with (Z.of_nat (Z.to_nat (e_from e - 1))) by lia.
            unfold M. rewrite attr_inside; [exact Ht|]. destruct Y2 as [F|F]; [|lia]. destruct (Hf F) as [EA _]. rewrite EA in *. cbn [length] in *. lia. }
      clear -G N1 N2 R1. clearbody M. revert m0 N1 N2. induction R1 as [|y o Hy _ IHo]; intros [|[c t] m0] N1 N2; try discriminate; constructor.
      * cbn in N2. injection N2 as -> _. apply G; [exact Hy|]. now inversion N1.
      * cbn in N2. injection N2 as _ N2. apply IHo; [now inversion N1|exact N2].
    + rewrite EM, EM2. apply IH with (Xs := Xs) (first := false); auto.
      * discriminate.
      * rewrite app_length. unfold mark. rewrite map_length. exact R2.
Qed.

Theorem replace_near c m t h lm : Forall call_ok h -> Forall edit_ok (edits_of h) -> Forall forward (edits_of h) ->
  ForallOrdPairs apart (edits_of h) -> t_list_map c m t = Some lm -> Forall node_ok lm ->
  exists M', line_attributed c m (TReplace t (run h)) M' /\
    Forall2 (line_near (starts_with_text lm) (list_marks lm)) (traced (edits_of h) (slm_text lm)) M'.
Proof.
  intros Hc Hok Hf Ha E Hm.
  destruct (replace_raw h lm Hc Hok Hf Ha Hm) as (lm' & Xs & os & ms & rest & E1 & E2 & E3 & E4 & E5 & E6 & E7 & _ & _ & _ & E11).
  exists (list_marks lm'). split.
  { exists lm'. split; [|split; [exact E2|reflexivity]]. unfold t_list_map in *. cbn [fold_tree]. rewrite E. exact E1. }
  rewrite E3, E4. rewrite <- (pieces_marks lm Hm). apply Forall2_app.
  - rewrite <- (app_nil_r (mark_pieces (list_pieces lm))).
    change (mark_pieces (list_pieces lm) ++ []) with ([] ++ mark_pieces (list_pieces lm) ++ []).
    apply pieces_near with (Xs := Xs) (first := true); auto.
  - clear -E11. induction rest as [|r l IH]; [constructor|]. cbn [flat_map].
    rewrite mark_app. apply Forall2_app; [|apply IH; intros; apply E11; now right].
    destruct (E11 r (or_introl eq_refl)) as [K1 K2]. unfold fresh, mark. clear -K1 K2.
    induction (rp_text r) as [|c l IH]; [constructor|]. cbn [map]. constructor; [|exact IH].
    split; [reflexivity|]. cbn [snd]. rewrite K1. destruct K2 as [->|K2].
    + cbn. split; [left; reflexivity|]. split; [reflexivity|]. lia.
    + split; [lia|]. split; [reflexivity|]. lia.
Qed.

(** In a tree. *)
Theorem replace_lines c m t h lm : Forall call_ok h -> Forall edit_ok (edits_of h) -> Forall forward (edits_of h) ->
  ForallOrdPairs apart (edits_of h) -> Forall (fun e => ~ In NL (e_text e)) (edits_of h) ->
  t_list_map c m t = Some lm -> Forall node_ok lm -> simple_pieces lm ->
  exists M', line_attributed c m (TReplace t (run h)) M' /\
    Forall2 (line_kept (starts_with_text lm) (list_marks lm)) (traced (edits_of h) (slm_text lm)) M'.
Proof.
  intros H1 H2 H3 H4 H5 E Hm Hs. destruct (replace_marks h lm H1 H2 H3 H4 H5 Hm Hs) as (lm' & F1 & F2 & F3).
  exists (list_marks lm'). split; [|exact F3]. exists lm'. split; [|split; [exact F2|reflexivity]].
  unfold t_list_map in *. cbn [fold_tree]. rewrite E. exact F1.
Qed.

(** ** Sources without inner edits and prefixes *)
Lemma pieces_one_line s : Forall one_line (pieces NL s).
Proof.
  destruct (pieces_shape NL s) as (body & lst & E & H1 & H2). rewrite E. apply Forall_app. split.
  - apply Forall_forall. intros x Hx. destruct (H1 x Hx) as (a & -> & Ha). intros p q Epq.
    destruct q as [|c q] using rev_ind; [reflexivity|]. exfalso.
    change (p ++ NL :: q ++ [c]) with (p ++ (NL :: q) ++ [c]) in Epq. rewrite app_assoc in Epq. apply app_inj_tail in Epq as [Epq _].
    apply Ha. rewrite Epq. apply in_or_app. right. now left.
  - constructor; [|constructor]. intros p q Epq. exfalso. apply H2. rewrite Epq. apply in_or_app. right. now left.
Qed.
Lemma unsplit_simple m : Forall unsplit m -> simple_pieces m.
Proof.
  intro Hu. unfold simple_pieces, list_pieces. apply Forall_flat_map. eapply Forall_impl; [|exact Hu].
  intros n Hn. destruct n as [s|s|p|p|ch|i]; cbn [node_pieces unsplit] in *; try contradiction.
  - constructor; auto.
  - assert (HT : Forall one_line (if pc_nl p then removelast (cut_lines (pc_code p)) else cut_lines (pc_code p))).
    { rewrite cut_lines_pieces. pose proof (pieces_one_line (pc_code p)) as T2.
      destruct (pc_nl p); auto. destruct (exists_last (pieces_nonempty NL (pc_code p))) as (a & x & E).
      rewrite E, removelast_last in *. now apply Forall_app in T2 as [T2 _]. }
    generalize (Z.of_N (pc_line p)) as line. induction HT as [|x l Hx _ IH]; intro line; cbn; constructor; auto.
Qed.

Definition rd_unsplit (r : rd) : Prop := Forall unsplit (fst r).
Lemma snoc_unsplit l n : Forall unsplit (l ++ [n]) <-> Forall unsplit l /\ unsplit n.
Proof. rewrite Forall_app. split; intros [A B]; split; auto. now inversion B. Qed.
Lemma rd_code_unsplit r x : rd_unsplit r -> rd_unsplit (rd_add_code r x).
Proof.
  destruct r as [nodes csnl]. unfold rd_unsplit, rd_add_code. cbn [fst]. intro H.
  destruct (last_cases nodes) as [->|(a & n & ->)]; [cbn; repeat constructor|].
  rewrite last_opt_snoc. pose proof H as H'. apply snoc_unsplit in H as [Ha Hn].
  destruct n; try contradiction; rewrite ?set_last_snoc; cbn [fst]; [apply snoc_unsplit; split; auto|].
  destruct (blank x); cbn [fst]; apply snoc_unsplit; split; auto.
Qed.
Lemma rd_source_unsplit r x src orig line : rd_unsplit r -> rd_unsplit (rd_add_source r x src orig line).
Proof.
  destruct r as [nodes csnl]. unfold rd_unsplit, rd_add_source. cbn [fst]. intro H.
  destruct (last_cases nodes) as [->|(a & n & ->)]; [cbn; repeat constructor|].
  rewrite last_opt_snoc. pose proof H as H'. apply snoc_unsplit in H as [Ha Hn].
  destruct n; try contradiction; cbn [fst]; [apply snoc_unsplit; split; [exact H'|exact I]|].
  destruct (_ && _); rewrite ?set_last_snoc; cbn [fst]; apply snoc_unsplit; split; auto.
Qed.
Lemma read_unsplit sources contents code mappings lm : well_formed mappings ->
  slm_from_string code sources contents mappings = Some lm -> Forall unsplit lm.
Proof.
  intros W H. destruct (well_formed_numbers _ W) as (ms & Hm). rewrite (reader_exact _ _ code _ _ Hm) in H. injection H as <-.
  assert (S1 : forall line ls st added, rd_unsplit (rs_rd st) ->
    rd_unsplit (rs_rd (fst (fold_left (spec_step sources contents line) ls (st, added))))).
  { clear. induction ls as [|l ls IH]; intros st added H; [exact H|]. cbn [fold_left].
    destruct l as [|z [|s r]]; [exact (IH st added H)|exact (IH st added H)|]. cbn [spec_step]. apply IH.
    destruct added; cbn [rs_rd]; auto using rd_source_unsplit. }
  assert (S2 : forall lines ms st, rd_unsplit (rs_rd st) -> rd_unsplit (rs_rd (reader_spec sources contents ms lines st))).
  { clear -S1. induction lines as [|x lines IH]; intros ms st H; [exact H|]. cbn [reader_spec]. apply IH. unfold line_step.
    specialize (S1 x (hd [] ms) st false H). destruct (fold_left _ _ _) as [st' []]; [exact S1|]. cbn [fst rs_rd] in *.
    now apply rd_code_unsplit. }
  apply (S2 (pieces NL code) ms start). constructor.
Qed.

Lemma leaves_unsplit c m t : no_prefix t -> line_ready c m t -> forall lm, t_list_map c m t = Some lm -> Forall unsplit lm.
Proof.
  induction t as [v|v|v i n|v n o|p t IH|t st IH|l IH|x] using tree_ind'; intros W R lm E; try contradiction; try discriminate.
  - injection E as <-. repeat constructor.
  - injection E as <-. repeat constructor.
  - injection E as <-. repeat constructor.
  - apply no_prefix_concat in W. apply ready_concat in R. unfold t_list_map in *. rewrite fold_concat in E. unbind E. rename v into ys.
    cbn [list_map_alg a_concat] in E. eapply concat_unsplit; [|constructor|exact E]. clear E lm.
    revert ys E0. induction IH as [|x l Hx _ IHl]; intros ys E.
    + injection E as <-. constructor.
    + inversion W as [|? ? W1 W2]; subst. inversion R as [|? ? R1 R2]; subst. cbn [children] in E. unbind E. rename v into y. unbind E. rename v into zs. injection E as <-.
      constructor; [|eauto]. unfold child in E0. unfold ready_child in R1.
      destruct x; try (unbind E0; injection E0 as <-; cbn; eauto); injection E0 as <-; exact I.
  - unfold t_list_map in E. cbn [fold_tree list_map_alg a_sms] in E. unfold sms_list_map in E. destruct m; cbn [negb] in E.
    + destruct (R eq_refl) as (c' & d & Ed & Wf). rewrite Ed in E. cbn [bind] in E. unbind E. unbind E0. destruct v as [x' lm0].
      injection E0 as <- <-. injection E as <-. eapply read_unsplit; eauto.
    + injection E as <-. repeat constructor.
Qed.

Theorem replace_leaves c m t h M : no_prefix t -> line_ready c m t ->
  Forall call_ok h -> Forall edit_ok (edits_of h) -> Forall forward (edits_of h) ->
  ForallOrdPairs apart (edits_of h) -> Forall (fun e => ~ In NL (e_text e)) (edits_of h) ->
  line_attributed c m t M ->
  exists M', line_attributed c m (TReplace t (run h)) M' /\
    Forall2 (line_kept (forall lm, t_list_map c m t = Some lm -> starts_with_text lm) M) (traced (edits_of h) (text_of M)) M'.
Proof.
  intros W R H1 H2 H3 H4 H5 (lm & E & Hm & <-).
  destruct (replace_lines c m t h lm H1 H2 H3 H4 H5 E Hm (unsplit_simple _ (leaves_unsplit c m t W R lm E))) as (M' & A & K).
  exists M'. split; [exact A|]. rewrite text_list_marks by exact Hm. 
  assert (G : forall a b, line_kept (starts_with_text lm) (list_marks lm) a b ->
    line_kept (forall lm, t_list_map c m t = Some lm -> starts_with_text lm) (list_marks lm) a b).
  { intros a b [K1 K2]. split; [exact K1|]. destruct (snd a); [exact K2|]. destruct K2 as (L1 & L2 & L3). split; [|split; auto].
    intros G1 G2. apply L1; auto. }
  clear -K G. induction K; constructor; auto.
Qed.

(** The text of the traced characters is the edited text. *)
Lemma traced_text es s : map fst (traced es s) = edited es s.
Proof.
  assert (T : forall ps g, map fst (@texts_at atom ps g) = texts_at (map (fun p => (fst p, map fst (snd p))) ps) g).
  { intros ps g. induction ps as [|p ps IH]; [reflexivity|]. unfold texts_at in *. cbn [flat_map map fst snd]. rewrite map_app, IH.
    destruct (fst p =? g); reflexivity. }
  assert (W : forall ps k (l : list atom) pos, map fst (weave ps k pos l) =
    weave (map (fun p => (fst p, map fst (snd p))) ps) k pos (map fst l)).
  { intros ps k l. induction l as [|x l IH]; intro pos; [reflexivity|]. cbn [weave map]. rewrite !map_app, T, IH.
    destruct (k pos); reflexivity. }
  unfold traced, edited, woven. rewrite map_app, W, T, indexed_text, map_map. cbn [fst snd].
  assert (L : length (combine s (map (@inl nat edit) (seq 0 (length s)))) = length s) by (rewrite combine_length, map_length, seq_length; lia).
  rewrite L. assert (E : map (fun x : edit => (clamp (length s) (e_from x), map fst (map (fun c : char => (c, @inr nat edit x)) (e_text x)))) (arrange key_le es)
    = map (own_place (length s)) (arrange key_le es)).
  { apply map_ext. intro e. unfold own_place. rewrite map_map. cbn [fst]. now rewrite map_id. }
  rewrite E. reflexivity.
Qed.
Lemma kept_text starts M : forall o r, Forall2 (line_kept starts M) o r -> text_of r = map fst o.
Proof. induction 1 as [|x y o r [H _] _ IH]; [reflexivity|]. cbn. now rewrite H, <- IH. Qed.
