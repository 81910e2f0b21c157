(** Lists of whole lines: prefixes in front of them and edits inside lines leave whole lines. *)
From Verif Require Import Base Tactics ModelString StringFacts ModelVlq ModelSm ModelSlm
  ModelSources ModelTree SpecText SortFacts TextFacts EditFacts TreeText SpecMap VlqFacts MapFacts
  SpecAttr SpecEdit SpecLineEdit NodeFacts LeafFacts ReplaceNode SpecList SlmFacts SlmMap SlmRead SlmReplace SlmTree SlmWhole SlmProps SlmEdits IdxFacts
  ModelJs ModelJsApi SpecJs ModelEnd SpecEnd.

(** ** Single lines stay single *)
Definition slim (x : str) : Prop := count_char NL x <= 1 /\ tidy x.
Definition tidy_node (n : slm_node) : Prop := match n with LSingle p => tidy (pc_code p) | _ => True end.
Lemma tidy_pieces m : Forall tidy_node m -> Forall node_ok m -> Forall (fun x => fst x = None \/ tidy (snd x)) (list_pieces m).
Proof.
  intros Hu Hm. unfold list_pieces. apply Forall_flat_map. rewrite Forall_forall in *. intros n Hn. specialize (Hu n Hn). specialize (Hm n Hn).
  destruct n as [s|s|p|p|ch|i]; try contradiction; [constructor; auto| |constructor; auto].
  assert (U : Forall unsplit [LSource p]) by repeat constructor. assert (K : Forall node_ok [LSource p]) by (constructor; [exact Hm|constructor]). pose proof (unsplit_tidy [LSource p] U K) as T. unfold list_pieces in T. cbn [flat_map] in T. now rewrite app_nil_r in T.
Qed.
Lemma unsplit_tidy_node m : Forall unsplit m -> Forall tidy_node m.
Proof. apply Forall_impl. intros [] H; try contradiction; exact I. Qed.
Definition cm_tidy (y : str + slm) : Prop := match y with inl _ => True | inr m => Forall tidy_node m end.
Lemma concat_tidy : forall ys m m', Forall cm_tidy ys -> Forall tidy_node m -> concat_list_map ys m = Some m' -> Forall tidy_node m'.
Proof.
  induction ys as [|y ys IH]; intros m m' Hy Hm H; cbn [concat_list_map] in H; [now injection H as <-|].
  inversion Hy as [|? ? Y1 Y2]; subst. unbind H. eapply IH; [exact Y2| |exact H].
  destruct y as [s|c]; cbn [slm_add is_some] in E; injection E as <-; [|apply Forall_app; auto].
  destruct (add_code_cases m s) as [(m0 & t & -> & ->)| ->]; apply Forall_app; [apply Forall_app in Hm as [Hm _]|];
    (split; [exact Hm|constructor; [exact I|constructor]]).
Qed.

Lemma ends_count x : ends x -> 1 <= count_char NL x.
Proof.
  intro H. destruct (count_char NL x) eqn:E; [|lia]. exfalso. unfold ends in H.
  assert (N : ~ In NL x) by (rewrite <- count_pos_in; lia). rewrite <- (app_nil_r x) in N. destruct x as [|c x]; [discriminate|].
  rewrite app_nil_r in N. clear E. revert c H N. induction x as [|d x IH]; intros c H N.
  - cbn in H. apply N.eqb_eq in H. apply N. now left.
  - apply (IH d); [exact H|]. intro Z. apply N. now right.
Qed.
Definition closed_node (n : slm_node) : Prop := node_ok n /\ tidy_node n /\ ends (text_node n).
Lemma merge_closed a b x : closed_node a -> closed_node b -> node_merge a b = Some x -> closed_node x.
Proof.
  intros (A1 & A2 & A3) (B1 & B2 & B3) H. destruct (merge_text a b x A1 B1 H) as [O T].
  split; [exact O|]. split; [|rewrite T; unfold ends; rewrite ends_with_tail; [exact B3|]; intro Z; rewrite Z in B3; discriminate].
  apply ends_count in A3, B3. destruct a as [?|s|p|p|?|?], b as [?|t|q|q|?|?]; try discriminate; cbn [node_merge text_node] in *.
  - injection H as <-. exact I.
  - unfold source_merge_source in H. destruct (_ && _); [|discriminate]. injection H as <-. exact I.
  - unfold source_merge_single in H. destruct (_ && _); [|discriminate]. injection H as <-. exact I.
  - unfold single_merge_single in H. destruct (_ && _); [|discriminate]. destruct (_ =? _)%N.
    + injection H as <-. cbn [tidy_node piece_append pc_code]. intro C. rewrite count_app in C. lia.
    + destruct (_ && _); [|discriminate]. injection H as <-. exact I.
Qed.
Lemma push_closed acc n : Forall closed_node acc -> closed_node n -> Forall closed_node (push_merge acc (Some n)).
Proof.
  intros Ha Hn. destruct acc as [|last rest]; cbn [push_merge]; [now constructor|].
  inversion Ha as [|? ? H1 H2]; subst. destruct (node_merge last n) as [x|] eqn:E; [|constructor; [exact Hn|exact Ha]]. constructor; [|exact H2]. exact (merge_closed last n x H1 Hn E).
Qed.
Lemma loop_closed {S} (f : mapfun S) : forall l xs, Forall2 says l xs -> forall st acc st' outs, Forall closed_node acc ->
  run_fun f st (map snd xs) = Some (st', outs) -> Forall2 (fun x y => fst x = None \/ tidy y) xs outs -> Forall ends outs ->
  forall st2 acc', map_loop f st l acc = Some (st2, acc') -> Forall closed_node acc'.
Proof.
  induction 1 as [|n [t s] l xs Hn Hl IH]; intros st acc st' outs Ha Hr Ht He st2 acc' Hm.
  - cbn in Hm. now injection Hm as _ <-.
  - cbn [map snd run_fun] in Hr. unbind Hr. destruct v as [st1 y]. unbind Hr. destruct v as [st3 ys]. injection Hr as <- <-.
    inversion Ht as [|? ? ? ? T1 T2]; subst. inversion He as [|? ? E1 E2]; subst. cbn [fst] in T1.
    assert (G : exists n', node_map f st n = Some (st1, Some n') /\ closed_node n').
    { destruct n as [?|c|p|p|?|?]; try contradiction; cbn [node_map says] in *.
      - injection Hn as -> ->. rewrite E. exists (LCode y). repeat split. exact E1.
      - destruct Hn as [_ Hn]. injection Hn as -> ->. rewrite E. eexists. split; [reflexivity|]. split; [apply counted_new|].
        destruct T1 as [T1|T1]; [discriminate|]. split; [exact T1|exact E1]. }
    destruct G as (n' & G1 & G2). cbn [map_loop] in Hm. rewrite G1 in Hm. cbn [bind] in Hm.
    eapply IH; [|exact E0|exact T2|exact E2|exact Hm]. now apply push_closed.
Qed.

(** ** The lines of one source are merged again *)
Definition one_node (m : slm) : Prop :=
  exists n, m = [n] /\ match n with LCode _ | LSource _ => True | LSingle p => slim (pc_code p) | _ => False end.
Lemma one_tidy m : one_node m -> Forall tidy_node m.
Proof. intros (n & -> & H). constructor; [|constructor]. destruct n; try exact I. apply H. Qed.
Definition reaches (src orig : option Z) (k : N) (n : slm_node) : Prop :=
  match n with
  | LSource q => pc_src q = src /\ pc_nl q = true /\ (pc_line q + N.of_nat (pc_n q) = k)%N
  | LSingle q => pc_src q = src /\ pc_orig q = orig /\ pc_nl q = true /\ pc_n q = 1 /\ (pc_line q + 1 = k)%N /\ slim (pc_code q) /\ count_char NL (pc_code q) = 1
  | _ => False
  end.
Lemma optZ_refl o : optZ_eqb o o = true.
Proof. destruct o; cbn; [apply Z.eqb_refl|reflexivity]. Qed.
Lemma reach_merge src orig k n y : reaches src orig k n -> slim y ->
  exists q, node_merge n (LSingle (piece_new y src orig k)) = Some (LSource q) /\ (ends y -> reaches src orig (k + 1) (LSource q)).
Proof.
  intros H [C T]. destruct n as [?|?|p|p|?|?]; try contradiction; cbn [node_merge reaches] in *.
  - destruct H as (H1 & H2 & H3). unfold source_merge_single. cbn [piece_new pc_src pc_line pc_n]. rewrite H1, optZ_refl, H2, H3, N.eqb_refl. cbn [andb].
    unfold number_of_lines. destruct (Nat.leb_spec (count_char NL y) 1); [|lia]. eexists. split; [reflexivity|]. intro E. pose proof (ends_count y E).
    cbn [piece_append reaches pc_src pc_nl pc_line pc_n piece_new]. unfold number_of_lines. split; [exact H1|]. split; [exact E|]. lia.
  - destruct H as (H1 & H2 & H3 & H4 & H5 & H6 & H7). unfold single_merge_single. cbn [piece_new pc_src pc_orig pc_line pc_n]. rewrite H1, H2, !optZ_refl, H3, H4, H5, N.eqb_refl. cbn [andb].
    destruct (N.eqb_spec (pc_line p) k); [lia|]. unfold number_of_lines. rewrite Nat.eqb_refl. destruct (Nat.leb_spec (count_char NL y) 1); [|lia]. eexists. split; [reflexivity|].
    intro E. pose proof (ends_count y E). cbn [reaches pc_src pc_nl pc_line pc_n pc_code piece_new]. unfold number_of_lines. split; [reflexivity|].
    split; [rewrite ends_with_tail; [exact E|]; intros ->; discriminate|]. rewrite count_app.
    lia.
Qed.
Lemma loop_reach {S} (f : mapfun S) src orig : forall ps k st n st' ys, reaches src orig k n -> run_fun f st ps = Some (st', ys) -> ys = [] \/ at_line_ends ys -> Forall slim ys ->
  exists n', map_loop f st (map (as_single src orig) (numberN k ps)) [n] = Some (st', [n']) /\ match n' with LSource _ => True | LSingle p => slim (pc_code p) | _ => False end.
Proof.
  induction ps as [|x ps IH]; intros k st n st' ys R Hr He Hs.
  - cbn in Hr. injection Hr as <- <-. exists n. split; [reflexivity|]. destruct n; try contradiction; [exact I|]. apply R.
  - cbn [run_fun] in Hr. unbind Hr. destruct v as [st1 y]. unbind Hr. destruct v as [st3 zs]. injection Hr as <- <-.
    inversion Hs as [|? ? S1 S2]; subst. destruct (reach_merge src orig k n y R S1) as (q & M & N).
    cbn [numberN map map_loop as_single fst snd node_map piece_new pc_code]. rewrite E. cbn [bind push_merge pc_src pc_orig pc_line].
    change (pc_src (piece_new x src orig k)) with src. change (pc_orig (piece_new x src orig k)) with orig. change (pc_line (piece_new x src orig k)) with k. rewrite M.
    destruct He as [He|He]; [discriminate|]. destruct zs as [|z zs].
    + destruct ps as [|x2 ps]; [|cbn in E0; unbind E0; destruct v as [s1 y1]; unbind E0; destruct v as [s2 y2]; discriminate].
      cbn in E0. injection E0 as <-. exists (LSource q). split; [reflexivity|exact I].
    + destruct He as (He1 & _ & He2). eapply IH; [apply N; exact He1|exact E0|right; exact He2|exact S2].
Qed.
Lemma map_one {S} (f : mapfun S) st m st' outs m' : one_node m -> Forall node_ok m -> run_fun f st (map snd (list_pieces m)) = Some (st', outs) -> at_line_ends outs ->
  Forall2 (fun x y => fst x = None \/ slim y) (list_pieces m) outs -> map_generated_code f st m = Some (st', m') -> one_node m'.
Proof.
  intros (n & -> & Hn) Ok Hr He Ht Hm. inversion Ok as [|? ? O _]; subst. unfold map_generated_code in Hm. rewrite normalize_all_spec in Hm. cbn [bind] in Hm.
  unb Hm as [st2 acc] E. injection Hm as -> <-. cbn [flat_map] in E. rewrite app_nil_r in E. unfold list_pieces in Hr, Ht. cbn [flat_map] in Hr, Ht. rewrite app_nil_r in Hr, Ht.
  destruct n as [?|s|p|p|?|?]; try contradiction; cbn [normal_node node_pieces] in *.
  - cbn [map snd run_fun] in Hr. unb Hr as [st1 y] F. injection Hr as _ <-. cbn [map_loop node_map] in E. rewrite F in E. cbn in E. injection E as _ <-. exists (LCode y). split; [reflexivity|exact I].
  - rewrite <- cut_lines_pieces in E.
    set (ps := if pc_nl p then removelast (cut_lines (pc_code p)) else cut_lines (pc_code p)) in *.
    assert (Hs : Forall slim outs).
    { clear - Ht. revert Ht. generalize (Z.of_N (pc_line p)). revert outs. induction ps as [|x ps IH]; intros outs z Ht; inversion Ht as [|? ? ? ? T1 T2]; subst; constructor; [|eapply IH; exact T2].
      destruct T1 as [T1|T1]; [discriminate|exact T1]. }
    rewrite number_texts in Hr. clearbody ps. destruct ps as [|x ps]; [cbn in Hr; injection Hr as <- <-; destruct He|].
    cbn [run_fun] in Hr. unb Hr as [st1 y] F. unb Hr as [st3 ys] F2. injection Hr as -> <-. inversion Hs as [|? ? S1 S2]; subst.
    cbn [numberN map map_loop as_single fst snd node_map piece_new pc_code] in E. rewrite F in E. cbn [bind push_merge pc_src pc_orig pc_line] in E.
    change (pc_src (piece_new x (pc_src p) (pc_orig p) (pc_line p))) with (pc_src p) in E. change (pc_orig (piece_new x (pc_src p) (pc_orig p) (pc_line p))) with (pc_orig p) in E.
    change (pc_line (piece_new x (pc_src p) (pc_orig p) (pc_line p))) with (pc_line p) in E.
    destruct ys as [|z ys].
    + destruct ps as [|x2 ps]; [|cbn in F2; unb F2 as [s1 y1] G1; unb F2 as [s2 y2] G2; discriminate].
      cbn in E. injection E as _ <-. eexists. split; [reflexivity|exact S1].
    + destruct He as (He1 & _ & He2).
      assert (R : reaches (pc_src p) (pc_orig p) (pc_line p + 1) (LSingle (piece_new y (pc_src p) (pc_orig p) (pc_line p)))).
      { pose proof (ends_count y He1) as C. pose proof S1 as [C2 _]. cbn [reaches piece_new pc_src pc_orig pc_nl pc_n pc_line pc_code]. unfold number_of_lines. split; [reflexivity|]. split; [reflexivity|]. split; [exact He1|]. split; [lia|]. split; [reflexivity|]. split; [exact S1|lia]. }
      destruct (loop_reach f _ _ ps _ _ _ _ _ R F2 (or_intror He2) S2) as (n' & G1 & G2). unfold as_single in E, G1. rewrite G1 in E. injection E as <-.
      exists n'. split; [reflexivity|]. destruct n'; auto.
  - cbn [map snd run_fun] in Hr. unb Hr as [st1 y] F. injection Hr as _ <-. cbn [map_loop node_map] in E. rewrite F in E. cbn in E. injection E as _ <-.
    inversion Ht as [|? ? ? ? T1 _]; subst. destruct T1 as [T1|T1]; [discriminate|]. eexists. split; [reflexivity|exact T1].
Qed.

(** ** Functions that keep lines *)
Definition wholes (m : slm) : Prop := good m /\ Forall tidy_node m.
Definition keeps (x : option target * str) (y : str) : Prop := fst x = None \/ (slim (snd x) -> slim y).
Theorem map_whole {S} (f : mapfun S) st m st' outs m' : wholes m -> run_fun f st (map snd (list_pieces m)) = Some (st', outs) -> at_line_ends outs ->
  Forall2 keeps (list_pieces m) outs -> (one_node m \/ Forall ends outs) -> map_generated_code f st m = Some (st', m') -> wholes m' /\ (one_node m -> one_node m').
Proof.
  intros [(G1 & G2 & G3) T] Hr He Hk Ho Hm.
  assert (One : one_node m -> one_node m').
  { intro On. eapply map_one; eauto. pose proof (tidy_pieces m T G1) as Tp.
    assert (Sl : Forall (fun x => fst x = None \/ slim (snd x)) (list_pieces m)).
    { destruct On as (n & -> & Hn). unfold list_pieces. cbn [flat_map]. rewrite app_nil_r. destruct n as [?|s|p|p|?|?]; try contradiction; cbn [node_pieces].
      - constructor; auto.
      - rewrite cut_lines_pieces. destruct (pieces_tidy (pc_code p)) as [P _].
        assert (P2 : Forall slim (if pc_nl p then removelast (pieces NL (pc_code p)) else pieces NL (pc_code p))).
        { destruct (pc_nl p); [|exact P]. destruct (exists_last (pieces_nonempty NL (pc_code p))) as (a & x & E). rewrite E, removelast_last in *. now apply Forall_app in P as [P _]. }
        clear - P2. generalize (Z.of_N (pc_line p)) as line. induction P2 as [|x l Hx _ IH]; intro line; cbn; constructor; auto.
      - constructor; auto. }
    clear - Sl Hk. induction Hk as [|x y l outs H1 _ IH]; constructor; inversion Sl as [|? ? L1 L2]; subst; auto.
    destruct H1 as [H1|H1]; [now left|]. destruct L1 as [L1|L1]; [now left|]. right. auto. }
  split; [|exact One]. unfold map_generated_code in Hm. rewrite normalize_all_spec in Hm. cbn [bind] in Hm. unb Hm as [st2 acc] E. injection Hm as -> <-. split.
  - eapply (map_loop_good f _ _ (normals_say m G1) st []); [split; [constructor|split; constructor]|exact Hr|exact He|right; reflexivity|exact E].
  - destruct Ho as [Ho|Ho]; [now apply one_tidy, One|]. apply Forall_rev.
    eapply Forall_impl; [|eapply (loop_closed f _ _ (normals_say m G1) st [] st' outs (Forall_nil _) Hr); [|exact Ho|exact E]].
    + intros n (_ & H & _). exact H.
    + clear - Ho Hk. induction Hk as [|x y l outs _ _ IH]; constructor; inversion Ho as [|? ? L1 L2]; subst; auto. right. intros _. exact L1.
Qed.

(** ** Prefixes *)
Lemma prefixed_at_ends p l : at_line_ends l -> at_line_ends (map (prefixed p) l).
Proof.
  intro H. induction l as [|x r IH]; [exact H|]. destruct r as [|y r]; [exact I|].
  destruct H as (A & B & C). specialize (IH C). cbn [map at_line_ends] in *. split; [|split; [|exact IH]].
  - unfold prefixed. rewrite ends_with_tail, ends_indent; [exact A|]. intro Z. pose proof (ends_indent p x) as X. rewrite Z, A in X. discriminate.
  - intro Z. apply B. change (prefixed p y :: map (prefixed p) r) with (map (prefixed p) (y :: r)) in Z.
    rewrite prefixed_pieces in Z by exact C. unfold prefixed in Z. apply app_eq_nil in Z as [_ Z].
    destruct (concat (y :: r)) as [|c w]; [reflexivity|]. exfalso. cbn in Z. destruct w, (N.eqb c NL); discriminate.
Qed.
Lemma count_none p : ~ In NL p -> count_char NL p = 0.
Proof. intro H. destruct (count_char NL p) eqn:E; [reflexivity|]. exfalso. apply H, count_pos_in. lia. Qed.
Theorem prefix_whole p lm lm' : ~ In NL p -> wholes lm -> one_node lm \/ ends (slm_text lm) -> prefix_list_map p lm = Some lm' ->
  wholes lm' /\ (one_node lm -> one_node lm') /\ slm_text lm' = prefixed p (slm_text lm).
Proof.
  intros Hp W Ho E. pose proof W as [G T]. pose proof G as (G1 & G2 & G3). unfold prefix_list_map in E. unb E as [st m0] E1. injection E as <-. destruct st.
  destruct (map_whole (prefix_mapfun p) tt lm tt (map (prefixed p) (map snd (list_pieces lm))) m0 W (run_prefix p _)) as [A B]; auto.
  - fold (texts lm). now apply prefixed_at_ends.
  - clear - Hp. induction (list_pieces lm) as [|x l IH]; cbn [map]; constructor; auto. right. intros [C H]. split; [|now apply tidy_prefixed].
    unfold prefixed. rewrite count_app, count_indent by exact Hp. now rewrite count_none.
  - destruct Ho as [Ho|Ho]; [now left|right]. destruct (good_full lm G Ho) as (_ & _ & F). fold (texts lm). clear - F. induction F as [|x l Hx _ IH]; cbn [map]; constructor; auto.
    unfold ends, prefixed in *. rewrite ends_with_tail, ends_indent; [exact Hx|]. intro Z. pose proof (ends_indent p x) as X. rewrite Z, Hx in X. discriminate.
  - split; [exact A|]. split; [exact B|].
    destruct (prefix_list_map_spec p lm G1) as (m2 & E2 & _ & Tx & _). unfold prefix_list_map in E2. rewrite E1 in E2. cbn [bind] in E2. injection E2 as <-.
    rewrite Tx. rewrite <- (pieces_text lm G1). apply prefixed_pieces. exact G3.
Qed.

(** ** Edits inside lines *)
Lemma nth_mid {A} (a b c : list A) i : i < length b -> nth_error (a ++ b ++ c) (length a + i) = nth_error b i.
Proof. intro H. rewrite nth_error_app2, Nat.add_comm, Nat.add_sub by lia. now apply nth_error_app1. Qed.
Lemma none_in x : count_char NL x = 0 -> ~ In NL x.
Proof. intros H I. apply count_pos_in in I. lia. Qed.
Lemma ends_snoc x : ends x -> exists a, x = a ++ [NL].
Proof.
  intro H. destruct x as [|c x]; [discriminate|]. destruct (@exists_last _ (c :: x)) as (a & z & E); [discriminate|]. rewrite E in *. exists a.
  unfold ends in H. rewrite ends_with_tail in H by discriminate. cbn in H. apply N.eqb_eq in H. now subst.
Qed.
Lemma snoc_ends a : ends (a ++ [NL]).
Proof. unfold ends. rewrite ends_with_tail by discriminate. reflexivity. Qed.
Lemma ranges_from : forall Xs os first P, ranges first P Xs os -> forall y i, In y (concat os) -> snd y = inl i -> P <= i.
Proof.
  induction Xs as [|X Xs IH]; intros [|o os] first P H y i Hy Ey; try contradiction. destruct H as [H1 H2]. cbn [concat] in Hy. apply in_app_or in Hy as [Hy|Hy].
  - rewrite Forall_forall in H1. specialize (H1 y Hy). unfold ranged in H1. rewrite Ey in H1. lia.
  - specialize (IH os false _ H2 y i Hy Ey). lia.
Qed.
Section Edits.
  Variables (s : str) (es : list edit).
  Hypothesis Hw : Forall (within s) es.
  Definition stems (y : atom) : Prop :=
    match snd y with inl i => nth_error s i = Some (fst y) | inr e => In e es /\ In (fst y) (e_text e) end.
  Lemma new_char y e : stems y -> snd y = inr e -> fst y <> NL.
  Proof. intros H E Z. unfold stems in H. rewrite E in H. destruct H as [H1 H2]. rewrite Forall_forall in Hw. destruct (Hw e H1) as [W _]. now rewrite <- Z in W. Qed.
  Lemma one_out first u x v o : s = u ++ x ++ v -> Forall (ranged first (length u) (length u + length x)) o -> StronglySorted ranked o -> Forall stems o ->
    (forall j, length u <= j < length u + length x -> nth_error s j = Some NL -> In (NL, inl j) o) ->
    (ends x -> ends (map fst o)) /\ (slim x -> slim (map fst o)).
  Proof.
    intros Es Hr Ho Hs Hk.
    assert (Old : forall y i, In y o -> snd y = inl i -> nth_error x (i - length u) = Some (fst y) /\ length u <= i < length u + length x).
    { intros y i Hy Ey. rewrite Forall_forall in Hr, Hs. specialize (Hr y Hy). specialize (Hs y Hy). unfold ranged in Hr. unfold stems in Hs. rewrite Ey in *. split; [|exact Hr].
      rewrite Es in Hs. replace i with (length u + (i - length u)) in Hs by lia. now rewrite nth_mid in Hs by lia. }
    assert (End : forall a, x = a ++ [NL] -> exists o', o = o' ++ [(NL, inl (length u + length a))] /\ Forall (fun y => forall i, snd y = inl i -> nth_error a (i - length u) = Some (fst y)) o').
    { intros a Ea. assert (Lx : length x = length a + 1) by (rewrite Ea, app_length; reflexivity).
      assert (Nl : nth_error s (length u + length a) = Some NL).
      { rewrite Es, nth_mid by lia. rewrite Ea, nth_error_app2, Nat.sub_diag by lia. reflexivity. }
      assert (In0 : In (NL, inl (length u + length a)) o) by (apply Hk; [lia|exact Nl]).
      apply in_split in In0 as (o1 & o2 & ->). apply sorted_app_inv in Ho as (_ & Ho & H12).
      assert (o2 = []) as ->.
      { destruct o2 as [|z o2]; [reflexivity|]. exfalso. inversion Ho as [|? ? _ Hz]; subst. inversion Hz as [|? ? Hz1 _]; subst. unfold ranked in Hz1. cbn [snd] in Hz1.
        assert (Iz : In z (o1 ++ (NL, inl (length u + length a)) :: z :: o2)) by (apply in_or_app; right; right; now left).
        rewrite Forall_forall in Hr, Hs. specialize (Hr z Iz). specialize (Hs z Iz). unfold ranged in Hr. unfold stems in Hs. destruct (snd z) as [i|e]; [lia|].
        destruct Hs as [Hs _]. rewrite Forall_forall in Hw. destruct (Hw e Hs) as (_ & _ & W & _). apply W; [lia|].
        replace (Z.to_nat (e_from e - 1)) with (length u + length a) by lia. exact Nl. }
      exists o1. split; [reflexivity|]. apply Forall_forall. intros y Hy i Ey. assert (Iy : In y (o1 ++ [(NL, inl (length u + length a))])) by (apply in_or_app; now left).
      destruct (Old y i Iy Ey) as [A B]. assert (Lt : i < length u + length a).
      { rewrite Forall_forall in H12. specialize (H12 y Hy). inversion H12 as [|? ? H13 _]; subst. unfold ranked in H13. cbn [snd] in H13. rewrite Ey in H13. exact H13. }
      rewrite Ea in A. now rewrite nth_error_app1 in A by lia. }
    assert (New : forall o', incl o' o -> forall a, ~ In NL a -> Forall (fun y => forall i, snd y = inl i -> nth_error a (i - length u) = Some (fst y)) o' -> count_char NL (map fst o') = 0).
    { intros o' Hi a Ha Hf. apply count_none. intro Z. apply in_map_iff in Z as (y & Ey & Iy). rewrite Forall_forall in Hf, Hs. destruct (snd y) as [i|e] eqn:E.
      - specialize (Hf y Iy i E). rewrite Ey in Hf. apply Ha. eapply nth_error_In; exact Hf.
      - exact (new_char y e (Hs y (Hi y Iy)) E Ey). }
    split.
    - intro H. destruct (ends_snoc x H) as (a & Ea). destruct (End a Ea) as (o' & -> & _). rewrite map_app. apply snoc_ends.
    - intros [C T]. destruct (ends_with NL x) eqn:E.
      + destruct (ends_snoc x E) as (a & Ea). destruct (End a Ea) as (o' & Eo & Hf). rewrite Ea, count_app in C. cbn in C.
        assert (C0 : count_char NL (map fst o') = 0) by (apply (New o') with (a := a); [rewrite Eo; intros z Hz; apply in_or_app; now left|apply none_in; lia|exact Hf]).
        rewrite Eo, map_app. split; [rewrite count_app, C0; cbn; lia|]. intros _. apply snoc_ends.
      + assert (C1 : count_char NL x = 0) by (destruct (count_char NL x) as [|[|]] eqn:E2; [reflexivity|specialize (T E2); congruence|lia]).
        assert (C0 : count_char NL (map fst o) = 0).
        { apply (New o) with (a := x); [intros z Hz; exact Hz|now apply none_in|]. apply Forall_forall. intros y Hy i Ey. now apply Old. }
        split; [lia|]. intro Z. lia.
  Qed.
  Lemma all_outs : forall Xs os first u, s = u ++ map fst (concat Xs) -> ranges first (length u) Xs os -> StronglySorted ranked (concat os) -> Forall stems (concat os) ->
    (forall j, length u <= j < length s -> nth_error s j = Some NL -> In (NL, inl j) (concat os)) ->
    Forall2 (fun x y => (ends x -> ends y) /\ (slim x -> slim y)) (map (map fst) Xs) (map (map fst) os).
  Proof.
    induction Xs as [|X Xs IH]; intros [|o os] first u Es Hr Ho Hs Hk; try contradiction; [constructor|]. destruct Hr as [R1 R2]. cbn [concat map] in *.
    apply sorted_app_inv in Ho as (Ho1 & Ho2 & _). apply Forall_app in Hs as [Hs1 Hs2]. rewrite map_app in Es.
    assert (Ls : length s = length u + (length X + length (concat Xs))) by (rewrite Es at 1; rewrite !app_length, !map_length; reflexivity).
    assert (Lu : length (u ++ map fst X) = length u + length X) by (rewrite app_length, map_length; reflexivity).
    constructor.
    - apply (one_out first u (map fst X) (map fst (concat Xs)) o Es); auto; [now rewrite map_length|].
      intros j Hj Nl. rewrite map_length in Hj. assert (Hj2 : length u <= j < length s) by lia.
      specialize (Hk j Hj2 Nl). apply in_app_or in Hk as [Hk|Hk]; [exact Hk|]. exfalso.
      pose proof (ranges_from _ _ _ _ R2 _ j Hk eq_refl). lia.
    - apply (IH os false (u ++ map fst X)); auto; [now rewrite <- app_assoc|now rewrite Lu|].
      intros j Hj Nl. rewrite Lu in Hj. assert (Hj2 : length u <= j < length s) by lia.
      specialize (Hk j Hj2 Nl). apply in_app_or in Hk as [Hk|Hk]; [|exact Hk]. exfalso.
      rewrite Forall_forall in R1. specialize (R1 _ Hk). unfold ranged in R1. cbn [snd] in R1. lia.
  Qed.
End Edits.
Lemma weave_keeps {A} ps keep : forall (l : list A) pos i x, nth_error l i = Some x -> keep (pos + i) = true -> In x (weave ps keep pos l).
Proof.
  induction l as [|c l IH]; intros pos i x H K; [destruct i; discriminate|]. cbn [weave]. apply in_or_app. right. apply in_or_app.
  destruct i as [|i]; [left; cbn in H; injection H as <-; rewrite Nat.add_0_r in K; rewrite K; now left|]. right. apply (IH (S pos) i x H). now rewrite <- K, Nat.add_succ_r.
Qed.
Lemma traced_keeps es s j c : nth_error s j = Some c -> covered es j = false -> In (c, inl j) (traced es s).
Proof.
  intros H C. unfold traced, woven. apply in_or_app. left. apply weave_keeps with (i := j); [|cbn; rewrite ?C; reflexivity].
  assert (L : j < length s) by (apply nth_error_Some; congruence). clear C.
  assert (G : forall s k j, nth_error s j = Some c -> nth_error (combine s (map (@inl nat edit) (seq k (length s)))) j = Some (c, inl (k + j))).
  { clear. induction s as [|d s IH]; intros k j H; [destruct j; discriminate|]. destruct j as [|j]; cbn in *; [injection H as ->; now rewrite Nat.add_0_r|].
    rewrite (IH (S k) j H). now replace (S k + j) with (k + S j) by lia. }
  exact (G s 0 j H).
Qed.
Lemma at_ends_body l : at_line_ends l -> exists b x, l = b ++ [x] /\ Forall ends b.
Proof.
  induction l as [|x r IH]; intro H; [destruct H|]. destruct r as [|y r]; [exists [], x; split; [reflexivity|constructor]|].
  destruct H as (H1 & _ & H3). destruct (IH H3) as (b & z & -> & Hb). exists (x :: b), z. split; [reflexivity|]. now constructor.
Qed.
Theorem edit_whole h lm lm' : Forall call_ok h -> Forall edit_ok (edits_of h) -> Forall forward (edits_of h) -> ForallOrdPairs apart (edits_of h) ->
  wholes lm -> one_node lm \/ ends (slm_text lm) -> Forall (within (slm_text lm)) (edits_of h) ->
  ends_with NL (edited (edits_of h) (slm_text lm)) = ends_with NL (slm_text lm) ->
  replace_list_map (rs_repls (sort_replacements (run h))) lm = Some lm' ->
  wholes lm' /\ (one_node lm -> one_node lm') /\ slm_text lm' = edited (edits_of h) (slm_text lm).
Proof.
  intros H1 H2 H3 H4 W Ho Hw He E. pose proof W as [G T]. pose proof G as (G1 & G2 & G3).
  destruct (replace_full h lm H1 H2 H3 H4 G1) as (m2 & Xs & os & ms & rest & E1 & E2 & E3 & E4 & E5 & E6 & E7 & E8 & E9 & _ & E11 & (st & Er & Em) & E13 & E14).
  rewrite E in E1. injection E1 as <-. set (s := slm_text lm) in *.
  assert (Tp : concat (map snd (list_pieces lm)) = s) by (apply pieces_text; exact G1).
  assert (Hrest : rest = []).
  { destruct rest as [|r rest]; [reflexivity|]. exfalso. destruct (E11 r (or_introl eq_refl)) as [F1 F2]. specialize (E13 r (or_introl eq_refl)).
    rewrite Forall_forall in Hw. destruct (Hw _ E13) as (_ & W2 & _). destruct F2 as [F2|F2]; [unfold texts in G3; rewrite F2 in G3; destruct G3|].
    rewrite <- (map_length fst) in F2. change (map fst (mark_pieces (list_pieces lm))) with (text_of (mark_pieces (list_pieces lm))) in F2. rewrite text_pieces, Tp in F2. rewrite <- F1 in F2. exact (proj1 (Z.lt_nge _ _) F2 W2). }
  subst rest. cbn [flat_map] in E4. rewrite app_nil_r in E4. specialize (Em eq_refl).
  assert (Sx : s = [] ++ map fst (concat Xs)) by (cbn [app]; rewrite <- Tp, <- E5, concat_map; reflexivity).
  assert (Out : Forall2 (fun x y => (ends x -> ends y) /\ (slim x -> slim y)) (texts lm) (map (map fst) os)).
  { unfold texts. rewrite <- E5. apply (all_outs s (edits_of h) Hw Xs os true [] Sx E6 E8).
    - apply Forall_forall. intros y Hy. unfold stems. destruct (snd y) as [i|e] eqn:Ey; [now apply E9|now apply E14].
    - intros j Hj Nl. rewrite <- E4. apply traced_keeps; [exact Nl|]. unfold covered. destruct (existsb (fun e => covers e j) (edits_of h)) eqn:C; [|reflexivity]. exfalso.
      apply existsb_exists in C as (e & I0 & C). rewrite Forall_forall in Hw. destruct (Hw e I0) as (_ & _ & _ & W4). exact (W4 j C Nl). }
  assert (Te : edited (edits_of h) s = concat (map (map fst) os)) by (rewrite <- traced_text, E4; apply concat_map).
  assert (Hall : ends s -> Forall ends (map (map fst) os)).
  { intro H. destruct (good_full lm G H) as (_ & _ & F). clear - F Out. induction Out as [|x y l r [A _] _ IH]; constructor; inversion F; subst; auto. }
  assert (Lo : length (texts lm) = length (map (map fst) os)) by (clear - Out; induction Out; cbn; congruence).
  assert (Hends : at_line_ends (map (map fst) os)).
  { destruct (ends_with NL s) eqn:Es.
    - apply full_at_ends; [|now apply Hall]. intro Z. rewrite Z in Lo. destruct (texts lm); [destruct G3|discriminate].
    - destruct (at_ends_body _ G3) as (b & x & Eb & Hb). rewrite Eb in Out. apply Forall2_app_inv_l in Out as (b2 & r2 & O1 & O2 & Eo). rewrite Eo.
      inversion O2 as [|? y ? ? _ O3]; subst. inversion O3; subst.
      assert (Hb2 : Forall ends b2) by (clear - Hb O1; induction O1 as [|x y l r [A _] _ IH]; constructor; inversion Hb; subst; auto).
      apply at_ends_app; [exact Hb2|discriminate| |exact I]. cbn [concat]. rewrite app_nil_r. destruct y as [|c y]; [|left; discriminate]. right.
      destruct b2 as [|z b2]; [reflexivity|]. exfalso. rewrite Te, Eo, concat_app in He. cbn [concat] in He. rewrite app_nil_r in He.
      assert (F : ends (concat (z :: b2))).
      { destruct (@exists_last _ (z :: b2)) as (b0 & w & Ew); [discriminate|]. rewrite Ew in *. apply Forall_app in Hb2 as [_ Hb2].
        inversion Hb2 as [|? ? Hz _]; subst. rewrite concat_app. cbn [concat]. rewrite app_nil_r. unfold ends. rewrite ends_with_tail; [exact Hz|]. intros ->. discriminate. }
      unfold ends in F. cbn [concat] in F, He. rewrite ?app_nil_r in He. congruence. }
  destruct (map_whole _ _ lm st (map (map fst) os) lm' W Er Hends) as [A B]; auto.
  - clear - Out. unfold texts in Out. revert Out. generalize (map (map fst) os). induction (list_pieces lm) as [|x l IH]; intros r H; inversion H as [|? ? ? ? [_ K] H']; subst; constructor; auto. now right.
  - destruct Ho as [Ho|Ho]; [now left|right; now apply Hall].
  - split; [exact A|]. split; [exact B|].
    pose proof (map_generated_code_spec (replace_mapfun (rs_repls (sort_replacements (run h)))) (mk_rmap 0 (length (rs_repls (sort_replacements (run h)))) 0) lm G1) as Sp.
    rewrite Er in Sp. destruct Sp as (m3 & Em3 & _ & Tx & _). rewrite Em in Em3. injection Em3 as <-. now rewrite Tx.
Qed.

(** ** Reading a text that does not end with a newline *)
Lemma snoc_good nodes n : full nodes -> node_ok n -> sealed n -> text_node n <> [] -> good (nodes ++ [n]).
Proof. intros. apply full_snoc; auto. Qed.
Lemma rd_code_good r x : full (fst r) -> x <> [] -> good (fst (rd_add_code r x)).
Proof.
  destruct r as [nodes k]. unfold rd_add_code. cbn [fst]. intros F Hx. assert (D : good (nodes ++ [LCode x])) by (apply snoc_good; [exact F|exact I|exact I|exact Hx]).
  destruct (last_cases nodes) as [->|(a & n & ->)]; [exact D|]. rewrite last_opt_snoc. pose proof F as (F1 & F2 & F3).
  apply Forall_app in F1 as [O1 O2]. apply Forall_app in F2 as [S1 S2]. rewrite texts_app in F3. apply Forall_app in F3 as [T1 T2].
  assert (Fa : full a) by (split; [exact O1|split; [exact S1|exact T1]]).
  destruct n as [?|t|p|p|?|?]; rewrite ?set_last_snoc; cbn [fst]; try exact D.
  - apply snoc_good; [exact Fa|exact I|exact I|]. cbn. intro Z. apply app_eq_nil in Z as [_ Z]. auto.
  - destruct (blank x); cbn [fst]; [|exact D]. inversion O2 as [|? ? Op _]; subst. apply snoc_good; [exact Fa| | |].
    + destruct Op as [P1 P2]. split; cbn [piece_add_code pc_n pc_code pc_nl]; [rewrite count_app, P1; reflexivity|]. intro H. now rewrite ends_with_tail.
    + cbn. now rewrite ends_with_tail.
    + cbn. intro Z. apply app_eq_nil in Z as [_ Z]. auto.
Qed.
Lemma rd_source_good r x src orig line : full (fst r) -> x <> [] -> good (fst (rd_add_source r x src orig line)).
Proof.
  destruct r as [nodes k]. unfold rd_add_source. cbn [fst]. intros F Hx.
  assert (D : good (nodes ++ [LSource (piece_new x src orig line)])) by (apply snoc_good; [exact F|apply counted_new|reflexivity|exact Hx]).
  destruct (last_cases nodes) as [->|(a & n & ->)]; [exact D|]. rewrite last_opt_snoc. pose proof F as (F1 & F2 & F3).
  apply Forall_app in F1 as [O1 O2]. apply Forall_app in F2 as [S1 S2]. rewrite texts_app in F3. apply Forall_app in F3 as [T1 T2].
  assert (Fa : full a) by (split; [exact O1|split; [exact S1|exact T1]]).
  destruct n as [?|t|p|p|?|?]; rewrite ?set_last_snoc; cbn [fst]; try exact D.
  destruct (_ && _); cbn [fst]; [|exact D]. inversion O2 as [|? ? Op _]; subst. apply snoc_good; [exact Fa| | |].
  - destruct Op as [P1 P2]. split; cbn [piece_add_code pc_n pc_code pc_nl]; [rewrite count_app, P1; reflexivity|]. intro H. now rewrite ends_with_tail.
  - cbn. now rewrite ends_with_tail.
  - cbn. intro Z. apply app_eq_nil in Z as [_ Z]. auto.
Qed.
Lemma step_cases sources contents x : forall ls st added, let '(st', a) := fold_left (spec_step sources contents x) ls (st, added) in
  if added then rs_rd st' = rs_rd st /\ a = true
  else if a then exists src orig line, rs_rd st' = rd_add_source (rs_rd st) x src orig line else rs_rd st' = rs_rd st.
Proof.
  induction ls as [|l ls IH]; intros st added; [destruct added; cbn; auto|]. cbn [fold_left].
  destruct l as [|z [|w r]]; [exact (IH st added)|exact (IH st added)|]. cbn [spec_step].
  set (st1 := mk_rdst _ _ _). specialize (IH st1 true). destruct (fold_left _ ls (st1, true)) as [st' a]. destruct IH as [E ->]. rewrite E. unfold st1. cbn [rs_rd].
  destruct added; [auto|]. eauto.
Qed.
Lemma line_good sources contents l x st : full (fst (rs_rd st)) -> x <> [] -> good (fst (rs_rd (line_step sources contents l x st))).
Proof.
  intros F Hx. unfold line_step. pose proof (step_cases sources contents x l st false) as H. destruct (fold_left _ _ _) as [st' []].
  - destruct H as (src & orig & line & E). rewrite E. now apply rd_source_good.
  - cbn [rs_rd]. rewrite H. now apply rd_code_good.
Qed.
Lemma read_good_lines sources contents : forall lines ms st, full (fst (rs_rd st)) -> lines <> [] -> Forall (fun x : str => x <> []) lines -> at_line_ends lines ->
  good (fst (rs_rd (reader_spec sources contents ms lines st))).
Proof.
  induction lines as [|x lines IH]; intros ms st F Hn Hx He; [congruence|]. inversion Hx as [|? ? X1 X2]; subst. cbn [reader_spec].
  pose proof (line_good sources contents (hd [] ms) x st F X1) as G. destruct lines as [|y lines]; [exact G|]. destruct He as (E1 & _ & E3).
  apply IH; auto; [|discriminate]. apply good_full; [exact G|]. destruct F as (F1 & _). destruct (line_step_ok sources contents (hd [] ms) x st F1) as [A B].
  unfold rd_text in B. rewrite slm_text_ok by exact A. rewrite B. unfold ends. rewrite ends_with_tail; [exact E1|]. intros ->. discriminate.
Qed.
Theorem read_whole sources contents code mappings lm : SpecList.well_formed mappings -> slm_from_string code sources contents mappings = Some lm -> code <> [] -> ends_with NL code = false -> good lm.
Proof.
  intros W H Hn He. destruct (well_formed_numbers _ W) as (ms & Hm). rewrite (reader_exact _ _ code _ _ Hm) in H. injection H as <-.
  destruct (pieces_shape NL code) as (body & lst & E & H1 & H2). pose proof (pieces_concat NL code) as C.
  assert (HB : Forall ends body) by (apply Forall_forall; intros x Hx; destruct (H1 x Hx) as (a & -> & _); apply snoc_ends).
  assert (HL : lst <> []).
  { intros ->. rewrite E, concat_app in C. cbn [concat] in C. rewrite !app_nil_r in C. destruct body as [|b body]; [now rewrite <- C in Hn|].
    destruct (@exists_last _ (b :: body)) as (b0 & w & Ew); [discriminate|]. rewrite Ew in *. apply Forall_app in HB as [_ HB].
    inversion HB as [|? ? Hz _]; subst. rewrite concat_app in He. cbn [concat] in He. rewrite app_nil_r in He. unfold ends in Hz. rewrite ends_with_tail in He; [congruence|]. intros ->. discriminate. }
  apply read_good_lines.
  - split; [constructor|split; constructor].
  - apply pieces_nonempty.
  - rewrite E. apply Forall_app. split; [|constructor; [exact HL|constructor]]. eapply Forall_impl; [|exact HB]. intros x Hx ->. discriminate.
  - rewrite E. apply at_ends_app; [exact HB|discriminate| |exact I]. left. cbn [concat]. now rewrite app_nil_r.
Qed.
