(** ReplaceSource on nodes: splitting, the replacement loop, and the attribution of the
    new texts. *)
From Verif Require Import Base Tactics ModelString StringFacts ModelVlq ModelSm ModelSlm ModelSources
  SortFacts SpecText TextFacts EditFacts SpecMap SpecAttr MapFacts GenFacts NodeFacts LeafFacts.
From Verif Require Export SpecLeafAttr.

(** ** Splitting the leaves *)
Definition with_text (x : leaf) (t : str) : leaf :=
  match x with (_, src, pos, name) => (t, src, pos, name) end.
Fixpoint split_leaves (l : list leaf) (pos : Z) : (list leaf * list leaf) + Z :=
  match l with
  | [] => inr pos
  | x :: r =>
      if (pos <=? Z.of_nat (length (leaf_text x)))%Z
      then inl ([with_text x (firstn (Z.to_nat pos) (leaf_text x))],
                with_text x (skipn (Z.to_nat pos) (leaf_text x)) :: r)
      else match split_leaves r (pos - Z.of_nat (length (leaf_text x))) with
           | inl (a, b) => inl (x :: a, b)
           | inr p => inr p
           end
  end.

Definition same_shape (n n' : smnode) : Prop :=
  match n, n' with
  | SmStr _, SmStr _ => True
  | SmNode _ _ _ _ _, SmNode _ _ _ _ _ => True
  | _, _ => False
  end.

Lemma split_leaves_app a b pos : split_leaves (a ++ b) pos =
  match split_leaves a pos with
  | inl (x, y) => inl (x, y ++ b)
  | inr p => match split_leaves b p with inl (x, y) => inl (a ++ x, y) | inr p => inr p end
  end.
Proof.
  revert pos; induction a as [|x a IH]; intro pos; cbn [app split_leaves].
  - destruct (split_leaves b pos) as [[? ?]|]; reflexivity.
  - destruct (_ <=? _)%Z; [reflexivity|]. rewrite IH.
    destruct (split_leaves a _) as [[? ?]|p]; [reflexivity|].
    destruct (split_leaves b p) as [[? ?]|]; reflexivity.
Qed.
Lemma split_leaves_le l pos p : split_leaves l pos = inr p -> (p <= pos)%Z.
Proof.
  revert pos; induction l as [|x l IH]; intro pos; cbn [split_leaves].
  - intros [= <-]. lia.
  - destruct (_ <=? _)%Z; [discriminate|]. destruct (split_leaves l _) as [[? ?]|q] eqn:E; [discriminate|].
    intros [= <-]. apply IH in E. lia.
Qed.

Lemma split_node_leaves : forall n pos src0 pos0 name0, (pos < 2147483648)%Z ->
  exists o, split_sourcenode n pos = Some o /\
    match o with
    | NOk a b => split_leaves (leaves_in src0 pos0 name0 n) pos =
                   inl (leaves_in src0 pos0 name0 a, leaves_in src0 pos0 name0 b) /\
                 same_shape n a /\ same_shape n b
    | NErr p n' => split_leaves (leaves_in src0 pos0 name0 n) pos = inr p /\
                   leaves_in src0 pos0 name0 n' = leaves_in src0 pos0 name0 n /\ same_shape n n'
    end.
Proof.
  induction n as [s|po sr nm ch ct IH] using smnode_ind'; intros pos src0 pos0 name0 Hp.
  - cbn [split_sourcenode leaves_in split_leaves leaf_text fst]. rewrite split_string_slice_chars by auto.
    cbn [bind]. destruct (Z.leb_spec pos 0).
    + eexists. split; [reflexivity|]. rewrite (proj2 (Z.leb_le _ _)) by (cbn; lia).
      replace (Z.to_nat pos) with 0 by lia. repeat split; auto.
    + cbn [leaf_text fst]. destruct (Z.leb_spec pos (Z.of_nat (length s))).
      * eexists. split; [reflexivity|]. repeat split; auto.
      * eexists. split; [reflexivity|]. repeat split; auto.
  - cbn [split_sourcenode leaves_in].
    set (go := fix go (l : list smnode) (is_split : bool) (pos : Z) (lefts rights : list smnode) {struct l}
           : option (bool * Z * list smnode * list smnode) :=
           match l with
           | [] => Some (is_split, pos, lefts, rights)
           | x :: r =>
               if negb is_split then
                 let* o := split_sourcenode x pos in
                 match o with
                 | NOk a b => go r true pos (lefts ++ [a]) (rights ++ [b])
                 | NErr pos x => go r false pos (lefts ++ [x]) rights
                 end
               else go r true pos lefts (rights ++ [x])
           end).
    assert (G1 : forall l pos lefts rights, go l true pos lefts rights = Some (true, pos, lefts, rights ++ l)).
    { induction l as [|x l IHl]; intros; cbn [go negb]; [now rewrite app_nil_r|].
      fold go. rewrite IHl. now rewrite <- app_assoc. }
    assert (G : forall pos lefts, (pos < 2147483648)%Z -> exists o pos' ls rs,
      go ch false pos lefts [] = Some (o, pos', lefts ++ ls, rs) /\
      match o with
      | true => split_leaves (flat_map (leaves_in sr po nm) ch) pos =
                 inl (flat_map (leaves_in sr po nm) ls, flat_map (leaves_in sr po nm) rs)
      | false => split_leaves (flat_map (leaves_in sr po nm) ch) pos = inr pos' /\
                 flat_map (leaves_in sr po nm) ls = flat_map (leaves_in sr po nm) ch
      end).
    { clear pos Hp. induction IH as [|x l Hx _ IHl]; intros pos lefts Hp.
      - exists false, pos, [], []. cbn. rewrite app_nil_r. auto.
      - destruct (Hx pos sr po nm Hp) as (o & Eo & Ho). cbn [go negb]. rewrite Eo. cbn [bind].
        fold go. cbn [flat_map]. rewrite split_leaves_app. destruct o as [a b|p x'].
        + destruct Ho as (Ho & _). rewrite G1. exists true, pos, [a], ([b] ++ l).
          split; [reflexivity|]. rewrite Ho. cbn [flat_map app]. now rewrite app_nil_r.
        + destruct Ho as (Ho & Hx' & _). rewrite Ho. pose proof (split_leaves_le _ _ _ Ho) as Hle.
          destruct (IHl p (lefts ++ [x'])) as (o & pos' & ls & rs & E & H); [lia|].
          rewrite E. exists o, pos', (x' :: ls), rs. split; [now rewrite <- app_assoc|].
          destruct o.
          * rewrite H. cbn [flat_map]. now rewrite Hx'.
          * destruct H as [H1 H2]. rewrite H1. cbn [flat_map]. now rewrite Hx', H2. }
    destruct (G pos [] Hp) as (o & pos' & ls & rs & E & H). rewrite E. cbn [bind app].
    destruct o; eexists; (split; [reflexivity|]); cbn [add_chunk app leaves_in same_shape];
      repeat split; auto; apply H.
Qed.

(** ** Splitting marked texts *)
Lemma flat_with_text x t : flat_leaf (with_text x t) = 
  mark (match x with (_, src, pos, name) => attr_of src pos name end) t.
Proof. destruct x as [[[s src] pos] name]. reflexivity. Qed.
Lemma flat_leaf_length x : length (flat_leaf x) = length (leaf_text x).
Proof. destruct x as [[[s src] pos] name]. cbn. unfold mark. apply map_length. Qed.
Lemma flat_leaf_firstn x k : flat_leaf (with_text x (firstn k (leaf_text x))) = firstn k (flat_leaf x).
Proof. destruct x as [[[s src] pos] name]. cbn. unfold mark. now rewrite firstn_map. Qed.
Lemma flat_leaf_skipn x k : flat_leaf (with_text x (skipn k (leaf_text x))) = skipn k (flat_leaf x).
Proof. destruct x as [[[s src] pos] name]. cbn. unfold mark. now rewrite skipn_map. Qed.

Lemma split_leaves_flat l : forall pos,
  match split_leaves l pos with
  | inl (a, b) => flat_leaves a = firstn (Z.to_nat pos) (flat_leaves l) /\
                  flat_leaves b = skipn (Z.to_nat pos) (flat_leaves l) /\
                  (pos <= Z.of_nat (length (flat_leaves l)))%Z
  | inr p => l = [] \/ (Z.of_nat (length (flat_leaves l)) < pos)%Z
  end.
Proof.
  induction l as [|x l IH]; intro pos; cbn [split_leaves]; [now left|].
  cbn [flat_leaves flat_map]. fold (flat_leaves l).
  destruct (Z.leb_spec pos (Z.of_nat (length (leaf_text x)))) as [H|H].
  - pose proof (flat_leaf_length x) as Hl. cbn [flat_leaves flat_map].
    rewrite flat_leaf_firstn, flat_leaf_skipn, app_nil_r, firstn_app, skipn_app, app_length.
    replace (Z.to_nat pos - length (flat_leaf x)) with 0 by lia. cbn [firstn skipn].
    rewrite app_nil_r. repeat split; lia.
  - specialize (IH (pos - Z.of_nat (length (leaf_text x)))%Z). pose proof (flat_leaf_length x) as Hl.
    destruct (split_leaves l _) as [[a b]|p].
    + destruct IH as (IH1 & IH2 & IH3). cbn [flat_leaves flat_map]. fold (flat_leaves a).
      rewrite IH1, IH2, firstn_app, skipn_app, app_length.
      rewrite (firstn_all2 (flat_leaf x)), (skipn_all2 (flat_leaf x)) by lia. cbn [app].
      replace (Z.to_nat (pos - Z.of_nat (length (leaf_text x)))) with (Z.to_nat pos - length (flat_leaf x)) by lia.
      repeat split; lia.
    + right. rewrite app_length. destruct IH as [->|IH]; [cbn; lia|lia].
Qed.

Lemma split_node_flat n pos : (pos < 2147483648)%Z ->
  exists o, split_sourcenode n pos = Some o /\
    match o with
    | NOk a b => flat a = firstn (Z.to_nat pos) (flat n) /\ flat b = skipn (Z.to_nat pos) (flat n) /\
                 (pos <= Z.of_nat (length (flat n)))%Z /\
                 same_shape n a /\ same_shape n b /\ split_leaves (leaves n) pos = inl (leaves a, leaves b)
    | NErr _ n' => leaves n' = leaves n /\ same_shape n n' /\
                   (leaves n = [] \/ (Z.of_nat (length (flat n)) < pos)%Z)
    end.
Proof.
  intro Hp. destruct (split_node_leaves n pos None None None Hp) as (o & E & H).
  exists o. split; [exact E|]. pose proof (split_leaves_flat (leaves n) pos) as HF.
  destruct o as [a b|p n'].
  - destruct H as (H1 & H2 & H3). unfold leaves in HF. rewrite H1 in HF. destruct HF as (F1 & F2 & F3).
    repeat split; auto.
  - destruct H as (H1 & H2 & H3). unfold leaves in HF. rewrite H1 in HF. repeat split; auto.
Qed.

(** ** The answer for the start of a text *)
Fixpoint heads (P : option target -> Prop) (l : list leaf) : Prop :=
  match l with
  | [] => True
  | x :: r => P (leaf_attr x) /\ (leaf_text x = [] -> heads P r)
  end.
Lemma heads_snoc P l x : heads P (l ++ [x]) ->
  heads P l /\ (texts l = [] -> P (leaf_attr x)).
Proof.
  induction l as [|y l IH]; cbn [app heads texts flat_map].
  - intros [H _]. auto.
  - intros [H1 H2]. split.
    + split; auto. intro Hy. now apply IH, H2.
    + intro E. apply app_eq_nil in E as [E1 E2]. now apply IH; [apply H2|].
Qed.

Definition fresh (p : place) (a : option target) (e : place * option target) : Prop :=
  e = (p, a) \/ plt p (fst e).

Lemma entries_add g cx src name pos gp act ls lp ln code : g_skip (cx_map cx) = true ->
  gen_add_mapping (cx_map cx) (mk_mapping gp src name pos) = Some g ->
  entries (mk_ctx g act ls lp ln code gp) = entries cx ++ [(zpos gp, attr_of src pos name)] /\ g_skip g = true.
Proof.
  intros H E. rewrite gen_add_mapping_eq in E by auto. injection E as <-.
  unfold entries. cbn [cx_map g_mappings gen_set_mappings]. rewrite ml_add_list, map_app. cbn [map].
  rewrite view_mk. split; [reflexivity|]. destruct src, name; exact H.
Qed.

Lemma chunk_loop_entries src pos name : forall s cx b n cx',
  g_skip (cx_map cx) = true -> chunk_loop cx src pos name n b s = Some cx' ->
  exists new, entries cx' = entries cx ++ new /\ Forall (fun e => plt (zpos (cx_pos cx)) (fst e)) new.
Proof.
  induction s as [|c s IH]; intros cx b n cx' Hg E.
  - cbn in E. injection E as <-. exists []. rewrite app_nil_r. auto.
  - cbn [chunk_loop] in E.
    assert (Hgen : forall cx1 gp, g_skip (cx_map cx1) = true -> cx_pos cx1 = gp ->
       plt (zpos (cx_pos cx)) (zpos gp) -> chunk_loop cx1 src pos name n (b + len_utf8 c) s = Some cx' ->
       (exists add, entries cx1 = entries cx ++ add /\ Forall (fun e => plt (zpos (cx_pos cx)) (fst e)) add) ->
       exists new, entries cx' = entries cx ++ new /\ Forall (fun e => plt (zpos (cx_pos cx)) (fst e)) new).
    { intros cx1 gp H1 H2 H3 H4 (add & H5 & H6). destruct (IH _ _ _ _ H1 H4) as (new & E1 & F1).
      exists (add ++ new). rewrite E1, H5, app_assoc. split; [reflexivity|].
      apply Forall_app. split; [exact H6|]. eapply Forall_impl; [|exact F1]. intros e He. cbn beta in He.
      rewrite H2 in He. unfold plt in *. lia. }
    destruct (N.eqb c NL).
    + set (gp := ((fst (cx_pos cx) + 1)%N, 0%N)) in *.
      assert (Hp : plt (zpos (cx_pos cx)) (zpos gp)) by (unfold plt, zpos, gp; cbn; lia).
      destruct (_ =? _).
      * cbn [bind] in E. (eapply Hgen; [| |exact Hp|exact E|]; [exact Hg|reflexivity|]). exists []. rewrite app_nil_r. split; [reflexivity|constructor].
      * destruct (cx_active cx) eqn:Ea.
        -- destruct (gen_add_mapping (cx_map cx) _) as [g|] eqn:Eg; [|discriminate]. cbn [bind] in E.
           destruct (entries_add g cx src name pos gp true (cx_last_src cx) (cx_last_pos cx) (cx_last_name cx) (cx_code cx) Hg Eg) as [E1 E2].
           (eapply Hgen; [| |exact Hp|exact E|]; [exact E2|reflexivity|]). eexists. split; [exact E1|].
           constructor; [exact Hp|constructor].
        -- cbn [bind] in E. (eapply Hgen; [| |exact Hp|exact E|]; [exact Hg|reflexivity|]). exists []. rewrite app_nil_r. split; [reflexivity|constructor].
    + cbn [bind] in E. (eapply Hgen; [| | |exact E|]; [exact Hg|reflexivity| |]).
      * unfold plt, zpos. cbn. lia.
      * exists []. rewrite app_nil_r. split; [reflexivity|constructor].
Qed.

Lemma process_leaf_entries cx x cx' : g_skip (cx_map cx) = true -> process_leaf cx x = Some cx' ->
  exists new, entries cx' = entries cx ++ new /\ Forall (fresh (zpos (cx_pos cx)) (leaf_attr x)) new /\
    (cx_last_src cx = None -> leaf_attr x <> None -> In (zpos (cx_pos cx), leaf_attr x) new).
Proof.
  destruct x as [[[s src] pos] name]. intros Hg E. cbn [process_leaf leaf_attr] in *. unfold process_chunk in E.
  assert (Hgen : forall cx1, g_skip (cx_map cx1) = true -> cx_pos cx1 = cx_pos cx ->
     chunk_loop cx1 src pos name (blen s) 0 s = Some cx' ->
     (exists add, entries cx1 = entries cx ++ add /\ Forall (fresh (zpos (cx_pos cx)) (attr_of src pos name)) add /\
       (cx_last_src cx = None -> attr_of src pos name <> None -> In (zpos (cx_pos cx), attr_of src pos name) add)) ->
     exists new, entries cx' = entries cx ++ new /\ Forall (fresh (zpos (cx_pos cx)) (attr_of src pos name)) new /\
    (cx_last_src cx = None -> attr_of src pos name <> None -> In (zpos (cx_pos cx), attr_of src pos name) new)).
  { intros cx1 H1 H2 H4 (add & H5 & H6 & H7). destruct (chunk_loop_entries _ _ _ _ _ _ _ _ H1 H4) as (new & E1 & F1).
    exists (add ++ new). rewrite E1, H5, app_assoc. split; [reflexivity|]. split.
    - apply Forall_app. split; [exact H6|]. eapply Forall_impl; [|exact F1]. intros e He. right.
      now rewrite H2 in He.
    - intros Ha Hb. apply in_or_app. left. auto. }
  destruct (is_some src && is_some pos) eqn:Es.
  - destruct (negb _ || _ || _) eqn:Ed.
    + destruct (gen_add_mapping (cx_map cx) _) as [g|] eqn:Eg; [|discriminate]. cbn [bind] in E.
      destruct (entries_add g cx src name pos (cx_pos cx) true src pos name (cx_code cx ++ s) Hg Eg) as [E1 E2].
      (eapply Hgen; [| |exact E|]; [exact E2|reflexivity|]). eexists. split; [exact E1|]. split.
      * constructor; [left; reflexivity|constructor].
      * intros _ _. now left.
    + cbn [bind] in E. (eapply Hgen; [| |exact E|]; [exact Hg|reflexivity|]). exists []. rewrite app_nil_r.
      split; [reflexivity|]. split; [constructor|]. intros Hl _.
      rewrite Hl in Ed. destruct src; discriminate.
  - assert (Hn : attr_of src pos name = None) by (now apply attr_of_none).
    destruct (cx_active cx) eqn:Ea.
    + destruct (gen_add_mapping (cx_map cx) _) as [g|] eqn:Eg; [|discriminate]. cbn [bind] in E.
      destruct (entries_add g cx None None None (cx_pos cx) false None (cx_last_pos cx) (cx_last_name cx) (cx_code cx ++ s) Hg Eg) as [E1 E2].
      (eapply Hgen; [| |exact E|]; [exact E2|reflexivity|]). eexists. split; [exact E1|]. split.
      * constructor; [left; now rewrite Hn|constructor].
      * congruence.
    + cbn [bind] in E. (eapply Hgen; [| |exact E|]; [exact Hg|reflexivity|]). exists []. rewrite app_nil_r.
      split; [reflexivity|]. split; [constructor|congruence].
Qed.

Lemma walk_heads P n file root : heads P (leaves n) ->
  exists cx, walk n (ctx_new file root true) = Some cx /\ exact_inv cx (flat n) /\
    Forall (fun e : place * option target => fst e = (1, 0)%Z -> P (snd e)) (entries cx) /\
    (forall x r, leaves n = x :: r -> leaf_attr x <> None -> exists e : place * option target, In e (entries cx) /\ fst e = (1, 0)%Z).
Proof.
  intro Hh.
  destruct (walk_inv (fun cx done => exact_inv cx (flat_leaves done) /\
      (done = [] -> cx_last_src cx = None) /\
      (heads P done ->
       Forall (fun e : place * option target => fst e = (1, 0)%Z -> P (snd e)) (entries cx) /\
       (forall x r, done = x :: r -> leaf_attr x <> None -> exists e : place * option target, In e (entries cx) /\ fst e = (1, 0)%Z)))) with
    (n := n) (src := @None Z) (pos := @None pos2) (name := @None Z)
    (cx := ctx_new file root true) (done := @nil leaf) as (cx & E & H1 & _ & H2).
  - intros cx done x (H1 & H2 & H3).
    assert (Hx : exists cx', process_leaf cx x = Some cx' /\ exact_inv cx' (flat_leaves (done ++ [x]))).
    { destruct x as [[[s src] pos] name]. cbn [process_leaf].
      destruct (process_chunk_exact cx _ s src pos name H1) as (cx' & E & H'). exists cx'. split; auto.
      unfold flat_leaves. rewrite flat_map_app. cbn. rewrite app_nil_r. exact H'. }
    destruct Hx as (cx' & E & H4). exists cx'. split; [exact E|]. split; [exact H4|].
    split; [destruct done; discriminate|]. intro Hd. apply heads_snoc in Hd as [Hd1 Hd2].
    destruct (H3 Hd1) as [F1 F2].
    destruct (process_leaf_entries cx x cx') as (new & En & Fn & In1); [apply H1|exact E|].
    rewrite En. split.
    + apply Forall_app. split; [exact F1|]. eapply Forall_impl; [|exact Fn]. intros e He Hp.
      destruct H1 as ((Hpos & _) & _). rewrite text_flat_leaves in Hpos.
      pose proof (advances_le (texts done) (1, 0)%Z) as Hle. rewrite <- Hpos in Hle.
      destruct He as [->|He].
      * cbn [fst snd] in *. apply Hd2. rewrite Hp in Hpos. destruct (texts done) as [|c t]; auto. exfalso.
        cbn [fold_left] in Hpos. pose proof (advance_lt (1, 0)%Z c) as L1.
        pose proof (advances_le t (advance (1, 0)%Z c)) as L2. rewrite <- Hpos in L2. unfold plt, ple in *. cbn in *. lia.
      * exfalso. rewrite Hp in He. unfold plt, ple in *. cbn in *. lia.
    + intros x0 r0 E0 Ha. destruct done as [|y done].
      * injection E0 as <- <-. exists (zpos (cx_pos cx), leaf_attr x). split.
        -- apply in_or_app. right. apply In1; auto.
        -- destruct H1 as ((Hpos & _) & _). exact Hpos.
      * injection E0 as <- _. destruct (F2 y done eq_refl Ha) as (e & He1 & He2).
        exists e. split; auto. apply in_or_app. now left.
  - intros cx done s c (H1 & H2 & H3). split; [now apply exact_contents|]. split; auto.
  - split; [apply ctx_new_exact|]. split; [reflexivity|]. intros _. split; [constructor|discriminate].
  - exists cx. split; [exact E|]. split; [exact H1|]. apply H2. exact Hh.
Qed.

Lemma better_fold_some line col l b : fold_left (better line col) l (Some b) <> None.
Proof.
  revert b; induction l as [|e l IH]; intro b; cbn [fold_left]; [discriminate|].
  unfold better at 2. destruct (_ && _); [|apply IH]. destruct (_ <=? _)%Z; apply IH.
Qed.

Lemma attr_drop m : attr_of (m_src m) (m_orig m) None = drop_name (snd (view m)).
Proof. unfold view. destruct (m_src m), (m_orig m) as [[l c]|]; reflexivity. Qed.

(** The node of a new text. *)
Lemma replacement_total n t : (match n with SmNode _ _ _ _ _ => True | _ => False end) ->
  exists src pos, replacement_to_sourcenode n t = Some (sn_new pos src None (Some (CNode (SmStr t)))) /\
    (forall P, heads P (leaves n) -> leaves n <> [] -> exists x, P x /\ attr_of src pos None = drop_name x).
Proof.
  intro Hn. destruct n as [|po sr nm ch ct]; [destruct Hn|]. set (n := SmNode po sr nm ch ct) in *.
  assert (T : exists g, to_string_with_generator n None None = Some (text_of (flat n), g) /\
     ml_ok (g_mappings g) /\
     forall P, heads P (leaves n) ->
       Forall (fun e : place * option target => fst e = (1, 0)%Z -> P (snd e)) (map view (ml_list (g_mappings g))) /\
       (forall x r, leaves n = x :: r -> leaf_attr x <> None ->
          exists e : place * option target, In e (map view (ml_list (g_mappings g))) /\ fst e = (1, 0)%Z)).
  { destruct (walk_exact n None None) as (cx & E & (HC & _ & Hcode)).
    unfold to_string_with_generator. rewrite E. cbn [bind]. rewrite Hcode. exists (cx_map cx).
    split; [reflexivity|]. split; [apply HC|]. intros P Ha.
    destruct (walk_heads P n None None Ha) as (cx' & E' & _ & F1 & F2). rewrite E in E'. injection E' as <-.
    split; [exact F1|exact F2]. }
  destruct T as (g & E & Hok & HT). unfold replacement_to_sourcenode. fold n. unfold n at 1. fold n. rewrite E. cbn [bind].
  destruct (original_position_entry g 1%N 0%N Hok) as [(m & Em & Hin & Hf)|[Em Hf]]; rewrite Em; cbn [bind];
    eexists _, _; (split; [reflexivity|]); intros P Ha Hl; destruct (HT P Ha) as [F1 F2]; rewrite attr_drop.
  - exists (snd (view m)). split; [|reflexivity]. rewrite Forall_forall in F1.
    assert (Hv : In (view m) (map view (ml_list (g_mappings g)))).
    { apply in_map. eapply Permutation_in; [symmetry; apply isort_perm|exact Hin]. }
    apply (F1 _ Hv). apply find_entry_in in Hf as (_ & Hl1 & Hc1). unfold view in *.
    destruct (m_gen m) as [gl gc] eqn:Eg. cbn [fst snd] in *. f_equal; lia.
  - destruct (leaves n) as [|x r] eqn:El; [congruence|]. exists None. split; [|reflexivity].
    destruct (leaf_attr x) as [t0|] eqn:Ex; [|rewrite <- Ex; apply Ha].
    exfalso. destruct (F2 x r eq_refl) as (e & He1 & He2); [congruence|].
    assert (Hv : In e (map view (isort mapping_cmp (ml_list (g_mappings g))))).
    { eapply Permutation_in; [apply Permutation_map; apply isort_perm|exact He1]. }
    clear -Hf Hv He2. cbn in Hf. revert Hf. apply in_split in Hv as (l1 & l2 & ->).
    rewrite find_entry_app. cbn [fold_left]. unfold better at 2. rewrite He2. cbn.
    destruct (find_entry l1 1 0) as [b|] eqn:Eb.
    + destruct (_ <=? _)%Z; apply better_fold_some.
    + apply better_fold_some.
Qed.

(** ** The loop *)
Definition mrep (r : repl) (a : option target) : Z * Z * marked :=
  (rp_start_pos r, rp_end_pos r, mark a (rp_text r)).

(** The possible attributions of a text put in front of position [a] > 0. *)
Definition choice (m : marked) (a : nat) (z : option target) : Prop :=
  exists c x, nth_error m (a - 1) = Some (c, x) /\
    (z = x \/ exists c' y, nth_error m a = Some (c', y) /\ z = y).

(** What is known of the attribution of the text of an edit [a, b). *)
Definition newly (s : marked) (a b : Z) (t : option target) : Prop :=
  (s = [] -> t = None) /\ (Z.of_nat (length s) < a -> t = None)%Z /\
  (a <= 0 -> forall c x, nth_error s 0 = Some (c, x) -> t = drop_name x)%Z /\
  (0 < a <= Z.of_nat (length s) ->
     exists z, choice (firstn (Z.to_nat b) s) (Z.to_nat a) z /\ t = drop_name z)%Z.

Lemma split_nonempty l a p q : Forall nonempty l -> split_leaves l a = inl (p, q) ->
  q <> [] /\ p <> [] /\
  ((0 < a)%Z -> Forall nonempty p /\ heads (choice (flat_leaves l) (Z.to_nat a)) q) /\
  ((a <= 0)%Z -> forall c x, nth_error (flat_leaves l) 0 = Some (c, x) ->
      heads (eq x) q /\ Forall (fun y => leaf_attr y = x) p).
Proof.
  intro HF. revert a p q; induction HF as [|x l Hx HF IH]; intros a p q; cbn [split_leaves]; [discriminate|].
  assert (Hm : forall c r, leaf_text x = c :: r -> nth_error (flat_leaves (x :: l)) 0 = Some (c, leaf_attr x)).
  { intros c r Hc. destruct x as [[[s src] pos] name]. cbn in Hc. subst s. reflexivity. }
  destruct (Z.leb_spec a (Z.of_nat (length (leaf_text x)))) as [H|H].
  - intros [= <- <-]. split; [discriminate|]. split; [discriminate|]. split.
    + intro Ha. split.
      * constructor; [|constructor]. unfold nonempty in *. destruct x as [[[s src] pos] name]. cbn in *.
        destruct s as [|c s]; [congruence|]. destruct (Z.to_nat a) eqn:E; [lia|]. discriminate.
      * assert (Hx2 : exists c, nth_error (flat_leaves (x :: l)) (Z.to_nat a - 1) = Some (c, leaf_attr x)).
        { destruct x as [[[s src] pos] name]. cbn [flat_leaves flat_map flat_leaf leaf_attr leaf_text fst] in *.
          rewrite nth_error_app1 by (unfold mark; rewrite map_length; lia).
          destruct (nth_error s (Z.to_nat a - 1)) as [c|] eqn:Ec.
          - exists c. unfold mark. rewrite nth_error_map, Ec. reflexivity.
          - apply nth_error_None in Ec. lia. }
        destruct Hx2 as (c & Hc). cbn [heads]. split.
        -- exists c, (leaf_attr x). split; [exact Hc|]. left. destruct x as [[[s src] pos] name]. reflexivity.
        -- intro He. destruct l as [|y l]; [exact I|]. cbn [heads].
           inversion HF as [|? ? Hy HF']; subst. split; [|intro Hy'; now destruct Hy].
           exists c, (leaf_attr x). split; [exact Hc|]. right.
           destruct y as [[[ys ysrc] ypos] yname]. unfold nonempty in Hy. cbn in Hy.
           destruct ys as [|d ys]; [congruence|].
           exists d, (attr_of ysrc ypos yname). split; [|reflexivity].
           assert (Hlen : Z.to_nat a = length (flat_leaf x)).
           { rewrite flat_leaf_length. destruct x as [[[s src] pos] name]. cbn in *.
             assert (length (skipn (Z.to_nat a) s) = 0) by now rewrite He. rewrite skipn_length in H0. lia. }
           cbn [flat_leaves flat_map]. rewrite nth_error_app2 by lia. rewrite Hlen, Nat.sub_diag. reflexivity.
    + intros Ha c y Hy. destruct (leaf_text x) as [|d r] eqn:Ed; [now destruct Hx|].
      rewrite (Hm d r eq_refl) in Hy. injection Hy as <- <-.
      replace (Z.to_nat a) with 0 by lia. cbn [firstn skipn heads].
      destruct x as [[[s src] pos] name]. cbn in *. split; [split; [reflexivity|discriminate]|].
      constructor; [reflexivity|constructor].
  - destruct (split_leaves l _) as [[p' q']|] eqn:E; [|discriminate]. intros [= <- <-].
    apply IH in E as (E1 & E2 & E3 & _). split; [exact E1|]. split; [discriminate|]. split.
    + intro Ha. destruct E3 as [F1 F2]; [lia|]. split; [constructor; auto|].
      clear -F2 H. revert F2. pose proof (flat_leaf_length x) as Hl.
      assert (HC : forall z, choice (flat_leaves l) (Z.to_nat (a - Z.of_nat (length (leaf_text x)))) z ->
                             choice (flat_leaves (x :: l)) (Z.to_nat a) z).
      { intros z (c & y & H1 & H2). exists c, y. cbn [flat_leaves flat_map]. fold (flat_leaves l). split.
        - rewrite nth_error_app2 by lia. rewrite <- H1. f_equal. lia.
        - destruct H2 as [H2|(c' & y' & H2 & H3)]; [now left|]. right. exists c', y'. split; auto.
          rewrite nth_error_app2 by lia. rewrite <- H2. f_equal. lia. }
      induction q' as [|w q' IHq]; cbn [heads]; auto. intros [G1 G2]. split; auto.
    + intro Ha. lia.
Qed.

Lemma choice_firstn s n a z : a <= n -> choice (firstn n s) a z -> choice s a z.
Proof.
  intros Hn (c & x & H1 & H2). exists c, x.
  assert (E : forall k, nth_error (firstn n s) k <> None -> nth_error s k = nth_error (firstn n s) k).
  { intros k Hk. rewrite <- (firstn_skipn n s) at 1. rewrite nth_error_app1; auto. now apply nth_error_Some. }
  split; [rewrite E; congruence|]. destruct H2 as [H2|(c' & y & H2 & H3)]; [now left|].
  right. exists c', y. split; auto. rewrite E; congruence.
Qed.

(** The state of the loop. *)
Definition rem_ok (s : marked) (L : nat) (rem : smnode) : Prop :=
  ((0 < L)%nat /\ Forall nonempty (leaves rem)) \/
  (L = 0 /\ leaves rem <> [] /\ exists c x, nth_error s 0 = Some (c, x) /\
     Forall (fun y => leaf_attr y = x) (leaves rem) /\ texts (leaves rem) = []) \/
  (s = [] /\ leaves rem = []).

Definition is_node (n : smnode) : Prop := match n with SmNode _ _ _ _ _ => True | SmStr _ => False end.
Lemma shape_node n n' : is_node n -> same_shape n n' -> is_node n'.
Proof. destruct n, n'; cbn; auto. Qed.

Lemma flat_new pos src t : flat (sn_new pos src None (Some (CNode (SmStr t)))) = mark (attr_of src pos None) t.
Proof.
  unfold flat. rewrite leaves_sn_new. destruct t; [reflexivity|]. cbn [flat_leaves flat_map flat_leaf].
  now rewrite app_nil_r.
Qed.

Lemma texts_nil l : texts l = [] -> Forall (fun x => leaf_text x = []) l.
Proof.
  induction l as [|x l IH]; intro E; constructor.
  - now apply app_eq_nil in E.
  - apply IH. now apply app_eq_nil in E.
Qed.

(** Splitting when all leaves are empty. *)
Lemma split_all_empty l a p q x : Forall (fun y => leaf_attr y = x) l -> texts l = [] -> (a <= 0)%Z ->
  split_leaves l a = inl (p, q) ->
  p <> [] /\ q <> [] /\ texts p = [] /\ Forall (fun y => leaf_attr y = x) p /\ heads (eq x) q.
Proof.
  intros HF HT Ha. destruct l as [|y l]; cbn [split_leaves]; [discriminate|].
  rewrite (proj2 (Z.leb_le _ _)) by lia. intros [= <- <-].
  replace (Z.to_nat a) with 0 by lia. cbn [firstn skipn].
  apply texts_nil in HT. inversion HT as [|? ? H1 HT']; subst. inversion HF as [|? ? H2 HF']; subst.
  split; [discriminate|]. split; [discriminate|]. split; [destruct y as [[[ys ?] ?] ?]; reflexivity|]. split.
  - constructor; [|constructor]. destruct y as [[[ys ?] ?] ?]. reflexivity.
  - cbn [heads]. split; [destruct y as [[[ys ?] ?] ?]; reflexivity|]. intros _.
    clear -HF' HT'. induction HF' as [|z l Hz _ IH]; cbn [heads]; auto.
    inversion HT' as [|? ? G1 G2]; subst. split; auto.
Qed.

Lemma split_flat_err l a p : split_leaves l a = inr p -> l = [] \/ (Z.of_nat (length (flat_leaves l)) < a)%Z.
Proof. intro E. pose proof (split_leaves_flat l a) as H. now rewrite E in H. Qed.

Lemma nth0_firstn {A} (s : list A) n x : 0 < n -> nth_error s 0 = Some x -> nth_error (firstn n s) 0 = Some x.
Proof. destruct n; [lia|]. destruct s; auto. Qed.

Lemma replace_step r rest rem stack s L :
  is_node rem -> flat rem = firstn L s -> L <= length s ->
  let E := Nat.min L (Z.to_nat (rp_end_pos r)) in
  let L' := Nat.min E (Z.to_nat (rp_start_pos r)) in
  exists rem' x tail t,
    replace_node_loop (r :: rest) (rem :: stack) = replace_node_loop rest (rem' :: x :: tail ++ stack) /\
    is_node rem' /\ flat rem' = firstn L' s /\ flat x = mark t (rp_text r) /\
    flat_map flat tail = piece_of s E L /\
    (rem_ok s L rem -> (rp_start_pos r <= rp_end_pos r)%Z ->
     (Z.min (rp_end_pos r) (Z.of_nat (length s)) <= Z.of_nat L)%Z ->
     newly s (rp_start_pos r) (rp_end_pos r) t /\ rem_ok s L' rem').
Proof.
  intros Hn Hf HL E L'. cbn [replace_node_loop].
  assert (Ha : (rp_start_pos r < 2147483648)%Z) by apply to_i32_range.
  assert (Hb : (rp_end_pos r < 2147483648)%Z) by (unfold rp_end_pos; apply to_i32_range).
  destruct (split_node_flat rem (rp_end_pos r) Hb) as (o1 & E1 & H1). rewrite E1. cbn [bind].
  assert (Hlf : length (flat rem) = L) by (rewrite Hf, firstn_length; lia).
  assert (Hneg : forall l, split_leaves l (rp_end_pos r) = inr (rp_end_pos r) -> True) by auto. clear Hneg.
  assert (Hfirst : firstn (Z.to_nat (rp_end_pos r)) (flat rem) = firstn E s).
  { rewrite Hf, firstn_firstn. f_equal. unfold E. lia. }
  assert (Hpiece : forall n, E = Nat.min L n -> skipn n (flat rem) = piece_of s E L).
  { intros n Hn'. rewrite Hf. now apply piece_firstn. }
  destruct o1 as [l1 r1|p1 rem1].
  - destruct H1 as (F1 & F2 & F3 & S1 & S2 & SL1). rewrite Hfirst in F1.
    assert (Hlf1 : length (flat l1) = E) by (rewrite F1, firstn_length; unfold E; lia).
    destruct (split_node_flat l1 (rp_start_pos r) Ha) as (o2 & E2 & H2). rewrite E2. cbn [bind].
    destruct o2 as [l2 r2|p2 l1'].
    + destruct H2 as (G1 & G2 & G3 & S3 & S4 & SL2).
      assert (Hr2 : is_node r2) by (eapply shape_node; [eapply shape_node; [exact Hn|exact S1]|exact S4]).
      destruct (replacement_total r2 (rp_text r) Hr2) as (src & pos & Ex & Hx). rewrite Ex. cbn [bind].
      eexists l2, _, [r1], (attr_of src pos None). split; [reflexivity|].
      split; [eapply shape_node; [eapply shape_node; [exact Hn|exact S1]|exact S3]|].
      split; [rewrite G1, F1, firstn_firstn; f_equal; unfold L'; lia|].
      split; [apply flat_new|]. split; [cbn [flat_map]; rewrite app_nil_r, F2; apply Hpiece; reflexivity|].
      intros Hok Hab Hmin. pose proof (split_leaves_flat (leaves rem) (rp_end_pos r)) as _.
      destruct Hok as [(HL0 & Hne)|[(HL0 & Hne & c & x & Hs & Hat & Hte)|(Hs & Hl)]].
      * (* all leaves nonempty *)
        destruct (split_nonempty _ _ _ _ Hne SL1) as (N1 & N2 & N3 & N4).
        destruct (Z_le_gt_dec (rp_end_pos r) 0) as [Hb0|Hb0].
        -- assert (HE0 : E = 0) by (unfold E; lia).
           destruct s as [|[c x] s]; [cbn in HL; lia|].
           assert (Hfr : nth_error (flat_leaves (leaves rem)) 0 = Some (c, x)).
           { change (flat_leaves (leaves rem)) with (flat rem). rewrite Hf. now apply nth0_firstn. }
           destruct (N4 ltac:(lia) c x Hfr) as [_ N5].
           assert (Ht1 : texts (leaves l1) = []).
           { rewrite <- text_flat_leaves. change (flat_leaves (leaves l1)) with (flat l1).
             rewrite F1, HE0. reflexivity. }
           destruct (split_all_empty _ (rp_start_pos r) _ _ _ N5 Ht1 ltac:(lia) SL2) as (M1 & M2 & M3 & M4 & M5).
           destruct (Hx _ M5 M2) as (x' & <- & Hx'). split.
           ++ split; [discriminate|]. split; [cbn; lia|]. split; [|lia]. intros _ c' y [= <- <-]. exact Hx'.
           ++ right. left. split; [unfold L'; lia|]. split; [exact M1|]. exists c, x. auto.
        -- destruct N3 as [N3 _]; [lia|].
           destruct (split_nonempty _ _ _ _ N3 SL2) as (M1 & M2 & M3 & M4).
           change (flat_leaves (leaves l1)) with (flat l1) in M3, M4.
           destruct (Z_le_gt_dec (rp_start_pos r) 0) as [Ha0|Ha0].
           ++ destruct s as [|[c x] s]; [cbn in HL; lia|].
              assert (Hfr : nth_error (flat l1) 0 = Some (c, x)).
              { rewrite F1. apply nth0_firstn; [unfold E; lia|reflexivity]. }
              destruct (M4 Ha0 c x Hfr) as [M5 M6].
              destruct (Hx _ M5 M1) as (x' & <- & Hx'). split.
              ** split; [discriminate|]. split; [cbn; lia|]. split; [|lia]. intros _ c' y [= <- <-]. exact Hx'.
              ** right. left. split; [unfold L'; lia|]. split; [exact M2|]. exists c, x.
                 split; [reflexivity|]. split; [exact M6|]. rewrite <- text_flat_leaves.
                 change (flat_leaves (leaves l2)) with (flat l2). rewrite G1.
                 replace (Z.to_nat (rp_start_pos r)) with 0 by lia. reflexivity.
           ++ destruct (M3 ltac:(lia)) as [M5 M6]. destruct (Hx _ M6 M1) as (z & Hz & Hx'). split.
              ** assert (HaE : (rp_start_pos r <= Z.of_nat (length s))%Z) by lia.
                 split; [intros ->; cbn in *; lia|]. split; [lia|]. split; [lia|]. intros _.
                 exists z. split; [|exact Hx']. rewrite F1 in Hz.
                 replace (firstn (Z.to_nat (rp_end_pos r)) s) with (firstn E s); [exact Hz|].
                 f_equal. unfold E. lia.
              ** left. split; [unfold L', E; lia|exact M5].
      * (* all leaves empty *)
        assert (Hb0 : (rp_end_pos r <= 0)%Z).
        { destruct s as [|y s]; [discriminate|]. cbn [length] in Hmin. lia. }
        destruct (split_all_empty _ _ _ _ _ Hat Hte Hb0 SL1) as (N1 & N2 & N3 & N4 & N5).
        destruct (split_all_empty _ (rp_start_pos r) _ _ _ N4 N3 ltac:(lia) SL2) as (M1 & M2 & M3 & M4 & M5).
        destruct (Hx _ M5 M2) as (x' & <- & Hx'). split.
        -- split; [intros ->; discriminate|]. split; [intro; lia|]. split; [|lia].
           intros _ c' y Hy. rewrite Hs in Hy. injection Hy as <- <-. exact Hx'.
        -- right. left. split; [unfold L'; lia|]. split; [exact M1|]. exists c, x. auto.
      * rewrite Hl in SL1. discriminate.
    + destruct H2 as (G1 & S3 & G3).
      assert (Hr1 : is_node r1) by (eapply shape_node; [exact Hn|exact S2]).
      destruct (replacement_total r1 (rp_text r) Hr1) as (src & pos & Ex & Hx). rewrite Ex. cbn [bind].
      eexists l1', _, [r1], (attr_of src pos None). split; [reflexivity|].
      split; [eapply shape_node; [eapply shape_node; [exact Hn|exact S1]|exact S3]|].
      assert (Hl1' : flat l1' = firstn L' s).
      { unfold flat. rewrite G1. change (flat_leaves (leaves l1)) with (flat l1). rewrite F1.
        destruct G3 as [G3|G3].
        - assert (HE : E = 0). { rewrite <- Hlf1. unfold flat. now rewrite G3. }
          unfold L'. now rewrite HE.
        - f_equal. unfold L'. lia. }
      split; [exact Hl1'|]. split; [apply flat_new|].
      split; [cbn [flat_map]; rewrite app_nil_r, F2; apply Hpiece; reflexivity|].
      intros Hok Hab Hmin. exfalso.
      assert (Hl1 : leaves l1 <> []).
      { destruct Hok as [(HL0 & Hne)|[(HL0 & Hne & c & x & Hs & Hat & Hte)|(Hs & Hl)]].
        - apply (split_nonempty _ _ _ _ Hne SL1).
        - destruct (leaves rem) as [|y l] eqn:El; [congruence|]. cbn [split_leaves] in SL1.
          apply texts_nil in Hte. inversion Hte as [|? ? H0 _]; subst. rewrite H0 in SL1.
          rewrite (proj2 (Z.leb_le _ _)) in SL1; [intro Hnil; rewrite Hnil in SL1; discriminate|].
          destruct s; [discriminate|]. cbn in Hmin. cbn. lia.
        - rewrite Hl in SL1. discriminate. }
      destruct G3 as [G3|G3]; [now apply Hl1|]. rewrite Hlf1 in G3. unfold E in G3. lia.
  - destruct H1 as (F1 & S1 & F3).
    assert (Hlf1 : flat rem1 = flat rem) by (unfold flat; now rewrite F1).
    destruct (split_node_flat rem1 (rp_start_pos r) Ha) as (o2 & E2 & H2). rewrite E2. cbn [bind].
    assert (HE : flat rem <> [] -> E = L).
    { intro Hne. destruct F3 as [F3|F3]; [exfalso; apply Hne; unfold flat; now rewrite F3|]. unfold E. lia. }
    assert (HE0 : flat rem = [] -> E = 0 /\ L = 0).
    { intro He. rewrite He in Hlf. cbn in Hlf. unfold E. lia. }
    assert (Hdec : (flat rem = [] /\ E = 0 /\ L = 0) \/ E = L).
    { destruct (flat rem) eqn:Ef; [left; destruct HE0; auto|right; apply HE; congruence]. }
    assert (HEL : E = L) by lia.
    assert (Hpc : piece_of s E L = []) by (unfold piece_of; replace (L - E) with 0 by lia; reflexivity).
    destruct o2 as [l2 r2|p2 rem2].
    + destruct H2 as (G1 & G2 & G3 & S3 & S4 & SL2).
      assert (Hr2 : is_node r2) by (eapply shape_node; [eapply shape_node; [exact Hn|exact S1]|exact S4]).
      destruct (replacement_total r2 (rp_text r) Hr2) as (src & pos & Ex & Hx). rewrite Ex. cbn [bind].
      eexists l2, _, [], (attr_of src pos None). split; [reflexivity|].
      split; [eapply shape_node; [eapply shape_node; [exact Hn|exact S1]|exact S3]|].
      split; [rewrite G1, Hlf1, Hf, firstn_firstn; f_equal; unfold L'; lia|].
      split; [apply flat_new|]. split; [rewrite Hpc; reflexivity|].
      intros Hok Hab Hmin. rewrite F1 in SL2.
      destruct Hok as [(HL0 & Hne)|[(HL0 & Hne & c & x & Hs & Hat & Hte)|(Hs & Hl)]].
      * destruct (split_nonempty _ _ _ _ Hne SL2) as (M1 & M2 & M3 & M4).
        change (flat_leaves (leaves rem)) with (flat rem) in M3, M4.
        assert (HLs : L = length s /\ (Z.of_nat L < rp_end_pos r)%Z).
        { destruct F3 as [F3|F3].
          - exfalso. rewrite <- Hlf in HL0. unfold flat in HL0. rewrite F3 in HL0. cbn in HL0. lia.
          - lia. }
        destruct HLs as [HLs HLb].
        assert (Hfs : flat rem = s) by (rewrite Hf, HLs; apply firstn_all). rewrite Hfs in M3, M4.
        destruct (Z_le_gt_dec (rp_start_pos r) 0) as [Ha0|Ha0].
        -- destruct s as [|[c x] s0] eqn:Es; [cbn in HL; lia|].
           destruct (M4 Ha0 c x eq_refl) as [M5 M6].
           destruct (Hx _ M5 M1) as (x' & <- & Hx'). split.
           ++ split; [discriminate|]. split; [cbn; lia|]. split; [|lia]. intros _ c' y [= <- <-]. exact Hx'.
           ++ right. left. split; [unfold L'; lia|]. split; [exact M2|]. exists c, x.
              split; [reflexivity|]. split; [exact M6|]. rewrite <- text_flat_leaves.
              change (flat_leaves (leaves l2)) with (flat l2). rewrite G1.
              replace (Z.to_nat (rp_start_pos r)) with 0 by lia. reflexivity.
        -- destruct (M3 ltac:(lia)) as [M5 M6]. destruct (Hx _ M6 M1) as (z & Hz & Hx'). split.
           ++ split; [intros ->; cbn in *; lia|]. split; [rewrite Hlf1 in G3; lia|]. split; [lia|]. intros _.
              exists z. split; [|exact Hx']. rewrite firstn_all2 by lia. exact Hz.
           ++ left. split; [unfold L', E; lia|exact M5].
      * exfalso. destruct F3 as [F3|F3]; [now apply Hne|].
        destruct s; [discriminate|]. cbn [length] in *. lia.
      * rewrite Hl in SL2. discriminate.
    + destruct H2 as (G1 & S3 & G3). eexists rem2, _, [], None. split; [reflexivity|].
      split; [eapply shape_node; [eapply shape_node; [exact Hn|exact S1]|exact S3]|].
      assert (Hl1' : flat rem2 = firstn L' s).
      { unfold flat at 1. rewrite G1, F1. change (flat_leaves (leaves rem)) with (flat rem).
        rewrite Hf. destruct G3 as [G3|G3].
        - assert (HL0 : L = 0). { rewrite <- Hlf, <- Hlf1. unfold flat. now rewrite G3. }
          unfold L', E. rewrite HL0. reflexivity.
        - f_equal. rewrite Hlf1 in G3. unfold L'. lia. }
      split; [exact Hl1'|]. split; [cbn; now rewrite app_nil_r|]. split; [rewrite Hpc; reflexivity|].
      intros Hok Hab Hmin.
      destruct Hok as [(HL0 & Hne)|[(HL0 & Hne & c & x & Hs & Hat & Hte)|(Hs & Hl)]].
      * assert (HLs : (Z.of_nat L < rp_start_pos r)%Z).
        { rewrite Hlf1, Hlf in G3. destruct G3 as [G3|G3]; [|exact G3].
          exfalso. rewrite <- Hlf, <- Hlf1 in HL0. unfold flat in HL0. rewrite G3 in HL0. cbn in HL0. lia. }
        split.
        -- split; [auto|]. split; [auto|]. split; [lia|]. intro. lia.
        -- left. split; [unfold L', E; lia|]. rewrite G1, F1. exact Hne.
      * exfalso. destruct F3 as [F3|F3]; [now apply Hne|].
        destruct s; [discriminate|]. cbn [length] in *. lia.
      * split.
        -- subst s. split; [auto|]. split; [auto|]. split; [discriminate|]. cbn. lia.
        -- right. right. split; [exact Hs|]. now rewrite G1, F1.
Qed.

(** Conditions under which every edit is placed at its own start. *)
Fixpoint steps_ok (rs : list repl) (len L : nat) : Prop :=
  match rs with
  | [] => True
  | r :: rest =>
      let E := Nat.min L (Z.to_nat (rp_end_pos r)) in
      let L' := Nat.min E (Z.to_nat (rp_start_pos r)) in
      (rp_start_pos r <= rp_end_pos r)%Z /\
      (Z.min (rp_end_pos r) (Z.of_nat len) <= Z.of_nat L)%Z /\ steps_ok rest len L'
  end.

Lemma replace_loop_flat rs : forall s L rem stack,
  is_node rem -> flat rem = firstn L s -> L <= length s ->
  exists res ts, replace_node_loop rs (rem :: stack) = Some res /\ length ts = length rs /\
    flat_map flat res = gsplice (map (fun p => mrep (fst p) (snd p)) (combine rs ts)) s L ++ flat_map flat stack /\
    (rem_ok s L rem -> steps_ok rs (length s) L ->
     Forall2 (fun r t => newly s (rp_start_pos r) (rp_end_pos r) t) rs ts).
Proof.
  induction rs as [|r rs IH]; intros s L rem stack Hn Hf HL.
  - exists (rem :: stack), []. split; [reflexivity|]. split; [reflexivity|]. cbn [combine map gsplice flat_map].
    rewrite Hf. split; [reflexivity|]. intros; constructor.
  - destruct (replace_step r rs rem stack s L Hn Hf HL) as (rem' & x & tail & t & E & Hn' & Hf' & Hx & Ht & HC).
    rewrite E. destruct (IH s _ rem' (x :: tail ++ stack) Hn' Hf') as (res & ts & Er & Hlen & Hres & Hts); [lia|].
    exists res, (t :: ts). split; [exact Er|]. split; [cbn; now rewrite Hlen|]. split.
    + rewrite Hres. cbn [combine map fst snd mrep gsplice flat_map]. rewrite flat_map_app, Hx, Ht.
      rewrite <- !app_assoc. reflexivity.
    + intros Hok (H1 & H2 & H3). destruct (HC Hok H1 H2) as [G1 G2]. constructor; auto.
Qed.
