(** map_generated_code works piece by piece; merging keeps every attribution. *)
From Verif Require Import Base Tactics ModelString StringFacts ModelVlq ModelSm ModelSlm ModelSources
  SpecText SpecMap SpecAttr SpecList TextFacts NodeFacts SlmFacts.

Lemma cut_lines_pieces s : cut_lines s = pieces NL s.
Proof. induction s as [|c s IH]; [reflexivity|]. cbn [cut_lines pieces]. now rewrite IH. Qed.

(** ** Normalisation *)
Definition as_single (src orig : option Z) (x : N * str) : slm_node :=
  LSingle (piece_new (snd x) src orig (fst x)).
Fixpoint numberN (line : N) (l : list str) : list (N * str) :=
  match l with [] => [] | x :: r => (line, x) :: numberN (line + 1) r end.

Lemma normalize_loop_S f it p line : normalize_loop (S f) it p line =
  (let* (it, o) := split_next it in
   match o with
   | None => Some []
   | Some l =>
       if negb (sp_is_next it) && pc_nl p then Some []
       else
         let* rest := normalize_loop f it p (line + 1) in
         Some (LSingle (piece_new l (pc_src p) (pc_orig p) line) :: rest)
   end).
Proof. reflexivity. Qed.

Lemma normalize_loop_spec p fuel : forall s line, length s + 2 <= fuel ->
  normalize_loop fuel (mk_split true (Some s) NL true) p line =
  Some (map (as_single (pc_src p) (pc_orig p))
          (numberN line (if pc_nl p then removelast (pieces NL s) else pieces NL s))).
Proof.
  induction fuel as [|f IH]; intros s line Hf; [lia|].
  rewrite normalize_loop_S, split_next_keep by reflexivity. rewrite pieces_cut.
  destruct (cut NL s) as [[a b]|] eqn:E; cbn [bind sp_is_next negb andb].
  - rewrite IH; [|pose proof (cut_length _ _ _ _ E); lia]. cbn [bind]. f_equal.
    pose proof (pieces_nonempty NL b) as Hb. destruct (pc_nl p); [|reflexivity].
    destruct (pieces NL b) as [|x l]; [congruence|]. reflexivity.
  - destruct (pc_nl p); [reflexivity|]. destruct f; [lia|]. reflexivity.
Qed.

Definition normal_node (n : slm_node) : slm :=
  match n with
  | LCode s => [LCode s]
  | LSource p => map (as_single (pc_src p) (pc_orig p))
      (numberN (pc_line p) (if pc_nl p then removelast (pieces NL (pc_code p)) else pieces NL (pc_code p)))
  | LSingle p => [LSingle p]
  | _ => []
  end.
Lemma normalize_all_spec m : normalize_all m = Some (flat_map normal_node m).
Proof.
  induction m as [|n m IH]; [reflexivity|]. destruct n; cbn [normalize_all flat_map normal_node]; rewrite ?IH; try reflexivity.
  unfold source_normalized, ss_split_keep, split_new. rewrite normalize_loop_spec by lia. reflexivity.
Qed.

(** A normal node: plain code or a single-line piece. *)
Definition says (n : slm_node) (x : option target * str) : Prop :=
  match n with
  | LCode s => x = (None, s)
  | LSingle p => counted p /\ x = (Some (source_of p, (Z.of_N (pc_line p), 0%Z), None), pc_code p)
  | _ => False
  end.

Lemma counted_new s src orig line : counted (piece_new s src orig line).
Proof. split; [reflexivity|]. auto. Qed.

Lemma normal_says n : node_ok n -> Forall2 says (normal_node n) (node_pieces n).
Proof.
  destruct n as [s|s|p|p|ch|i]; cbn [node_ok normal_node node_pieces]; try contradiction; intro H.
  1: repeat constructor.
  2: constructor; [now split|constructor].
  rewrite cut_lines_pieces.
  generalize (if pc_nl p then removelast (pieces NL (pc_code p)) else pieces NL (pc_code p)) as l.
  intro l. generalize (pc_line p) as line. induction l as [|x l IH]; intro line; cbn; [constructor|].
  constructor.
  - split; [apply counted_new|reflexivity].
  - replace (Z.of_N line + 1)%Z with (Z.of_N (line + 1)) by lia. apply IH.
Qed.
Lemma normals_say m : Forall node_ok m -> Forall2 says (flat_map normal_node m) (list_pieces m).
Proof. induction 1 as [|n m Hn _ IH]; [constructor|]. cbn. apply Forall2_app; auto using normal_says. Qed.

(** ** Merging *)
Lemma mark_lines_app src a b : forall line,
  mark_lines src line (a ++ b) = mark_lines src line a ++ mark_lines src (line + Z.of_nat (count_char NL a)) b.
Proof.
  induction a as [|c a IH]; intro line; cbn [app mark_lines count_char].
  - f_equal. lia.
  - rewrite IH. cbn [app]. f_equal. f_equal. f_equal. destruct (N.eqb c NL); lia.
Qed.
Lemma mark_lines_none src line s : ~ In NL s -> mark_lines src line s = mark (Some (src, (line, 0%Z), None)) s.
Proof.
  induction s as [|c s IH]; intro H; [reflexivity|]. cbn [mark_lines mark map].
  destruct (N.eqb_spec c NL); [subst; exfalso; apply H; now left|]. f_equal. apply IH. intro G. apply H. now right.
Qed.
Lemma mark_lines_one src line s : count_char NL s <= 1 -> tidy s ->
  mark_lines src line s = mark (Some (src, (line, 0%Z), None)) s.
Proof.
  intros Hc Ht. destruct (in_dec N.eq_dec NL s) as [H|H]; [|now apply mark_lines_none].
  destruct (last_line s H) as (a & b & -> & Hb). rewrite count_app in Hc. cbn [count_char] in Hc.
  rewrite N.eqb_refl in Hc.
  assert (count_char NL (a ++ NL :: b) = 1) by (rewrite count_app; cbn [count_char]; rewrite N.eqb_refl; lia).
  specialize (Ht H0). rewrite ends_with_last in Ht by auto. destruct b; [|discriminate].
  assert (Ha : ~ In NL a) by (rewrite <- count_pos_in; lia).
  rewrite mark_lines_app, mark_app, mark_lines_none by auto. f_equal.
  replace (count_char NL a) with 0 by lia. cbn. rewrite Z.add_0_r. reflexivity.
Qed.
Lemma ends_with_tail a b : b <> [] -> ends_with NL (a ++ b) = ends_with NL b.
Proof.
  intro Hb. induction a as [|c a IH]; [reflexivity|]. cbn [app].
  destruct (a ++ b) as [|x y] eqn:E; [destruct a, b; try discriminate; congruence|]. exact IH.
Qed.
Lemma counted_append p q : counted p -> counted q -> counted (piece_append p q).
Proof.
  intros [P1 P2] [Q1 Q2]. unfold counted, piece_append. cbn [pc_n pc_code pc_nl]. rewrite count_app, P1, Q1.
  split; [reflexivity|]. intro H. specialize (Q2 H). rewrite ends_with_tail; auto. destruct (pc_code q); discriminate.
Qed.

Definition text_node (n : slm_node) : str :=
  match n with LCode s => s | LSource p | LSingle p => pc_code p | _ => [] end.
Definition neat (n : slm_node) : Prop :=
  match n with LSingle p => tidy (pc_code p) | LCode _ => True | _ => False end.

Lemma merge_text a b x : node_ok a -> node_ok b -> node_merge a b = Some x ->
  node_ok x /\ text_node x = text_node a ++ text_node b.
Proof.
  destruct a as [?|s|p|p|?|?], b as [?|t|q|q|?|?]; try contradiction; try discriminate; cbn [node_ok node_merge]; intros Ha Hb H.
  - injection H as <-. cbn. auto.
  - unfold source_merge_source in H. destruct (_ && _); [|discriminate]. injection H as <-. cbn. auto using counted_append.
  - unfold source_merge_single in H. destruct (_ && _); [|discriminate]. injection H as <-. cbn. auto using counted_append.
  - unfold single_merge_single in H. destruct (_ && _); [|discriminate]. destruct (_ =? _)%N.
    + injection H as <-. cbn. auto using counted_append.
    + destruct (_ && _); [|discriminate]. injection H as <-. cbn. split; [apply counted_new|reflexivity].
Qed.

Lemma merge_marks a b x : node_ok a -> node_ok b -> neat b -> node_merge a b = Some x ->
  node_marks x = node_marks a ++ node_marks b.
Proof.
  destruct a as [?|s|p|p|?|?], b as [?|t|q|q|?|?]; try contradiction; try discriminate; cbn [node_ok node_merge neat]; intros Ha Hb Hq H.
  - injection H as <-. cbn [node_marks]. apply mark_app.
  - unfold source_merge_single in H. destruct (_ && _) eqn:E; [|discriminate]. injection H as <-.
    apply andb_true_iff in E as [E E4]. apply andb_true_iff in E as [E E3]. apply andb_true_iff in E as [E1 E2].
    apply optZ_eqb_eq in E1. apply N.eqb_eq in E3. apply Nat.leb_le in E4. destruct Ha as [P1 P2], Hb as [Q1 Q2].
    unfold node_marks, source_of, piece_append. cbn [pc_src pc_line pc_code]. rewrite mark_lines_app. f_equal.
    rewrite <- E1, <- E3, <- P1. rewrite mark_lines_one by (auto; lia). repeat f_equal. lia.
  - unfold single_merge_single in H. destruct (_ && _) eqn:E; [|discriminate].
    apply andb_true_iff in E as [E1 E2]. apply optZ_eqb_eq in E1.
    destruct (N.eqb_spec (pc_line p) (pc_line q)) as [El|El].
    + injection H as <-. unfold node_marks, source_of, piece_append. cbn [pc_src pc_line pc_code].
      rewrite mark_app, <- E1, <- El. reflexivity.
    + destruct (_ && _) eqn:E; [|discriminate]. injection H as <-.
      apply andb_true_iff in E as [E E6]. apply andb_true_iff in E as [E E5]. apply andb_true_iff in E as [E3 E4].
      apply N.eqb_eq in E3. apply Nat.eqb_eq in E5. apply Nat.leb_le in E6. destruct Ha as [P1 P2], Hb as [Q1 Q2].
      unfold node_marks, source_of, piece_new. cbn [pc_src pc_line pc_code]. rewrite mark_lines_app, <- E1, <- E3.
      assert (tidy (pc_code p)) by (intro; auto).
      rewrite !mark_lines_one by (auto; lia). f_equal. repeat f_equal. lia.
Qed.

(** Two nodes of several lines as well (mapGeneratedCode only merges single lines into them). *)
Lemma merge_spec a b x : node_ok a -> node_ok b -> node_merge a b = Some x ->
  node_ok x /\ text_node x = text_node a ++ text_node b /\
  ((forall q, b = LSingle q -> tidy (pc_code q)) -> node_marks x = node_marks a ++ node_marks b).
Proof.
  intros Ha Hb H. destruct (merge_text a b x Ha Hb H) as [H1 H2]. split; [exact H1|]. split; [exact H2|]. intro Hn.
  destruct b as [?|t|q|q|?|?]; try contradiction; try (apply (merge_marks _ _ _ Ha Hb); [|exact H]; cbn; auto; fail).
  destruct a as [?|s|p|p|?|?]; try contradiction; try discriminate. cbn [node_merge] in H.
  unfold source_merge_source in H. destruct (_ && _) eqn:E; [|discriminate]. injection H as <-.
  apply andb_true_iff in E as [E E3]. apply andb_true_iff in E as [E1 E2]. apply optZ_eqb_eq in E1. apply N.eqb_eq in E3. destruct Ha as [P1 P2].
  unfold node_marks, source_of, piece_append. cbn [pc_src pc_line pc_code]. rewrite mark_lines_app. f_equal.
  rewrite <- E1, <- E3, <- P1. f_equal. lia.
Qed.

(** ** The loop *)
Lemma push_spec acc n : Forall node_ok acc -> node_ok n ->
  Forall node_ok (push_merge acc (Some n)) /\
  flat_map text_node (rev (push_merge acc (Some n))) = flat_map text_node (rev acc) ++ text_node n /\
  (neat n -> list_marks (rev (push_merge acc (Some n))) = list_marks (rev acc) ++ node_marks n).
Proof.
  intros Ha Hn. destruct acc as [|last rest]; cbn [push_merge].
  - cbn. rewrite !app_nil_r. auto.
  - inversion Ha as [|? ? Hl Hr]; subst. unfold list_marks. destruct (node_merge last n) as [x|] eqn:E.
    + destruct (merge_text _ _ _ Hl Hn E) as [Hx Tx]. split; [auto|]. cbn [rev]. rewrite !flat_map_app. cbn.
      rewrite !app_nil_r, Tx, <- !app_assoc. split; [reflexivity|]. intro Hq. now rewrite (merge_marks _ _ _ Hl Hn Hq E).
    + split; [auto|]. cbn [rev]. rewrite !flat_map_app. cbn. rewrite !app_nil_r. auto.
Qed.

Lemma map_loop_spec {S} (f : mapfun S) : forall l xs, Forall2 says l xs -> forall st acc, Forall node_ok acc ->
  match run_fun f st (map snd xs) with
  | None => map_loop f st l acc = None
  | Some (st', outs) =>
      exists acc', map_loop f st l acc = Some (st', acc') /\ Forall node_ok acc' /\
        flat_map text_node (rev acc') = flat_map text_node (rev acc) ++ concat outs /\
        (Forall2 (fun x y => fst x = None \/ tidy y) xs outs ->
         list_marks (rev acc') = list_marks (rev acc) ++ mark_pieces (combine (map fst xs) outs))
  end.
Proof.
  induction 1 as [|n [t s] l xs Hn _ IH]; intros st acc Ha.
  - cbn. exists acc. rewrite !app_nil_r. auto.
  - cbn [map snd run_fun map_loop]. destruct n as [?|c|p|p|?|?]; try contradiction; cbn [node_map].
    + injection Hn as -> ->. destruct (f st c) as [[st1 y]|] eqn:Ef; [|reflexivity]. cbn [bind].
      destruct (push_spec acc (LCode y) Ha I) as (H1 & H2 & H3).
      specialize (IH st1 _ H1). destruct (run_fun f st1 (map snd xs)) as [[st2 ys]|]; cbn [bind]; [|exact IH].
      destruct IH as (acc' & E & G1 & G2 & G3). exists acc'. split; [exact E|]. split; [exact G1|].
      cbn [concat combine map fst mark_pieces flat_map snd]. rewrite G2, H2, <- app_assoc. split; [reflexivity|].
      intro HF. inversion HF as [|? ? ? ? _ HF']; subst. rewrite (G3 HF'), H3 by exact I. now rewrite <- app_assoc.
    + destruct Hn as [Hp Hx]. injection Hx as -> ->. destruct (f st (pc_code p)) as [[st1 y]|] eqn:Ef; [|reflexivity]. cbn [bind].
      destruct (push_spec acc (LSingle (piece_new y (pc_src p) (pc_orig p) (pc_line p))) Ha (counted_new _ _ _ _)) as (H1 & H2 & H3).
      specialize (IH st1 _ H1). destruct (run_fun f st1 (map snd xs)) as [[st2 ys]|]; cbn [bind]; [|exact IH].
      destruct IH as (acc' & E & G1 & G2 & G3). exists acc'. split; [exact E|]. split; [exact G1|].
      cbn [concat combine map fst mark_pieces flat_map snd]. rewrite G2, H2, <- app_assoc. split; [reflexivity|].
      intro HF. inversion HF as [|? ? ? ? [Hy|Hy] HF']; subst; [discriminate|].
      rewrite (G3 HF'), H3 by exact Hy. now rewrite <- app_assoc.
Qed.

Lemma slm_text_ok m : Forall node_ok m -> slm_text m = flat_map text_node m.
Proof.
  induction 1 as [|n m Hn _ IH]; [reflexivity|]. unfold slm_text in *. cbn [flat_map]. rewrite IH.
  destruct n; try contradiction; reflexivity.
Qed.

Theorem map_generated_code_spec {S} (f : mapfun S) st m : Forall node_ok m ->
  match run_fun f st (map snd (list_pieces m)) with
  | None => map_generated_code f st m = None
  | Some (st', outs) =>
      exists m', map_generated_code f st m = Some (st', m') /\ Forall node_ok m' /\
        slm_text m' = concat outs /\
        (Forall2 (fun x y => fst x = None \/ tidy y) (list_pieces m) outs ->
         list_marks m' = mark_pieces (combine (map fst (list_pieces m)) outs))
  end.
Proof.
  intro Hm. unfold map_generated_code. rewrite normalize_all_spec. cbn [bind].
  pose proof (map_loop_spec f _ _ (normals_say m Hm) st [] (Forall_nil _)) as H.
  destruct (run_fun f st (map snd (list_pieces m))) as [[st' outs]|]; [|now rewrite H].
  destruct H as (acc & E & H1 & H2 & H3). rewrite E. cbn [bind]. exists (rev acc). split; [reflexivity|].
  assert (Hr : Forall node_ok (rev acc)) by now apply Forall_rev.
  split; [exact Hr|]. rewrite slm_text_ok by auto. split; [exact H2|exact H3].
Qed.

(** ** The pieces are the list *)
Lemma mark_number src l : forall line, Forall (fun x => count_char NL x <= 1 /\ tidy x) l ->
  (forall a b x, l = a ++ x :: b -> b <> [] -> ends_with NL x = true) ->
  mark_pieces (number_lines src line l) = mark_lines src line (concat l).
Proof.
  induction l as [|x l IH]; intros line HF He; [reflexivity|].
  inversion HF as [|? ? [Hx1 Hx2] HF']; subst. cbn [number_lines mark_pieces flat_map fst snd concat].
  fold (mark_pieces (number_lines src (line + 1) l)). rewrite mark_lines_app, mark_lines_one by auto. f_equal.
  rewrite IH; auto; [|intros a b y E; apply (He (x :: a) b y); now rewrite E].
  destruct l as [|y l]; [reflexivity|].
  assert (E : ends_with NL x = true) by (apply (He [] (y :: l) x); [reflexivity|discriminate]).
  assert (count_char NL x = 1).
  { assert (0 < count_char NL x); [|lia]. apply count_pos_in. destruct (in_dec N.eq_dec NL x); auto.
    rewrite ends_with_none in E by auto. discriminate. }
  rewrite H. reflexivity.
Qed.
Lemma pieces_tidy s : Forall (fun x => count_char NL x <= 1 /\ tidy x) (pieces NL s) /\
  (forall a b x, pieces NL s = a ++ x :: b -> b <> [] -> ends_with NL x = true).
Proof.
  destruct (pieces_shape NL s) as (body & lst & E & H1 & H2). rewrite E. split.
  - apply Forall_app. split.
    + apply Forall_forall. intros x Hx. destruct (H1 x Hx) as (a & -> & Ha).
      assert (C : count_char NL a = 0) by (destruct (count_char NL a) eqn:C; auto; exfalso; apply Ha, count_pos_in; lia).
      rewrite count_app, C. cbn. split; [lia|]. intros _. rewrite (ends_with_last a []); [reflexivity|intros []].
    + constructor; [|constructor].
      assert (C : count_char NL lst = 0) by (destruct (count_char NL lst) eqn:C; auto; exfalso; apply H2, count_pos_in; lia).
      split; [lia|]. intro. lia.
  - intros a b x Ex Hb. destruct (exists_last Hb) as (b' & y & ->).
    assert (Eb : body = a ++ x :: b').
    { apply (f_equal (@removelast str)) in Ex. rewrite removelast_last in Ex.
      change (a ++ x :: b' ++ [y]) with (a ++ (x :: b') ++ [y]) in Ex. rewrite app_assoc, removelast_last in Ex. exact Ex. }
    destruct (H1 x) as (c & -> & Hc); [rewrite Eb; apply in_or_app; right; now left|].
    rewrite (ends_with_last c []); [reflexivity|intros []].
Qed.
Lemma pieces_nl s : ends_with NL s = true -> pieces NL s = removelast (pieces NL s) ++ [[]].
Proof.
  intro H. destruct (pieces_shape NL s) as (body & lst & E & H1 & H2). rewrite E, removelast_last. f_equal. f_equal.
  destruct lst as [|c l]; auto. exfalso. pose proof (pieces_concat NL s) as C. rewrite E, concat_app in C. cbn [concat] in C.
  rewrite app_nil_r in C. rewrite <- C, ends_with_tail, ends_with_none in H by (auto; discriminate). discriminate.
Qed.
Lemma node_pieces_marks n : node_ok n -> mark_pieces (node_pieces n) = node_marks n.
Proof.
  destruct n as [s|s|p|p|ch|i]; cbn [node_ok node_pieces node_marks]; try contradiction.
  - intros _. apply app_nil_r.
  - intros [H1 H2]. rewrite cut_lines_pieces. destruct (pieces_tidy (pc_code p)) as [T1 T2].
    pose proof (pieces_concat NL (pc_code p)) as C. destruct (pc_nl p).
    + pose proof (pieces_nl _ (H2 eq_refl)) as E. rewrite E in T1, T2, C. rewrite concat_app, app_nil_r in C.
      rewrite mark_number; [now rewrite C| |].
      * now apply Forall_app in T1 as [T1 _].
      * intros a b x Ex Hb. apply (T2 a (b ++ [[]]) x); [rewrite Ex; now rewrite <- app_assoc|]. destruct b; discriminate.
    + now rewrite mark_number, C.
  - intros _. apply app_nil_r.
Qed.
Lemma mark_pieces_app a b : mark_pieces (a ++ b) = mark_pieces a ++ mark_pieces b.
Proof. apply flat_map_app. Qed.
Lemma pieces_marks m : Forall node_ok m -> mark_pieces (list_pieces m) = list_marks m.
Proof.
  induction 1 as [|n m Hn _ IH]; [reflexivity|]. cbn [list_pieces list_marks flat_map].
  fold (list_pieces m) (list_marks m). now rewrite mark_pieces_app, IH, node_pieces_marks.
Qed.
Lemma text_pieces l : text_of (mark_pieces l) = concat (map snd l).
Proof.
  induction l as [|[t s] l IH]; [reflexivity|]. cbn [mark_pieces flat_map fst snd map concat].
  fold (mark_pieces l). now rewrite text_app, text_mark, IH.
Qed.
Lemma pieces_text m : Forall node_ok m -> concat (map snd (list_pieces m)) = slm_text m.
Proof. intro H. rewrite <- text_pieces, pieces_marks, text_list_marks; auto. Qed.

(** The identity. *)
Lemma run_id l : run_fun (fun (_ : unit) s => Some (tt, s)) tt l = Some (tt, l).
Proof. induction l as [|x l IH]; [reflexivity|]. cbn [run_fun bind]. rewrite IH. reflexivity. Qed.
Lemma combine_split {A B} (l : list (A * B)) : combine (map fst l) (map snd l) = l.
Proof. induction l as [|[a b] l IH]; [reflexivity|]. cbn. now rewrite IH. Qed.
Lemma map_identity m : Forall node_ok m ->
  exists m', map_generated_code (fun (_ : unit) s => Some (tt, s)) tt m = Some (tt, m') /\
    slm_text m' = slm_text m /\
    ((forall p, In (LSingle p) m -> tidy (pc_code p)) -> list_marks m' = list_marks m).
Proof.
  intro Hm. pose proof (map_generated_code_spec (fun (_ : unit) s => Some (tt, s)) tt m Hm) as H. rewrite run_id in H.
  destruct H as (m' & E & _ & T & A). exists m'. split; [exact E|]. split; [now rewrite T, pieces_text|].
  intro Ht. rewrite A, combine_split; [now apply pieces_marks|]. clear -Hm Ht.
  assert (HF : Forall (fun x => fst x = None \/ tidy (snd x)) (list_pieces m)).
  { unfold list_pieces. apply Forall_flat_map. rewrite Forall_forall in *. intros n Hn. specialize (Hm n Hn).
    destruct n as [s|s|p|p|ch|i]; cbn [node_pieces node_ok] in *; try contradiction.
    - constructor; auto.
    - assert (HT : Forall tidy (if pc_nl p then removelast (cut_lines (pc_code p)) else cut_lines (pc_code p))).
      { rewrite cut_lines_pieces. destruct (pieces_tidy (pc_code p)) as [T1 _].
        assert (T2 : Forall tidy (pieces NL (pc_code p))) by (eapply Forall_impl; [|exact T1]; cbn; tauto).
        destruct (pc_nl p); auto. destruct (exists_last (pieces_nonempty NL (pc_code p))) as (a & x & E).
        rewrite E, removelast_last in *. now apply Forall_app in T2 as [T2 _]. }
      generalize (Z.of_N (pc_line p)) as line. induction HT as [|x l Hx _ IH]; intro line; cbn; constructor; auto.
    - constructor; [|constructor]. right. exact (Ht _ Hn). }
  induction HF as [|x l Hx _ IH]; cbn; constructor; auto.
Qed.
