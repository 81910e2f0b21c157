(** List maps: sources and contents arrays, adding and prepending, toString, the prefix
    function of the list-map API. *)
From Verif Require Import Base Tactics ModelString StringFacts ModelVlq ModelSm ModelSlm
  ModelSources ModelTree ModelJs SpecText SortFacts TextFacts EditFacts TreeText SpecMap VlqFacts MapFacts
  LoadFacts SpecAttr SpecEdit NodeFacts LeafFacts ReplaceNode SpecList SlmFacts SlmMap SlmRead SlmReplace SlmTree SlmWhole.
From Verif Require Export SpecSlm.

(** ** Sources and contents *)

Definition tinv (mc : mctx) (u : list (Z * option Z)) : Prop :=
  map (fun e => (fst e, snd (snd e))) (mc_sources mc) =
  map (fun s => (Some s, content_of u s)) (firsts (map fst u)).

Lemma content_app u v s : In s (map fst u) -> content_of (u ++ v) s = content_of u s.
Proof.
  induction u as [|[k o] u IH]; intro H; [destruct H|]. unfold content_of in *. cbn [app find fst].
  destruct (Z.eqb_spec k s); [reflexivity|]. apply IH. destruct H; [contradiction|exact H].
Qed.
Lemma content_new u s o : ~ In s (map fst u) -> content_of (u ++ [(s, o)]) s = o.
Proof.
  induction u as [|[k o'] u IH]; intro H; unfold content_of in *; cbn [app find fst].
  - now rewrite Z.eqb_refl.
  - destruct (Z.eqb_spec k s); [exfalso; apply H; left; exact e|]. apply IH. intro G. apply H. now right.
Qed.
Lemma ol_get_in {A} (l : list (option Z * A)) k : ol_get l k = None <-> ~ In k (map fst l).
Proof.
  induction l as [|[k' v] l IH]; cbn [ol_get map fst]; [intuition|].
  destruct (optZ_eqb k k') eqn:E.
  - apply optZ_eqb_eq in E. subst. split; [discriminate|]. intro H. exfalso. apply H. now left.
  - rewrite IH. split; intro H; [|intro G; apply H; now right]. intros [->|G]; [|auto].
    assert (X : optZ_eqb k k = true) by now apply optZ_eqb_eq. congruence.
Qed.
Lemma tinv_keys mc u : tinv mc u -> map fst (mc_sources mc) = map Some (firsts (map fst u)).
Proof.
  unfold tinv. intro H. apply (f_equal (map fst)) in H. rewrite !map_map in H. cbn [fst] in H. exact H.
Qed.
Lemma ensure_tinv mc u s o mc' i : tinv mc u -> ensure_source mc (Some s) o = (mc', i) -> tinv mc' (u ++ [(s, o)]).
Proof.
  intros H E. unfold ensure_source in E. pose proof (tinv_keys _ _ H) as K.
  assert (X : In (Some s) (map fst (mc_sources mc)) <-> In s (map fst u)).
  { rewrite K, in_map_iff. split.
    - intros (x & Hx & Hi). injection Hx as ->. now apply firsts_in.
    - intro Hi. exists s. split; [reflexivity|]. now apply firsts_in. }
  assert (F : forall l, (forall x, In x l -> In x (map fst u)) ->
     map (fun s0 => (Some s0, content_of (u ++ [(s, o)]) s0)) l = map (fun s0 => (Some s0, content_of u s0)) l).
  { intros l Hl. apply map_ext_in. intros x Hx. f_equal. apply content_app. auto. }
  destruct (ol_get (mc_sources mc) (Some s)) as [[j o']|] eqn:Eg.
  - injection E as <- <-. unfold tinv. rewrite map_app. cbn [map fst]. rewrite firsts_snoc.
    assert (Hi : In s (map fst u)).
    { apply X. destruct (in_dec Z.eq_dec s (map fst u)) as [Hi|Hi]; [now apply X|]. exfalso. apply Hi, X.
      apply Decidable.not_not; [|intro N; apply ol_get_in in N; congruence].
      unfold Decidable.decidable. destruct (in_dec Z.eq_dec s (map fst u)); [left|right]; now rewrite X. }
    assert (Ex : existsb (Z.eqb s) (map fst u) = true) by (apply existsb_exists; exists s; split; [exact Hi|apply Z.eqb_refl]).
    rewrite Ex, F; [exact H|]. intros x. now rewrite firsts_in.
  - injection E as <- <-. unfold tinv. cbn [mc_sources]. rewrite !map_app. cbn [map fst snd]. rewrite firsts_snoc.
    assert (Hi : ~ In s (map fst u)) by (rewrite <- X; now apply ol_get_in).
    assert (Ex : existsb (Z.eqb s) (map fst u) = false).
    { apply not_true_is_false. intro Z. apply existsb_exists in Z as (y & Hy & Ey). apply Z.eqb_eq in Ey. subst. auto. }
    rewrite Ex, map_app. cbn [map]. rewrite F by (intro x; now rewrite firsts_in). rewrite content_new by exact Hi.
    unfold tinv in H. now rewrite H.
Qed.

Lemma node_tinv n mc u mc' out : named n -> tinv mc u -> node_get_mappings n mc = (mc', out) -> tinv mc' (u ++ node_uses n).
Proof.
  intros Hn H E. destruct n as [s|s|p|p|ch|i]; cbn [node_get_mappings node_uses] in *;
    try (injection E as <- <-; now rewrite app_nil_r).
  - unfold code_get_mappings in E. destruct (0 <? number_of_lines s); injection E as <- _; rewrite app_nil_r; exact H.
  - unfold source_get_mappings in E. cbn [named] in Hn. destruct (pc_code p) as [|c0 r]; [injection E as <- _; now rewrite app_nil_r|].
    destruct (pc_src p) as [s|]; [|exfalso; apply Hn; [discriminate|reflexivity]].
    destruct (ensure_source mc (Some s) (pc_orig p)) as [mc1 si] eqn:Ee. pose proof (ensure_tinv _ _ _ _ _ _ H Ee) as G.
    destruct (_ =? 0); injection E as <- _; exact G.
  - unfold single_get_mappings in E. cbn [named] in Hn. destruct (pc_code p) as [|c0 r]; [injection E as <- _; now rewrite app_nil_r|].
    destruct (pc_src p) as [s|]; [|exfalso; apply Hn; [discriminate|reflexivity]].
    destruct (ensure_source mc (Some s) (pc_orig p)) as [mc1 si] eqn:Ee. pose proof (ensure_tinv _ _ _ _ _ _ H Ee) as G.
    injection E as <- _. exact G.
Qed.
Lemma loop_tinv m : forall mc u mc' out, Forall named m -> tinv mc u -> mappings_loop m mc = (mc', out) -> tinv mc' (u ++ uses m).
Proof.
  induction m as [|n m IH]; intros mc u mc' out Hn H E; cbn [mappings_loop] in E.
  - injection E as <- _. cbn. now rewrite app_nil_r.
  - inversion Hn as [|? ? N1 N2]; subst. destruct (node_get_mappings n mc) as [mc1 a] eqn:E1.
    destruct (mappings_loop m mc1) as [mc2 b] eqn:E2. injection E as <- _. unfold uses. cbn [flat_map]. rewrite app_assoc.
    eapply IH; [exact N2| |exact E2]. eapply node_tinv; eauto.
Qed.

Theorem list_tables m file : Forall named m ->
  exists code mp, slm_to_string_with_source_map m file = (code, mp) /\
    map_sources mp = firsts (map fst (uses m)) /\
    map_contents mp = flat_map (fun s => opt_list (content_of (uses m) s)) (firsts (map fst (uses m))).
Proof.
  intro Hn. unfold slm_to_string_with_source_map. destruct (mappings_loop m mctx_new) as [mc out] eqn:E.
  assert (T : tinv mc ([] ++ uses m)) by (eapply loop_tinv; eauto; reflexivity). cbn [app] in T.
  unfold get_arrays. eexists _, _. split; [reflexivity|]. cbn [map_sources map_contents].
  split.
  - rewrite (tinv_keys _ _ T), map_map. apply map_id.
  - unfold tinv in T. transitivity (flat_map (fun x => opt_list (snd x)) (map (fun e => (fst e, snd (snd e))) (mc_sources mc))).
    + rewrite !flat_map_concat_map, map_map. reflexivity.
    + rewrite T, !flat_map_concat_map, map_map. reflexivity.
Qed.

Theorem list_tables_aligned m file : Forall named m -> (forall x, In x (uses m) -> snd x <> None) ->
  exists code mp, slm_to_string_with_source_map m file = (code, mp) /\
    map Some (map_contents mp) = map (content_of (uses m)) (map_sources mp).
Proof.
  intros Hn Hc. destruct (list_tables m file Hn) as (code & mp & E & S & C). exists code, mp. split; [exact E|].
  rewrite S, C. assert (G : forall s, In s (firsts (map fst (uses m))) -> content_of (uses m) s <> None).
  { intros s Hs. apply (firsts_in (map fst (uses m))) in Hs. unfold content_of.
    destruct (find (fun x => (fst x =? s)%Z) (uses m)) as [[k o]|] eqn:Ef.
    - apply find_some in Ef as [Ef _]. exact (Hc _ Ef).
    - apply in_map_iff in Hs as (x & <- & Hx). pose proof (find_none _ _ Ef x Hx) as Z. cbn in Z. now rewrite Z.eqb_refl in Z. }
  clear S C E. induction (firsts (map fst (uses m))) as [|s l IH]; [reflexivity|]. cbn [flat_map map]. rewrite map_app, IH by (intros; apply G; now right).
  destruct (content_of (uses m) s) as [o|] eqn:Eo; [reflexivity|]. exfalso. exact (G s (or_introl eq_refl) Eo).
Qed.

(** ** add and prepend *)
Lemma prepend_mirror m n src orig : is_string n = false ->
  (slm_prepend m n src orig = None <-> slm_add m n src orig = None) /\
  forall m', slm_prepend m n src orig = Some m' ->
    exists x, slm_add [] n src orig = Some x /\ m' = x ++ m /\ slm_add m n src orig = Some (m ++ x).
Proof.
  destruct n; cbn; intro H; try discriminate; split; try (split; discriminate); try tauto; intros m' E; try discriminate; injection E as <-;
    eexists; (split; [reflexivity|split; reflexivity]).
Qed.
Lemma prepend_text m s src orig : exists m', slm_prepend m (LStr s) src orig = Some m' /\ slm_text m' = s ++ slm_text m.
Proof. cbn. destruct (is_some src); cbn; eexists; split; reflexivity. Qed.

(** ** toString *)
Lemma to_string_single m : Forall (fun n => match n with LSingle _ => True | _ => False end) m -> slm_to_string m = slm_text m.
Proof.
  induction 1 as [|n m Hn _ IH]; [reflexivity|]. destruct n; try contradiction. unfold slm_to_string, slm_text in *. cbn [flat_map]. now rewrite IH.
Qed.

(** ** The prefix function of the list-map API *)
Lemma split_nl_shape s : exists x l, split_nl s = x :: l /\
  match l with [] => ~ In NL s /\ x = s | _ => In NL s end.
Proof.
  induction s as [|c s (x & l & E & H)]; [exists [], []; cbn; auto|]. cbn [split_nl]. destruct (N.eqb_spec c NL) as [->|Hc].
  - exists [], (split_nl s). rewrite E. split; [reflexivity|]. now left.
  - rewrite E. exists (c :: x), l. split; [reflexivity|]. destruct l.
    + destruct H as [H ->]. split; [|reflexivity]. intros [G|G]; auto.
    + now right.
Qed.
Fixpoint join_lines (p : str) (l : list str) : str :=
  match l with
  | [] => []
  | [x] => x
  | x :: r => x ++ NL :: (match r with [[]] => [] | _ => p end) ++ join_lines p r
  end.
Lemma join_cons p x y l : join_lines p (x :: y :: l) = x ++ NL :: (match y :: l with [[]] => [] | _ => p end) ++ join_lines p (y :: l).
Proof. reflexivity. Qed.
Lemma join_indent p s : join_lines p (split_nl s) = indent p s.
Proof.
  assert (E1 : forall c d x, indent p (c :: d :: x) = if N.eqb c NL then c :: p ++ indent p (d :: x) else c :: indent p (d :: x)) by reflexivity.
  induction s as [|c s IH]; [reflexivity|]. cbn [split_nl]. destruct (N.eqb_spec c NL) as [->|Hc].
  - destruct (split_nl_shape s) as (x & l & E & H). rewrite E in *. rewrite join_cons, IH. cbn [app].
    destruct s as [|d s]; [cbn in E; injection E as <- <-; reflexivity|]. rewrite E1, N.eqb_refl. f_equal. f_equal.
    destruct x; [|reflexivity]. destruct l; [|reflexivity]. destruct H as [_ H]. discriminate.
  - destruct (split_nl_shape s) as (x & l & E & H). rewrite E in *. destruct s as [|d s].
    + cbn in E. injection E as <- <-. reflexivity.
    + rewrite E1. destruct (N.eqb_spec c NL); [contradiction|]. rewrite <- IH. destruct l; [reflexivity|]. rewrite !join_cons. reflexivity.
Qed.
Lemma wasm_loop_spec p n : forall l idx, idx + length l = n -> 2 <= length l ->
  wasm_prefix_loop p n idx l = join_lines p l.
Proof.
  induction l as [|x l IH]; intros idx Hn Hl; cbn [length] in *; [lia|]. cbn [wasm_prefix_loop].
  destruct l as [|y l]; cbn [length] in *; [lia|]. rewrite join_cons.
  destruct l as [|z l].
  - cbn [length] in *. cbn [wasm_prefix_loop join_lines].
    destruct (Z.eqb_spec (Z.of_nat idx) (Z.of_nat n - 2)); [|lia].
    destruct (Z.eqb_spec (Z.of_nat (S idx)) (Z.of_nat n - 2)); [lia|].
    destruct (Z.eqb_spec (Z.of_nat (S idx)) (Z.of_nat n - 1)); [|lia]. f_equal. rewrite app_nil_r. destruct y; reflexivity.
  - destruct (Z.eqb_spec (Z.of_nat idx) (Z.of_nat n - 2)); [cbn [length] in *; lia|].
    destruct (Z.eqb_spec (Z.of_nat idx) (Z.of_nat n - 1)); [cbn [length] in *; lia|].
    rewrite IH by (cbn [length] in *; lia). rewrite <- app_assoc. f_equal. destruct y; reflexivity.
Qed.
Theorem wasm_prefix_lines p s : In NL s -> wasm_prefix p s = prefixed p s.
Proof.
  intro H. unfold wasm_prefix, prefixed. f_equal. destruct (split_nl_shape s) as (x & l & E & G).
  rewrite wasm_loop_spec; [apply join_indent|reflexivity|]. rewrite E. destruct l; [tauto|]. cbn [length]. lia.
Qed.
Theorem wasm_prefix_single p s : ~ In NL s -> wasm_prefix p s = p ++ NL :: (match s with [] => [] | _ => p ++ s end).
Proof.
  intro H. unfold wasm_prefix. f_equal. destruct (split_nl_shape s) as (x & l & E & G). rewrite E. destruct l; [|tauto].
  destruct G as [_ ->]. cbn. destruct s; [reflexivity|]. cbn. now rewrite app_nil_r.
Qed.

(** ** Prefixing leaves and concatenations of them *)
Lemma no_prefix_concat l : no_prefix (TConcat l) <-> Forall no_prefix l.
Proof.
  induction l as [|x l IH]; cbn [no_prefix] in *; split; intro H; try constructor; auto;
    try (destruct H as [H1 H2]; try exact H1; now apply IH); inversion H as [|? ? H1 H2]; subst; auto.
  now apply IH.
Qed.
Definition unsplit (n : slm_node) : Prop := match n with LCode _ | LSource _ => True | _ => False end.
Lemma unsplit_tidy m : Forall unsplit m -> Forall node_ok m -> Forall (fun x => fst x = None \/ tidy (snd x)) (list_pieces m).
Proof.
  intros Hu Hm. unfold list_pieces. apply Forall_flat_map. rewrite Forall_forall in *. intros n Hn.
  specialize (Hm n Hn). specialize (Hu n Hn). destruct n as [s|s|p|p|ch|i]; cbn [node_pieces node_ok unsplit] in *; try contradiction.
  - constructor; auto.
  - assert (HT : Forall tidy (if pc_nl p then removelast (cut_lines (pc_code p)) else cut_lines (pc_code p))).
    { rewrite cut_lines_pieces. destruct (pieces_tidy (pc_code p)) as [T1 _].
      assert (T2 : Forall tidy (pieces NL (pc_code p))) by (eapply Forall_impl; [|exact T1]; cbn; tauto).
      destruct (pc_nl p); auto. destruct (exists_last (pieces_nonempty NL (pc_code p))) as (a & x & E).
      rewrite E, removelast_last in *. now apply Forall_app in T2 as [T2 _]. }
    generalize (Z.of_N (pc_line p)) as line. induction HT as [|x l Hx _ IH]; intro line; cbn; constructor; auto.
Qed.
Definition cm_unsplit (y : str + slm) : Prop := match y with inl _ => True | inr m => Forall unsplit m end.
Lemma concat_unsplit : forall ys m m', Forall cm_unsplit ys -> Forall unsplit m -> concat_list_map ys m = Some m' -> Forall unsplit m'.
Proof.
  induction ys as [|y ys IH]; intros m m' Hy Hm H; cbn [concat_list_map] in H; [now injection H as <-|].
  inversion Hy as [|? ? Y1 Y2]; subst. unbind H. eapply IH; [exact Y2| |exact H].
  destruct y as [s|c]; cbn [slm_add is_some] in E; injection E as <-; [|apply Forall_app; auto].
  destruct (add_code_cases m s) as [(m0 & t & -> & ->)| ->]; apply Forall_app; [apply Forall_app in Hm as [Hm _]|];
    (split; [exact Hm|constructor; [exact I|constructor]]).
Qed.
Lemma plain_unsplit c t : no_prefix t -> forall lm, t_list_map c false t = Some lm -> Forall unsplit lm.
Proof.
  induction t as [v|v|v i n|v n o|p t IH|t st IH|l IH|x] using tree_ind'; intros W lm E; try contradiction; try discriminate.
  - injection E as <-. repeat constructor.
  - injection E as <-. repeat constructor.
  - injection E as <-. repeat constructor.
  - apply no_prefix_concat in W. unfold t_list_map in *. rewrite fold_concat in E. unbind E. rename v into ys.
    cbn [list_map_alg a_concat] in E. eapply concat_unsplit; [|constructor|exact E]. clear E lm.
    revert ys E0. induction IH as [|x l Hx _ IHl]; intros ys E.
    + injection E as <-. constructor.
    + inversion W as [|? ? W1 W2]; subst. cbn [children] in E. unbind E. rename v into y. unbind E. rename v into zs. injection E as <-.
      constructor; [|eauto]. unfold child in E0. destruct x; try (unbind E0; injection E0 as <-; cbn; eauto); injection E0 as <-; exact I.
  - injection E as <-. repeat constructor.
Qed.

Theorem whole_prefix_lines c p t M : whole false t -> no_prefix t -> ~ In NL p -> M <> [] ->
  line_attributed c false t M -> line_attributed c false (TPrefix p t) (mprefixed p M).
Proof.
  intros W N Hp HM A. apply prefix_lines; auto. intros lm E. destruct (whole_good c false t W) as [_ G].
  destruct (G lm E) as (G1 & _ & G3). split; [exact G3|]. apply unsplit_tidy; [eapply plain_unsplit; eauto|exact G1].
Qed.
