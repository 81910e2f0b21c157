(** Programs that make source nodes by hand do what is said. *)
From Verif Require Import Base Tactics ModelString StringFacts ModelVlq ModelSm ModelSlm ModelSources ModelTree ModelWasm
  ModelJs ModelJsApi SpecText SpecMap SpecAttr SpecLeast SortFacts TextFacts MapFacts NodeFacts LeafFacts ParseFacts GenFacts LoadFacts SmsProps NodeTree LeastFacts
  IdxFacts JsFacts Utf16Facts JsTextProps SpecResult ModelJsResult ResultFacts ResultProps SpecJs ModelEnd SpecEnd EndFacts MadeFacts EndProps ContentFacts EndMap LineEnd LeastEnd
  ModelJsList JsListProps ModelJsNode SpecJsNode.

(** ** The contents of the root *)
Definition root_with (own : bool) (n : smnode) : Prop :=
  match n with
  | SmNode None None None ch ct => if own then flat_map nconts ch = [] else ct = []
  | _ => False
  end.
Lemma from_string_root code g n : sm_from_string code g = Some n -> root_with true n.
Proof.
  intros E. pose proof (from_string_contents _ _ _ E) as C. unfold sm_from_string in E. unb E as ls E0. destruct (next_of ls) as [nl it]. unb E as st E1. injection E as <-. cbn [nconts root_with] in *.
  assert (X : forall (a b : list (Z * Z)), a ++ b = b -> a = []).
  { intros a b H. destruct a as [|x a]; [reflexivity|]. apply (f_equal (@length _)) in H. cbn in H. rewrite app_length in H. lia. }
  exact (X _ _ C).
Qed.
Lemma root_shape c m t n : t_node c m t = Some n -> root_with (match t with TOriginal _ _ _ | TL2L _ _ _ | TSms _ => true | _ => false end) n.
Proof.
  intro E. destruct t as [s|v|v i nm|v nm o|p t|t st|l|x]; unfold t_node in E; cbn [fold_tree] in E.
  - discriminate.
  - injection E as <-. reflexivity.
  - cbn [node_alg a_original] in E. unfold original_node in E. unb E as ls E1. unb E as ch E2. injection E as <-. cbn [root_with].
    apply bares. eapply orig_lines_idx; [|constructor|exact E2]. exact I.
  - cbn [node_alg a_l2l] in E. unfold l2l_node in E. unb E as ls E1. injection E as <-. cbn [root_with]. apply bares. now apply l2l_lines_idx.
  - unb E as n1 E1. cbn [node_alg a_prefix] in E. unfold prefix_node in E. unb E as [n' k] E2. injection E as <-. reflexivity.
  - unb E as n1 E1. cbn [node_alg a_replace] in E. unfold replace_node in E. unb E as r E2. injection E as <-. reflexivity.
  - unb E as ys E1. cbn [node_alg a_concat] in E. injection E as <-. reflexivity.
  - unb E as [x' n'] E1. injection E as <-. cbn [node_alg a_sms] in E1. unfold sms_node in E1. unb E1 as [c0 g] E2. unb E1 as [[g1 inner] applied] E3. unb E1 as n2 E4. injection E1 as _ <-.
    exact (from_string_root _ _ _ E4).
Qed.

Section Rel.
  Variables (nu : jstr -> Z) (c1 : cache).
  Hypothesis (Hnu : numbering nu) (Hc1 : cache_ok c1).
  Let ren := retarget (rename (rho nu c1)).
  Definition idx_ok : smnode -> Prop := node_idx (listed c1) (listed c1) (content_listed c1).
  Definition given (l : list (Z * Z)) (C : list (jstr * jstr)) : Prop := exists ps, same_get l ps /\ Forall2 (pair_at c1) ps C.

  Definition nholds (n : smnode) (x : nsaid) : Prop :=
    match n with
    | SmNode pos src name ch ct =>
        name = None /\ ns_at x = rename (rho nu c1) (attr_of src pos None) /\ match pos with Some (l, _) => (0 < l)%N | None => True end /\
        given (flat_map nconts ch) (ns_inner x) /\ given ct (ns_own x)
    | SmStr _ => False
    end /\
    Forall solid (leaves n) /\ idx_ok n /\ ns_marks x = ren (flat n) /\ plain (text_of (ns_marks x)).
  Definition nrel (o : option smnode) (p : option nsaid) : Prop :=
    match o, p with Some n, Some x => nholds n x | None, None => True | _, _ => False end.

  Lemma given_app a b C D : given a C -> given b D -> given (a ++ b) (C ++ D).
  Proof. intros (p & P1 & P2) (q & Q1 & Q2). exists (p ++ q). split; [now apply ContentFacts.same_app|now apply Forall2_app]. Qed.
  Lemma given_nil : given [] [].
  Proof. exists []. split; [now intro|constructor]. Qed.

  Lemma add_text n x s : plain s -> nholds n x -> nholds (node_add n (SmStr s)) (with_text x s).
  Proof.
    intros P (A & S & I & M & L). destruct n as [s'|pos src name ch ct]; [destruct A|]. destruct A as (-> & A1 & A2 & A3 & A4).
    assert (Hm : mark (ns_at x) s = ren (mark (attr_of src pos None) s)) by (unfold ren; rewrite retarget_mark, <- A1; reflexivity).
    destruct s as [|c s].
    - cbn [node_add add_chunk]. unfold with_text. cbn [mark map]. change (mark (ns_at x) []) with (@nil (char * option target)). rewrite app_nil_r.
      split; [cbn [ns_at ns_inner ns_own]; auto|]. cbn [ns_marks]. auto.
    - cbn [node_add add_chunk]. set (s1 := c :: s) in *.
      assert (El : leaves (SmNode pos src None (ch ++ [SmStr s1]) ct) = leaves (SmNode pos src None ch ct) ++ [(s1, src, pos, None)]).
      { unfold leaves. cbn [leaves_in]. now rewrite flat_map_app. }
      split; [cbn [ns_at ns_inner ns_own with_text]; rewrite flat_map_app; cbn [flat_map nconts]; rewrite !app_nil_r; auto|].
      split; [rewrite El; apply Forall_app; split; [exact S|]; constructor; [|constructor]; split; [discriminate|]; destruct src, pos as [[l0 k0]|]; auto|].
      split; [apply node_idx_node in I as (I1 & I2 & I3 & I4); apply node_idx_node; split; [exact I1|]; split; [exact I2|]; split; [exact I3|]; apply Forall_app; split; [exact I4|repeat constructor]|].
      cbn [ns_marks with_text]. split; [|rewrite text_app, text_mark; now apply plain_app].
      unfold flat in *. rewrite El, flat_leaves_app. unfold ren in *. rewrite retarget_app, <- M. f_equal. cbn [flat_leaves flat_map flat_leaf]. rewrite app_nil_r. exact Hm.
  Qed.
  Lemma add_node n x m y : nholds n x -> nholds m y -> nholds (node_add n m) (with_node x y).
  Proof.
    intros (A & S & I & M & L) (B & S' & I' & M' & L'). destruct n as [s|pos src name ch ct]; [destruct A|]. destruct A as (-> & A1 & A2 & A3 & A4).
    destruct m as [s|pos' src' name' ch' ct']; [destruct B|]. destruct B as (-> & B1 & B2 & B3 & B4). cbn [node_add add_chunk].
    set (m := SmNode pos' src' None ch' ct') in *.
    assert (El : leaves (SmNode pos src None (ch ++ [m]) ct) = leaves (SmNode pos src None ch ct) ++ leaves m).
    { unfold leaves. cbn [leaves_in]. rewrite flat_map_app. cbn [flat_map]. rewrite app_nil_r. reflexivity. }
    split; [cbn [ns_at ns_inner ns_own with_node]; rewrite flat_map_app; cbn [flat_map]; rewrite app_nil_r; split; [reflexivity|]; split; [exact A1|]; split; [exact A2|]; split; [|exact A4];
      apply given_app; [exact A3|]; unfold m, ns_contents; cbn [nconts]; now apply given_app|].
    split; [rewrite El; now apply Forall_app|].
    split; [apply node_idx_node in I as (I1 & I2 & I3 & I4); apply node_idx_node; split; [exact I1|]; split; [exact I2|]; split; [exact I3|]; apply Forall_app; split; [exact I4|constructor; [exact I'|constructor]]|].
    cbn [ns_marks with_node]. split; [|rewrite text_app; now apply plain_app].
    unfold flat in *. rewrite El, flat_leaves_app. unfold ren in *. now rewrite retarget_app, <- M, <- M'.
  Qed.

  Lemma add_spec self l : Forall plain_chunk l -> forall n x ws T, nholds n x -> Forall2 nrel ws T ->
    match add_args self n ws l, takes self x T l with
    | (n', ws', ok), (x', T', ok') => nrel n' x' /\ Forall2 nrel ws' T' /\ ok = ok' /\ (ok = true -> exists n0, n' = Some n0)
    end.
  Proof.
    induction 1 as [|g l P _ IH]; intros n x ws T H F; cbn [add_args takes].
    - split; [exact H|]. split; [exact F|]. split; [reflexivity|]. eauto.
    - destruct g as [s|u|].
      + apply IH; [|exact F]. rewrite plain_in by exact P. now apply add_text.
      + destruct (match self with Some v => Nat.eqb u v | None => false end).
        { split; [exact I|]. split; [exact F|]. split; [reflexivity|discriminate]. }
        pose proof (F2_nth nrel ws T u F) as Q.
        destruct (nth_error ws u) as [[m|]|], (nth_error T u) as [[y|]|]; cbn in Q; try contradiction.
        * apply IH; [now apply add_node|]. apply F2_set; [exact F|exact I].
        * split; [exact H|]. split; [exact F|]. split; [reflexivity|discriminate].
        * split; [exact H|]. split; [exact F|]. split; [reflexivity|discriminate].
      + split; [exact H|]. split; [exact F|]. split; [reflexivity|discriminate].
  Qed.
End Rel.

(** ** The cache *)
Lemma start_cache (X : cache -> cache -> Prop) c line column src c' n : X c c -> (forall c' i, cache_add c src = (c', i) -> X c c') -> node_start c line column src = (c', n) -> X c c'.
Proof.
  intros X0 X1 E. unfold node_start in E. destruct (empty src); [now injection E as <- _|]. destruct (cache_add c src) as [c2 i] eqn:E1. injection E as <- _. eauto.
Qed.
Lemma qstep_grows c ws op c' ws' out : cache_ok c -> qstep (c, ws) op = (c', ws', out) -> cache_ok c' /\ grows c c'.
Proof.
  intros H E. assert (R : cache_ok c /\ grows c c) by (split; [exact H|apply grows_refl]).
  destruct op as [line column src l|e columns md|v l|v|v|s b]; cbn [qstep] in E.
  - destruct (node_start c line column src) as [c2 n] eqn:E1.
    assert (Y : cache_ok c2 /\ grows c c2).
    { apply (start_cache (fun _ c2 => cache_ok c2 /\ grows c c2) _ _ _ _ _ _ R) in E1; [exact E1|]. intros c9 i Ea. destruct (add_known _ _ _ _ H Ea) as (A & B & _). auto. }
    destruct (add_args None n ws l) as [[[n'|] ws2] [|]]; injection E as <- _ _; exact Y.
  - destruct (build c e) as [c2 t] eqn:E1. pose proof (build_grows e c c2 t H E1) as Y.
    destruct t; try (injection E as <- _ _; exact Y); match type of E with context [t_node ?a ?b ?t] => destruct (t_node a b t) end; injection E as <- _ _; exact Y.
  - destruct (nth_error ws v) as [[n|]|]; [destruct (add_args (Some v) n ws l) as [[n' ws2] ok]| |]; injection E as <- _ _; exact R.
  - destruct (nth_error ws v) as [[n|]|]; injection E as <- _ _; exact R.
  - destruct (nth_error ws v) as [[n|]|]; [destruct (node_result n)| |]; injection E as <- _ _; exact R.
  - destruct b; cbn [fst] in E; [destruct (cache_add c s) as [c2 i] eqn:E1|destruct (cache_add_unchecked c s) as [c2 i] eqn:E1]; injection E as <- _ _.
    + destruct (add_known _ _ _ _ H E1) as (A & B & _). auto.
    + destruct (addu_at _ _ _ _ H E1) as (A & B & _). auto.
Qed.
Lemma qstep_reached c ws op c' ws' out : reached_cache c -> qstep (c, ws) op = (c', ws', out) -> reached_cache c'.
Proof.
  intros H E. destruct op as [line column src l|e columns md|v l|v|v|s b]; cbn [qstep] in E.
  - destruct (node_start c line column src) as [c2 n] eqn:E1.
    assert (Y : reached_cache c2) by (apply (start_cache (fun _ c2 => reached_cache c2) _ _ _ _ _ _ H) in E1; [exact E1|]; intros c9 i Ea; exact (reached_add _ _ _ _ H Ea)).
    destruct (add_args None n ws l) as [[[n'|] ws2] [|]]; injection E as <- _ _; exact Y.
  - destruct (build c e) as [c2 t] eqn:E1. pose proof (reached_build e c c2 t H E1) as Y.
    destruct t; try (injection E as <- _ _; exact Y); match type of E with context [t_node ?a ?b ?t] => destruct (t_node a b t) end; injection E as <- _ _; exact Y.
  - destruct (nth_error ws v) as [[n|]|]; [destruct (add_args (Some v) n ws l) as [[n' ws2] ok]| |]; injection E as <- _ _; exact H.
  - destruct (nth_error ws v) as [[n|]|]; injection E as <- _ _; exact H.
  - destruct (nth_error ws v) as [[n|]|]; [destruct (node_result n)| |]; injection E as <- _ _; exact H.
  - destruct b; cbn [fst] in E; [destruct (cache_add c s) as [c2 i] eqn:E1|destruct (cache_add_unchecked c s) as [c2 i] eqn:E1]; injection E as <- _ _; eauto using reached_add, reached_addu.
Qed.
Lemma qrun_reached ops : forall c ws c' ws' outs, reached_cache c -> qrun (c, ws) ops = (c', ws', outs) -> reached_cache c' /\ grows c c'.
Proof.
  induction ops as [|op ops IH]; intros c ws c' ws' outs R E; cbn [qrun] in E; [injection E as <- _ _; split; [exact R|apply grows_refl]|].
  destruct (qstep (c, ws) op) as [[c2 ws2] a] eqn:E1. destruct (qrun (c2, ws2) ops) as [[c3 ws3] out] eqn:E2. injection E as <- _ _.
  destruct (IH _ _ _ _ _ (qstep_reached _ _ _ _ _ _ R E1) E2) as [A B]. split; [exact A|]. eapply grows_trans; [|exact B]. exact (proj2 (qstep_grows _ _ _ _ _ _ (reached_ok _ R) E1)).
Qed.

(** ** Nodes without columns *)
Fixpoint rough_tree (columns : bool) (t : jtree) : jtree :=
  match t with
  | JOriginal v vi n => if columns then t else JL2L v n vi v
  | JPrefix p t => JPrefix p (rough_tree columns t)
  | JEdit t h => JEdit (rough_tree columns t) h
  | JConcat l => JConcat (map (rough_tree columns) l)
  | _ => t
  end.
Lemma orig_lines_l2l name lines : forall i acc, orig_lines false name i lines acc = Some (acc ++ l2l_lines name i lines).
Proof.
  induction lines as [|line r IH]; intros i acc; cbn [orig_lines l2l_lines negb]; [now rewrite app_nil_r|].
  rewrite IH. cbn [add_chunk sn_new]. now rewrite <- app_assoc.
Qed.
Lemma original_l2l v vi name : original_node v vi name false = l2l_node v name vi.
Proof.
  unfold original_node, l2l_node. destruct (split_all (ss_split_keep v NL)) as [ls|]; [|reflexivity]. cbn [bind].
  rewrite orig_lines_l2l. reflexivity.
Qed.
Fixpoint rtree (columns : bool) (t : tree) : tree :=
  match t with
  | TOriginal v vi n => if columns then t else TL2L v n vi
  | TPrefix p t => TPrefix p (rtree columns t)
  | TReplace t st => TReplace (rtree columns t) st
  | TConcat l => TConcat (map (rtree columns) l)
  | _ => t
  end.
Lemma rtree_node b md t : t_node true md (rtree b t) = t_node b md t.
Proof.
  unfold t_node. induction t as [s|v|v vi n|v n o|p t IH|t st IH|l IH|x] using tree_ind'; try reflexivity.
  - cbn [rtree]. destruct b; [reflexivity|]. cbn [fold_tree node_alg a_original a_l2l]. now rewrite original_l2l.
  - cbn [rtree fold_tree]. now rewrite IH.
  - cbn [rtree fold_tree]. now rewrite IH.
  - cbn [rtree fold_tree]. match goal with |- bind ?x _ = bind ?y _ => assert (X : x = y) end; [|rewrite X; reflexivity].
    induction IH as [|x l Hx _ IHl]; [reflexivity|]. cbn [map]. rewrite IHl.
    match goal with |- bind ?x _ = bind ?y _ => assert (X : x = y) end; [|rewrite X; reflexivity].
    destruct x; cbn [rtree] in *; try reflexivity; try (rewrite Hx; reflexivity). destruct b; [reflexivity|]. rewrite Hx. reflexivity.
Qed.
Lemma rtree_concat b l : forall acc, map (rtree b) (fold_left concat_add l acc) = fold_left concat_add (map (rtree b) l) (map (rtree b) acc).
Proof.
  induction l as [|x l IH]; intro acc; [reflexivity|]. cbn [fold_left map]. rewrite IH. f_equal.
  destruct x; cbn [concat_add rtree]; rewrite map_app; try reflexivity. destruct b; reflexivity.
Qed.
Lemma rough_made b c e : forall t, made c e t -> made c (roughly b e) (rough_tree b t) /\ import (rough_tree b t) = rtree b (import t).
Proof.
  induction e as [s|v|v n|v n o|p e IH|e h IH|l IH|v n m o i] using jexpr_ind'; intros t H.
  - rewrite H. split; reflexivity.
  - rewrite H. split; reflexivity.
  - destruct H as (vi & ni & -> & A & K). destruct b; cbn [roughly rough_tree]; (split; [|reflexivity]); cbn [made]; eauto 9.
  - destruct H as (ni & oi & -> & H). split; [|reflexivity]. cbn [roughly rough_tree made]. eauto 9.
  - destruct H as (t2 & -> & H). destruct (IH _ H) as [A B]. cbn [roughly rough_tree made import rtree]. rewrite B. eauto.
  - destruct H as (t2 & -> & H). destruct (IH _ H) as [A B]. cbn [roughly rough_tree made import rtree]. rewrite B. eauto.
  - apply made_concat in H as (ts & -> & H). cbn [roughly rough_tree import rtree]. unfold concat_new. rewrite rtree_concat.
    assert (X : Forall2 (made c) (map (roughly b) l) (map (rough_tree b) ts) /\ map import (map (rough_tree b) ts) = map (rtree b) (map import ts)).
    { revert ts H. induction IH as [|x l Hx _ IHl]; intros ts H; inversion H as [|? t2 ? ts2 H1 H2]; subst; [split; [constructor|reflexivity]|].
      destruct (Hx _ H1) as [A B]. destruct (IHl _ H2) as [A' B']. cbn [map]. split; [now constructor|]. now rewrite B, B'. }
    destruct X as [X1 X2]. split; [apply made_concat; eauto|]. now rewrite X2.
  - destruct H as (vi & ni & d & oo & ii & -> & H). cbn [roughly rough_tree]. split; [cbn [made]; eauto 9|reflexivity].
Qed.
Lemma roughly_contents b e : contents_given (roughly b e) = contents_given e.
Proof.
  induction e as [s|v|v n|v n o|p e IH|e h IH|l IH|v n m o i] using jexpr_ind'; try reflexivity; try exact IH.
  - destruct b; reflexivity.
  - cbn [roughly contents_given]. induction IH as [|x l Hx _ IHl]; [reflexivity|]. cbn [map flat_map]. now rewrite Hx, IHl.
Qed.
(** ** One call *)
Lemma result_some n : Forall solid (leaves n) -> exists r, node_result n = Some r.
Proof.
  intro S. destruct (walk_sorted n None None (Forall_impl _ solid_ok S)) as (cx & E & _). unfold node_result, to_string_with_generator. rewrite E. cbn [bind]. eauto.
Qed.
Theorem qstep_spec nu c1 op : numbering nu -> cache_ok c1 -> node_call op -> forall c ws T c' ws' out, reached_cache c -> Forall2 (nrel nu c1) ws T ->
  qstep (c, ws) op = (c', ws', out) -> grows c' c1 -> Forall2 (nrel nu c1) ws' (fst (nsays nu T op)) /\ works out = snd (nsays nu T op).
Proof.
  intros Hnu Hc1 Co c ws T c' ws' out R F E G. pose proof (reached_ok _ R) as Ok.
  destruct op as [line column src l|e columns md|v l|v|v|s b]; cbn [qstep nsays node_call] in *.
  - destruct Co as [Pl Hline]. destruct (node_start c line column src) as [c2 n] eqn:E1.
    set (a := match src with [] => None | _ => Some (nu src, (Z.of_N line, Z.of_N column), None) end) in *.
    assert (H : grows c2 c1 -> nholds nu c1 n (mk_nsaid a [] [] [])).
    { intro G2. unfold node_start in E1. destruct src as [|z src]; cbn [empty] in E1.
      - injection E1 as _ <-. split; [cbn; split; [reflexivity|]; split; [reflexivity|]; split; [exact I|]; split; apply given_nil|].
        split; [constructor|]. split; [apply node_idx_node; repeat split; constructor|]. split; [reflexivity|constructor].
      - destruct (cache_add c (z :: src)) as [c3 i] eqn:E2. injection E1 as <- <-. destruct (add_known _ _ _ _ Ok E2) as (_ & _ & K).
        assert (K1 : known c1 (Z.of_nat i) (z :: src)) by (eapply known_grows; eauto).
        split; [cbn; split; [reflexivity|]; split; [rewrite (rho_known nu c1 Hc1 _ _ K1); reflexivity|]; split; [apply Hline; discriminate|]; split; apply given_nil|].
        split; [constructor|]. split; [apply node_idx_node; split; [exists (z :: src); split; [exact I|exact K1]|]; repeat split; constructor|]. split; [reflexivity|constructor]. }
    assert (G2 : grows c2 c1) by (destruct (add_args None n ws l) as [[[n'|] ws2] [|]]; injection E as <- _ _; exact G).
    pose proof (add_spec nu c1 None l Pl n (mk_nsaid a [] [] []) ws T (H G2) F) as Q.
    destruct (add_args None n ws l) as [[n' ws2] ok], (takes None (mk_nsaid a [] [] []) T l) as [[x' T'] ok']. destruct Q as (Q1 & Q2 & <- & Q4).
    destruct ok.
    + destruct (Q4 eq_refl) as (n0 & ->). destruct x' as [x'|]; [|destruct Q1]. injection E as _ <- <-. split; [now apply F2_snoc|reflexivity].
    + destruct n' as [n'|], x' as [x'|]; try contradiction; injection E as _ <- <-; split; auto.
  - destruct (build c e) as [c2 t] eqn:E1.
    assert (NE : (exists s, e = XStr s) \/ (exists s, e = XRaw s) \/ ((forall s, e <> XStr s) /\ (forall s, e <> XRaw s) /\ exact_expr (roughly columns e))).
    { destruct e; [left|right; left|right; right..]; eauto; (split; [discriminate|]); (split; [discriminate|exact Co]). }
    destruct NE as [[s ->]|[[s ->]|(N1 & N2 & X)]].
    + injection E1 as _ <-. injection E as _ <- <-. auto.
    + injection E1 as _ <-. injection E as _ <- <-. auto.
    + assert (Gt : grows c2 c1).
      { destruct t; try (injection E as <- _ _; exact G); match type of E with context [t_node ?a ?b ?t] => destruct (t_node a b t) end; injection E as <- _ _; exact G. }
      destruct (rough_made columns c1 e t (made_grows _ _ e Gt t (proj2 (proj2 (build_made e c c2 t (reached_ok _ R) E1))))) as [Hm Him].
      assert (N3 : forall s, roughly columns e <> XRaw s) by (intros s Hs; destruct e; try discriminate Hs; [now apply (N2 value)|destruct columns; discriminate Hs]).
      destruct (node_of nu _ md c1 _ Hnu Hc1 X N3 Hm) as (NJ0 & n & M & En & EM & Sol & Ni & E0 & Pl & Fr & Cs).
      rewrite roughly_contents in Cs.
      pose proof (root_shape _ _ _ _ En) as Rt. pose proof (t_node_contents _ _ _ Fr _ En) as Ct.
      rewrite Him in Rt, Ct, Cs. rewrite Him, rtree_node in En.
      assert (NJ : match t with JStr _ | JRaw _ => False | _ => True end) by (destruct t; try exact I; exact NJ0).
      assert (Es : nsays nu T (QOf e columns md) = (T ++ [Some (match e with XConcat _ | XPrefix _ _ => mk_nsaid None M (contents_given e) [] | _ => mk_nsaid None M [] (contents_given e) end)], true)).
      { destruct e; cbn [nsays]; try (exfalso; eapply N1; reflexivity); try (exfalso; eapply N2; reflexivity); try (destruct X; fail); rewrite EM; reflexivity. }
      change (Forall2 (nrel nu c1) ws' (fst (nsays nu T (QOf e columns md))) /\ works out = snd (nsays nu T (QOf e columns md))). rewrite Es. cbn [fst snd].
      assert (Eo : ws' = ws ++ [Some n] /\ out = QDone) by (destruct t; try (destruct NJ; fail); rewrite En in E; injection E as _ <- <-; auto).
      destruct Eo as [-> ->]. split; [|reflexivity]. apply F2_snoc; [exact F|].
      assert (Ex : exists b, root_with b n /\ (match e with XConcat _ | XPrefix _ _ => mk_nsaid None M (contents_given e) [] | _ => mk_nsaid None M [] (contents_given e) end) =
        if b then mk_nsaid None M [] (contents_given e) else mk_nsaid None M (contents_given e) []).
      { eexists. split; [exact Rt|]. clear - E1 X N1 N2.
        destruct e; cbn [build] in E1; try (exfalso; eapply N1; reflexivity); try (exfalso; eapply N2; reflexivity); try (destruct X; fail);
          repeat match type of E1 with context [let '(_, _) := ?z in _] => destruct z end; injection E1 as _ <-; cbn [import rtree]; try reflexivity; destruct columns; reflexivity. }
      destruct Ex as (b & Rb & ->). destruct n as [s|[pos|] [src|] [name|] ch ct]; try (destruct Rb; fail). cbn [root_with nconts] in *.
      split; [|destruct b; cbn [ns_marks]; split; auto; split; auto; exact (node_listed _ _ _ _ _ Ni)].
      destruct b; cbn [ns_at ns_inner ns_own]; (split; [reflexivity|]); (split; [reflexivity|]); (split; [exact I|]).
      * rewrite Rb in *. split; [apply given_nil|]. exists (tconts (rtree columns (import t))). auto.
      * subst ct. rewrite app_nil_r in Ct. split; [|apply given_nil]. exists (tconts (rtree columns (import t))). auto.
  - pose proof (F2_nth (nrel nu c1) ws T v F) as Q.
    destruct (nth_error ws v) as [[n|]|] eqn:En, (nth_error T v) as [[x|]|] eqn:Ex; cbn in Q; try contradiction.
    + pose proof (add_spec nu c1 (Some v) l Co n x ws T Q F) as S. destruct (add_args (Some v) n ws l) as [[n' ws2] ok], (takes (Some v) x T l) as [[x' T'] ok'].
      destruct S as (S1 & S2 & <- & _). injection E as _ <- <-. cbn [fst snd]. split; [now apply F2_set|]. destruct ok; reflexivity.
    + injection E as _ <- <-. split; [exact F|]. destruct l; reflexivity.
    + injection E as _ <- <-. auto.
  - pose proof (F2_nth (nrel nu c1) ws T v F) as Q.
    destruct (nth_error ws v) as [[n|]|] eqn:En, (nth_error T v) as [[x|]|] eqn:Ex; cbn in Q; try contradiction; injection E as _ <- <-; auto.
    split; [|reflexivity]. apply F2_set; [exact F|exact I].
  - pose proof (F2_nth (nrel nu c1) ws T v F) as Q.
    destruct (nth_error ws v) as [[n|]|] eqn:En, (nth_error T v) as [[x|]|] eqn:Ex; cbn in Q; try contradiction; [|injection E as _ <- <-; auto..].
    destruct (result_some n) as (r & Er); [apply Q|]. rewrite Er in E. injection E as _ <- <-. auto.
  - injection E as _ <- <-. auto.
Qed.
Theorem qrun_spec nu c1 ops : numbering nu -> cache_ok c1 -> Forall node_call ops -> forall c ws T c' ws' outs T' oks, reached_cache c -> Forall2 (nrel nu c1) ws T ->
  qrun (c, ws) ops = (c', ws', outs) -> grows c' c1 -> nsays_all nu T ops = (T', oks) -> Forall2 (nrel nu c1) ws' T' /\ map works outs = oks.
Proof.
  intros Hnu Hc1 Co. induction Co as [|op ops C1 _ IH]; intros c ws T c' ws' outs T' oks R F E G S; cbn [qrun nsays_all] in E, S.
  - injection E as _ <- <-. injection S as <- <-. auto.
  - destruct (qstep (c, ws) op) as [[c2 ws2] a] eqn:E1. destruct (qrun (c2, ws2) ops) as [[c3 ws3] out] eqn:E2. injection E as -> -> <-.
    destruct (nsays nu T op) as [T2 b] eqn:S1. destruct (nsays_all nu T2 ops) as [T3 bs] eqn:S2. injection S as -> <-.
    pose proof (qstep_reached _ _ _ _ _ _ R E1) as R2. destruct (qrun_reached _ _ _ _ _ _ R2 E2) as [_ G2].
    destruct (qstep_spec nu c1 op Hnu Hc1 C1 _ _ _ _ _ _ R F E1 (grows_trans _ _ _ G2 G)) as [A B]. rewrite S1 in A, B. cbn [fst snd] in *.
    destruct (IH _ _ _ _ _ _ _ _ R2 A E2 G S2) as [A2 B2]. cbn [map]. split; [exact A2|]. now rewrite B, B2.
Qed.

Theorem node_program nu c0 ops w outs T oks : numbering nu -> reached_cache c0 -> Forall node_call ops ->
  qrun (c0, []) ops = (w, outs) -> nsays_all nu [] ops = (T, oks) ->
  map works outs = oks /\
  forall v x, nth_error T v = Some (Some x) -> let M := ns_marks x in
    exists o Ls Ln ms, qstep w (QResult v) = (w, QMap o) /\
      map nu Ls = firsts (srcs_of M) /\ map nu Ln = firsts (names_of M) /\ reads_as nu Ls Ln ms = Some (least M) /\
      forall l, Forall quiet l ->
        (~ starts_with BOM (text_of M) -> snd (rstep (fst (rrun (fst w, o) l)) RSource) = AText (text_of M)) /\
        snd (rstep (fst (rrun (fst w, o) l)) (RGet FSources)) = AVal (VArr (map Some Ls)) /\
        snd (rstep (fst (rrun (fst w, o) l)) (RGet FNames)) = AVal (VArr (map Some Ln)) /\
        snd (rstep (fst (rrun (fst w, o) l)) (RGet FMappings)) = AVal (VStr ms) /\
        snd (rstep (fst (rrun (fst w, o) l)) (RGet FContents)) =
          AVal (list_value (flat_map (fun s => match first_content (ns_contents x) s with Some k => [k] | None => [] end) Ls)).
Proof.
  intros Hnu R Co E S. destruct w as [c1 ws]. destruct (qrun_reached _ _ _ _ _ _ R E) as [R1 G]. pose proof (reached_ok _ R1) as Ok.
  destruct (qrun_spec nu c1 ops Hnu Ok Co _ _ [] _ _ _ _ _ R (Forall2_nil _) E (grows_refl c1) S) as [F B]. split; [exact B|]. intros v x Ex M.
  pose proof (F2_nth _ ws T v F) as Q. rewrite Ex in Q. destruct (nth_error ws v) as [[n|]|] eqn:En; cbn in Q; try contradiction.
  destruct Q as (A & Sol & Ni & EM & Pl). destruct n as [s|pos src name ch ct]; [destruct A|]. destruct A as (-> & _ & _ & A3 & A4).
  destruct (given_app c1 _ _ _ _ A3 A4) as (ps & P1 & P2).
  destruct (node_least nu c1 _ M ps _ Hnu R1 Sol Ni EM P1 P2) as (r & Ls & Ln & ms & segs & Enr & H1 & H2 & H3 & _ & _ & H4).
  exists (robj_new r true), Ls, Ln, ms. split; [cbn [qstep]; now rewrite En, Enr|]. split; [exact H1|]. split; [exact H2|]. split; [exact H3|].
  intros l Hl. destruct (H4 l Hl) as (Q1 & Q2 & Q3 & Q4 & Q5). split; [|split; [exact Q2|split; [exact Q3|split; [exact Q4|exact Q5]]]].
  intro NB. cbn [fst] in *. rewrite Q1. f_equal. now apply plain_out.
Qed.

(** ** Objects that are gone *)
Definition gone (w : qworld) (v : nat) : Prop := nth_error (snd w) v = Some None.
Lemma gone_set (ws : list (option smnode)) u v x : nth_error ws v = Some None -> u <> v \/ x = None -> nth_error (set_nth u ws x) v = Some None.
Proof. intros H D. rewrite nth_set. destruct (Nat.eqb_spec u v) as [->|N]; [rewrite H|exact H]. destruct D as [D|D]; [contradiction|now subst]. Qed.
Lemma args_gone self l : forall n ws v, nth_error ws v = Some None -> nth_error (snd (fst (add_args self n ws l))) v = Some None.
Proof.
  induction l as [|[s|u|] l IH]; intros n ws v H; cbn [add_args fst snd]; auto. destruct (match self with Some v0 => Nat.eqb u v0 | None => false end); [exact H|].
  destruct (nth_error ws u) as [[m|]|] eqn:Eu; [|exact H|exact H]. apply IH. apply gone_set; auto.
Qed.
Lemma args_take self l : forall n ws, snd (add_args self n ws l) = true -> forall v, In (AObj v) l -> nth_error (snd (fst (add_args self n ws l))) v = Some None /\ exists m, nth_error ws v = Some (Some m).
Proof.
  induction l as [|g l IH]; intros n ws E v Hv; [destruct Hv|]. destruct g as [s|u|]; cbn [add_args fst snd] in *.
  - destruct Hv as [Hv|Hv]; [discriminate|]. now apply IH.
  - destruct (match self with Some v0 => Nat.eqb u v0 | None => false end); [discriminate|]. destruct (nth_error ws u) as [[m|]|] eqn:Eu; [|discriminate|discriminate].
    destruct Hv as [Hv|Hv].
    + injection Hv as ->. split; [|eauto]. apply args_gone. rewrite nth_set, Nat.eqb_refl, Eu. reflexivity.
    + destruct (IH _ _ E v Hv) as [A [m' B]]. split; [exact A|]. rewrite nth_set in B. destruct (Nat.eqb_spec u v) as [->|]; [rewrite Eu in B; discriminate|eauto].
  - discriminate.
Qed.
Lemma gone_stays w op v : gone w v -> gone (fst (qstep w op)) v.
Proof.
  unfold gone. destruct w as [c ws]. intro H. cbn [snd] in H. destruct op as [line column src l|e columns md|u l|u|u|s b]; cbn [qstep].
  - destruct (node_start c line column src) as [c2 n]. pose proof (args_gone None l n ws v H) as A.
    destruct (add_args None n ws l) as [[[n'|] ws2] [|]]; cbn [fst snd] in *; try exact A. now apply nth_snoc.
  - destruct (build c e) as [c2 t]. destruct t; try exact H; match goal with |- context [t_node ?a ?b ?t] => destruct (t_node a b t) end; cbn [fst snd]; try exact H; now apply nth_snoc.
  - destruct (nth_error ws u) as [[n|]|] eqn:Eu; [|exact H|exact H]. pose proof (args_gone (Some u) l n ws v H) as A.
    destruct (add_args (Some u) n ws l) as [[n' ws2] ok]. cbn [fst snd] in *. apply gone_set; [exact A|]. left. intros ->. congruence.
  - destruct (nth_error ws u) as [[n|]|] eqn:Eu; [|exact H|exact H]. cbn [fst snd]. apply gone_set; auto.
  - destruct (nth_error ws u) as [[n|]|] eqn:Eu; [destruct (node_result n)| |]; exact H.
  - exact H.
Qed.
Lemma gone_throws w op v : gone w v -> touches v op -> snd (qstep w op) = QError.
Proof.
  unfold gone. destruct w as [c ws]. intros H T. cbn [snd] in H.
  assert (X : forall self n l, In (AObj v) l -> snd (add_args self n ws l) = false).
  { intros self n l Hl. destruct (snd (add_args self n ws l)) eqn:E; [|reflexivity]. destruct (args_take self l n ws E v Hl) as [_ [m Em]]. congruence. }
  destruct op as [line column src l|e columns md|u l|u|u|s b]; cbn [qstep touches] in *; try contradiction.
  - destruct (node_start c line column src) as [c2 n]. specialize (X None n l T). destruct (add_args None n ws l) as [[[n'|] ws2] ok]; cbn [snd] in *; subst; reflexivity.
  - destruct T as [[-> T]|T].
    + rewrite H. destruct l; [congruence|reflexivity].
    + destruct (nth_error ws u) as [[n|]|]; [|destruct l; [destruct T|reflexivity]|reflexivity]. specialize (X (Some u) n l T).
      destruct (add_args (Some u) n ws l) as [[n' ws2] ok]. cbn [snd] in *. now subst.
  - subst. now rewrite H.
  - subst. now rewrite H.
Qed.
Lemma gone_run ops : forall w v, gone w v -> gone (fst (qrun w ops)) v.
Proof.
  induction ops as [|op ops IH]; intros w v H; [exact H|]. cbn [qrun]. pose proof (gone_stays w op v H) as A. destruct (qstep w op) as [w1 a]. cbn [fst] in A.
  specialize (IH _ _ A). destruct (qrun w1 ops) as [w2 out]. exact IH.
Qed.
Lemma gone_for_good w v ops w2 outs op : gone w v -> qrun w ops = (w2, outs) -> touches v op -> snd (qstep w2 op) = QError.
Proof. intros G E T. pose proof (gone_run ops w v G) as A. rewrite E in A. now apply (gone_throws w2 op v). Qed.

Theorem added_gone w u l v w1 ops w2 outs op : qstep w (QAdd u l) = (w1, QDone) -> In (AObj v) l -> qrun w1 ops = (w2, outs) -> touches v op -> snd (qstep w2 op) = QError.
Proof.
  intros E Hv. apply gone_for_good. destruct w as [c ws]. cbn [qstep] in E. destruct (nth_error ws u) as [[n|]|] eqn:Eu; [|destruct l; [destruct Hv|discriminate]|discriminate].
  pose proof (fun X => args_take (Some u) l n ws X v Hv) as A. destruct (add_args (Some u) n ws l) as [[n' ws2] [|]] eqn:Ea; [|discriminate]. injection E as <-.
  destruct (A eq_refl) as [A1 [m A2]]. unfold gone. cbn [snd fst] in *. apply gone_set; [exact A1|]. left. intros ->.
  clear - Ea Hv. revert n ws Ea. induction l as [|g l IH]; intros n ws Ea; [destruct Hv|]. destruct g as [s|k|]; cbn [add_args] in Ea.
  - destruct Hv as [Hv|Hv]; [discriminate|]. exact (IH Hv _ _ Ea).
  - destruct (Nat.eqb_spec k v) as [->|N]; [discriminate|]. destruct (nth_error ws k) as [[m'|]|]; [|discriminate|discriminate].
    destruct Hv as [Hv|Hv]; [congruence|]. exact (IH Hv _ _ Ea).
  - discriminate.
Qed.
Theorem built_gone w line column src l v w1 ops w2 outs op : qstep w (QNew line column src l) = (w1, QDone) -> In (AObj v) l -> qrun w1 ops = (w2, outs) -> touches v op -> snd (qstep w2 op) = QError.
Proof.
  intros E Hv. apply gone_for_good. destruct w as [c ws]. cbn [qstep] in E. destruct (node_start c line column src) as [c2 n].
  pose proof (fun X => args_take None l n ws X v Hv) as A. destruct (add_args None n ws l) as [[[n'|] ws2] [|]]; try discriminate. injection E as <-.
  destruct (A eq_refl) as [A1 _]. unfold gone. cbn [snd fst] in *. now apply nth_snoc.
Qed.
Theorem freed_gone w v w1 ops w2 outs op : qstep w (QFree v) = (w1, QDone) -> qrun w1 ops = (w2, outs) -> touches v op -> snd (qstep w2 op) = QError.
Proof.
  intros E. apply gone_for_good. destruct w as [c ws]. cbn [qstep] in E. destruct (nth_error ws v) as [[n|]|] eqn:Ev; try discriminate. injection E as <-.
  unfold gone. cbn [snd]. now rewrite nth_set, Nat.eqb_refl, Ev.
Qed.
(** Adding a node to itself. *)
Theorem self_gone w v l r w1 o w1' ops w2 outs op : qstep w (QAdd v l) = (w1', QDone) -> qstep w (QAdd v (l ++ AObj v :: r)) = (w1, o) ->
  (exists n, nth_error (snd w) v = Some (Some n)) -> o = QError /\ (qrun w1 ops = (w2, outs) -> touches v op -> snd (qstep w2 op) = QError).
Proof.
  intros E0 E (n & Ev). destruct w as [c ws]. cbn [qstep snd] in *. rewrite Ev in *.
  assert (A : forall l0 n0 ws0, snd (add_args (Some v) n0 ws0 l0) = true -> exists ws1, add_args (Some v) n0 ws0 (l0 ++ AObj v :: r) = (None, ws1, false) /\ length ws1 = length ws0).
  { induction l0 as [|g l0 IH]; intros n0 ws0 H; cbn [app add_args] in *.
    - rewrite Nat.eqb_refl. eauto.
    - destruct g as [s|k|]; [now apply IH| |discriminate]. destruct (Nat.eqb k v); [discriminate|]. destruct (nth_error ws0 k) as [[m|]|]; [|discriminate|discriminate].
      destruct (IH _ _ H) as (ws1 & -> & L). exists ws1. split; [reflexivity|]. rewrite L. clear. revert k. induction ws0 as [|x ws0 IH]; intros [|k]; cbn; auto. }
  destruct (A l n ws) as (ws1 & Ea & L); [destruct (add_args (Some v) n ws l) as [[n' ws'] [|]]; [reflexivity|discriminate]|].
  rewrite Ea in E. injection E as <- <-. split; [reflexivity|]. apply gone_for_good. unfold gone. cbn [snd]. rewrite nth_set, Nat.eqb_refl.
  destruct (nth_error ws1 v) eqn:E1; [reflexivity|]. apply nth_error_None in E1. assert (v < length ws) by (apply nth_error_Some; congruence). lia.
Qed.
