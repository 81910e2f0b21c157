(** Programs of the JavaScript API: what is kept by every call. *)
From Verif Require Import Base Tactics ModelString ModelVlq ModelSm ModelSlm ModelSources ModelTree ModelHeap
  ModelWasm ModelJs ModelJsApi ModelJsResult ModelEnd ModelJsProg SortFacts EditFacts TreeText SpecHeap HeapFacts HeapProps
  SpecMap SpecAttr JsFacts SpecJs SpecResult ResultFacts ResultProps SpecEnd EndFacts MadeFacts EndMap SpecProg.
Require Import Permutation.

(** ** Lists *)
Lemma nth_set_nth {A} (l : list A) i x j : nth_error (set_nth l i x) j = if Nat.eqb i j then (if j <? length l then Some x else None) else nth_error l j.
Proof.
  revert i j. induction l as [|y l IH]; intros [|i] [|j]; cbn; try reflexivity.
  - now destruct (Nat.eqb i j).
  - rewrite IH. reflexivity.
Qed.
Lemma length_set_nth {A} (l : list A) i x : length (set_nth l i x) = length l.
Proof. revert i. induction l as [|y l IH]; intros [|i]; cbn; auto. Qed.
Lemma nth_update {A} (l : list A) i f j : nth_error (update_at i f l) j = if Nat.eqb i j then option_map f (nth_error l j) else nth_error l j.
Proof.
  revert i j. induction l as [|y l IH]; intros [|i] [|j]; cbn; try reflexivity.
  - now destruct (Nat.eqb i j).
  - apply IH.
Qed.
Lemma length_update {A} (l : list A) i f : length (update_at i f l) = length l.
Proof. revert i. induction l as [|y l IH]; intros [|i]; cbn; auto. Qed.
Lemma nth_snoc {A} (l : list A) x i y : nth_error (l ++ [x]) i = Some y -> nth_error l i = Some y \/ (i = length l /\ y = x).
Proof.
  intro E. destruct (Nat.lt_ge_cases i (length l)) as [H|H]; [rewrite nth_error_app1 in E; auto|].
  rewrite nth_error_app2 in E by exact H. right. destruct (i - length l) as [|k] eqn:K; cbn in E.
  - injection E as <-. split; [lia|reflexivity].
  - destruct k; discriminate.
Qed.
Lemma nth_old {A} (l r : list A) i y : nth_error l i = Some y -> nth_error (l ++ r) i = Some y.
Proof. intro E. rewrite nth_error_app1; [exact E|]. apply nth_error_Some. congruence. Qed.
Lemma nth_last {A} (l : list A) x : nth_error (l ++ [x]) (length l) = Some x.
Proof. rewrite nth_error_app2 by lia. now rewrite Nat.sub_diag. Qed.
Lemma nth_lt {A} (l : list A) i y : nth_error l i = Some y -> i < length l.
Proof. intro E. apply nth_error_Some. congruence. Qed.

(** ** Later calls on an edited source *)
Lemma sort_perm st : Permutation (rs_repls st) (rs_repls (sort_replacements st)).
Proof. unfold sort_replacements. destruct (rs_sorted st); [reflexivity|]. apply isort_perm. Qed.
Definition numbered (st : rstate) : Prop := Permutation (map rp_idx (rs_repls st)) (seq 0 (length (rs_repls st))).
Lemma numbered_step st k : numbered st -> numbered (js_step st k).
Proof.
  unfold numbered. intro H. destruct k; cbn [js_step rs_replace rs_insert rs_repls].
  - rewrite map_app, app_length. cbn [map length rp_idx]. rewrite seq_app. now apply Permutation_app.
  - rewrite map_app, app_length. cbn [map length rp_idx]. rewrite seq_app. now apply Permutation_app.
  - rewrite <- (Permutation_length (sort_perm st)). rewrite <- H. apply Permutation_map. symmetry. apply sort_perm.
Qed.
Lemma numbered_run l : numbered (js_run l).
Proof.
  unfold js_run. assert (H : numbered rstate_new) by (unfold numbered; cbn; constructor). revert H. generalize rstate_new as st.
  induction l as [|k l IH]; intros st H; [exact H|]. cbn [fold_left]. apply IH. now apply numbered_step.
Qed.
Lemma sort_unsorted l l' : NoDup (map rp_idx l) -> Permutation l l' ->
  sort_replacements (mk_rstate l false) = sort_replacements (mk_rstate l' false).
Proof.
  intros N P. unfold sort_replacements. cbn [rs_sorted rs_repls]. f_equal. apply isort_unique; auto using repl_cmp_sym.
  - exact repl_cmp_trans.
  - intros x y Hx Hy E. apply repl_cmp_eq in E. unfold rkey in E. assert (I : rp_idx x = rp_idx y) by congruence.
    clear - N Hx Hy I. induction l as [|z l IH]; [destruct Hx|]. cbn [map] in N. inversion N as [|? ? H1 H2]; subst.
    destruct Hx as [->|Hx], Hy as [->|Hy]; auto.
    + destruct H1. rewrite I. now apply in_map.
    + destruct H1. rewrite <- I. now apply in_map.
Qed.
Lemma step_sort st st' k : k <> JRead -> numbered st -> sort_replacements st' = sort_replacements st ->
  sort_replacements (js_step st' k) = sort_replacements (js_step st k).
Proof.
  intros NR H E.
  assert (P : Permutation (rs_repls st) (rs_repls st')).
  { rewrite (sort_perm st), <- E. symmetry. apply sort_perm. }
  pose proof (Permutation_length P) as L.
  assert (Nd : forall x, rp_idx x = length (rs_repls st) -> NoDup (map rp_idx (rs_repls st ++ [x]))).
  { intros x Hx. rewrite map_app. cbn [map]. rewrite Hx. eapply Permutation_NoDup; [symmetry; apply Permutation_app_tail; exact H|].
    change [length (rs_repls st)] with (seq (0 + length (rs_repls st)) 1). rewrite <- seq_app. apply seq_NoDup. }
  destruct k; [| |congruence]; cbn [js_step]; unfold rs_replace, rs_insert; rewrite <- L; symmetry; apply sort_unsorted;
    try (now apply Nd); now apply Permutation_app_tail.
Qed.

(** ** Texts do not depend on numbers *)
Lemma made_source c c' e : forall t t', made c e t -> made c' e t' -> t_source (import t) = t_source (import t').
Proof.
  induction e as [s|v|v n|v n o|p e IH|e h IH|l IH|v n m o i] using jexpr_ind'; intros t t' H H'.
  - cbn [made] in *. congruence.
  - cbn [made] in *. congruence.
  - destruct H as (? & ? & -> & _), H' as (? & ? & -> & _). reflexivity.
  - destruct H as (? & ? & -> & _), H' as (? & ? & -> & _). reflexivity.
  - destruct H as (u & -> & H), H' as (u' & -> & H'). specialize (IH _ _ H H'). unfold t_source in *. cbn [import fold_tree]. now rewrite IH.
  - destruct H as (u & -> & H), H' as (u' & -> & H'). specialize (IH _ _ H H'). unfold t_source in *. cbn [import fold_tree]. now rewrite IH.
  - apply made_concat in H as (ts & -> & H). apply made_concat in H' as (ts' & -> & H'). cbn [import].
    assert (Y : exists ss, map t_source (map import ts) = map Some ss /\ map t_source (map import ts') = map Some ss).
    { revert ts ts' H H'. induction IH as [|e l He _ IHl]; intros ts ts' H H'; inversion H; inversion H'; subst; [exists []; auto|].
      match goal with A : made c e ?t, B : made c' e ?t', X : Forall2 _ l ?r, Y : Forall2 _ l ?r' |- _ =>
        destruct (IHl _ _ X Y) as (ss & E1 & E2); specialize (He _ _ A B); destruct (source_total (import t)) as (s & Es); exists (s :: ss) end.
      cbn [map]. split; congruence. }
    destruct Y as (ss & E1 & E2). rewrite (concat_adds_source _ ss concat_new [] eq_refl E1), (concat_adds_source _ ss concat_new [] eq_refl E2). reflexivity.
  - destruct H as (vi & ni & d & oo & ii & -> & _), H' as (vi' & ni' & d' & oo' & ii' & -> & _).
    cbn [import]. destruct oo as [[? ?]|], ii, oo' as [[? ?]|], ii'; reflexivity.
Qed.
Lemma source_size t t' : t_source t = t_source t' -> t_size t = t_size t'.
Proof. intro E. destruct (source_total t) as (s & H). rewrite (size_spec _ _ H). rewrite E in H. now rewrite (size_spec _ _ H). Qed.
Lemma made_js_source c c' e t t' : made c e t -> made c' e t' -> js_source t = js_source t' /\ js_size t = js_size t'.
Proof.
  intros H H'. pose proof (made_source _ _ _ _ _ H H') as E. pose proof (source_size _ _ E) as E2.
  destruct e; cbn [made] in H, H';
    repeat match goal with H : exists _, _ |- _ => destruct H as [? H] | H : _ /\ _ |- _ => destruct H as [H _] end; subst t t';
    unfold js_source, js_size; rewrite ?E, ?E2; auto.
Qed.

(** ** What is kept *)
Definition leaf_obj (t : jtree) : option obj :=
  match import t with
  | TRaw v => Some (ORaw v)
  | TOriginal v vi n => Some (OOriginal v vi n)
  | TL2L v n o => Some (OL2L v n o)
  | TSms x => Some (OSms x)
  | _ => None
  end.
Definition leaf_js (p : nat) (t : jtree) : option jobj :=
  match t with
  | JRaw v => Some (BRaw p v)
  | JOriginal v _ _ => Some (BOriginal p v)
  | JL2L v _ _ o => Some (BL2L p v o)
  | JSms v _ _ _ o _ => Some (BSms p v (match o with Some (s, _) => s | None => [] end))
  | _ => None
  end.
Definition matches (c : cache) (h : heap) (objs : list jobj) (b : jobj) (v : sobj) : Prop :=
  match v with
  | VLeaf e => exists t p o, made c e t /\ leaf_js p t = Some b /\ leaf_obj t = Some o /\ nth_error h p = Some o
  | VPrefix pre a => exists p s, b = BPrefix p pre a /\ nth_error h p = Some (OPrefix (from_js pre) s) /\ pass_arg objs a = Some s
  | VEdit a l => exists p s, b = BReplace p /\ nth_error h p = Some (OReplace s (js_run l)) /\ pass_arg objs a = Some s
  | VConcat l g => exists p ss, b = BConcat p g /\ nth_error h p = Some (OConcat ss) /\ Forall2 (fun a s => pass_arg objs a = Some s) l ss
  | VSame j => exists t n p, b = BCached j t n /\ ptr_of objs j = Some p
  end.
Definition changing (o : obj) : Prop := match o with OReplace _ _ | OConcat _ => True | _ => False end.
Definition flat_heap (h : heap) : Prop :=
  forall p l q, nth_error h p = Some (OConcat l) -> In (SRef q) l -> exists o, nth_error h q = Some o /\ forall l', o <> OConcat l'.
Notation lately := (later kept (fun _ => True)).

Record prog_inv (st : jstate) (vs : list sobj) (h0 : heap) : Prop := {
  iv_cache : reached_cache (js_cache st);
  iv_later : lately h0 (js_heap st);
  iv_len : length (js_objs st) = length vs;
  iv_objs : forall i b v, nth_error (js_objs st) i = Some b -> nth_error vs i = Some v -> matches (js_cache st) h0 (js_objs st) b v;
  iv_flat : flat_heap h0;
  iv_own : forall i j b b' p o, nth_error (js_objs st) i = Some b -> nth_error (js_objs st) j = Some b' ->
             own_ptr b = Some p -> own_ptr b' = Some p -> nth_error h0 p = Some o -> changing o -> i = j;
  iv_raws : forall v p, js_get (js_raws st) v = Some p -> nth_error h0 p = Some (ORaw (from_js v));
  iv_boots : forall k p, boot_get (js_boots st) k = Some p -> k < length (ca_array (js_cache st));
  iv_down : forall i j, nth_error vs i = Some (VSame j) -> j < i }.

Lemma lately_len h0 h : lately h0 h -> length h = length h0.
Proof.
  intro L. destruct (Nat.lt_trichotomy (length h) (length h0)) as [H|[H|H]]; [|exact H|].
  - specialize (L (length h) I). destruct (nth_error h0 (length h)) eqn:E; [|apply nth_error_None in E; lia].
    rewrite (proj2 (nth_error_None h (length h))) in L by lia. destruct L.
  - specialize (L (length h0) I). destruct (nth_error h (length h0)) eqn:E; [|apply nth_error_None in E; lia].
    rewrite (proj2 (nth_error_None h0 (length h0))) in L by lia. destruct L.
Qed.
Lemma lately_snoc h0 h o : lately h0 h -> (forall x, o = OSms x -> steady x) -> lately (h0 ++ [o]) (h ++ [o]).
Proof.
  intros L S i _. pose proof (lately_len _ _ L) as E. destruct (Nat.lt_trichotomy i (length h0)) as [H|[->|H]].
  - rewrite !nth_error_app1 by lia. apply L. exact I.
  - rewrite nth_last, <- E, nth_last. destruct o; cbn; auto. split; [auto|apply as_none].
  - rewrite !(proj2 (nth_error_None _ _)) by (rewrite app_length; cbn; lia). exact I.
Qed.
Lemma lately_set h0 h i o o' : lately h0 h -> later_obj kept o o' -> lately (h_set h0 i o) (h_set h i o').
Proof.
  intros L H j _. rewrite !nth_h_set, (lately_len _ _ L). destruct (Nat.eqb i j); [|exact (L j I)].
  destruct (j <? length h0); [exact H|exact I].
Qed.

(** Objects keep their pointers. *)
Definition objs_ext (l l' : list jobj) : Prop :=
  forall i b, nth_error l i = Some b -> exists b', nth_error l' i = Some b' /\ own_ptr b' = own_ptr b /\
    match b with BCached j _ _ => exists t n, b' = BCached j t n | _ => True end.
Lemma ext_snoc l x : objs_ext l (l ++ [x]).
Proof. intros i b E. exists b. split; [now apply nth_old|]. split; [reflexivity|]. destruct b; eauto. Qed.
Lemma ext_refl l : objs_ext l l.
Proof. intros i b E. exists b. split; [exact E|]. split; [reflexivity|]. destruct b; eauto. Qed.
Lemma ext_set l i b b' : nth_error l i = Some b -> own_ptr b' = own_ptr b ->
  match b with BCached j _ _ => exists t n, b' = BCached j t n | _ => True end -> objs_ext l (set_nth l i b').
Proof.
  intros E O C j x Ej. rewrite nth_set_nth. destruct (Nat.eqb_spec i j) as [<-|N].
  - pose proof (nth_lt _ _ _ E) as Lt. apply Nat.ltb_lt in Lt. rewrite Lt. assert (x = b) by congruence. subst x. eauto.
  - exact (ext_refl l j x Ej).
Qed.
Lemma ext_ptr l l' i p : objs_ext l l' -> ptr_of l i = Some p -> ptr_of l' i = Some p.
Proof.
  intro X. unfold ptr_of. generalize i at 1 3 as d. intro d. revert i. induction d as [|d IH]; intros i E; cbn [ptr_from] in *;
    (destruct (nth_error l i) as [b|] eqn:Ei; [|discriminate]); destruct (X _ _ Ei) as (b' & Ei' & O & C); rewrite Ei';
    (destruct b; try (rewrite <- O in E; destruct b'; cbn [own_ptr] in *; (exact E || discriminate))); try discriminate.
  destruct C as (t & n & ->). auto.
Qed.
Lemma ptr_from_more l p d : forall i d', ptr_from d l i = Some p -> d <= d' -> ptr_from d' l i = Some p.
Proof.
  induction d as [|d IH]; intros i [|d'] E L; try exact E; try lia; cbn [ptr_from] in *;
    (destruct (nth_error l i) as [b|]; [|discriminate]); destruct b; try exact E; try discriminate. apply IH; [exact E|lia].
Qed.
Lemma ptr_cached l i j t n p : nth_error l i = Some (BCached j t n) -> j < i -> ptr_of l j = Some p -> ptr_of l i = Some p.
Proof.
  intros E L P. unfold ptr_of. destruct i as [|i]; [lia|]. cbn [ptr_from]. rewrite E. eapply ptr_from_more; [exact P|lia].
Qed.
Lemma ext_arg l l' a s : objs_ext l l' -> pass_arg l a = Some s -> pass_arg l' a = Some s.
Proof.
  intros X E. destruct a as [u|i]; [exact E|]. cbn [pass_arg] in *. destruct (ptr_of l i) as [p|] eqn:Ep; [|discriminate].
  now rewrite (ext_ptr _ _ _ _ X Ep).
Qed.

Lemma matches_own c h objs b v p : matches c h objs b v -> own_ptr b = Some p -> exists o, nth_error h p = Some o.
Proof.
  intros M E. destruct v; cbn [matches] in M.
  - destruct M as (t & q & o & _ & Eb & _ & En). destruct t; cbn [leaf_js] in Eb; try discriminate; injection Eb as <-; injection E as <-; eauto.
  - destruct M as (q & s & -> & En & _). injection E as <-. eauto.
  - destruct M as (q & s & -> & En & _). injection E as <-. eauto.
  - destruct M as (q & s & -> & En & _). injection E as <-. eauto.
  - destruct M as (t & n & q & -> & _). discriminate.
Qed.
Lemma matches_mono c c' h h' objs objs' b v : grows c c' -> objs_ext objs objs' ->
  (forall p o, own_ptr b = Some p -> nth_error h p = Some o -> nth_error h' p = Some o) ->
  matches c h objs b v -> matches c' h' objs' b v.
Proof.
  intros G X K M. destruct v; cbn [matches] in *.
  - destruct M as (t & q & o & Hm & Eb & Eo & En). exists t, q, o. split; [eapply made_grows; eauto|]. split; [exact Eb|]. split; [exact Eo|].
    apply K; [|exact En]. destruct t; cbn [leaf_js] in Eb; try discriminate; injection Eb as <-; reflexivity.
  - destruct M as (q & s & -> & En & Ea). exists q, s. split; [reflexivity|]. split; [now apply K|]. eapply ext_arg; eauto.
  - destruct M as (q & s & -> & En & Ea). exists q, s. split; [reflexivity|]. split; [now apply K|]. eapply ext_arg; eauto.
  - destruct M as (q & s & -> & En & Ea). exists q, s. split; [reflexivity|]. split; [now apply K|].
    clear En. induction Ea; constructor; eauto using ext_arg.
  - destruct M as (t & n & q & -> & Eq). exists t, n, q. split; [reflexivity|]. eapply ext_ptr; eauto.
Qed.

Section Steps.
  Context {st : jstate} {vs : list sobj} {h0 : heap} (Iv : prog_inv st vs h0).
  Notation objs := (js_objs st).

  Lemma inv_lt i b v : nth_error objs i = Some b -> nth_error vs i = Some v -> forall p, own_ptr b = Some p -> p < length h0.
  Proof.
    intros E E' p Ep. destruct (matches_own _ _ _ _ _ _ (iv_objs _ _ _ Iv _ _ _ E E') Ep) as (o & En). eapply nth_lt; eauto.
  Qed.
  Lemma inv_val i b : nth_error objs i = Some b -> exists v, nth_error vs i = Some v.
  Proof.
    intro E. destruct (nth_error vs i) eqn:Ev; [eauto|]. apply nth_error_None in Ev. apply nth_lt in E. pose proof (iv_len _ _ _ Iv). lia.
  Qed.
  Lemma inv_obj i v : nth_error vs i = Some v -> exists b, nth_error objs i = Some b.
  Proof.
    intro E. destruct (nth_error objs i) eqn:Ev; [eauto|]. apply nth_error_None in Ev. apply nth_lt in E. pose proof (iv_len _ _ _ Iv). lia.
  Qed.

  (** Another cache. *)
  Lemma inv_grow c : reached_cache c -> grows (js_cache st) c ->
    prog_inv (mk_jstate c (js_heap st) (js_raws st) (js_boots st) objs) vs h0.
  Proof.
    intros R G. destruct Iv as [H1 H2 H3 H4 H5 H6 H7 H8 H9]. constructor; cbn [js_cache js_heap js_raws js_boots js_objs]; auto.
    - intros i b v E E'. eapply matches_mono; [exact G|apply ext_refl| |eauto]. auto.
    - intros k p E. specialize (H8 _ _ E). destruct G as [[l ->] _]. rewrite app_length. lia.
  Qed.
  (** A new object in the heap. *)
  Lemma inv_alloc o : (forall x, o = OSms x -> steady x) -> (forall l, o = OConcat l -> l = []) ->
    prog_inv (mk_jstate (js_cache st) (js_heap st ++ [o]) (js_raws st) (js_boots st) objs) vs (h0 ++ [o]).
  Proof.
    intros S C. destruct Iv as [H1 H2 H3 H4 H5 H6 H7 H8 H9]. constructor; cbn [js_cache js_heap js_raws js_boots js_objs]; auto.
    - now apply lately_snoc.
    - intros i b v E E'. eapply matches_mono; [apply grows_refl|apply ext_refl| |eauto]. intros p x _ En. now apply nth_old.
    - intros p l q E Hq. apply nth_snoc in E as [E|[_ E]].
      + destruct (H5 _ _ _ E Hq) as (x & En & N). exists x. split; [now apply nth_old|exact N].
      + rewrite (C _ (eq_sym E)) in Hq. destruct Hq.
    - intros i j b b' p x E E' Ep Ep' En Hx. apply (H6 i j b b' p x); auto. destruct (inv_val _ _ E) as (v & Ev).
      pose proof (inv_lt _ _ _ E Ev _ Ep). now rewrite nth_error_app1 in En.
    - intros v p E. apply nth_old. auto.
  Qed.
  (** A new JavaScript object. *)
  Lemma inv_push b v : matches (js_cache st) h0 (objs ++ [b]) b v ->
    (forall p o, own_ptr b = Some p -> nth_error h0 p = Some o -> changing o -> forall j b', nth_error objs j = Some b' -> own_ptr b' <> Some p) ->
    (forall j, v = VSame j -> j < length vs) ->
    prog_inv (mk_jstate (js_cache st) (js_heap st) (js_raws st) (js_boots st) (objs ++ [b])) (vs ++ [v]) h0.
  Proof.
    intros M F Dn. destruct Iv as [H1 H2 H3 H4 H5 H6 H7 H8 H9]. constructor; cbn [js_cache js_heap js_raws js_boots js_objs]; auto.
    - now rewrite !app_length, H3.
    - intros i b' v' E E'. apply nth_snoc in E as [E|[-> ->]]; apply nth_snoc in E' as [E'|[El ->]].
      + eapply matches_mono; [apply grows_refl|apply ext_snoc| |eauto]. auto.
      + apply nth_lt in E. lia.
      + apply nth_lt in E'. lia.
      + exact M.
    - intros i j x x' p o E E' Ep Ep' En Ho. apply nth_snoc in E as [E|[-> ->]]; apply nth_snoc in E' as [E'|[-> ->]].
      + eauto.
      + exfalso. exact (F _ _ Ep' En Ho _ _ E Ep).
      + exfalso. exact (F _ _ Ep En Ho _ _ E' Ep').
      + reflexivity.
    - intros i j E. apply nth_snoc in E as [E|[-> E]]; [eauto|]. apply Dn. now symmetry.
  Qed.

  (** CachedSources are CachedSources. *)
  Lemma inv_same i j t n : nth_error objs i = Some (BCached j t n) -> nth_error vs i = Some (VSame j) /\ j < i /\
    exists p, ptr_of objs j = Some p /\ ptr_of objs i = Some p.
  Proof.
    intro E. destruct (inv_val _ _ E) as (v & Ev). pose proof (iv_objs _ _ _ Iv _ _ _ E Ev) as M. destruct v; cbn [matches] in M.
    - destruct M as (u & q & o & _ & B & _). destruct u; discriminate.
    - destruct M as (q & s0 & B & _); discriminate.
    - destruct M as (q & s0 & B & _); discriminate.
    - destruct M as (q & s0 & B & _); discriminate.
    - destruct M as (? & ? & p & B & P). injection B as <- _ _. pose proof (iv_down _ _ _ Iv _ _ Ev) as L. eauto 6 using ptr_cached.
  Qed.
  Lemma inv_cachedv i j : nth_error vs i = Some (VSame j) -> exists t n, nth_error objs i = Some (BCached j t n).
  Proof.
    intro Ev. destruct (inv_obj _ _ Ev) as (b & E). destruct (iv_objs _ _ _ Iv _ _ _ E Ev) as (t & n & p & -> & _). eauto.
  Qed.
  Lemma inv_ptr i b p : nth_error objs i = Some b -> own_ptr b = Some p -> ptr_of objs i = Some p.
  Proof. intros E O. unfold ptr_of. destruct i; cbn [ptr_from]; rewrite E; destruct b; (exact O || discriminate). Qed.
  (** Every object has a pointer. *)
  Lemma inv_total i : i < length objs -> exists p, ptr_of objs i = Some p.
  Proof.
    intro L. destruct (nth_error objs i) as [b|] eqn:E; [|apply nth_error_None in E; lia].
    destruct (own_ptr b) as [p|] eqn:O; [exists p; eapply inv_ptr; eauto|]. destruct b; try discriminate.
    destruct (inv_same _ _ _ _ E) as (_ & _ & p & _ & P). eauto.
  Qed.
End Steps.
