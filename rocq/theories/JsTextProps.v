(** The texts JavaScript sees. *)
From Verif Require Import Base Tactics ModelString ModelVlq ModelSm ModelSlm ModelSources ModelTree ModelJs ModelJsApi
  SpecText SpecMap SpecAttr SpecJs EditFacts TreeText Utf8 Utf16Facts NodeFacts NodeTree.
From Verif Require Export SpecHashText.

(** ** Edits on both sides of the boundary *)
Section SetText.
  Variable f : list N -> str.
  Lemma put_set_text x l : put key_le (set_text f x) (map (set_text f) l) = map (set_text f) (put key_le x l).
  Proof.
    induction l as [|y l IH]; [reflexivity|]. cbn [put map]. change (key_le (set_text f y) (set_text f x)) with (key_le y x).
    destruct (key_le y x); cbn [map]; [now rewrite IH|reflexivity].
  Qed.
  Lemma arrange_set_text l : arrange key_le (map (set_text f) l) = map (set_text f) (arrange key_le l).
  Proof.
    unfold arrange. change (@nil edit) with (map (set_text f) []) at 1. generalize (@nil edit).
    induction l as [|x l IH]; intro acc; [reflexivity|]. cbn [fold_left map]. rewrite put_set_text. apply IH.
  Qed.
  Lemma covered_set_text l j : covered (map (set_text f) l) j = covered l j.
  Proof. unfold covered. induction l as [|x l IH]; [reflexivity|]. cbn [map existsb]. now rewrite IH. Qed.
  Lemma place_set_text len l : SpecText.place len (map (set_text f) l) = SpecText.place len l.
  Proof. unfold SpecText.place. induction l as [|x l IH]; [reflexivity|]. cbn [map fold_right]. now rewrite IH. Qed.
  Lemma places_set_text len l :
    places len (map (set_text f) l) = map (fun p => (fst p, f (snd p))) (places len l).
  Proof.
    induction l as [|x l IH]; [reflexivity|].
    change (places len (map (set_text f) (x :: l))) with
      ((SpecText.place len (map (set_text f) (x :: l)), f (e_text x)) :: places len (map (set_text f) l)).
    now rewrite place_set_text, IH.
  Qed.
End SetText.

(** [g] sends texts to texts, piece by piece. *)
Lemma texts_at_map (g : char -> list N) ps k :
  texts_at (map (fun p => (fst p, flat_map g (snd p))) ps) k = flat_map g (texts_at ps k).
Proof.
  unfold texts_at. induction ps as [|[a t] ps IH]; [reflexivity|]. cbn [map flat_map fst snd].
  rewrite flat_map_app, IH. destruct (Nat.eqb a k); reflexivity.
Qed.
Lemma weave_map (g : char -> list N) ps keep s pos : Forall (fun c => g c = [c]) s ->
  weave (map (fun p => (fst p, flat_map g (snd p))) ps) keep pos s = flat_map g (weave ps keep pos s).
Proof.
  intro H. revert pos. induction H as [|c s Hc _ IH]; intro pos; [reflexivity|]. cbn [weave].
  rewrite !flat_map_app, texts_at_map, IH. destruct (keep pos); cbn [flat_map]; [|reflexivity].
  now rewrite Hc.
Qed.
Lemma woven_map (g : char -> list N) ps keep s : Forall (fun c => g c = [c]) s ->
  woven (map (fun p => (fst p, flat_map g (snd p))) ps) keep s = flat_map g (woven ps keep s).
Proof. intro H. unfold woven. now rewrite flat_map_app, weave_map, texts_at_map. Qed.

Lemma woven_ext {A} (ps ps' : list (nat * list A)) keep keep' s : ps = ps' -> (forall j, keep j = keep' j) ->
  woven ps keep s = woven ps' keep' s.
Proof.
  intros <- H. unfold woven. f_equal. generalize 0. induction s as [|c s IH]; intro pos; [reflexivity|].
  cbn [weave]. now rewrite H, IH.
Qed.
Lemma texts_at_in {A} (P : A -> Prop) ps k : Forall (fun p => Forall P (snd p)) ps -> Forall P (texts_at ps k).
Proof.
  unfold texts_at. induction 1 as [|p ps H _ IH]; [constructor|]. cbn [flat_map]. apply Forall_app. split; auto.
  destruct (Nat.eqb (fst p) k); [auto|constructor].
Qed.
Lemma woven_in {A} (P : A -> Prop) ps keep s : Forall (fun p => Forall P (snd p)) ps -> Forall P s -> Forall P (woven ps keep s).
Proof.
  intros Hp Hs. unfold woven. apply Forall_app. split; [|now apply texts_at_in]. generalize 0.
  induction Hs as [|c s Hc _ IH]; intro pos; [constructor|]. cbn [weave]. repeat (apply Forall_app; split); auto.
  - now apply texts_at_in.
  - destruct (keep pos); auto.
Qed.

Definition text_formed (e : edit) : Prop := well_formed (e_text e).
Lemma jedits_formed h : Forall call_formed h -> Forall text_formed (jedits h).
Proof.
  unfold jedits. induction 1 as [|c h Hc _ IH]; [constructor|]. cbn [flat_map]. apply Forall_app. split; auto.
  destruct c; cbn [jedit_of]; repeat constructor; exact Hc.
Qed.
Lemma places_texts (P : list N -> Prop) len l : Forall (fun e => P (e_text e)) l -> Forall (fun p => P (snd p)) (places len l).
Proof. induction 1; cbn [places]; constructor; auto. Qed.
Lemma arrange_in (P : edit -> Prop) l : Forall P l -> Forall P (arrange key_le l).
Proof.
  assert (Hput : forall x acc, P x -> Forall P acc -> Forall P (put key_le x acc)).
  { intros x acc Hx. induction 1 as [|y acc Hy Ha IH]; cbn [put]; [auto|]. destruct (key_le y x); auto. }
  unfold arrange. intro H. assert (G : Forall P []) by constructor. revert G. generalize (@nil edit).
  induction H as [|x l Hx _ IH]; intros acc G; [exact G|]. cbn [fold_left]. apply IH. auto.
Qed.

Lemma edited_utf16 es s : Forall text_formed es -> plain s ->
  utf16 (edited_any (map (set_text from_js) es) s) (edited_any es s).
Proof.
  intros F Hs. apply utf16_iff. unfold edited_any. rewrite arrange_set_text, places_set_text.
  set (ps := places (length s) (arrange key_le es)).
  assert (Fp : Forall (fun p => well_formed (snd p)) ps).
  { apply places_texts with (P := well_formed). now apply arrange_in. }
  split.
  - apply woven_in.
    + apply Forall_map. eapply Forall_impl; [|exact Fp]. intros [a t] [x Hx]. cbn in *.
      rewrite (from_js_utf16 x t Hx). now apply utf16_scalar in Hx.
    + eapply Forall_impl; [|exact Hs]. intros c Hc. apply Hc.
  - rewrite <- woven_map.
    + apply woven_ext; [|intro j; now rewrite covered_set_text]. rewrite map_map.
      fold ps. transitivity (map (fun p : nat * list N => p) ps); [now rewrite map_id|].
      apply map_ext_in. intros [a t] Hin. cbn.
      rewrite Forall_forall in Fp. destruct (Fp _ Hin) as [x Hx]. cbn in Hx.
      rewrite (from_js_utf16 x t Hx). apply utf16_iff in Hx as [_ ->]. reflexivity.
    + eapply Forall_impl; [|exact Hs]. intros c [H1 H2]. unfold to_units.
      destruct (c <? 65536)%N eqn:E; [reflexivity|lia].
Qed.

(** ** Trees *)
Lemma jtree_rect' (P : jtree -> Prop) :
  (forall s, P (JStr s)) -> (forall v, P (JRaw v)) -> (forall v i n, P (JOriginal v i n)) ->
  (forall v n i o, P (JL2L v n i o)) -> (forall p t, P t -> P (JPrefix p t)) -> (forall t h, P t -> P (JEdit t h)) ->
  (forall l, Forall P l -> P (JConcat l)) -> (forall v i n d o x, P (JSms v i n d o x)) -> forall t, P t.
Proof.
  intros H1 H2 H3 H4 H5 H6 H7 H8. fix IH 1.
  destruct t; [apply H1|apply H2|apply H3|apply H4|apply H5, IH|apply H6, IH| |apply H8].
  apply H7. induction children as [|x l IHl]; constructor; [apply IH|apply IHl].
Qed.
Definition all_formed (l : list jtree) : Prop := (fix all l := match l with [] => True | x :: r => formed x /\ all r end) l.
Lemma formed_concat l : formed (JConcat l) <-> Forall formed l.
Proof.
  change (formed (JConcat l)) with (all_formed l).
  induction l as [|x l IH]; cbn [all_formed]; split; intro H; try constructor; auto;
    try (inversion H; subst); tauto.
Qed.
Lemma ordinary_concat l : ordinary_edits (JConcat l) <-> Forall ordinary_edits l.
Proof.
  cbn [ordinary_edits].
  induction l as [|x l IH]; split; intro H; try constructor; auto; try (inversion H; subst); tauto.
Qed.

Lemma import_text t : formed t -> ordinary_edits t ->
  exists s, t_source (import t) = Some s /\ utf16 s (js_text t).
Proof.
  induction t as [v|v|v i n|v n i o|p t IH|t h IH|l IH|v i n d o x] using jtree_rect'; intros F O.
  - destruct F as [s Hs]. exists s. cbn [import]. rewrite (from_js_utf16 s v Hs). auto.
  - destruct F as [s Hs]. exists s. cbn [import]. rewrite (from_js_utf16 s v Hs). auto.
  - destruct F as [s Hs]. exists s. cbn [import]. rewrite (from_js_utf16 s v Hs). auto.
  - destruct F as [s Hs]. exists s. cbn [import]. rewrite (from_js_utf16 s v Hs). auto.
  - destruct F as [[p' Hp] F]. destruct (IH F O) as (s & E & Hs). exists (prefixed p' s).
    cbn [import js_text]. rewrite (from_js_utf16 p' p Hp). split; [now apply prefix_text|]. now apply prefixed_utf16.
  - destruct F as [F C]. destruct O as (O & Oc & Pl). destruct (IH F O) as (s & E & Hs).
    assert (Es : s = js_text t).
    { apply plain_utf16 in Pl. rewrite <- (from_js_utf16 _ _ Hs). now apply from_js_utf16. }
    destruct (import_edits h Oc) as (G1 & G2 & G3). cbn [import js_text]. rewrite js_run_run.
    exists (edited_any (edits_of (map import_call h)) s). split; [now apply replace_source_text|].
    rewrite G1. rewrite Es. apply edited_utf16; [now apply jedits_formed|]. exact Pl.
  - apply formed_concat in F. apply ordinary_concat in O. cbn [import js_text].
    assert (G : exists ss, map t_source (map import l) = map Some ss /\ utf16 (concat ss) (flat_map js_text l)).
    { induction IH as [|x l Hx _ IHl]; [exists []; split; [reflexivity|constructor]|].
      inversion F; inversion O; subst. destruct (Hx) as (s & E & Hs); auto. destruct IHl as (ss & E2 & Hss); auto.
      exists (s :: ss). cbn [map concat flat_map]. rewrite E, E2. split; [reflexivity|]. now apply utf16_app. }
    destruct G as (ss & E & Hss). exists (concat ss). split; [|exact Hss].
    exact (concat_adds_source (map import l) ss [] [] eq_refl E).
  - destruct F as [s Hs]. exists s. split; [|exact Hs]. rewrite <- (from_js_utf16 s v Hs). cbn [import].
    destruct o as [[o oi]|]; destruct x; reflexivity.
Qed.

Theorem js_source_text t : formed t -> ordinary_edits t -> is_leaf t \/ ~ starts_with BOM (js_text t) ->
  js_source t = Some (js_text t).
Proof.
  intros F O H. destruct (import_text t F O) as (s & E & Hs).
  assert (G : ~ starts_with BOM (js_text t) -> option_map to_js (t_source (import t)) = Some (js_text t)).
  { intro B. rewrite E. cbn [option_map]. f_equal. rewrite <- (from_js_utf16 s _ Hs). now apply (boundary_utf16 s). }
  destruct t; cbn [is_leaf] in H; try reflexivity; destruct H as [[]|H]; now apply G.
Qed.

(** ** Size *)
Lemma blen_units s : length (flat_map to_units s) <= blen s /\
  (blen s = length (flat_map to_units s) <-> forallb is_ascii s = true).
Proof.
  induction s as [|c s [IH1 IH2]]; [split; [auto|split; reflexivity]|].
  cbn [flat_map blen forallb]. rewrite app_length.
  assert (G : length (to_units c) <= len_utf8 c /\ (len_utf8 c = length (to_units c) <-> is_ascii c = true)).
  { unfold to_units, len_utf8, is_ascii. destruct (c <? 65536)%N eqn:E; cbn [length];
      repeat match goal with |- context [if ?b then _ else _] => destruct b eqn:? end; split; try split; intros; try lia; try discriminate; auto. }
  destruct G as [G1 G2]. split; [lia|]. rewrite andb_true_iff, <- IH2, <- G2. split; [|lia]. lia.
Qed.
Lemma ascii_units s : Forall scalar s -> (forallb is_ascii s = true <-> forallb is_ascii (flat_map to_units s) = true).
Proof.
  induction 1 as [|c s Hc _ IH]; [reflexivity|]. cbn [flat_map forallb]. rewrite forallb_app, !andb_true_iff, IH.
  assert (G : is_ascii c = true <-> forallb is_ascii (to_units c) = true); [|tauto].
  unfold to_units. destruct (c <? 65536)%N eqn:E; cbn [forallb]; [now rewrite andb_true_r|].
  unfold is_ascii. split; [lia|]. rewrite !andb_true_iff. intros [H _].
  assert (0 <= (c - 65536) / 1024)%N by lia. lia.
Qed.
Theorem js_size_text t : formed t -> ordinary_edits t ->
  (js_size t = Some (length (js_text t)) <-> is_leaf t \/ forallb is_ascii (js_text t) = true).
Proof.
  intros F O. destruct (import_text t F O) as (s & E & Hs). apply utf16_iff in Hs as [Sc Hs].
  destruct (size_utf8 (import t)) as (s' & E' & Sz & _). rewrite E in E'. injection E' as <-. rewrite utf8_length in Sz.
  assert (G : t_size (import t) = Some (length (js_text t)) <-> forallb is_ascii (js_text t) = true).
  { rewrite Sz, Hs, <- ascii_units by auto. rewrite <- (proj2 (blen_units s)). split; [intro X; now injection X|now intros ->]. }
  destruct t; cbn [js_size is_leaf]; try (split; [now left|reflexivity]); tauto.
Qed.

(** ** Hash *)
Theorem js_hash_text t : formed t -> ordinary_edits t -> hashes_text t -> js_hash t = Some (js_text t).
Proof.
  induction t as [v|v|v i n|v n i o|p t IH|t h IH|l IH|v i n d o x] using jtree_rect'; intros F O H; try reflexivity.
  - cbn in H. subst o. cbn [js_hash js_text]. now rewrite app_nil_r.
  - destruct H.
  - apply js_source_text; auto.
  - apply formed_concat in F. apply ordinary_concat in O. cbn [js_text]. cbn [hashes_text] in H. cbn [js_hash].
    induction IH as [|x l Hx _ IHl]; [reflexivity|]. destruct H as [Hh1 Hh2]. inversion F; inversion O; subst.
    rewrite Hx by auto. cbn [bind]. rewrite IHl by auto. reflexivity.
  - cbn in H. subst o. cbn [js_hash js_text]. now rewrite app_nil_r.
Qed.

(** ** Columns *)
Lemma app_eq_len {A} (a b c d : list A) : a ++ b = c ++ d -> length a = length c -> a = c /\ b = d.
Proof.
  revert c. induction a as [|x a IH]; intros [|y c] E L; try discriminate; auto.
  injection E as -> E. injection L as L. destruct (IH c E L) as [-> ->]. auto.
Qed.
Lemma advance_units s p : Forall scalar s ->
  fst (fold_left advance (flat_map to_units s) p) = fst (fold_left advance s p).
Proof.
  intro H. revert p. assert (G : forall s p q, Forall scalar s -> fst p = fst q ->
    fst (fold_left advance (flat_map to_units s) p) = fst (fold_left advance s q)).
  { clear. intros s p q H. revert p q. induction H as [|c s Hc _ IH]; intros p q E; [exact E|].
    cbn [flat_map]. rewrite fold_left_app. apply IH.
    destruct (N.eq_dec c NL) as [->|Hn].
    - cbn. unfold advance. cbn. now rewrite E.
    - replace (fst (advance q c)) with (fst q) by (unfold advance; destruct (N.eqb_spec c NL); [tauto|reflexivity]).
      rewrite <- E. pose proof (units_NL_free c Hc Hn) as F. clear - F. revert p. induction F as [|x l Hx _ IH]; intro p; [reflexivity|].
      cbn [fold_left]. rewrite IH. unfold advance. destruct (N.eqb_spec x NL); [tauto|reflexivity]. }
  intro p. now apply G.
Qed.
Lemma units_plain s : plain s -> flat_map to_units s = s.
Proof. intro H. apply plain_utf16, utf16_iff in H as [_ H]. now rewrite <- H. Qed.
Lemma annotate_text es p s : text_of (annotate_from es p s) = s.
Proof. revert p. induction s as [|c s IH]; intro p; [reflexivity|]. cbn [annotate_from text_of map fst]. f_equal. apply IH. Qed.

Lemma annotate_js es code pre line post :
  annotate es code = pre ++ line ++ post -> Forall scalar code -> plain (text_of line) ->
  (pre = [] /\ ~ starts_with BOM code) \/ (exists pre' a, pre = pre' ++ [(NL, a)]) ->
  exists P R, annotate es (to_js code) = P ++ line ++ R /\ text_of P = to_js (text_of pre).
Proof.
  intros A S Pl H.
  assert (Ec : code = text_of pre ++ text_of line ++ text_of post).
  { rewrite <- (annotate_text es (1, 0)%Z code). fold (annotate es code). rewrite A. unfold text_of. now rewrite !map_app. }
  unfold annotate in A.
  assert (Al : annotate_from es (fold_left advance (text_of pre) (1, 0)%Z) (text_of line) = line).
  { rewrite Ec, !annotate_from_app in A.
    assert (L1 : length (annotate_from es (1, 0)%Z (text_of pre)) = length pre).
    { rewrite <- (map_length fst), <- (map_length fst pre). f_equal. apply annotate_text. }
    assert (L2 : length (annotate_from es (fold_left advance (text_of pre) (1, 0)%Z) (text_of line)) = length line).
    { rewrite <- (map_length fst), <- (map_length fst line). f_equal. apply annotate_text. }
    apply app_eq_len in A; [|exact L1]. destruct A as [_ A]. apply app_eq_len in A; [apply A|exact L2]. }
  assert (Hu : forall s, ~ starts_with BOM s -> to_js s = flat_map to_units s) by exact to_js_units.
  destruct H as [[-> B]|(pre' & a & ->)].
  - exists [], (annotate_from es (fold_left advance (flat_map to_units (text_of line)) (1, 0)%Z) (flat_map to_units (text_of post))).
    split; [|reflexivity]. rewrite Hu by exact B. rewrite Ec. cbn [text_of map app]. rewrite flat_map_app.
    unfold annotate. rewrite annotate_from_app. cbn [app]. f_equal. rewrite units_plain by exact Pl. exact Al.
  - set (pre := pre' ++ [(NL, a)]) in *.
    assert (Et : text_of pre = text_of pre' ++ [NL]) by (unfold pre, text_of; now rewrite map_app).
    assert (Sp : Forall scalar (text_of pre)) by (rewrite Ec in S; now apply Forall_app in S).
    assert (Ej : to_js code = to_js (text_of pre) ++ flat_map to_units (text_of line ++ text_of post)).
    { rewrite Ec. unfold to_js. destruct (text_of pre) as [|c r] eqn:E; [destruct (text_of pre'); discriminate|].
      cbn [app]. destruct (N.eqb c BOM); [now rewrite flat_map_app|]. change (c :: r ++ ?x) with ((c :: r) ++ x).
      now rewrite flat_map_app. }
    exists (annotate es (to_js (text_of pre))),
      (annotate_from es (fold_left advance (text_of line) (fold_left advance (to_js (text_of pre)) (1, 0)%Z)) (flat_map to_units (text_of post))).
    split; [|apply annotate_text]. rewrite Ej. unfold annotate. rewrite annotate_from_app, flat_map_app, annotate_from_app.
    rewrite units_plain by exact Pl. f_equal. f_equal. rewrite <- Al at 2. f_equal.
    (* both end behind a newline *)
    rewrite Et, fold_left_app. cbn [fold_left].
    assert (Ej2 : to_js (text_of pre' ++ [NL]) = match text_of pre' with c :: r => if N.eqb c BOM then flat_map to_units r else flat_map to_units (text_of pre') | [] => [] end ++ [NL]).
    { unfold to_js. destruct (text_of pre') as [|c r]; [reflexivity|]. cbn [app]. destruct (N.eqb c BOM); [now rewrite flat_map_app|].
      change (c :: r ++ [NL]) with ((c :: r) ++ [NL]). now rewrite flat_map_app. }
    rewrite Ej2, fold_left_app. cbn [fold_left]. unfold advance at 1 3. cbn [N.eqb NL Pos.eqb].
    f_equal. f_equal. rewrite Et in Sp. apply Forall_app in Sp as [Sp _].
    destruct (text_of pre') as [|c r]; [reflexivity|]. destruct (N.eqb_spec c BOM) as [->|].
    + inversion Sp; subst. rewrite advance_units by auto. cbn [fold_left].
      assert (Gd : forall s p q, fst p = fst q -> fst (fold_left advance s p) = fst (fold_left advance s q)).
      { clear. induction s as [|c s IH]; intros p q E; [exact E|]. cbn [fold_left]. apply IH. unfold advance. now rewrite E; destruct (N.eqb c NL). }
      apply Gd. reflexivity.
    + now apply advance_units.
Qed.

Theorem js_columns c m t M pre line post : emits c m t M -> M = pre ++ line ++ post ->
  Forall scalar (text_of M) -> plain (text_of line) ->
  (pre = [] /\ ~ starts_with BOM (text_of M)) \/ (exists pre' a, pre = pre' ++ [(NL, a)]) ->
  exists n code mp es P R, t_node c m t = Some n /\ to_string_with_source_map n None None = Some (code, mp) /\
    read_map (map_sources mp) (map_names mp) (map_mappings mp) = Some es /\
    annotate es (to_js code) = P ++ line ++ R /\ text_of P = to_js (text_of pre).
Proof.
  intros (n & code & mp & es & E1 & E2 & E3 & E4) EM S Pl H.
  assert (Ec : code = text_of M) by (rewrite <- E4; symmetry; apply annotate_text).
  destruct (annotate_js es code pre line post) as (P & R & G1 & G2); [congruence|now rewrite Ec|exact Pl|now rewrite Ec|].
  exists n, code, mp, es, P, R. auto.
Qed.

(** ** Positions *)
Theorem js_positions t s h : t_source t = Some s -> Forall ordinary_call h ->
  t_source (TReplace t (js_run h)) = Some (edited_any (map (set_text from_js) (jedits h)) s).
Proof.
  intros E H. destruct (import_edits h H) as (G1 & G2 & G3). rewrite js_run_run, <- G1. now apply replace_source_text.
Qed.
