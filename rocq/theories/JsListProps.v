(** Programs that make line maps by hand do what is said. *)
From Verif Require Import Base Tactics ModelString StringFacts ModelVlq ModelSm ModelSlm ModelSources ModelTree ModelWasm
  ModelJs ModelJsApi SpecText SpecMap SpecAttr SpecList SortFacts TextFacts NodeFacts LeafFacts ParseFacts MapFacts LoadFacts GenFacts SmsProps NodeTree
  SlmFacts SlmMap SlmRead SlmReplace SlmTree SlmWhole SlmProps SlmLines
  IdxFacts JsFacts Utf16Facts JsTextProps SpecResult ModelJsResult ResultFacts ResultProps SpecJs ModelEnd SpecEnd EndFacts MadeFacts EndProps ContentFacts EndMap LineEnd
  ModelJsList SpecJsList JsListFacts.

(** ** The cache *)
Lemma pass_reached c src orig c' si oi : reached_cache c -> pass_source c src orig = (c', si, oi) -> reached_cache c'.
Proof.
  intros R E. unfold pass_source in E. destruct (empty src); [now injection E as <- _ _|].
  destruct (cache_add c src) as [c1 i] eqn:E1. destruct (cache_add_unchecked c1 orig) as [c2 j] eqn:E2. injection E as <- _ _. eauto using reached_add, reached_addu.
Qed.
Lemma pass_spec c src orig c' si oi : cache_ok c -> pass_source c src orig = (c', si, oi) -> cache_ok c' /\ grows c c' /\
  (src = [] /\ si = None /\ oi = None \/ src <> [] /\ exists i j, si = Some i /\ oi = Some j /\ known c' i src /\ at_ c' j orig).
Proof.
  intros R E. unfold pass_source in E. destruct src as [|x src]; cbn [empty] in E.
  - injection E as <- <- <-. split; [exact R|]. split; [apply grows_refl|]. auto.
  - destruct (cache_add c (x :: src)) as [c1 i] eqn:E1. destruct (cache_add_unchecked c1 orig) as [c2 j] eqn:E2. injection E as <- <- <-.
    destruct (add_known _ _ _ _ R E1) as (O1 & G1 & K). destruct (addu_at _ _ _ _ O1 E2) as (O2 & G2 & A).
    split; [exact O2|]. split; [eapply grows_trans; eauto|]. right. split; [discriminate|]. do 2 eexists. split; [reflexivity|]. split; [reflexivity|]. split; [eauto using known_grows|exact A].
Qed.
Lemma build_grows e : forall c c' t, cache_ok c -> build c e = (c', t) -> cache_ok c' /\ grows c c'.
Proof.
  induction e as [s|v|v n|v n o|p e IH|e h IH|l IH|v n m o i] using jexpr_ind'; intros c c' t Hc E; cbn [build] in E.
  - injection E as <- <-. auto using grows_refl.
  - injection E as <- <-. auto using grows_refl.
  - destruct (cache_add_unchecked c v) as [c2 vi] eqn:E1. destruct (cache_add c2 n) as [c3 ni] eqn:E2. injection E as <- <-.
    destruct (addu_at _ _ _ _ Hc E1) as (O1 & G1 & A1). destruct (add_known _ _ _ _ O1 E2) as (O2 & G2 & A2). eauto using grows_trans.
  - destruct (cache_add c n) as [c2 ni] eqn:E1. destruct (cache_add_unchecked c2 o) as [c3 oi] eqn:E2. injection E as <- <-.
    destruct (add_known _ _ _ _ Hc E1) as (O1 & G1 & A1). destruct (addu_at _ _ _ _ O1 E2) as (O2 & G2 & A2). eauto using grows_trans.
  - destruct (build c e) as [c2 t2] eqn:E1. injection E as <- _. eauto.
  - destruct (build c e) as [c2 t2] eqn:E1. injection E as <- _. eauto.
  - match type of E with context [?f c l] => set (go := f) in E end.
    destruct (go c l) as [c2 ts] eqn:E1. injection E as <- <-. revert c c2 ts Hc E1. induction IH as [|x l Hx _ IHl]; intros c c2 ts Hc E1; cbn [go] in E1.
    + injection E1 as <- <-. auto using grows_refl.
    + destruct (build c x) as [c3 t3] eqn:E3. fold go in E1. destruct (go c3 l) as [c4 ts4] eqn:E4. injection E1 as <- <-.
      destruct (Hx _ _ _ Hc E3) as (O3 & G3). destruct (IHl _ _ _ O3 E4) as (O4 & G4). eauto using grows_trans.
  - destruct (cache_add_unchecked c v) as [c2 vi] eqn:E1. destruct (cache_add c2 n) as [c3 ni] eqn:E2. destruct (pass_map c3 m) as [c4 d] eqn:E3.
    destruct (addu_at _ _ _ _ Hc E1) as (O1 & G1 & A1). destruct (add_known _ _ _ _ O1 E2) as (O2 & G2 & A2).
    destruct (pass_map_spec _ _ _ _ O2 E3) as (O3 & G3 & A3).
    match type of E with (let '(_, _) := ?z in _) = _ => destruct z as [c5 oo] eqn:E5 end.
    assert (Y : cache_ok c5 /\ grows c4 c5).
    { destruct o as [|x o]; [injection E5 as <- <-; split; [exact O3|apply grows_refl]|].
      destruct (cache_add_unchecked c4 (x :: o)) as [c6 oi] eqn:E6. injection E5 as <- <-. destruct (addu_at _ _ _ _ O3 E6) as (O6 & G6 & A6). auto. }
    destruct Y as (O5 & G5).
    match type of E with (let '(_, _) := ?z in _) = _ => destruct z as [c6 ii] eqn:E6 end. injection E as <- <-.
    assert (Y : cache_ok c6 /\ grows c5 c6).
    { destruct i as [im|]; [|injection E6 as <- <-; split; [exact O5|apply grows_refl]].
      destruct (pass_map c5 im) as [c7 id] eqn:E7. injection E6 as <- <-. destruct (pass_map_spec _ _ _ _ O5 E7) as (O7 & G7 & A7). auto. }
    destruct Y as (O6 & G6). split; [exact O6|]. eauto 6 using grows_trans.
Qed.
Lemma call_cache f w o g src orig c' r : list_call f w o g src orig = (c', r) ->
  (c', r) = (fst w, None) \/ exists si oi, pass_source (fst w) src orig = (c', si, oi).
Proof.
  unfold list_call. destruct w as [c ws]. destruct (arg_node ws g) as [n|]; [|intro H; left; symmetry; exact H].
  destruct (pass_source c src orig) as [[c2 si] oi] eqn:E. intro H. injection H as <- _. right. eauto.
Qed.
Lemma step_cache (X : cache -> cache -> Prop) : (forall c, X c c) ->
  (forall c src orig c' si oi, pass_source c src orig = (c', si, oi) -> X c c') ->
  (forall c e c' t, build c e = (c', t) -> X c c') ->
  (forall c m c2 ss c3 ks, add_list cache_add c (jm_sources m) = (c2, ss) -> add_list cache_add_unchecked c2 (jm_contents m) = (c3, ks) -> X c c3) ->
  (forall c s, X c (fst (cache_add c s))) -> (forall c s, X c (fst (cache_add_unchecked c s))) ->
  forall c ws op c' ws' out, lstep (c, ws) op = (c', ws', out) -> X c c'.
Proof.
  intros Xr Xp Xb Xm Xa Xu c ws op c' ws' out E.
  assert (Up : forall v f g src orig, update (c, ws) v f g src orig = (c', ws', out) -> X c c').
  { intros v f g src orig H. unfold update in H. cbn [snd] in H. destruct (nth_error ws v) as [[ | | |o]|]; try (injection H as <- _ _; apply Xr).
    destruct (list_call f (c, ws) o g src orig) as [c2 r] eqn:El. destruct (call_cache _ _ _ _ _ _ _ _ El) as [Z|(si & oi & Z)].
    - injection Z as -> ->. injection H as <- _ _. apply Xr.
    - destruct r; injection H as <- _ _; eapply Xp; exact Z. }
  destruct op as [code|code src orig line|code src orig line|g src orig|l|code m|e cols md|v g src orig|v g src orig|v f|v|v|v|s b|q]; cbn [lstep] in E.
  - injection E as <- _ _. apply Xr.
  - destruct (empty code); [injection E as <- _ _; apply Xr|]. destruct (pass_source c src orig) as [[c2 si] oi] eqn:E1. injection E as <- _ _. eauto.
  - destruct (empty code); [injection E as <- _ _; apply Xr|]. destruct (empty src); [injection E as <- _ _; apply Xr|].
    destruct (pass_source c src orig) as [[c2 si] oi] eqn:E1. injection E as <- _ _. eauto.
  - destruct g as [g|]; [|destruct (empty src); injection E as <- _ _; apply Xr]. destruct (_ && _); [injection E as <- _ _; apply Xr|].
    destruct (list_call slm_add (c, ws) (Some []) g src orig) as [c2 r] eqn:El. destruct (call_cache _ _ _ _ _ _ _ _ El) as [Z|(si & oi & Z)].
    + injection Z as -> ->. injection E as <- _ _. apply Xr.
    + destruct r; injection E as <- _ _; eapply Xp; exact Z.
  - destruct (forallb _ l); injection E as <- _ _; apply Xr.
  - destruct (add_list cache_add c (jm_sources m)) as [c2 ss] eqn:E1. destruct (add_list cache_add_unchecked c2 (jm_contents m)) as [c3 ks] eqn:E2.
    destruct (slm_from_string _ _ _ _); injection E as <- _ _; eapply Xm; eauto.
  - destruct (build c e) as [c2 t] eqn:E1. apply Xb in E1. destruct t; try (injection E as <- _ _; exact E1); destruct (t_list_map _ _ _); injection E as <- _ _; exact E1.
  - eapply Up; exact E.
  - eapply Up; exact E.
  - destruct (nth_error ws v) as [[ | | |[m|]]|]; try (injection E as <- _ _; apply Xr). destruct f; try (destruct (run_map _ m)); injection E as <- _ _; apply Xr.
  - destruct (nth_error ws v) as [[[?|]|[?|]|[?|]|[?|]]|]; injection E as <- _ _; apply Xr.
  - destruct (nth_error ws v) as [[ | | |[m|]]|]; injection E as <- _ _; apply Xr.
  - destruct (nth_error ws v) as [[ | | |[m|]]|]; injection E as <- _ _; apply Xr.
  - injection E as <- _ _. destruct b; auto.
  - injection E as <- _ _. apply Xr.
Qed.
Lemma step_grows c ws op c' ws' out : cache_ok c -> lstep (c, ws) op = (c', ws', out) -> cache_ok c' /\ grows c c'.
Proof.
  intros Hc E. revert Hc. refine (step_cache (fun c c' => cache_ok c -> cache_ok c' /\ grows c c') _ _ _ _ _ _ c ws op c' ws' out E); clear.
  all: try (intros; auto using grows_refl; fail).
  - intros c src orig c' si oi E Hc. destruct (pass_spec _ _ _ _ _ _ Hc E) as (A & B & _). auto.
  - intros c e c' t E Hc. eapply build_grows; eauto.
  - intros c m c2 ss c3 ks E1 E2 Hc. destruct (add_list_spec _ known add_known known_grows _ _ _ _ Hc E1) as (O1 & G1 & _).
    destruct (add_list_spec _ at_ addu_at at_grows _ _ _ _ O1 E2) as (O2 & G2 & _). eauto using grows_trans.
  - intros c s Hc. destruct (cache_add c s) as [c2 i] eqn:E. destruct (add_known _ _ _ _ Hc E) as (A & B & _). auto.
  - intros c s Hc. destruct (cache_add_unchecked c s) as [c2 i] eqn:E. destruct (addu_at _ _ _ _ Hc E) as (A & B & _). auto.
Qed.
Lemma step_reached c ws op c' ws' out : reached_cache c -> lstep (c, ws) op = (c', ws', out) -> reached_cache c'.
Proof.
  intros Hc E. revert Hc. refine (step_cache (fun c c' => reached_cache c -> reached_cache c') _ _ _ _ _ _ c ws op c' ws' out E); clear.
  all: try (intros; auto; fail).
  - intros. eapply pass_reached; eauto.
  - intros. eapply reached_build; eauto.
  - intros c m c2 ss c3 ks E1 E2 Hc. eapply reached_list; [|eapply reached_list; [|exact Hc|exact E1]|exact E2]; [exact reached_addu|exact reached_add].
  - intros c s Hc. destruct (cache_add c s) as [c2 i] eqn:E. eapply reached_add; eauto.
  - intros c s Hc. destruct (cache_add_unchecked c s) as [c2 i] eqn:E. eapply reached_addu; eauto.
Qed.

(** ** One call *)
Definition nodes_of (w : lwrap) : option (bool * slm) :=
  match w with
  | WCode (Some s) => Some (false, [LCode s])
  | WSource (Some p) => Some (false, [LSource p])
  | WSingle (Some p) => Some (false, [LSingle p])
  | WList (Some m) => Some (true, m)
  | _ => None
  end.
Lemma F2_nth {A B} (X : A -> B -> Prop) l l' v : Forall2 X l l' ->
  match nth_error l v, nth_error l' v with Some a, Some b => X a b | None, None => True | _, _ => False end.
Proof. intro H. revert v. induction H as [|a b l l' Hab _ IH]; intros [|v]; cbn; [exact I|exact I|exact Hab|exact (IH v)]. Qed.
Lemma F2_set {A B} (X : A -> B -> Prop) l l' a b v : Forall2 X l l' -> X a b -> Forall2 X (set_nth v l a) (set_nth v l' b).
Proof. intros H Hab. revert v. induction H as [|x y l l' Hxy Hl IH]; intros [|v]; cbn [set_nth]; constructor; auto. Qed.
Lemma F2_snoc {A B} (X : A -> B -> Prop) l l' a b : Forall2 X l l' -> X a b -> Forall2 X (l ++ [a]) (l' ++ [b]).
Proof. intros H Hab. apply Forall2_app; [exact H|]. constructor; [exact Hab|constructor]. Qed.
Lemma plain_app a b : plain a -> plain b -> plain (a ++ b).
Proof. intros A B. apply Forall_app. auto. Qed.

Lemma no_prefix_unwrapped e : no_prefix e = true -> unwrapped e.
Proof.
  induction e as [s|v|v n|v n o|p e IH|e h IH|l IH|v n m o i] using jexpr_ind'; cbn [no_prefix unwrapped]; auto; try discriminate.
  intro H. rewrite forallb_forall in H. induction l as [|x r IHl]; [exact I|]. inversion IH as [|? ? I1 I2]; subst. split; [apply I1, H; now left|]. apply IHl; [exact I2|]. intros y Hy. apply H. now right.
Qed.

(** Whole lines *)
Definition laid (l : slm) (x : said) : Prop :=
  concat (sd_parts x) = text_of (sd_marks x) /\
  (sd_lines x -> (sd_parts x = [] /\ l = []) \/ (sd_parts x <> [] /\ (at_line_ends (sd_parts x) -> SlmWhole.good l))).
Lemma laid_one n x : node_ok n -> sealed n -> sd_parts x = [text_of (sd_marks x)] -> laid [n] x.
Proof. intros O S E. unfold laid. rewrite E. split; [apply app_nil_r|]. intros _. right. split; [discriminate|]. intros _. now apply good_one. Qed.
Lemma laid_app l x l' y m : laid l x -> laid l' y -> Forall node_ok l -> text_of (sd_marks x) = slm_text l -> text_of (sd_marks y) = slm_text l' ->
  m = l ++ l' \/ (exists s, l' = [LCode s] /\ m = add_code_text l s) -> laid m (join x y).
Proof.
  intros [A1 A2] [B1 B2] Ok Tx Ty Hm. unfold laid, join. cbn [sd_parts sd_marks sd_lines]. split; [now rewrite concat_app, text_app, A1, B1|].
  intros [L1 L2]. destruct (A2 L1) as [[P1 ->]|[P1 G1]]; destruct (B2 L2) as [[P2 Z2]|[P2 G2]].
  - rewrite P1, P2. left. split; [reflexivity|]. rewrite Z2 in Hm. destruct Hm as [->|(s & Z & _)]; [reflexivity|discriminate].
  - rewrite P1. right. split; [exact P2|]. intro HA. specialize (G2 HA). destruct Hm as [->|(s & -> & ->)]; exact G2.
  - rewrite P2, app_nil_r. right. split; [exact P1|]. intro HA. specialize (G1 HA). rewrite Z2 in Hm. destruct Hm as [->|(s & Z & _)]; [now rewrite app_nil_r|discriminate].
  - right. split; [intro Z; apply app_eq_nil in Z as [Z _]; congruence|]. intro HA. destruct (at_ends_split _ _ HA P1 P2) as (H1 & H2 & H3).
    specialize (G1 (full_at_ends _ P1 H1)). specialize (G2 H3). assert (En : ends (slm_text l)) by (rewrite <- Tx, <- A1; exact (ends_concat _ P1 H1)). assert (Nb : slm_text l' <> []) by (rewrite <- Ty, <- B1; exact H2).
    destruct Hm as [->|(s & -> & ->)]; [now apply good_app|]. apply add_code_good; [now apply good_full|]. left. intros ->. now apply Nb.
Qed.

Section Program.
  Variables (nu : jstr -> Z) (Hnu : numbering nu) (c1 : cache) (Hc1 : cache_ok c1).
  Notation ren := (retarget (rename (rho nu c1))).
  Definition holds (b : bool) (l : slm) (x : said) : Prop :=
    sd_list x = b /\ Forall node_ok l /\ Forall named l /\ sd_marks x = ren (list_marks l) /\
    (exists u, same_uses (lused l) u /\ Forall2 (use_at nu c1) u (sd_uses x)) /\
    plain (text_of (sd_marks x)) /\
    (sd_tidy x = true -> forall p, In (LSingle p) l -> tidy (pc_code p)) /\ laid l x.
  Definition wrel (w : lwrap) (o : option said) : Prop :=
    match nodes_of w, o with Some (b, l), Some x => holds b l x | None, None => True | _, _ => False end.

  Lemma holds_text b l x : holds b l x -> text_of (sd_marks x) = slm_text l.
  Proof. intros (_ & O & _ & M & _). rewrite M, text_retarget. now apply text_list_marks. Qed.
  Lemma holds_join b b' l l' x y : holds b l x -> holds b' l' y -> holds true (l ++ l') (join x y).
  Proof.
    intros HA HB. pose proof (holds_text _ _ _ HA) as TA. pose proof (holds_text _ _ _ HB) as TB. revert HA HB.
    intros (A1 & A2 & A3 & A4 & (u & A5 & A5') & A6 & A7 & A8) (B1 & B2 & B3 & B4 & (u' & B5 & B5') & B6 & B7 & B8).
    unfold holds, join. cbn [sd_list sd_marks sd_uses sd_tidy]. split; [reflexivity|]. split; [now apply Forall_app|]. split; [now apply Forall_app|].
    split; [unfold list_marks; rewrite flat_map_app, retarget_app, A4, B4; reflexivity|].
    split; [exists (u ++ u'); rewrite lused_app; split; [now apply same_app|now apply Forall2_app]|].
    split; [rewrite text_app; now apply plain_app|]. split; [intros T p Hp; apply andb_true_iff in T as [T1 T2]; apply in_app_or in Hp as [Hp|Hp]; auto|].
    apply (laid_app l x l' y); auto.
  Qed.
  Lemma holds_list b l x : holds b l x -> holds true l (as_list_of x).
  Proof. intros (A1 & A). split; [reflexivity|exact A]. Qed.
  Lemma holds_nothing : holds true [] nothing.
  Proof.
    unfold holds, nothing. cbn [sd_list sd_marks sd_uses sd_tidy]. split; [reflexivity|]. split; [constructor|]. split; [constructor|]. split; [reflexivity|].
    split; [exists []; split; [apply same_refl|constructor]|]. split; [constructor|]. split; [intros _ p []|]. split; [reflexivity|]. intros _. left. auto.
  Qed.

  (** A piece of code with the right source. *)
  Lemma holds_code s : plain s -> holds false [LCode s] (from_marks (fun _ => None) (mark None s) true).
  Proof.
    intro P. unfold holds, from_marks. cbn [sd_list sd_marks sd_uses sd_tidy]. split; [reflexivity|]. split; [repeat constructor|]. split; [repeat constructor|].
    split; [unfold list_marks; cbn [flat_map node_marks]; now rewrite app_nil_r, retarget_mark|].
    split; [exists []; split; [apply same_refl|]; replace (used _ (mark None s)) with (@nil (Z * option jstr)); [constructor|clear; unfold mark; induction s; auto]|].
    split; [now rewrite text_mark|]. split; [intros _ p [Z|[]]; discriminate|]. now apply laid_one.
  Qed.
  Lemma holds_source s i j src orig line : plain s -> known c1 i src -> at_ c1 j orig ->
    holds false [LSource (piece_new s (Some i) (Some j) line)] (from_marks (fun _ => Some orig) (mark_lines (nu src) (Z.of_N line) s) true).
  Proof.
    intros P K A. unfold holds, from_marks. cbn [sd_list sd_marks sd_uses sd_tidy]. split; [reflexivity|]. split; [constructor; [apply counted_new|constructor]|].
    split; [constructor; [discriminate|constructor]|].
    split; [unfold list_marks, node_marks, source_of; cbn [flat_map piece_new pc_src pc_line pc_code]; rewrite app_nil_r, mark_lines_rename, (rho_known nu c1 Hc1 _ _ K); reflexivity|].
    split; [exists (map (fun _ => (i, Some j)) s); split; [unfold lused; cbn; rewrite app_nil_r; apply same_refl|rewrite used_lines; apply Forall2_const; exists src; auto]|].
    split; [now rewrite lines_text|]. split; [intros _ p [Z|[]]; discriminate|]. apply laid_one; [apply counted_new|reflexivity|reflexivity].
  Qed.
  Lemma holds_single s i j src orig line : plain s -> known c1 i src -> at_ c1 j orig ->
    holds false [LSingle (piece_new s (Some i) (Some j) line)] (from_marks (fun _ => Some orig) (mark (Some (nu src, (Z.of_N line, 0%Z), None)) s) (tidy_text s)).
  Proof.
    intros P K A. unfold holds, from_marks. cbn [sd_list sd_marks sd_uses sd_tidy]. split; [reflexivity|]. split; [constructor; [apply counted_new|constructor]|].
    split; [constructor; [discriminate|constructor]|].
    split; [unfold list_marks, node_marks, source_of; cbn [flat_map piece_new pc_src pc_line pc_code]; rewrite app_nil_r, retarget_mark; cbn [rename]; now rewrite (rho_known nu c1 Hc1 _ _ K)|].
    split; [exists (map (fun _ => (i, Some j)) s); split; [unfold lused; cbn; rewrite app_nil_r; apply same_refl|]|].
    { replace (used _ _) with (map (fun _ : char => (nu src, Some orig)) s); [apply Forall2_const; exists src; auto|]. clear. unfold mark. induction s as [|c s IH]; [reflexivity|]. cbn. f_equal. exact IH. }
    split; [now rewrite text_mark|]. split; [intros T p [Z|[]]; injection Z as <-; cbn [piece_new pc_code]; intro C; unfold tidy_text in T; rewrite C in T; exact T|].
    apply laid_one; [apply counted_new|reflexivity|reflexivity].
  Qed.
  Lemma holds_add_code b m x s : holds b m x -> plain s -> holds true (add_code_text m s) (join x (from_marks (fun _ => None) (mark None s) true)).
  Proof.
    intros H P. pose proof (holds_join _ _ _ _ _ _ H (holds_code s P)) as J.
    assert (Ld : laid (add_code_text m s) (join x (from_marks (fun _ => None) (mark None s) true))).
    { pose proof (holds_code s P) as HC. apply (laid_app m x [LCode s]); [apply H|apply HC|apply H|exact (holds_text _ _ _ H)|exact (holds_text _ _ _ HC)|]. right. eauto. }
    destruct (add_code_cases m s) as [(m0 & t & -> & E)| E]; rewrite E in *; [|exact J].
    destruct J as (A1 & A2 & A3 & A4 & (u & A5 & A5') & A6 & A7 & A8).
    apply Forall_app in A2 as [A2 _]. apply Forall_app in A2 as [A2 _]. apply Forall_app in A3 as [A3 _]. apply Forall_app in A3 as [A3 _].
    split; [exact A1|]. split; [apply Forall_app; split; [exact A2|repeat constructor]|]. split; [apply Forall_app; split; [exact A3|repeat constructor]|].
    split; [rewrite A4; f_equal; unfold list_marks; rewrite !flat_map_app; cbn [flat_map node_marks]; rewrite !app_nil_r, mark_app, app_assoc; reflexivity|].
    split; [exists u; split; [|exact A5']; rewrite !lused_app in *; cbn in A5 |- *; rewrite !app_nil_r in *; exact A5|].
    split; [exact A6|]. split; [|exact Ld]. intros T p Hp. apply (A7 T). apply in_app_or in Hp as [Hp|[Z|[]]]; [|discriminate]. apply in_or_app. left. apply in_or_app. now left.
  Qed.
  (** The argument of add. *)
  Lemma arg_spec ws T g : Forall2 wrel ws T -> forall src orig,
    match g with
    | GStr s => True
    | GObj v => match arg_node ws g, value_of nu T g src orig with
        | Some n, Some y => exists b l, holds b l y /\ (forall m si oi, slm_add m n si oi = Some (m ++ l)) /\ (forall m si oi, slm_prepend m n si oi = Some (l ++ m))
        | None, None => True | _, _ => False end
    end.
  Proof.
    intros H src orig. destruct g as [s|v]; [exact I|]. cbn [arg_node value_of]. pose proof (F2_nth _ _ _ v H) as N.
    destruct (nth_error ws v) as [w|], (nth_error T v) as [o|]; try contradiction; [|exact I]. unfold wrel in N.
    destruct w as [[s|]|[p|]|[p|]|[m|]], o as [x|]; cbn [nodes_of] in N; try contradiction; auto; eexists _, _; (split; [exact N|]); split; reflexivity.
  Qed.
  Lemma add_spec ws T c g src orig b m x c' r : Forall2 wrel ws T -> cache_ok c -> plain_arg g -> holds b m x ->
    list_call slm_add (c, ws) (Some m) g src orig = (c', r) -> grows c' c1 ->
    match r, value_of nu T g src orig with Some m', Some y => holds true m' (join x y) | None, None => True | _, _ => False end.
  Proof.
    intros H Hc P Hm E G. unfold list_call in E. destruct g as [s|v].
    - cbn [arg_node value_of] in *. destruct (pass_source c src orig) as [[c2 si] oi] eqn:Ep. injection E as <- <-. cbn [bind slm_add].
      rewrite plain_in by exact P. destruct (pass_spec _ _ _ _ _ _ Hc Ep) as (_ & _ & [(-> & -> & ->)|(Hs & i & j & -> & -> & K & A)]); cbn [is_some].
      + now apply (holds_add_code b).
      + destruct src as [|q src]; [congruence|]. eapply holds_join; [exact Hm|]. apply (holds_source s i j (q :: src) orig 1); [exact P|eauto using known_grows|eauto using at_grows].
    - pose proof (arg_spec ws T (GObj v) H src orig) as X. cbn [arg_node] in *. cbn [arg_node] in E.
      destruct (match nth_error ws v with Some _ => _ | None => _ end) as [n|], (value_of nu T (GObj v) src orig) as [y|]; try contradiction.
      + destruct X as (b' & l & Hl & Xa & _). destruct (pass_source c src orig) as [[c2 si] oi]. injection E as <- <-. cbn [bind]. rewrite Xa. eapply holds_join; eauto.
      + now injection E as <- <-.
  Qed.
  Lemma fresh_add b l y : holds true l (join nothing y) -> b = true -> holds b l (as_list_of y).
  Proof.
    intros H ->. destruct H as (A1 & A2 & A3 & A4 & A5 & A6 & A7 & A8 & A9). split; [reflexivity|]. split; [exact A2|]. split; [exact A3|]. split; [exact A4|].
    split; [exact A5|]. split; [exact A6|]. split; [exact A7|]. split; [exact A8|]. intro L. apply A9. split; [exact I|exact L].
  Qed.

  Theorem step_spec c ws T op c' ws' out T' ok : cache_ok c -> Forall2 wrel ws T -> covered nu T op ->
    lstep (c, ws) op = (c', ws', out) -> lsays nu T op = (T', ok) -> grows c' c1 ->
    Forall2 wrel ws' T' /\ succeeds out = ok.
  Proof.
    intros Hc H X E L G.
    destruct op as [code|code src orig line|code src orig line|g src orig|l|code m|e cols md|v g src orig|v g src orig|v f|v|v|v|s b|q]; cbn [lstep lsays covered] in *.
    - rewrite plain_in in E by exact X. injection E as <- <- <-. injection L as <- <-. split; [|reflexivity]. apply F2_snoc; [exact H|]. unfold wrel. destruct code as [|a code]; [exact I|].
      cbn [empty nodes_of]. now apply holds_code.
    - destruct X as [X Xs]. rewrite plain_in in E by exact X. injection L as <- <-. destruct code as [|a code]; cbn [empty] in E; [injection E as <- <- <-; split; [|reflexivity]; now apply F2_snoc|].
      destruct (pass_source c src orig) as [[c2 si] oi] eqn:Ep. injection E as <- <- <-. split; [|reflexivity].
      destruct (pass_spec _ _ _ _ _ _ Hc Ep) as (_ & _ & [(Z & _)|(Hs & i & j & -> & -> & K & A)]); [contradiction|]. apply F2_snoc; [exact H|]. unfold wrel. cbn [nodes_of].
      replace (N.max 1 line) with (start_line line) by (unfold start_line; destruct (N.eqb_spec line 0); lia).
      apply (holds_source (a :: code) i j src orig); [exact X|eauto using known_grows|eauto using at_grows].
    - rewrite plain_in in E by exact X. destruct code as [|a code]; cbn [empty] in E; [injection E as <- <- <-; injection L as <- <-; split; [|reflexivity]; now apply F2_snoc|].
      destruct src as [|q src]; cbn [empty] in E; [injection E as <- <- <-; injection L as <- <-; auto|].
      destruct (pass_source c (q :: src) orig) as [[c2 si] oi] eqn:Ep. injection E as <- <- <-. injection L as <- <-. split; [|reflexivity].
      destruct (pass_spec _ _ _ _ _ _ Hc Ep) as (_ & _ & [(Z & _)|(Hs & i & j & -> & -> & K & A)]); [discriminate|]. apply F2_snoc; [exact H|]. unfold wrel. cbn [nodes_of].
      replace (N.max 1 line) with (start_line line) by (unfold start_line; destruct (N.eqb_spec line 0); lia).
      apply (holds_single (a :: code) i j (q :: src) orig); [exact X|eauto using known_grows|eauto using at_grows].
    - destruct g as [g|].
      + destruct (_ && _) eqn:Eg.
        * apply andb_true_iff in Eg as [G1 G2]. destruct g as [[|? ?]|]; try discriminate. destruct src; [|discriminate]. injection E as <- <- <-. injection L as <- <-.
          split; [|reflexivity]. apply F2_snoc; [exact H|]. destruct holds_nothing as (A1 & A2 & A3 & A4 & A5 & A6 & A7 & _).
          split; [reflexivity|]. split; [exact A2|]. split; [exact A3|]. split; [exact A4|]. split; [exact A5|]. split; [exact A6|]. split; [exact A7|]. split; [reflexivity|]. intro Z. now elim Z.
        * destruct (list_call slm_add (c, ws) (Some []) g src orig) as [c2 r] eqn:El.
          assert (Ec : c2 = c') by (destruct r; now injection E as -> _ _). subst c2. pose proof (add_spec _ _ _ _ _ _ _ _ _ _ _ H Hc X holds_nothing El G) as S.
          destruct r as [m'|], (value_of nu T g src orig) as [y|]; try contradiction; injection E as <- <-; injection L as <- <-; [|auto].
          split; [|reflexivity]. apply F2_snoc; [exact H|]. now apply (fresh_add true).
      + destruct src; cbn [empty] in E; injection E as <- <- <-; injection L as <- <-; [|auto]. split; [|reflexivity]. apply F2_snoc; [exact H|]. exact holds_nothing.
    - assert (Eq : forallb (fun g => is_some (arg_node ws g)) l = forallb (fun g => match value_of nu T g [] [] with Some _ => true | None => false end) l).
      { clear E L X. induction l as [|g l IH]; [reflexivity|]. cbn [forallb]. rewrite IH. f_equal. destruct g as [s|v]; [reflexivity|]. pose proof (arg_spec ws T (GObj v) H [] []) as Y. cbn beta iota in Y.
        destruct (arg_node ws (GObj v)), (value_of nu T (GObj v) [] []); try contradiction; reflexivity. }
      rewrite Eq in E. destruct (forallb _ l); injection E as <- <- <-; injection L as <- <-; [|auto]. split; [|reflexivity]. apply F2_snoc; [exact H|]. exact I.
    - destruct X as (X1 & X2 & X3). destruct (add_list cache_add c (jm_sources m)) as [c2 ss] eqn:E1. destruct (add_list cache_add_unchecked c2 (jm_contents m)) as [c3 ks] eqn:E2.
      assert (Ec : c3 = c') by (destruct (slm_from_string _ _ _ _); now injection E as -> _ _). subst c3.
      destruct (add_list_spec _ known add_known known_grows _ _ _ _ Hc E1) as (O1 & G1 & K1). destruct (add_list_spec _ at_ addu_at at_grows _ _ _ _ O1 E2) as (O2 & G2 & K2).
      destruct (read_good nu Hnu c1 Hc1 code m ss ks (from_js (jm_mappings m))) as (lm & R & Ok & Nm & Ls & Us); auto.
      { eapply Forall2_mono; [|exact K1]. intros. eapply known_grows; [|eassumption]. eapply grows_trans; eauto. }
      { eapply Forall2_mono; [|exact K2]. intros. eauto using at_grows. }
      rewrite plain_in in E by exact X1. rewrite R in E. injection E as <- <-. rewrite Ls in L. injection L as <- <-. split; [|reflexivity].
      apply F2_snoc; [exact H|]. unfold wrel. cbn [nodes_of]. unfold holds. cbn [sd_list sd_marks sd_uses sd_tidy]. split; [reflexivity|]. split; [exact Ok|]. split; [now apply sourced_named|].
      split; [reflexivity|]. split; [exists (lused lm); split; [apply same_refl|exact Us]|].
      assert (Tx : text_of (retarget (rename (rho nu c1)) (list_marks lm)) = code).
      { unfold line_says in Ls. unb Ls as segs Es. injection Ls as <-. now rewrite attribute_text, cut_lines_pieces, pieces_concat. }
      split; [rewrite Tx; exact X1|]. split; [|split; [cbn [sd_parts sd_marks concat]; now rewrite app_nil_r, Tx|intros []]].
      intros _ p Hp. rewrite Forall_forall in Nm. destruct (Nm _ Hp).
    - destruct (build c e) as [c2 t] eqn:Eb. destruct X as [(v & ->)|X].
      { cbn [build] in Eb. injection Eb as <- <-. injection E as <- <- <-. injection L as <- <-. auto. }
      destruct e as [s|v|v n|v n o|p e|e h|l|v n m o i]; try (destruct X; fail).
      { cbn [build] in Eb. injection Eb as <- <-. injection E as <- <- <-. injection L as <- <-. auto. }
      all: match type of Eb with build _ ?ex = _ => set (e0 := ex) in * end.
      all: assert (Xc : line_child md e0) by exact X.
      all: assert (NS : match import t with TStr _ => False | _ => True end /\ match t with JStr _ | JRaw _ => False | _ => True end)
        by (clear - Eb; unfold e0 in Eb; cbn [build] in Eb; repeat match type of Eb with context [let '(_, _) := ?z in _] => destruct z end; injection Eb as _ <-; split; exact I).
      all: destruct NS as [NS NJ]; destruct (build_made e0 c c2 t Hc Eb) as (_ & _ & F).
      all: assert (Ec : c2 = c') by (destruct t; try (destruct NJ); destruct (t_list_map _ _ _); now injection E as -> _ _); subst c2.
      all: destruct (made_lines nu Hnu c1 Hc1 md e0 Xc t (made_grows _ _ e0 G t F)) as (M & EM & GM); destruct (lgood_list nu c1 md _ _ _ _ NS GM) as (lm & u & Elm & Ok & Nm & EMr & Su & Us & Sd).
      all: assert (E' : (ws', out) = (ws ++ [WList (Some lm)], ODone))
        by (destruct t; try (destruct NJ); unfold t_list_map in *; cbn [list_map_alg] in *; change (list_map_alg cols md) with (list_map_alg false md) in E; rewrite Elm in E; injection E as <- <-; reflexivity).
      all: injection E' as -> ->; rewrite EM in L; injection L as <- <-; split; [|reflexivity]; apply F2_snoc; [exact H|]; unfold wrel; cbn [nodes_of]; unfold holds; cbn [sd_list sd_marks sd_uses sd_tidy].
      all: split; [reflexivity|]; split; [exact Ok|]; split; [exact Nm|]; split; [exact EMr|]; split; [exists u; split; [exact Su|exact Us]|]; split; [exact (line_plain _ _ _ Xc _ EM)|].
      all: split; [intros Tp p0 Hp; specialize (Sd (no_prefix_unwrapped e0 Tp)); rewrite Forall_forall in Sd; destruct (Sd _ Hp)|].
      all: unfold laid; cbn [sd_parts sd_marks sd_lines]; split; [symmetry; exact (line_text nu md e0 Xc _ EM)|]; intros [Hol Hne]; right; split; [exact Hne|]; intro HA.
      all: destruct (wparts_list md _ _ _ NS (made_whole nu Hnu c1 Hc1 md e0 (line_edits_too md e0 Xc) Hol t (made_grows _ _ e0 G t F)) HA) as (lm2 & E2 & [Gd _] & _); rewrite Elm in E2; injection E2 as <-; exact Gd.
    - unfold update in E. cbn [snd] in E. pose proof (F2_nth _ _ _ v H) as N. unfold usable in L.
      destruct (nth_error ws v) as [w|] eqn:Ew, (nth_error T v) as [o|] eqn:Eo; try contradiction; [|injection E as <- <- <-; injection L as <- <-; auto].
      unfold wrel in N. destruct w as [[q|]|[q|]|[q|]|o']; destruct o as [x|]; cbn [nodes_of] in N; try contradiction; try (destruct N as (N1 & _); rewrite N1 in L);
        try (injection E as <- <- <-; injection L as <- <-; now auto).
      + destruct o' as [m|]; [|contradiction]. rewrite (proj1 N) in L.
        destruct (list_call slm_add (c, ws) (Some m) g src orig) as [c2 r] eqn:El.
        assert (Ec : c2 = c') by (destruct r; now injection E as -> _ _). subst c2. pose proof (add_spec _ _ _ _ _ _ _ _ _ _ _ H Hc X N El G) as S.
        destruct r as [m'|], (value_of nu T g src orig) as [y|]; try contradiction; injection E as <- <-; injection L as <- <-; [|auto].
        split; [|reflexivity]. now apply F2_set.
      + destruct o' as [m|]; [contradiction|]. injection L as <- <-. unfold list_call in E. destruct (arg_node ws g); [destruct (pass_source c src orig) as [[? ?] ?]|]; cbn [bind] in E; injection E as <- <- <-; auto.
    - unfold update in E. cbn [snd] in E. pose proof (F2_nth _ _ _ v H) as N. unfold usable in L.
      destruct (nth_error ws v) as [w|] eqn:Ew, (nth_error T v) as [o|] eqn:Eo; try contradiction; [|injection E as <- <- <-; injection L as <- <-; auto].
      unfold wrel in N. destruct w as [[q|]|[q|]|[q|]|o']; destruct o as [x|]; cbn [nodes_of] in N; try contradiction; try (destruct N as (N1 & _); rewrite N1 in L);
        try (injection E as <- <- <-; injection L as <- <-; now auto).
      + destruct o' as [m|]; [|contradiction]. rewrite (proj1 N) in L. destruct g as [s|a]; [contradiction|].
        pose proof (arg_spec ws T (GObj a) H src orig) as Y. cbn beta iota in Y. unfold list_call in E.
        destruct (arg_node ws (GObj a)) as [n|], (value_of nu T (GObj a) src orig) as [y|]; try contradiction.
        * destruct Y as (b' & l & Hl & _ & Xp). destruct (pass_source c src orig) as [[c2 si] oi]. cbn [bind] in E. rewrite Xp in E. injection E as <- <- <-. injection L as <- <-.
          split; [|reflexivity]. apply F2_set; [exact H|]. unfold wrel. cbn [nodes_of]. eapply holds_join; eauto.
        * injection E as <- <- <-. injection L as <- <-. auto.
      + destruct o' as [m|]; [contradiction|]. injection L as <- <-. unfold list_call in E. destruct (arg_node ws g); [destruct (pass_source c src orig) as [[? ?] ?]|]; cbn [bind] in E; injection E as <- <- <-; auto.
    - pose proof (F2_nth _ _ _ v H) as N. unfold usable in L, X.
      destruct (nth_error ws v) as [w|] eqn:Ew, (nth_error T v) as [o|] eqn:Eo; try contradiction; [|injection E as <- <- <-; injection L as <- <-; auto].
      unfold wrel in N. destruct w as [[q|]|[q|]|[q|]|[m|]]; destruct o as [x|]; cbn [nodes_of] in N; try contradiction; try (rewrite (proj1 N) in L, X);
        try (injection E as <- <- <-; injection L as <- <-; now auto).
      pose proof N as N0. destruct N as (A1 & A2 & A3 & A4 & (u & A5 & A5') & A6 & A7 & A8 & A9). pose proof (holds_text _ _ _ N0) as Tx.
      assert (Wh : whole_lines x -> SlmWhole.good m /\ ends (slm_text m)).
      { intros (W1 & W2 & W3). split; [|unfold ends; now rewrite <- Tx]. destruct (A9 W1) as [[Z _]|[_ Gd]]; [rewrite Z in W2; destruct W2|exact (Gd W2)]. }
      destruct f; try contradiction; [| |injection E as <- <- <-; injection L as <- <-; now auto].
      + assert (Td : forall p, In (LSingle p) m -> tidy (pc_code p)).
        { destruct X as [X|[X|X]]; [exact (A7 X)|rewrite A4 in X; exact (flows_tidy _ _ X)|]. destruct (Wh X) as [W1 W2]. exact (full_tidy m (good_full m W1 W2)). }
        destruct (identity_all m A2 A3 Td) as (m' & Em & O' & N' & M' & U').
        cbn [run_map] in E. rewrite Em in E. cbn [bind] in E. injection E as <- <- <-. injection L as <- <-. split; [|reflexivity].
        apply F2_snoc; [now apply F2_set|]. unfold wrel. cbn [nodes_of]. unfold holds. cbn [sd_list sd_marks sd_uses sd_tidy]. split; [reflexivity|]. split; [exact O'|]. split; [exact N'|].
        split; [now rewrite M'|]. split; [exists u; split; [eapply same_trans; eauto|exact A5']|]. split; [exact A6|]. split; [discriminate|].
        split; [apply app_nil_r|]. cbn [sd_lines sd_parts]. intro W. right. split; [discriminate|]. intros _. exact (identity_good m m' (proj1 (Wh W)) Em).
      + destruct X as (X1 & X2 & X3). destruct (Wh X3) as [W1 W2]. destruct (prefix_all prefix m X2 W1 W2 A3) as (m' & Em & G' & N' & Td' & M' & U' & Tx').
        cbn [run_map] in E. rewrite plain_in in E by exact X1. rewrite Em in E. cbn [bind] in E. injection E as <- <- <-. injection L as <- <-. split; [|reflexivity].
        assert (EM : mprefixed prefix (sd_marks x) = ren (list_marks m')) by (rewrite A4, M'; apply mprefixed_ren).
        assert (TM : text_of (mprefixed prefix (sd_marks x)) = prefixed prefix (text_of (sd_marks x))) by (rewrite EM, text_retarget, text_list_marks, Tx', <- Tx by apply G'; reflexivity).
        apply F2_snoc; [now apply F2_set|]. unfold wrel. cbn [nodes_of]. unfold holds. cbn [sd_list sd_marks sd_uses sd_tidy]. split; [reflexivity|]. split; [apply G'|]. split; [exact N'|].
        split; [exact EM|]. split; [exists u; split; [eapply same_trans; eauto|exact A5']|]. split; [now apply mprefix_plain|].
        split; [intros _ p Hp; rewrite Forall_forall in Td'; exact (Td' _ Hp)|].
        split; [cbn [sd_parts sd_marks concat]; now rewrite app_nil_r, TM|]. intros _. right. split; [discriminate|]. intros _. exact G'.
    - pose proof (F2_nth _ _ _ v H) as N.
      destruct (nth_error ws v) as [w|] eqn:Ew, (nth_error T v) as [o|] eqn:Eo; try contradiction; [|injection E as <- <- <-; injection L as <- <-; auto].
      unfold wrel in N. destruct w as [[q|]|[q|]|[q|]|[m|]]; destruct o as [x|]; cbn [nodes_of] in N; try contradiction; injection E as <- <- <-; injection L as <- <-; (split; [|reflexivity]); auto; apply F2_set; auto; exact I.
    - pose proof (F2_nth _ _ _ v H) as N. unfold usable in L.
      destruct (nth_error ws v) as [w|] eqn:Ew, (nth_error T v) as [o|] eqn:Eo; try contradiction; [|injection E as <- <- <-; injection L as <- <-; auto].
      unfold wrel in N. destruct w as [[q|]|[q|]|[q|]|[m|]]; destruct o as [x|]; cbn [nodes_of] in N; try contradiction; try (rewrite (proj1 N) in L); injection E as <- <- <-; injection L as <- <-; auto.
    - pose proof (F2_nth _ _ _ v H) as N. unfold usable in L.
      destruct (nth_error ws v) as [w|] eqn:Ew, (nth_error T v) as [o|] eqn:Eo; try contradiction; [|injection E as <- <- <-; injection L as <- <-; auto].
      unfold wrel in N. destruct w as [[q|]|[q|]|[q|]|[m|]]; destruct o as [x|]; cbn [nodes_of] in N; try contradiction; try (rewrite (proj1 N) in L); injection E as <- <- <-; injection L as <- <-; auto.
    - injection E as <- <- <-. injection L as <- <-. auto.
    - injection E as <- <- <-. injection L as <- <-. auto.
  Qed.
End Program.

(** ** Programs *)
Lemma run_reached ops : forall c ws c' ws' outs, reached_cache c -> lrun (c, ws) ops = (c', ws', outs) -> reached_cache c' /\ grows c c'.
Proof.
  induction ops as [|op ops IH]; intros c ws c' ws' outs R E; cbn [lrun] in E; [injection E as <- _ _; auto using grows_refl|].
  destruct (lstep (c, ws) op) as [[c2 ws2] a] eqn:E1. destruct (lrun (c2, ws2) ops) as [[c3 ws3] out] eqn:E2. injection E as <- _ _.
  pose proof (step_reached _ _ _ _ _ _ R E1) as R2. destruct (step_grows _ _ _ _ _ _ (reached_ok _ R) E1) as [_ G]. destruct (IH _ _ _ _ _ R2 E2). eauto using grows_trans.
Qed.
Theorem run_spec nu c1 ops : numbering nu -> cache_ok c1 -> forall c ws T ws' outs T' oks, reached_cache c -> Forall2 (wrel nu c1) ws T -> all_covered nu T ops ->
  lrun (c, ws) ops = (c1, ws', outs) -> lsays_all nu T ops = (T', oks) -> Forall2 (wrel nu c1) ws' T' /\ map succeeds outs = oks.
Proof.
  intros Hnu Hc1. induction ops as [|op ops IH]; intros c ws T ws' outs T' oks R H X E L; cbn [lrun lsays_all all_covered] in *.
  - injection E as _ <- <-. injection L as <- <-. auto.
  - destruct X as [X1 X2]. destruct (lstep (c, ws) op) as [[c2 ws2] a] eqn:E1. destruct (lrun (c2, ws2) ops) as [[c3 ws3] out] eqn:E2. injection E as -> <- <-.
    destruct (lsays nu T op) as [T2 ok] eqn:L1. destruct (lsays_all nu T2 ops) as [T3 oks2] eqn:L2. injection L as <- <-.
    pose proof (step_reached _ _ _ _ _ _ R E1) as R2. destruct (run_reached _ _ _ _ _ _ R2 E2) as [_ G].
    destruct (step_spec nu Hnu c1 Hc1 _ _ _ _ _ _ _ _ _ (reached_ok _ R) H X1 E1 L1 G) as [H2 S]. cbn [fst] in X2.
    destruct (IH _ _ _ _ _ _ _ R2 H2 X2 E2 L2) as [A B]. split; [exact A|]. cbn [map]. now rewrite S, B.
Qed.
Theorem program nu c0 ops w outs T oks : numbering nu -> reached_cache c0 -> all_covered nu [] ops -> lrun (c0, []) ops = (w, outs) -> lsays_all nu [] ops = (T, oks) ->
  map succeeds outs = oks /\
  forall v x, usable T v = Some x -> let M := sd_marks x in
    exists o Ls ms es, lstep w (LResult v) = (w, OResult o) /\
      map nu Ls = firsts (map fst (sd_uses x)) /\ reads_as nu Ls [] ms = Some es /\ annotate_bytes es (text_of M) = carried None M /\
      forall l, Forall quiet l ->
        (~ starts_with BOM (text_of M) -> snd (rstep (fst (rrun (fst w, o) l)) RSource) = AText (text_of M)) /\
        snd (rstep (fst (rrun (fst w, o) l)) (RGet FSources)) = AVal (VArr (map Some Ls)) /\
        snd (rstep (fst (rrun (fst w, o) l)) (RGet FMappings)) = AVal (VStr ms) /\
        snd (rstep (fst (rrun (fst w, o) l)) (RGet FNames)) = AVal VUndef /\
        exists k, snd (rstep (fst (rrun (fst w, o) l)) (RGet FContents)) = AVal k /\
          lists k (map Some (flat_map (fun s => match first_use (sd_uses x) (nu s) with Some k => [k] | None => [] end) Ls)).
Proof.
  intros Hnu R X E L. destruct w as [c1 ws]. destruct (run_reached _ _ _ _ _ _ R E) as [R1 _]. pose proof (reached_ok _ R1) as Hc1.
  destruct (run_spec nu c1 ops Hnu Hc1 _ _ _ _ _ _ _ R (Forall2_nil _) X E L) as [H S]. split; [exact S|].
  intros v x U M. unfold usable in U. pose proof (F2_nth _ _ _ v H) as N. destruct (nth_error T v) as [[y|]|]; try discriminate. destruct (sd_list y) eqn:Ey; [|discriminate]. injection U as ->.
  destruct (nth_error ws v) as [w|] eqn:Ew; [|contradiction]. unfold wrel in N.
  destruct w as [[q|]|[q|]|[q|]|[m|]]; cbn [nodes_of] in N; try contradiction; try (destruct N as (N1 & _); congruence).
  destruct N as (_ & A2 & A3 & A4 & (u & A5 & A5') & A6 & _). fold M in A4, A6.
  destruct (list_end nu c1 m M u (sd_uses x) Hnu R1 A2 A3 A4 A5 A5' A6) as (Ls & ms & es & B1 & B2 & B3 & _ & B4).
  exists (robj_new (list_result m) false), Ls, ms, es. split; [cbn [lstep]; now rewrite Ew|]. split; [exact B1|]. split; [exact B2|]. split; [exact B3|]. exact B4.
Qed.

(** ** Objects that point to nothing *)
Definition dead (w : lworld) (v : nat) : Prop := exists x, nth_error (snd w) v = Some x /\ nodes_of x = None.
Lemma nth_set {A} (l : list A) (u v : nat) (x : A) : nth_error (set_nth u l x) v = if Nat.eqb u v then match nth_error l v with Some _ => Some x | None => None end else nth_error l v.
Proof. revert u v. induction l as [|y l IH]; intros [|u] [|v]; cbn [set_nth nth_error Nat.eqb]; try reflexivity; [now destruct (_ =? _)|apply IH]. Qed.
Lemma nth_snoc {A} (l : list A) v x y : nth_error l v = Some x -> nth_error (l ++ [y]) v = Some x.
Proof. intro H. rewrite nth_error_app1; [exact H|]. apply nth_error_Some. congruence. Qed.
Lemma dead_stays w op v : dead w v -> dead (fst (lstep w op)) v.
Proof.
  intros (x & Ex & Nx). destruct w as [c ws]. cbn [snd] in Ex. unfold dead.
  assert (Keep : forall c2, exists x, nth_error (snd (c2 : cache, ws)) v = Some x /\ nodes_of x = None) by eauto.
  assert (App : forall (c2 : cache) y, exists x, nth_error (snd (c2, ws ++ [y])) v = Some x /\ nodes_of x = None) by (intros c2 y; exists x; split; [now apply nth_snoc|exact Nx]).
  assert (Put : forall (c2 : cache) u y z, nth_error ws u = Some z -> nodes_of z <> None -> exists x, nth_error (set_nth u ws y) v = Some x /\ nodes_of x = None).
  { intros c2 u y z Eu Nz. exists x. split; [|exact Nx]. rewrite nth_set. destruct (Nat.eqb_spec u v) as [->|N]; [|exact Ex]. congruence. }
  assert (Up : forall u f g src orig, exists x, nth_error (snd (fst (update (c, ws) u f g src orig))) v = Some x /\ nodes_of x = None).
  { intros u f g src orig. unfold update. cbn [snd]. destruct (nth_error ws u) as [[ | | |o]|] eqn:Eu; try (apply Keep).
    destruct (list_call f (c, ws) o g src orig) as [c2 [m|]] eqn:El; [|apply Keep]. cbn [fst snd]. eapply (Put c); [exact Eu|]. unfold list_call in El.
    destruct (arg_node ws g); [|discriminate]. destruct (pass_source c src orig) as [[? ?] ?]. destruct o; [discriminate|]. cbn [bind] in El. discriminate. }
  destruct op as [code|code src orig line|code src orig line|g src orig|l|code m|e cols md|u g src orig|u g src orig|u f|u|u|u|s b|q]; cbn [lstep]; try (apply Up).
  - apply App.
  - destruct (empty code); [apply App|]. destruct (pass_source c src orig) as [[c2 si] oi]. apply App.
  - destruct (empty code); [apply App|]. destruct (empty src); [apply Keep|]. destruct (pass_source c src orig) as [[c2 si] oi]. apply App.
  - destruct g as [g|]; [|destruct (empty src); [apply App|apply Keep]]. destruct (_ && _); [apply App|]. destruct (list_call _ _ _ _ _ _) as [c2 [m|]]; [apply App|apply Keep].
  - destruct (forallb _ l); [apply App|apply Keep].
  - destruct (add_list cache_add c (jm_sources m)) as [c2 ss]. destruct (add_list cache_add_unchecked c2 (jm_contents m)) as [c3 ks]. destruct (slm_from_string _ _ _ _); [apply App|apply Keep].
  - destruct (build c e) as [c2 t]. destruct t; try (apply Keep); destruct (t_list_map _ _ _); try (apply App); apply Keep.
  - destruct (nth_error ws u) as [[ | | |[m|]]|] eqn:Eu; try (apply Keep).
    destruct (Put c u (WList None) _ Eu) as (y & Y1 & Y2); [discriminate|]. destruct f; try (destruct (run_map _ m)); cbn [fst snd]; try (exact (Keep c)); exists y; (split; [|exact Y2]); try exact Y1; now apply nth_snoc.
  - destruct (nth_error ws u) as [[[?|]|[?|]|[?|]|[?|]]|] eqn:Eu; try (apply Keep); (eapply (Put c); [exact Eu|discriminate]).
  - destruct (nth_error ws u) as [[ | | |[m|]]|]; apply Keep.
  - destruct (nth_error ws u) as [[ | | |[m|]]|]; apply Keep.
  - apply Keep.
  - apply Keep.
Qed.
Lemma dead_throws w op v : dead w v -> uses_object v op -> snd (lstep w op) = OError.
Proof.
  intros (x & Ex & Nx) C. destruct w as [c ws]. cbn [snd] in Ex.
  assert (Ag : arg_node ws (GObj v) = None) by (cbn [arg_node]; rewrite Ex; destruct x as [[?|]|[?|]|[?|]|[?|]]; try discriminate; reflexivity).
  assert (Lc : forall f o src orig, list_call f (c, ws) o (GObj v) src orig = (c, None)) by (intros; unfold list_call; now rewrite Ag).
  assert (Up : forall u f g src orig, u = v \/ g = GObj v -> snd (update (c, ws) u f g src orig) = OError).
  { intros u f g src orig [->| ->]; unfold update; cbn [snd].
    - rewrite Ex. destruct x as [[?|]|[?|]|[?|]|[?|]]; try discriminate; try reflexivity. unfold list_call. destruct (arg_node ws g); [destruct (pass_source c src orig) as [[? ?] ?]|]; reflexivity.
    - destruct (nth_error ws u) as [[ | | |o]|]; try reflexivity. now rewrite Lc. }
  destruct op as [code|code src orig line|code src orig line|g src orig|l|code m|e cols md|u g src orig|u g src orig|u f|u|u|u|s b|q]; cbn [uses_object] in C; try contradiction; cbn [lstep]; try (apply Up; exact C).
  - destruct g as [g|]; [|contradiction]. subst g. cbn [andb]. now rewrite Lc.
  - replace (forallb (fun g => is_some (arg_node ws g)) l) with false; [reflexivity|]. symmetry. apply not_true_is_false. intro F. rewrite forallb_forall in F. apply F in C. now rewrite Ag in C.
  - subst u. rewrite Ex. destruct x as [[?|]|[?|]|[?|]|[?|]]; try discriminate; reflexivity.
  - subst u. rewrite Ex. destruct x as [[?|]|[?|]|[?|]|[?|]]; try discriminate; reflexivity.
  - subst u. rewrite Ex. destruct x as [[?|]|[?|]|[?|]|[?|]]; try discriminate; reflexivity.
  - subst u. rewrite Ex. destruct x as [[?|]|[?|]|[?|]|[?|]]; try discriminate; reflexivity.
  - reflexivity.
Qed.
Lemma dead_run ops : forall w v, dead w v -> dead (fst (lrun w ops)) v.
Proof.
  induction ops as [|op ops IH]; intros w v D; cbn [lrun]; [exact D|]. pose proof (dead_stays w op v D) as D2. destruct (lstep w op) as [w2 a].
  specialize (IH w2 v D2). destruct (lrun w2 ops). exact IH.
Qed.
Theorem moved w v f w1 ops w2 outs op : lstep w (LMapCode v f) = (w1, ODone) -> lrun w1 ops = (w2, outs) -> uses_object v op -> snd (lstep w2 op) = OError.
Proof.
  intros E R C. assert (D : dead w1 v).
  { destruct w as [c ws]. cbn [lstep] in E. destruct (nth_error ws v) as [[ | | |[m|]]|] eqn:Ev; try discriminate. exists (WList None). split; [|reflexivity].
    assert (S : nth_error (set_nth v ws (WList None)) v = Some (WList None)) by now rewrite nth_set, Nat.eqb_refl, Ev.
    destruct f; try discriminate; destruct (run_map _ m); try discriminate; injection E as <-; cbn [snd]; now apply nth_snoc. }
  apply (dead_run ops) in D. rewrite R in D. eapply dead_throws; eauto.
Qed.
Theorem freed w v w1 ops w2 outs op : lstep w (LFree v) = (w1, ODone) -> lrun w1 ops = (w2, outs) -> uses_object v op -> snd (lstep w2 op) = OError.
Proof.
  intros E R C. assert (D : dead w1 v).
  { destruct w as [c ws]. cbn [lstep] in E. destruct (nth_error ws v) as [[[?|]|[?|]|[?|]|[?|]]|] eqn:Ev; try discriminate; injection E as <-; eexists; (split; [|]); cbn [snd];
      rewrite ?nth_set, ?Nat.eqb_refl, ?Ev; reflexivity. }
  apply (dead_run ops) in D. rewrite R in D. eapply dead_throws; eauto.
Qed.
Theorem array_dead w l w1 ops w2 outs op : lstep w (LNewArray l) = (w1, ODone) -> lrun w1 ops = (w2, outs) -> uses_object (length (snd w)) op -> snd (lstep w2 op) = OError.
Proof.
  intros E R C. assert (D : dead w1 (length (snd w))).
  { destruct w as [c ws]. cbn [lstep] in E. destruct (forallb _ l); [|discriminate]. injection E as <-. exists (WList None). split; [|reflexivity]. cbn [snd]. now rewrite nth_error_app2, Nat.sub_diag by lia. }
  apply (dead_run ops) in D. rewrite R in D. eapply dead_throws; eauto.
Qed.
