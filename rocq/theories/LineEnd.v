(** From the arguments of the constructors to the line maps of sourceAndMap({columns: false}). *)
From Verif Require Import Base Tactics ModelString StringFacts ModelVlq ModelSm ModelSlm ModelSources ModelTree ModelWasm
  ModelJs ModelJsApi SpecText SpecMap SpecAttr SpecList SortFacts TextFacts NodeFacts LeafFacts ParseFacts MapFacts LoadFacts GenFacts SmsProps NodeTree
  SlmFacts SlmMap SlmRead SlmReplace SlmTree SlmWhole SlmProps
  IdxFacts JsFacts Utf16Facts JsTextProps SpecResult ModelJsResult ResultFacts ResultProps SpecJs ModelEnd SpecEnd EndFacts MadeFacts EndProps ContentFacts EndMap
  SpecEdit SpecEdited SpecLineEdit SpecLineEdited EditedFacts EditedBuild SlmEdits SlmLines.

(** ** Uses, once for every character *)
Definition node_used (n : slm_node) : list (Z * option Z) :=
  match n with
  | LSource p | LSingle p => match pc_src p with Some s => map (fun _ => (s, pc_orig p)) (pc_code p) | None => [] end
  | _ => []
  end.
(** Pieces of code with their sources; no single-line pieces. *)
Definition sourced (n : slm_node) : Prop :=
  match n with LSource p => pc_code p <> [] -> pc_src p <> None | LSingle _ => False | _ => True end.
Lemma sourced_named l : Forall sourced l -> Forall named l.
Proof. apply Forall_impl. intros [?|s|p|p|?|?] H; try exact I; [exact H|destruct H]. Qed.
Definition lused (lm : slm) : list (Z * option Z) := flat_map node_used lm.

Lemma filter_idem {A} (f : A -> bool) l : filter f (filter f l) = filter f l.
Proof. induction l as [|x l IH]; [reflexivity|]. cbn. destruct (f x) eqn:E; cbn; [rewrite E|]; now rewrite IH. Qed.
Lemma firsts_repeat {A} (s : Z) (x : A) l r : firsts (map (fun _ => s) (x :: l) ++ r) = firsts (s :: r).
Proof.
  cbn [map app]. cbn [firsts]. f_equal. induction l as [|y l IH]; [reflexivity|]. cbn [map app firsts filter]. rewrite Z.eqb_refl. cbn [negb].
  rewrite filter_idem. exact IH.
Qed.
Lemma firsts_cong s a b : firsts a = firsts b -> firsts (s :: a) = firsts (s :: b).
Proof. intro H. cbn. now rewrite H. Qed.
Lemma lused_uses lm : firsts (map fst (lused lm)) = firsts (map fst (uses lm)) /\ forall s, content_of (lused lm) s = content_of (uses lm) s.
Proof.
  induction lm as [|n lm [IH1 IH2]]; [split; reflexivity|]. unfold lused, uses. cbn [flat_map]. fold (lused lm) (uses lm).
  assert (G : forall p, (forall x, node_used n = x -> x = match pc_src p with Some s => map (fun _ => (s, pc_orig p)) (pc_code p) | None => [] end) ->
    (forall x, node_uses n = x -> x = match pc_code p, pc_src p with [], _ => [] | _, Some s => [(s, pc_orig p)] | _, None => [] end) ->
    firsts (map fst (node_used n ++ lused lm)) = firsts (map fst (node_uses n ++ uses lm)) /\
    forall s, content_of (node_used n ++ lused lm) s = content_of (node_uses n ++ uses lm) s).
  { intros p H1 H2. rewrite (H1 _ eq_refl), (H2 _ eq_refl). destruct (pc_src p) as [s|]; [|destruct (pc_code p); split; [exact IH1|exact IH2|exact IH1|exact IH2]].
    destruct (pc_code p) as [|c r]; [split; [exact IH1|exact IH2]|]. split.
    - rewrite map_app, map_map. change (fun x => fst (s, pc_orig p)) with (fun _ : char => s). rewrite (firsts_repeat s c r). cbn [app map fst]. now apply firsts_cong.
    - intro z. unfold content_of in *. cbn [map app find fst]. destruct (Z.eqb_spec s z) as [->|N]; [reflexivity|]. rewrite <- IH2. clear H1 H2.
      induction r as [|d r IHr]; [reflexivity|]. cbn [map app find fst]. apply Z.eqb_neq in N. rewrite N. exact IHr. }
  destruct n as [?|s|p|p|?|?]; try (split; [exact IH1|exact IH2]); (apply (G p); intros x <-; reflexivity).
Qed.
Lemma lused_app a b : lused (a ++ b) = lused a ++ lused b.
Proof. apply flat_map_app. Qed.

(** ** Lists with the same uses *)
Definition same_uses (a b : list (Z * option Z)) : Prop :=
  firsts (map fst a) = firsts (map fst b) /\ forall s, SpecSlm.content_of a s = SpecSlm.content_of b s.
Lemma firsts_app a b : firsts (a ++ b) = firsts a ++ filter (fun y => negb (existsb (Z.eqb y) a)) (firsts b).
Proof.
  induction a as [|x a IH]; cbn [app firsts].
  - cbn. symmetry. induction (firsts b) as [|y l IH]; [reflexivity|]. cbn. now rewrite IH.
  - rewrite IH. f_equal. rewrite filter_app. f_equal. clear. induction (firsts b) as [|y l IH]; [reflexivity|]. cbn [filter].
    change (existsb (Z.eqb y) (x :: a)) with ((y =? x)%Z || existsb (Z.eqb y) a). rewrite <- IH.
    destruct (existsb (Z.eqb y) a); cbn [negb filter]; destruct (y =? x)%Z; reflexivity.
Qed.
Lemma same_refl a : same_uses a a.
Proof. split; auto. Qed.
Lemma same_trans a b c : same_uses a b -> same_uses b c -> same_uses a c.
Proof. intros [A B] [C D]. split; [congruence|]. intro s. now rewrite B. Qed.
Lemma content_of_app u v s : SpecSlm.content_of (u ++ v) s = if existsb (Z.eqb s) (map fst u) then SpecSlm.content_of u s else SpecSlm.content_of v s.
Proof.
  unfold SpecSlm.content_of. induction u as [|[k o] u IH]; [reflexivity|]. cbn [app find fst map existsb]. rewrite (Z.eqb_sym s k).
  destruct (k =? s)%Z; [reflexivity|]. exact IH.
Qed.
Lemma same_app a b a' b' : same_uses a a' -> same_uses b b' -> same_uses (a ++ b) (a' ++ b').
Proof.
  intros [A1 A2] [B1 B2]. assert (E : forall s, existsb (Z.eqb s) (map fst a) = existsb (Z.eqb s) (map fst a')).
  { intro s. rewrite <- (existsb_firsts s (map fst a)), A1. apply existsb_firsts. }
  split.
  - rewrite !map_app, !firsts_app, A1, B1. f_equal. apply filter_ext. intro s. now rewrite E.
  - intro s. now rewrite !content_of_app, E, A2, B2.
Qed.

(** ** The identity keeps uses and names *)
Lemma named_flat m : Forall named m -> Forall named (flat_map normal_node m).
Proof.
  induction 1 as [|n m Hn _ IH]; [constructor|]. cbn [flat_map]. apply Forall_app. split; [|exact IH].
  destruct n as [?|s|p|p|?|?]; cbn [normal_node]; repeat constructor; auto.
  cbn [named] in Hn. assert (G : forall l line, (forall x, In x l -> x <> [] -> pc_src p <> None) -> Forall named (map (as_single (pc_src p) (pc_orig p)) (numberN line l))).
  { induction l as [|x l IHl]; intros line H; cbn; constructor; [cbn; apply H; now left|]. apply IHl. intros y Hy. apply H. now right. }
  apply G. intros x Hx Nx. apply Hn. intro E. apply Nx. clear - E Hx. rewrite E in Hx. cbn in Hx. destruct (pc_nl p); cbn in Hx; [destruct Hx|]. destruct Hx as [<-|[]]. reflexivity.
Qed.
Lemma used_pieces src orig l : forall line, flat_map node_used (map (as_single src orig) (numberN line l)) =
  match src with Some s => map (fun _ => (s, orig)) (concat l) | None => [] end.
Proof.
  induction l as [|x l IH]; intro line; cbn [numberN map flat_map concat as_single node_used piece_new pc_src pc_code pc_orig fst snd].
  - now destruct src.
  - rewrite IH. destruct src; [|reflexivity]. now rewrite map_app.
Qed.
Lemma normal_used m : Forall node_ok m -> lused (flat_map normal_node m) = lused m.
Proof.
  induction 1 as [|n m Hn _ IH]; [reflexivity|]. cbn [flat_map]. unfold lused in *. rewrite flat_map_app, IH. cbn [flat_map]. f_equal.
  destruct n as [?|s|p|p|?|?]; try contradiction; try reflexivity; [|cbn [normal_node flat_map]; apply app_nil_r].
  cbn [normal_node]. rewrite used_pieces. cbn [node_used]. destruct (pc_src p); [|reflexivity]. f_equal.
  destruct Hn as [_ Hn]. destruct (pc_nl p) eqn:E.
  - specialize (Hn eq_refl). pose proof (pieces_concat NL (pc_code p)) as C. destruct (exists_last (pieces_nonempty NL (pc_code p))) as (a & x & Ea).
    rewrite Ea, removelast_last. rewrite Ea, concat_app in C. cbn in C. rewrite app_nil_r in C.
    assert (x = []) as ->.
    { destruct (pieces_shape NL (pc_code p)) as (body & lst & Eb & H1 & H2). rewrite Ea in Eb. apply app_inj_tail in Eb as [-> ->].
      destruct lst as [|c0 r]; [reflexivity|]. exfalso. rewrite <- C in Hn. rewrite ends_with_tail in Hn by discriminate.
      rewrite ends_with_none in Hn by assumption. discriminate. }
    now rewrite app_nil_r in C.
  - now rewrite pieces_concat.
Qed.
Lemma same_const (k : Z) (o o' : option Z) (l l' : str) : l <> [] ->
  same_uses (map (fun _ => (k, o)) (l ++ l')) (map (fun _ => (k, o)) l ++ map (fun _ => (k, o')) l').
Proof.
  destruct l as [|x l]; [congruence|]. intros _. split.
  - rewrite !map_app, !map_map. reflexivity.
  - intro s. rewrite content_of_app, map_app. cbn [app map]. unfold SpecSlm.content_of. cbn [find fst existsb map]. rewrite (Z.eqb_sym s k).
    destruct (Z.eqb_spec k s) as [->|Nk]; [reflexivity|]. cbn [orb]. apply Z.eqb_neq in Nk.
    assert (G : forall A p (r : list A), find (fun x : Z * option Z => (fst x =? s)%Z) (map (fun _ => (k, p)) r) = None).
    { intros A p r. induction r as [|y r IH]; [reflexivity|]. cbn. now rewrite Nk. }
    assert (G2 : existsb (Z.eqb s) (map fst (map (fun _ : char => (k, o)) l)) = false).
    { induction l as [|y l IH]; [reflexivity|]. cbn. rewrite Z.eqb_sym, Nk. exact IH. }
    rewrite G2, <- map_app, !G. reflexivity.
Qed.
Lemma merge_uses a b x : node_ok a -> node_ok b -> (match b with LSource _ => False | _ => True end) -> named a -> named b -> node_merge a b = Some x ->
  named x /\ same_uses (node_used x) (node_used a ++ node_used b).
Proof.
  destruct a as [?|s|p|p|?|?], b as [?|t|q|q|?|?]; try contradiction; try discriminate; cbn [node_ok node_merge named node_used]; intros Ha Hb _ Na Nb H.
  - injection H as <-. split; [exact I|apply same_refl].
  - unfold source_merge_single in H. destruct (_ && _) eqn:E; [|discriminate]. injection H as <-.
    apply andb_true_iff in E as [E E4]. apply andb_true_iff in E as [E E3]. apply andb_true_iff in E as [E1 E2]. apply optZ_eqb_eq in E1.
    assert (P : pc_code p <> []) by (destruct Ha as [_ Ha]; specialize (Ha E2); intro Z; rewrite Z in Ha; discriminate).
    cbn [named node_used piece_append pc_code pc_src pc_orig]. split; [auto|]. rewrite <- E1. destruct (pc_src p) as [k|]; [|apply same_refl]. now apply same_const.
  - unfold single_merge_single in H. destruct (_ && _) eqn:E; [|discriminate]. apply andb_true_iff in E as [E1 E2]. apply optZ_eqb_eq in E1, E2.
    assert (X : named x /\ node_used x = match pc_src p with Some k => map (fun _ => (k, pc_orig p)) (pc_code p ++ pc_code q) | None => [] end).
    { assert (Nx : pc_code p ++ pc_code q <> [] -> pc_src p <> None).
      { intro Z. destruct (pc_code p) as [|c r] eqn:Ep; [rewrite E1; now apply Nb|]. apply Na. discriminate. }
      destruct (_ =? _)%N; [injection H as <-; split; [exact Nx|reflexivity]|]. destruct (_ && _); [|discriminate]. injection H as <-. split; [exact Nx|reflexivity]. }
    destruct X as [X1 ->]. split; [exact X1|]. rewrite <- E1, <- E2. destruct (pc_src p); [|apply same_refl]. rewrite map_app. apply same_refl.
Qed.
Lemma push_uses acc n : Forall node_ok acc -> node_ok n -> (match n with LSource _ => False | _ => True end) -> Forall named acc -> named n ->
  Forall named (push_merge acc (Some n)) /\ same_uses (lused (rev (push_merge acc (Some n)))) (lused (rev acc) ++ node_used n).
Proof.
  intros Ha Hn Ns Na Nn. destruct acc as [|last rest]; cbn [push_merge].
  - split; [repeat constructor; auto|]. cbn. rewrite app_nil_r. apply same_refl.
  - inversion Ha as [|? ? Hl Hr]; inversion Na as [|? ? Nl Nr]; subst. destruct (node_merge last n) as [x|] eqn:E.
    + destruct (merge_uses _ _ _ Hl Hn Ns Nl Nn E) as [Nx S]. split; [auto|]. cbn [rev]. rewrite !lused_app, <- app_assoc. apply same_app; [apply same_refl|].
      unfold lused. cbn. now rewrite !app_nil_r.
    + split; [auto|]. cbn [rev]. rewrite !lused_app. replace (lused [n]) with (node_used n) by (unfold lused; cbn; now rewrite app_nil_r). apply same_refl.
Qed.
Lemma same_nonempty (k : Z) (o : option Z) (l l' : str) : (l = [] <-> l' = []) -> same_uses (map (fun _ => (k, o)) l) (map (fun _ => (k, o)) l').
Proof.
  intro H. destruct l as [|x l], l' as [|x' l']; try (exfalso; destruct H as [H1 H2]; (discriminate (H1 eq_refl) || discriminate (H2 eq_refl))); [apply same_refl|].
  assert (G : forall y (r : str), same_uses (map (fun _ => (k, o)) (y :: r)) [(k, o)]).
  { intros y r. split.
    - rewrite map_map. change (fun x0 : char => fst (k, o)) with (fun _ : char => k). rewrite <- (app_nil_r (map _ (y :: r))). rewrite firsts_repeat. reflexivity.
    - intro s. unfold SpecSlm.content_of. cbn [map find fst]. destruct (k =? s)%Z eqn:E; [reflexivity|]. induction r as [|z r IH]; [reflexivity|]. cbn [map find fst]. now rewrite E. }
  eapply same_trans; [apply G|]. destruct (G x' l') as [G1 G2]. split; [now rewrite G1|]. intro s. now rewrite G2.
Qed.
(** Mapping the code keeps uses and names if no piece becomes empty or ceases to be. *)
Lemma loop_uses (g : str -> str) (f : mapfun unit) : (forall st s, f st s = Some (tt, g s)) ->
  forall l, Forall (fun n => match n with LCode _ => True | LSingle p => counted p | _ => False end) l -> Forall named l ->
  Forall (fun n => text_node n = [] <-> g (text_node n) = []) l ->
  forall acc st' acc', Forall node_ok acc -> Forall named acc -> map_loop f tt l acc = Some (st', acc') ->
  Forall named acc' /\ same_uses (lused (rev acc')) (lused (rev acc) ++ lused l).
Proof.
  intro Hf. induction 1 as [|n l Hn _ IH]; intros Nl Hg acc st' acc' Ha Na E; cbn [map_loop] in E.
  - injection E as <- <-. split; [exact Na|]. cbn. rewrite app_nil_r. apply same_refl.
  - inversion Nl as [|? ? N1 N2]; subst. inversion Hg as [|? ? G1 G2]; subst. unb E as [st o] E1.
    assert (X : exists n', o = Some n' /\ st = tt /\ node_ok n' /\ named n' /\ same_uses (node_used n') (node_used n) /\ match n' with LSource _ => False | _ => True end).
    { destruct n as [?|s|p|p|?|?]; try contradiction; cbn [node_map] in E1; rewrite Hf in E1; cbn [bind] in E1; injection E1 as <- <-; eexists; (split; [reflexivity|]); (split; [reflexivity|]).
      - repeat split.
      - split; [apply counted_new|]. cbn [named node_used piece_new pc_code pc_src pc_orig text_node] in *. split; [|split; [|exact I]].
        + intro Z. apply N1. intro Z2. apply Z. now apply G1.
        + destruct (pc_src p); [|apply same_refl]. apply same_nonempty. tauto. }
    destruct X as (n' & -> & -> & X1 & X2 & X3 & X4). destruct (push_spec acc n' Ha X1) as (P1 & _). destruct (push_uses acc n' Ha X1 X4 Na X2) as [P2 P3].
    destruct (IH N2 G2 _ _ _ P1 P2 E) as [A B]. split; [exact A|]. eapply same_trans; [exact B|]. change (lused (n :: l)) with (node_used n ++ lused l).
    rewrite app_assoc. apply same_app; [|apply same_refl]. eapply same_trans; [exact P3|]. apply same_app; [apply same_refl|exact X3].
Qed.

(** ** The reader *)
Definition from_arrays (sources contents : list Z) (n : slm_node) : Prop :=
  match n with
  | LSource p => exists i, pc_src p = get_idx sources i /\ pc_orig p = get_idx contents i
  | LSingle _ => False
  | _ => True
  end.
Section Arrays.
  Variables (sources contents : list Z).
  Notation fa := (Forall (from_arrays sources contents)).
  Lemma set_last_all {A} (X : A -> Prop) l x : Forall X l -> X x -> Forall X (set_last l x).
  Proof. induction l as [|y l IH]; intros H Hx; [constructor|]. inversion H; subst. destruct l; cbn [set_last]; constructor; auto. Qed.
  Lemma last_opt_in {A} (l : list A) x : last_opt l = Some x -> In x l.
  Proof. induction l as [|y l IH]; [discriminate|]. destruct l as [|z l]; cbn [last_opt]; intro H; [injection H as <-; now left|right; auto]. Qed.
  Lemma add_code_fa st s : fa (fst st) -> fa (fst (rd_add_code st s)).
  Proof.
    destruct st as [nodes c]. cbn [fst]. intro H. unfold rd_add_code.
    assert (D : fa (nodes ++ [LCode s])) by (apply Forall_app; split; [exact H|repeat constructor]).
    destruct (last_opt nodes) as [[?|t|p|p|?|?]|] eqn:E; try exact D.
    - now apply set_last_all.
    - destruct (blank s); [|exact D]. apply set_last_all; [exact H|]. apply last_opt_in in E. rewrite Forall_forall in H. exact (H _ E).
  Qed.
  Lemma add_source_fa st s i l : fa (fst st) -> fa (fst (rd_add_source st s (get_idx sources i) (get_idx contents i) l)).
  Proof.
    destruct st as [nodes c]. cbn [fst]. intro H. unfold rd_add_source.
    assert (D : fa (nodes ++ [LSource (piece_new s (get_idx sources i) (get_idx contents i) l)])).
    { apply Forall_app. split; [exact H|]. constructor; [exists i; split; reflexivity|constructor]. }
    destruct (last_opt nodes) as [[?|t|p|p|?|?]|] eqn:E; try exact D. destruct (_ && _); [|exact D].
    apply set_last_all; [exact H|]. apply last_opt_in in E. rewrite Forall_forall in H. exact (H _ E).
  Qed.
  Lemma segment_fa line st rest added st' rest' b : fa (fst (rs_rd st)) ->
    segment_step sources contents line st rest added = Some (st', rest', b) -> fa (fst (rs_rd st')).
  Proof.
    intros H E. unfold segment_step in E. unb E as rest1 E1. destruct rest1 as [|c r]; [now injection E as <- _ _|].
    destruct (N.eqb c COMMA); [now injection E as <- _ _|]. unb E as [value rest2] E2. unb E as [lp rest3] E3.
    destruct (negb added); injection E as <- _ _; [|exact H]. cbn [rs_rd]. now apply add_source_fa.
  Qed.
  Lemma segments_fa line : forall fuel st rest added st' b, fa (fst (rs_rd st)) ->
    segment_loop fuel sources contents line st rest added = Some (st', b) -> fa (fst (rs_rd st')).
  Proof.
    induction fuel as [|f IH]; intros st rest added st' b H E; destruct rest as [|c r]; cbn [segment_loop] in E; try discriminate; try (now injection E as <- _).
    unb E as [[st1 rest1] b1] E1. eapply IH; [|exact E]. eapply segment_fa; eauto.
  Qed.
  Lemma reader_line_fa mp line st st' : fa (fst (rs_rd st)) -> reader_line sources contents mp line st = Some st' -> fa (fst (rs_rd st')).
  Proof.
    intros H E. unfold reader_line in E. destruct mp as [|c mp]; [injection E as <-; now apply add_code_fa|].
    unb E as [st1 added] E1. pose proof (segments_fa _ _ _ _ _ _ _ H E1) as H1. destruct added; injection E as <-; [exact H1|]. now apply add_code_fa.
  Qed.
  Lemma reader_loop_fa : forall mls it st it' st', fa (fst (rs_rd st)) -> reader_loop sources contents mls it st = Some (it', st') -> fa (fst (rs_rd st')).
  Proof.
    induction mls as [|mp mls IH]; intros it st it' st' H E; cbn [reader_loop] in E; [now injection E as _ <-|].
    unb E as [it1 o] E1. destruct o as [x|]; [|eapply IH; eauto]. unb E as line E2. unb E as st1 E3. eapply IH; [|exact E]. eapply reader_line_fa; eauto.
  Qed.
  Lemma reader_rest_fa : forall fuel it st st', fa (fst st) -> reader_rest fuel it st = Some st' -> fa (fst st').
  Proof.
    induction fuel as [|f IH]; intros it st st' H E; cbn [reader_rest] in E; [discriminate|]. unb E as [it1 o] E1. destruct o as [x|]; [|now injection E as <-].
    unb E as back E2. destruct (blank back).
    - unb E as line E3. eapply IH; [|exact E]. now apply add_code_fa.
    - destruct (msplit_take_rest it1) as [it2 r]. unb E as lst E3. eapply IH; [|exact E]. now apply add_code_fa.
  Qed.
  Lemma reader_fa code mappings lm : slm_from_string code sources contents mappings = Some lm -> fa lm.
  Proof.
    intro E. unfold slm_from_string in E. unb E as mls E1. unb E as [it st] E2. unb E as [nodes c] E3. cbn in E. injection E as <-.
    change nodes with (fst (nodes, c)). eapply reader_rest_fa; [|exact E3]. eapply reader_loop_fa; [|exact E2]. constructor.
  Qed.
End Arrays.

(** Sources in range. *)
Lemma attribute_sources sources segs : Forall (fun s => match sg_orig s with Some (a, _, _, _) => (0 <= a < Z.of_nat (length sources))%Z | None => True end) segs ->
  forall lines k prev, match prev with Some (s, _) => In s sources | None => True end ->
  Forall (fun x => match snd x with Some (s, _, _) => In s sources | None => True end) (attribute sources segs k prev lines).
Proof.
  intro H. assert (F : forall k s l, first_on sources segs k = Some (s, l) -> In s sources).
  { intros k s l E. unfold first_on in E. destruct (find _ segs) as [sg|] eqn:Ef; [|discriminate]. apply find_some in Ef as [Ef _].
    rewrite Forall_forall in H. specialize (H sg Ef). destruct (sg_orig sg) as [[[[a b] c] d]|]; [|discriminate]. unfold entry in E.
    destruct (Z.ltb_spec a 0); [lia|]. destruct (nth_error sources (Z.to_nat a)) as [i|] eqn:En; [|apply nth_error_None in En; lia]. injection E as <- _. now apply nth_error_In in En. }
  assert (M : forall t x, match t with Some (s, _, _) => In s sources | None => True end ->
    Forall (fun x => match snd x with Some (s, _, _) => In s sources | None => True end) (mark t x)).
  { intros t x Ht. unfold mark. apply Forall_forall. intros y Hy. apply in_map_iff in Hy as (z & <- & _). exact Ht. }
  induction lines as [|x lines IH]; intros k prev Hp; cbn [attribute]; [constructor|].
  destruct (first_on sources segs k) as [[s l]|] eqn:E.
  - apply F in E. apply Forall_app. split; [now apply M|now apply IH].
  - destruct prev as [[s l]|]; [|apply Forall_app; split; [now apply M|now apply IH]].
    destruct (blank x); (apply Forall_app; split; [now apply M|now apply IH]).
Qed.
Lemma mark_lines_all n s : forall l, Forall (fun x => exists p, snd x = Some (n, p, None)) (mark_lines n l s).
Proof. induction s as [|c s IH]; intro l; cbn [mark_lines]; constructor; [eexists; reflexivity|apply IH]. Qed.
Lemma node_sources n : match n with LSource p | LSingle p => Forall (fun x => exists q, snd x = Some (source_of p, q, None)) (node_marks n) | _ => True end.
Proof.
  destruct n as [?|s|p|p|?|?]; auto; cbn [node_marks]; [apply mark_lines_all|]. unfold mark. apply Forall_forall. intros y Hy.
  apply in_map_iff in Hy as (z & <- & _). eexists. reflexivity.
Qed.
Lemma node_marks_code n p : (n = LSource p \/ n = LSingle p) -> length (node_marks n) = length (pc_code p).
Proof. intros [->| ->]; cbn [node_marks]; [|unfold mark; apply map_length]. rewrite <- (lines_text (source_of p) (pc_code p) (Z.of_N (pc_line p))) at 2. unfold text_of. now rewrite map_length. Qed.
Lemma get_idx_nth l i : get_idx l i = nth_error l (N.to_nat i).
Proof. unfold get_idx. destruct (N.ltb_spec i (N.of_nat (length l))); [reflexivity|]. symmetry. apply nth_error_None. lia. Qed.
Lemma zipz_get : forall sources contents i s, NoDup sources -> nth_error sources i = Some s -> al_get (zipz sources contents) s = nth_error contents i.
Proof.
  induction sources as [|x sources IH]; intros contents i s N E; [destruct i; discriminate|]. inversion N as [|? ? N1 N2]; subst.
  destruct contents as [|c contents]; [cbn; destruct i; reflexivity|]. destruct i as [|i]; cbn [nth_error zipz al_get] in *.
  - injection E as <-. now rewrite Z.eqb_refl.
  - destruct (Z.eqb_spec s x) as [->|]; [apply nth_error_In in E; contradiction|]. now apply IH.
Qed.
Lemma reader_used sources contents lm : NoDup sources -> (forall s, In s sources -> (0 <= s)%Z) -> Forall (from_arrays sources contents) lm ->
  Forall (fun x => match snd x with Some (s, _, _) => In s sources | None => True end) (list_marks lm) ->
  Forall sourced lm /\ lused lm = flat_map (fun x => match snd x with Some (s, _, _) => [(s, al_get (zipz sources contents) s)] | None => [] end) (list_marks lm).
Proof.
  intros N Pos. induction 1 as [|n lm Hn _ IH]; intro HM; [split; [constructor|reflexivity]|].
  unfold list_marks in HM |- *. cbn [flat_map] in HM |- *. apply Forall_app in HM as [HM1 HM2]. destruct (IH HM2) as [I1 I2]. unfold lused. cbn [flat_map]. fold (lused lm). rewrite I2, flat_map_app.
  assert (G : sourced n /\ node_used n = flat_map (fun x => match snd x with Some (s, _, _) => [(s, al_get (zipz sources contents) s)] | None => [] end) (node_marks n)).
  { assert (K : forall p, n = LSource p -> (pc_code p <> [] -> pc_src p <> None) /\
      match pc_src p with Some s => map (fun _ => (s, pc_orig p)) (pc_code p) | None => [] end =
      flat_map (fun x => match snd x with Some (s, _, _) => [(s, al_get (zipz sources contents) s)] | None => [] end) (node_marks n)).
    { intros p Hp. pose proof (node_sources n) as NS. pose proof (node_marks_code n p (or_introl Hp)) as L.
      assert (NS' : Forall (fun x => exists q, snd x = Some (source_of p, q, None)) (node_marks n)) by (rewrite Hp in *; exact NS).
      assert (FA : exists i, pc_src p = get_idx sources i /\ pc_orig p = get_idx contents i) by (rewrite Hp in *; exact Hn).
      destruct FA as (i & F1 & F2). rewrite get_idx_nth in F1, F2.
      destruct (pc_src p) as [s|] eqn:Es.
      - split; [discriminate|]. assert (So : source_of p = s) by (unfold source_of; now rewrite Es). rewrite So in NS'. symmetry in F1.
        rewrite F2, <- (zipz_get _ contents _ _ N F1). clear - NS' L. revert L. generalize (pc_code p). induction NS' as [|x M (q & E) _ IH]; intros [|c code] L; try discriminate; [reflexivity|].
        cbn [map flat_map]. rewrite E. cbn [app]. f_equal. apply IH. now injection L.
      - assert (So : source_of p = (-1)%Z) by (unfold source_of; now rewrite Es). rewrite So in NS'. destruct NS' as [|x M (q & E) _].
        + split; [|reflexivity]. destruct (pc_code p); [congruence|discriminate].
        + exfalso. inversion HM1 as [|? ? H1 _]; subst. rewrite E in H1. apply Pos in H1. lia. }
    destruct n as [?|s|p|p|?|?]; try (split; [exact I|reflexivity]).
    - split; [exact I|]. cbn [node_used node_marks]. clear. unfold mark. induction s as [|x s IHs]; [reflexivity|exact IHs].
    - now apply (K p).
    - destruct Hn. }
  destruct G as [G1 G2]. split; [constructor; auto|]. now rewrite G2.
Qed.

(** ** Renaming *)
Lemma attribute_text sources segs : forall lines k prev, text_of (attribute sources segs k prev lines) = concat lines.
Proof.
  induction lines as [|x lines IH]; intros k prev; [reflexivity|]. cbn [attribute concat].
  destruct (first_on sources segs k) as [[s l]|]; [|destruct prev as [[s l]|]; [destruct (blank x)|]]; now rewrite text_app, text_mark, IH.
Qed.
Lemma attribute_rename f sources segs : Forall (fun s => match sg_orig s with Some (a, _, _, _) => (0 <= a < Z.of_nat (length sources))%Z | None => True end) segs ->
  forall lines k prev, attribute (map f sources) segs k (option_map (fun x : Z * Z => (f (fst x), snd x)) prev) lines = retarget (rename f) (attribute sources segs k prev lines).
Proof.
  intro H. assert (F : forall k, first_on (map f sources) segs k = option_map (fun x => (f (fst x), snd x)) (first_on sources segs k)).
  { intro k. unfold first_on. destruct (find _ segs) as [sg|] eqn:Ef; [|reflexivity]. apply find_some in Ef as [Ef _].
    rewrite Forall_forall in H. specialize (H sg Ef). destruct (sg_orig sg) as [[[[a b] c] d]|]; [|reflexivity]. rewrite entry_map. unfold entry.
    destruct (Z.ltb_spec a 0); [lia|]. destruct (nth_error sources (Z.to_nat a)) as [i|] eqn:En; [reflexivity|apply nth_error_None in En; lia]. }
  induction lines as [|x lines IH]; intros k prev; [reflexivity|]. cbn [attribute]. rewrite F.
  destruct (first_on sources segs k) as [[s l]|]; cbn [option_map fst snd].
  - rewrite retarget_app, retarget_mark. f_equal. apply (IH _ (Some (s, (l + 1)%Z))).
  - destruct prev as [[s l]|]; cbn [option_map fst snd]; [destruct (blank x)|]; rewrite retarget_app, retarget_mark; f_equal; first [apply (IH _ (Some (s, (l + 1)%Z)))|apply (IH _ None)].
Qed.
Lemma used_lines g n s : forall l, used g (mark_lines n l s) = map (fun _ => (n, g n)) s.
Proof. induction s as [|c s IH]; intro l; [reflexivity|]. cbn. f_equal. apply IH. Qed.
Lemma Forall2_const {A B C} (X : A -> B -> Prop) a b (l : list C) : X a b -> Forall2 X (map (fun _ => a) l) (map (fun _ => b) l).
Proof. intro H. induction l; constructor; auto. Qed.

(** ** Concatenation *)
Definition cm_used (y : str + slm) := match y with inl _ => [] | inr m => lused m end.
Definition cm_named (y : str + slm) : Prop := match y with inl _ => True | inr m => Forall named m end.
Lemma concat_used : forall ys m m', concat_list_map ys m = Some m' -> Forall cm_named ys -> Forall named m ->
  Forall named m' /\ lused m' = lused m ++ flat_map cm_used ys.
Proof.
  induction ys as [|y ys IH]; intros m m' E Hy Hm; cbn [concat_list_map] in E; [injection E as <-; cbn; rewrite app_nil_r; auto|].
  inversion Hy as [|? ? H1 H2]; subst. destruct y as [s|c]; cbn [slm_add is_some bind] in E.
  - assert (K : Forall named (add_code_text m s) /\ lused (add_code_text m s) = lused m).
    { destruct (add_code_cases m s) as [(m0 & t & -> & ->)| ->].
      - apply Forall_app in Hm as [Hm _]. split; [apply Forall_app; split; [exact Hm|repeat constructor]|]. rewrite !lused_app. reflexivity.
      - split; [apply Forall_app; split; [exact Hm|repeat constructor]|]. rewrite lused_app. apply app_nil_r. }
    destruct K as [K1 K2]. destruct (IH _ _ E H2 K1) as [A B]. split; [exact A|]. rewrite B, K2. reflexivity.
  - destruct (IH _ _ E H2) as [A B]; [apply Forall_app; auto|]. split; [exact A|]. rewrite B, lused_app. cbn [flat_map cm_used]. now rewrite app_assoc.
Qed.

Definition cm_sourced (y : str + slm) : Prop := match y with inl _ => True | inr m => Forall sourced m end.
Lemma concat_sourced : forall ys m m', concat_list_map ys m = Some m' -> Forall cm_sourced ys -> Forall sourced m -> Forall sourced m'.
Proof.
  induction ys as [|y ys IH]; intros m m' E Hy Hm; cbn [concat_list_map] in E; [now injection E as <-|].
  inversion Hy as [|? ? H1 H2]; subst. destruct y as [s|c]; cbn [slm_add is_some bind] in E.
  - eapply IH; [exact E|exact H2|]. destruct (add_code_cases m s) as [(m0 & t & -> & ->)| ->].
    + apply Forall_app in Hm as [Hm _]. apply Forall_app; split; [exact Hm|repeat constructor].
    + apply Forall_app; split; [exact Hm|repeat constructor].
  - eapply IH; [exact E|exact H2|]. apply Forall_app; auto.
Qed.

(** ** Expressions *)
Definition line_child (md : bool) (e : jexpr) : Prop := match e with XStr s => plain s | _ => line_expr md e end.
Lemma line_concat md l : line_expr md (XConcat l) <-> Forall (line_child md) l.
Proof.
  induction l as [|x r IH]; cbn [line_expr] in *; [split; constructor|]. rewrite IH. split; [intros [H1 H2]; auto|]. intro H. now inversion H.
Qed.
Definition line_edit_child (md : bool) (e : jexpr) : Prop := match e with XStr s => plain s | _ => line_edit_expr md e end.
Lemma line_edit_concat md l : line_edit_expr md (XConcat l) <-> Forall (line_edit_child md) l.
Proof.
  induction l as [|x r IH]; cbn [line_edit_expr] in *; [split; constructor|]. rewrite IH. split; [intros [H1 H2]; auto|]. intro H. now inversion H.
Qed.
Lemma line_edits_too md e : line_child md e -> line_edit_child md e.
Proof.
  induction e as [s|v|v n|v n o|p e IH|e h IH|l IH|v n m o i] using jexpr_ind'; intro X; try exact X; [|destruct X|].
  - destruct X as (X1 & X2 & X3 & X4 & X5 & X6). assert (Xc : line_child md e) by (destruct e; auto; destruct X6). specialize (IH Xc).
    split; [exact X1|]. split; [exact X2|]. split; [exact X3|]. split; [exact X4|]. split; [exact X5|]. destruct e; try exact IH. destruct X6.
  - apply line_edit_concat. apply line_concat in X. induction IH as [|x l Hx _ IHl]; constructor; inversion X as [|? ? X1 X2]; subst; auto.
Qed.

Section Lines.
  Variables (nu : jstr -> Z) (Hnu : numbering nu) (c1 : cache) (Hc1 : cache_ok c1) (md : bool).
  Notation ren := (retarget (rename (rho nu c1))).
  Definition use_at (x : Z * option Z) (y : Z * option jstr) : Prop :=
    exists s, fst y = nu s /\ known c1 (fst x) s /\
      match snd x, snd y with Some j, Some k => at_ c1 j k | None, None => True | _, _ => False end.
  Definition lgoods (w : Prop) (ts : list tree) (M : marked) (U : list (Z * option jstr)) : Prop :=
    exists ys u, Forall2 (child_map false md) ts ys /\ Forall cm_ok ys /\ Forall cm_named ys /\
      M = ren (flat_map cm_marks ys) /\ same_uses (flat_map cm_used ys) u /\ Forall2 use_at u U /\ (w -> Forall cm_sourced ys).
  Definition parts (t : tree) : list tree := match t with TConcat l => l | _ => [t] end.
  Definition lgood (w : Prop) (t : tree) := lgoods w (parts t).

  Lemma lgoods_app (w w1 w2 : Prop) a b M M' U U' : (w -> w1 /\ w2) -> lgoods w1 a M U -> lgoods w2 b M' U' -> lgoods w (a ++ b) (M ++ M') (U ++ U').
  Proof.
    intros Hw (ys & u & A1 & A2 & A3 & A4 & A5 & A6 & A7) (zs & v & B1 & B2 & B3 & B4 & B5 & B6 & B7). exists (ys ++ zs), (u ++ v). rewrite !flat_map_app, retarget_app, <- A4, <- B4.
    split; [now apply Forall2_app|]. split; [now apply Forall_app|]. split; [now apply Forall_app|]. split; [reflexivity|]. split; [now apply same_app|]. split; [now apply Forall2_app|].
    intro H. destruct (Hw H). apply Forall_app. auto.
  Qed.
  Lemma concat_parts acc t : concat_add acc t = acc ++ parts t.
  Proof. destruct t; reflexivity. Qed.
  Lemma flat_parts ts : fold_left concat_add ts [] = flat_map parts ts.
  Proof.
    rewrite <- (app_nil_l (flat_map parts ts)). generalize (@nil tree). induction ts as [|t ts IH]; intro acc; cbn [fold_left flat_map]; [now rewrite app_nil_r|].
    now rewrite IH, concat_parts, <- app_assoc.
  Qed.
  Lemma lgood_same (w : Prop) t lm u U : (match t with TStr _ | TConcat _ => False | _ => True end) -> t_list_map false md t = Some lm -> Forall node_ok lm -> Forall named lm ->
    same_uses (lused lm) u -> Forall2 use_at u U -> (w -> Forall sourced lm) -> lgood w t (ren (list_marks lm)) U.
  Proof.
    intros Ht E O N S F W. assert (G : lgoods w [t] (ren (list_marks lm)) U).
    { exists [inr lm], u. cbn [flat_map cm_marks cm_used]. rewrite !app_nil_r. split; [constructor; [|constructor]; unfold child_map; destruct t; try destruct Ht; eauto|].
      repeat (split; auto). intro Hw. constructor; [exact (W Hw)|constructor]. }
    destruct t; try exact G. destruct Ht.
  Qed.
  Lemma lgood_one (w : Prop) t lm U : (match t with TStr _ | TConcat _ => False | _ => True end) -> t_list_map false md t = Some lm -> Forall node_ok lm -> Forall sourced lm ->
    Forall2 use_at (lused lm) U -> lgood w t (ren (list_marks lm)) U.
  Proof. intros Ht E O N F. eapply lgood_same; [exact Ht|exact E|exact O|now apply sourced_named|apply same_refl|exact F|auto]. Qed.
  Lemma lgood_list (w : Prop) t M U : (match t with TStr _ => False | _ => True end) -> lgood w t M U ->
    exists lm u, t_list_map false md t = Some lm /\ Forall node_ok lm /\ Forall named lm /\ M = ren (list_marks lm) /\ same_uses (lused lm) u /\ Forall2 use_at u U /\
      (w -> Forall sourced lm).
  Proof.
    intros Ht H. assert (G : match t with TConcat _ => False | _ => True end -> lgoods w [t] M U ->
      exists lm u, t_list_map false md t = Some lm /\ Forall node_ok lm /\ Forall named lm /\ M = ren (list_marks lm) /\ same_uses (lused lm) u /\ Forall2 use_at u U /\
        (w -> Forall sourced lm)).
    { intros Hc (ys & u & A1 & A2 & A3 & A4 & A5 & A6 & A7). inversion A1 as [|? y ? ys' C1 C2]; subst. inversion C2; subst. inversion A2; inversion A3; subst.
      assert (C : exists lm, y = inr lm /\ t_list_map false md t = Some lm) by (unfold child_map in C1; destruct t; try destruct Ht; exact C1).
      destruct C as (lm & -> & E). cbn [flat_map cm_marks cm_used] in *. rewrite !app_nil_r in *. exists lm, u. repeat (split; auto). intro Hw. specialize (A7 Hw). now inversion A7. }
    destruct t; try (apply G; [exact I|exact H]). destruct H as (ys & u & A1 & A2 & A3 & A4 & A5 & A6 & A7). cbn [parts] in A1.
    destruct (concat_list_map_spec ys [] A2 (Forall_nil _)) as (m' & E & O & _ & Mk). destruct (concat_used ys [] m' E A3 (Forall_nil _)) as [Nm Us].
    exists m', u. rewrite (children_maps _ _ _ _ A1). split; [exact E|]. split; [exact O|]. split; [exact Nm|]. cbn in Mk, Us. rewrite Mk, Us, <- flat_map_concat_map.
    repeat (split; auto). intro Hw. eapply concat_sourced; [exact E|exact (A7 Hw)|constructor].
  Qed.

  Lemma one_good v i n str k o : known c1 i n -> at_ c1 k str -> o = Some k -> Forall node_ok (one_source i o v) /\ Forall sourced (one_source i o v) /\
    ren (list_marks (one_source i o v)) = mark_lines (nu n) 1 v /\ Forall2 use_at (lused (one_source i o v)) (used (fun _ => Some str) (mark_lines (nu n) 1 v)).
  Proof.
    intros K A ->. destruct (one_source_ok i (Some k) v) as (O & _ & Mk). split; [exact O|]. split; [constructor; [discriminate|constructor]|].
    split; [rewrite Mk, mark_lines_rename; now rewrite (rho_known nu c1 Hc1 _ _ K)|]. rewrite used_lines. unfold lused, one_source. cbn. rewrite app_nil_r.
    apply Forall2_const. exists n. auto.
  Qed.
  Lemma read_good v m ss ks ms : Forall2 (known c1) ss (jm_sources m) -> Forall2 (at_ c1) ks (jm_contents m) -> ms = from_js (jm_mappings m) -> sound_map m ->
    (forall segs, decode (jm_mappings m) = Some segs -> Forall SpecList.fits segs) ->
    exists lm, slm_from_string v ss ks ms = Some lm /\ Forall node_ok lm /\ Forall sourced lm /\ line_says nu m v = Some (ren (list_marks lm)) /\
      Forall2 use_at (lused lm) (used (fun z => option_map snd (find (fun x => (nu (fst x) =? z)%Z) (zip (jm_sources m) (jm_contents m)))) (ren (list_marks lm))).
  Proof.
    intros P1 P2 P4 (Nd & Nn & Pl & segs & Ed & Sm & Rg & _) Fi. specialize (Fi segs Ed). rewrite plain_in in P4 by exact Pl. rewrite <- P4 in Ed.
    destruct (reader_attribution ss ks v ms segs Ed Fi) as (lm & R & O & Mk).
    assert (In1 : Forall (fun s => match sg_orig s with Some (a, _, _, _) => (0 <= a < Z.of_nat (length ss))%Z | None => True end) segs).
    { rewrite (Forall2_len _ _ _ P1). apply Forall_forall. intros s Hs. rewrite Forall_forall in Sm, Rg. specialize (Sm s Hs). specialize (Rg s Hs). unfold small_seg, in_range in *.
      destruct (sg_orig s) as [[[[a b] c] o]|]; [lia|exact I]. }
    assert (Nd' : NoDup ss) by (eapply known_nodup; eauto).
    assert (Kn : forall i, In i ss -> exists s, In s (jm_sources m) /\ known c1 i s).
    { clear - P1. induction P1 as [|i s is l H _ IH]; intros j Hj; [destruct Hj|]. destruct Hj as [->|Hj]; [exists s; split; [now left|exact H]|]. destruct (IH j Hj) as (s' & A & B). exists s'. split; [now right|exact B]. }
    assert (Pos : forall i, In i ss -> (0 <= i)%Z) by (intros i Hi; destruct (Kn i Hi) as (s & _ & k & -> & _); lia).
    pose proof (attribute_sources ss segs In1 (cut_lines v) 0 None I) as Src. rewrite <- Mk in Src.
    destruct (reader_used ss ks lm Nd' Pos (reader_fa _ _ _ _ _ R) Src) as [Nm Us].
    assert (EM : ren (list_marks lm) = attribute (map nu (jm_sources m)) segs 0 None (cut_lines v)).
    { rewrite Mk, <- (rho_map nu c1 Hc1 _ _ P1). symmetry. exact (attribute_rename (rho nu c1) ss segs In1 (cut_lines v) 0 None). }
    exists lm. split; [exact R|]. split; [exact O|]. split; [exact Nm|]. split; [unfold line_says; rewrite <- P4, Ed; cbn [bind]; now rewrite EM|].
    rewrite Us. pose proof (zip_at c1 _ _ _ _ P1 P2) as Zp. clear - Src Kn Zp Hc1 Hnu. induction (list_marks lm) as [|[ch t] M IH]; [constructor|].
    inversion Src as [|? ? S1 S2]; subst. cbn [retarget map flat_map used fst snd] in *. apply Forall2_app; [|exact (IH S2)].
    destruct t as [[[i p] nm]|]; cbn [rename]; [|constructor]. constructor; [|constructor]. cbn [fst snd] in S1. destruct (Kn i S1) as (s & Is & K).
    exists s. cbn [fst snd]. rewrite (rho_known nu c1 Hc1 _ _ K). split; [reflexivity|]. split; [exact K|]. clear - Zp K Hc1 Hnu.
    induction Zp as [|[i' j] [s' k] ps qs [H1 H2] _ IH]; [exact I|]. cbn [al_get find fst snd] in *.
    destruct (Z.eqb_spec i i') as [->|N]; destruct (Z.eqb_spec (nu s') (nu s)) as [E|N']; auto.
    + exfalso. apply N'. f_equal. eapply at_string; eapply known_at; eauto.
    + exfalso. apply N. apply Hnu in E. subst s'. eapply known_index; eauto.
  Qed.
  Lemma sms_good x v m d : plain v -> sms_value x = v -> sms_map x = mk_cell (Some d) None -> passed c1 m d -> sound_map m ->
    (forall segs, decode (jm_mappings m) = Some segs -> Forall SpecList.fits segs) -> md = true ->
    exists M, line_says nu m v = Some M /\ forall w : Prop, lgood w (TSms x) M
      (used (fun z => option_map snd (find (fun x => (nu (fst x) =? z)%Z) (zip (jm_sources m) (jm_contents m)))) M).
  Proof.
    intros Pv Xv Xm (P1 & P2 & P3 & P4) So Fi Hmd. destruct (read_good v m _ _ _ P1 P2 P4 So Fi) as (lm & R & O & Nm & L & Us).
    exists (ren (list_marks lm)). split; [exact L|]. intro w. apply lgood_one; [exact I| |exact O|exact Nm|exact Us].
    rewrite Hmd. unfold t_list_map. cbn [fold_tree list_map_alg a_sms]. unfold sms_list_map. rewrite Xm, Xv. cbn [negb]. unfold cell_get_data. cbn [ce_data bind]. rewrite R. reflexivity.
  Qed.

  (** ** Prefixes *)
  Lemma unwrapped_concat l : unwrapped (XConcat l) <-> Forall unwrapped l.
  Proof. induction l as [|x r IH]; cbn [unwrapped] in *; [split; constructor|]. rewrite IH. split; [intros [H1 H2]; auto|]. intro H. now inversion H. Qed.
  Definition wparts (ol : Prop) (ts : list tree) (xs : list str) : Prop :=
    exists ys, Forall2 (child_map false md) ts ys /\ Forall cm_good ys /\ Forall cm_tidy ys /\ map cm_text ys = xs /\
      (ol -> exists lm, ys = [inr lm] /\ one_node lm).
  Lemma wparts_app (ol ol' : Prop) a b xs zs : wparts ol a xs -> wparts ol' b zs -> wparts False (a ++ b) (xs ++ zs).
  Proof.
    intros (ys & A1 & A2 & A3 & A4 & _) (ws & B1 & B2 & B3 & B4 & _). exists (ys ++ ws). rewrite map_app, A4, B4.
    split; [now apply Forall2_app|]. split; [now apply Forall_app|]. split; [now apply Forall_app|]. split; [reflexivity|intros []].
  Qed.
  Lemma wparts_one (ol : Prop) t lm : (match t with TStr _ | TConcat _ => False | _ => True end) -> t_list_map false md t = Some lm -> wholes lm -> (ol -> one_node lm) ->
    wparts ol (parts t) [slm_text lm].
  Proof.
    intros Ht E [G U] O. assert (D : wparts ol [t] [slm_text lm]).
    { exists [inr lm]. split; [|split; [|split; [|split; [reflexivity|eauto]]]]; (constructor; [|constructor]); [|exact G|exact U]. unfold child_map. destruct t; try destruct Ht; eauto. }
    destruct t; try exact D. destruct Ht.
  Qed.
  Lemma wparts_list (ol : Prop) t xs : (match t with TStr _ => False | _ => True end) -> wparts ol (parts t) xs -> at_line_ends xs ->
    exists lm, t_list_map false md t = Some lm /\ wholes lm /\ slm_text lm = concat xs /\ (ol -> one_node lm).
  Proof.
    intros Ht W HA. assert (D : match t with TConcat _ => False | _ => True end -> wparts ol [t] xs ->
      exists lm, t_list_map false md t = Some lm /\ wholes lm /\ slm_text lm = concat xs /\ (ol -> one_node lm)).
    { intros Hc (ys & A1 & A2 & A3 & A4 & A5). inversion A1 as [|? y ? ys' C1 C2]; subst. inversion C2; subst. inversion A2; inversion A3; subst.
      assert (C : exists lm, y = inr lm /\ t_list_map false md t = Some lm) by (unfold child_map in C1; destruct t; try destruct Ht; exact C1).
      destruct C as (lm & -> & E). exists lm. split; [exact E|]. split; [split; assumption|]. cbn [map concat cm_text]. rewrite app_nil_r. split; [reflexivity|].
      intro H. destruct (A5 H) as (lm0 & E0 & O). injection E0 as <-. exact O. }
    destruct t; try (apply D; [exact I|exact W]). destruct W as (ys & A1 & A2 & A3 & A4 & A5). cbn [parts] in A1.
    assert (Ok : Forall cm_ok ys) by (eapply Forall_impl; [|exact A2]; intros [?|?] H; [exact I|apply H]).
    destruct (concat_list_map_spec ys [] Ok (Forall_nil _)) as (m' & E & O & T & _). exists m'. rewrite (children_maps _ _ _ _ A1). split; [exact E|]. split; [split|split].
    - eapply concat_good; [|exact A2|rewrite A4; exact HA|right; reflexivity|exact E]. split; [constructor|split; constructor].
    - eapply concat_tidy; [exact A3|constructor|exact E].
    - rewrite T, A4. reflexivity.
    - intro H. destruct (A5 H) as (lm0 & -> & O0). cbn in E. injection E as <-. exact O0.
  Qed.
  Lemma one_unsplit i o v : Forall unsplit (one_source i o v).
  Proof. repeat constructor. Qed.
  Lemma lined_concat l : on_lines md (XConcat l) <-> Forall (on_lines md) l.
  Proof. induction l as [|x r IH]; cbn [on_lines] in *; [split; constructor|]. rewrite IH. split; [intros [H1 H2]; auto|]. intro H. now inversion H. Qed.
  Lemma made_whole e : line_edit_child md e -> on_lines md e -> forall t, made c1 e t -> wparts (one_leaf md e) (parts (import t)) (leaf_texts e).
  Proof.
    assert (W1 : forall (ol : Prop) t i o v, (match t with TStr _ | TConcat _ => False | _ => True end) -> t_list_map false md t = Some (one_source i o v) -> wparts ol (parts t) [v]).
    { intros ol t i o v Ht E. destruct (one_source_ok i o v) as (_ & T & _). rewrite <- T. apply wparts_one; [exact Ht|exact E| |].
      - split; [apply one_source_good|apply unsplit_tidy_node, one_unsplit].
      - intros _. eexists. split; [reflexivity|exact I]. }
    induction e as [s|v|v n|v n o|p e IH|e h IH|l IH|v n m o i] using jexpr_ind'; intros X Ln t Hm.
    - rewrite Hm. cbn [import]. rewrite plain_in by apply X. exists [inl s].
      split; [repeat constructor|]. split; [repeat constructor|]. split; [repeat constructor|]. split; [reflexivity|intros []].
    - rewrite Hm. cbn [import]. rewrite plain_in by apply X. cbn [leaf_texts one_leaf].
      replace v with (slm_text [LCode v]) at 2 by (unfold slm_text; cbn; now rewrite ?app_nil_r).
      apply wparts_one; [exact I|reflexivity| |intros _; eexists; split; [reflexivity|exact I]]. split; [|repeat constructor]. split; [repeat constructor|split; [repeat constructor|exact I]].
    - destruct Hm as (vi & ni & -> & A & K). cbn [import]. rewrite plain_in by exact X. eapply W1; [exact I|reflexivity].
    - destruct Hm as (ni & oi & -> & K & A). cbn [import]. rewrite plain_in by exact X. eapply W1; [exact I|reflexivity].
    - destruct Hm as (t2 & -> & Hm). destruct X as (X1 & X2 & X3 & X4 & X5 & X6). cbn [on_lines] in Ln.
      assert (Xc : line_edit_child md e) by (destruct e; auto; destruct X6).
      assert (NS : match import t2 with TStr _ => False | _ => True end) by (apply (made_tree c1 e t2 Hm); intros s ->; destruct X6).
      destruct (wparts_list _ _ _ NS (IH Xc X3 t2 Hm) X4) as (lm & E & W & T & O).
      destruct (prefix_list_map_spec p lm (proj1 (proj1 W))) as (lm' & E' & _).
      destruct (prefix_whole p lm lm' X2 W) as (W' & O' & T'); [destruct Ln as [Ln|Ln]; [left; auto|right; unfold ends; now rewrite T]|exact E'|].
      cbn [import leaf_texts one_leaf]. rewrite plain_in by exact X1.
      replace (prefixed p (concat (leaf_texts e))) with (slm_text lm') by (rewrite T'; f_equal; exact T). apply wparts_one; [exact I| |exact W'|auto].
      unfold t_list_map in *. cbn [fold_tree]. rewrite E. exact E'.
    - destruct Hm as (t2 & -> & Hm). destruct X as (X1 & X2 & X3 & X4 & X5). cbn [on_lines] in Ln. destruct Ln as (L1 & L2 & L3 & L4 & L5).
      assert (Xc : line_edit_child md e) by (destruct e; auto; destruct X1).
      assert (NS : match import t2 with TStr _ => False | _ => True end) by (apply (made_tree c1 e t2 Hm); intros s ->; destruct X1).
      destruct (wparts_list _ _ _ NS (IH Xc L1 t2 Hm) L2) as (lm & E & W & T & O).
      destruct (import_edits h X2) as (Y1 & Y2 & Y3). destruct (plain_edits h X3) as [Z1 Z2]. rewrite Z1 in Y1.
      assert (Y4 : Forall forward (edits_of (map import_call h))) by (now rewrite Y1).
      assert (Y5 : ForallOrdPairs apart (edits_of (map import_call h))) by (now rewrite Y1).
      destruct (replace_full _ lm Y2 Y3 Y4 Y5 (proj1 (proj1 W))) as (lm' & _ & _ & _ & _ & E' & _).
      destruct (edit_whole _ lm lm' Y2 Y3 Y4 Y5 W) as (W' & O' & T');
        [destruct L3 as [L3|L3]; [left; auto|right; unfold ends; now rewrite T]|now rewrite T, Y1|rewrite T, Y1; exact L5|exact E'|].
      cbn [import leaf_texts one_leaf]. rewrite js_run_run.
      replace (edited (jedits h) (concat (leaf_texts e))) with (slm_text lm') by (rewrite T', Y1; f_equal; exact T). apply wparts_one; [exact I| |exact W'|auto].
      unfold t_list_map in *. cbn [fold_tree]. rewrite E. exact E'.
    - apply line_edit_concat in X. apply lined_concat in Ln. apply made_concat in Hm as (ts & -> & Hm). cbn [import parts leaf_texts one_leaf]. rewrite flat_parts.
      revert ts Hm. induction IH as [|x l Hx _ IHl]; intros ts Hm; inversion Hm as [|? t3 ? ts3 M1 M2]; subst.
      + exists []. split; [constructor|]. split; [constructor|]. split; [constructor|]. split; [reflexivity|intros []].
      + inversion X as [|? ? X1 X2]; subst. inversion Ln as [|? ? U1 U2]; subst. cbn [map flat_map]. eapply wparts_app; [apply Hx; auto|apply IHl; auto].
    - destruct X as (Xv & Xm). destruct Hm as (vi & ni & d & oo & ii & -> & A & K & Pm & _ & _).
      cbn [import leaf_texts one_leaf]. rewrite plain_in by exact Xv. set (x := match ii with Some _ => _ | None => _ end).
      assert (Hx : sms_value x = v /\ sms_value_idx x = vi /\ sms_name x = ni /\ sms_map x = mk_cell (Some d) None)
        by (unfold x; destruct ii, oo as [[? ?]|]; repeat split).
      destruct Hx as (X1 & X2 & X3 & X4). clearbody x. destruct md eqn:Emd.
      + destruct (Xm eq_refl) as [Xs Xf]. destruct (Ln eq_refl) as [Ln1 Ln2]. destruct Pm as (P1 & P2 & P3 & P4).
        destruct (read_good v m _ _ _ P1 P2 P4 Xs Xf) as (lm & R & O & _ & L & _).
        assert (Ed : exists segs, decode (sc_mappings d) = Some segs).
        { destruct Xs as (_ & _ & Pl & segs & Ed & _). rewrite plain_in in P4 by exact Pl. rewrite P4. eauto. }
        destruct Ed as (segs & Ed).
        assert (T : slm_text lm = v) by (destruct (reader_text (sc_sources d) (sc_contents d) v (sc_mappings d) (decode_numbers _ _ Ed)) as (lm0 & R0 & _ & T0); rewrite R in R0; injection R0 as <-; exact T0).
        rewrite <- T. apply wparts_one; [exact I| | |discriminate].
        * rewrite Emd. unfold t_list_map. cbn [fold_tree list_map_alg a_sms]. unfold sms_list_map. rewrite X4, X1. cbn [negb]. unfold cell_get_data. cbn [ce_data bind]. rewrite R. reflexivity.
        * split; [exact (read_whole _ _ _ _ _ (decode_numbers _ _ Ed) R Ln1 Ln2)|]. apply unsplit_tidy_node. exact (read_unsplit _ _ _ _ _ (decode_numbers _ _ Ed) R).
      + apply (W1 _ (TSms x) ni (Some vi)); [exact I|]. unfold t_list_map. cbn [fold_tree list_map_alg a_sms]. unfold sms_list_map. cbn [negb]. rewrite X1, X2, X3. reflexivity.
  Qed.
  Lemma ends_full x r : at_line_ends (x :: r) -> concat (x :: r) <> [] -> Forall (fun y : str => y <> []) (x :: r).
  Proof.
    revert x. induction r as [|y r IH]; intros x H C; [constructor; [|constructor]; cbn in C; now rewrite app_nil_r in C|].
    destruct H as (H1 & H2 & H3). constructor; [intros ->; discriminate|]. now apply IH.
  Qed.
  Lemma prefixed_nil p (x : str) : x <> [] -> prefixed p x <> [].
  Proof. intros Hx Z. unfold prefixed in Z. apply app_eq_nil in Z as [_ Z]. destruct x as [|c w]; [congruence|]. cbn in Z. destruct w, (N.eqb c NL); discriminate. Qed.
  (** A prefix in front of whole lines. *)
  Lemma prefix_uses p lm lm' : Forall named lm -> SlmWhole.good lm -> slm_text lm <> [] -> prefix_list_map p lm = Some lm' ->
    Forall named lm' /\ same_uses (lused lm') (lused lm).
  Proof.
    intros Nm (Ok & _ & HA) Tx E. unfold prefix_list_map, map_generated_code in E. rewrite normalize_all_spec in E. cbn [bind] in E.
    unb E as [st m0] E1. injection E as <-. unb E1 as [st' acc] E2. injection E1 as _ <-.
    assert (Ne : Forall (fun y : str => y <> []) (texts lm)).
    { destruct (texts lm) as [|x r] eqn:Et; [constructor|]. apply ends_full; [exact HA|]. rewrite <- Et. unfold texts. now rewrite pieces_text. }
    pose proof (normals_say lm Ok) as S. fold (texts lm) in *. unfold texts in Ne.
    assert (Y : Forall (fun n => match n with LCode _ => True | LSingle q => counted q | _ => False end) (flat_map normal_node lm) /\
      Forall (fun n => text_node n = [] <-> prefixed p (text_node n) = []) (flat_map normal_node lm)).
    { clear - S Ne. induction S as [|n [t x] l xs Hn _ IH]; [split; constructor|]. inversion Ne as [|? ? N1 N2]; subst. destruct (IH N2) as [I1 I2].
      destruct n as [?|s|q|q|?|?]; cbn [says] in Hn; try contradiction; (split; constructor; auto).
      - injection Hn as -> ->. cbn [text_node snd] in *. split; intro Z; [now elim N1|now elim (prefixed_nil p s N1)].
      - now destruct Hn as [Hn _].
      - destruct Hn as [_ Hn]. injection Hn as _ Hx. cbn [text_node snd] in *. rewrite Hx in *. split; intro Z; [now elim N1|now elim (prefixed_nil p _ N1)]. }
    destruct Y as [Y1 Y2].
    assert (Hf : forall st s, prefix_mapfun p st s = Some (tt, prefixed p s)) by (intros st0 s; unfold prefix_mapfun; rewrite make_prefixed_string_spec; reflexivity).
    destruct (loop_uses (prefixed p) (prefix_mapfun p) Hf _ Y1 (named_flat lm Nm) Y2 [] _ _ (Forall_nil _) (Forall_nil _) E2) as [A B].
    split; [now apply Forall_rev|]. cbn in B. now rewrite normal_used in B.
  Qed.
  Lemma mprefixed_ren p M : mprefixed p (ren M) = ren (mprefixed p M).
  Proof.
    unfold mprefixed. generalize true. induction M as [|[ch a] M IH]; intro b; [reflexivity|].
    change (ren ((ch, a) :: M)) with ((ch, rename (rho nu c1) a) :: ren M). cbn [mprefix]. rewrite IH, retarget_app. f_equal. destruct b; [now rewrite retarget_mark|reflexivity].
  Qed.
  Lemma prefix_good (w ol : Prop) t p M U xs : lgood w t M U -> wparts ol (parts t) xs -> (match t with TStr _ => False | _ => True end) -> at_line_ends xs -> concat xs <> [] -> ~ In NL p -> text_of M = concat xs ->
    lgood False (TPrefix p t) (mprefixed p M) U /\
    exists lm lm', t_list_map false md t = Some lm /\ prefix_list_map p lm = Some lm' /\ Forall node_ok lm' /\ mprefixed p M = ren (list_marks lm').
  Proof.
    intros G W Ht HA HC Hp Tx. destruct (lgood_list w t M U Ht G) as (lm & u & E & O & N & EM & S & F & _).
    destruct (wparts_list ol t xs Ht W HA) as (lm0 & E0 & [Gd Us] & _). rewrite E in E0. injection E0 as <-. pose proof Gd as Gd'. destruct Gd' as (_ & _ & G3).
    assert (Tl : slm_text lm <> []) by (rewrite EM, text_retarget, text_list_marks in Tx by exact O; now rewrite Tx).
    assert (A : line_attributed false md t (list_marks lm)) by (exists lm; auto).
    assert (Mn : list_marks lm <> []) by (intro Z; apply Tl; rewrite <- (text_list_marks lm O), Z; reflexivity).
    assert (Y : line_attributed false md (TPrefix p t) (mprefixed p (list_marks lm))).
    { apply prefix_lines; auto. intros lm2 E2. rewrite E in E2. injection E2 as <-. split; [exact G3|]. now apply tidy_pieces. }
    destruct Y as (lm' & E' & O' & M'). pose proof E' as E2. unfold t_list_map in E, E2. cbn [fold_tree] in E2. rewrite E in E2. cbn [bind list_map_alg a_prefix] in E2.
    destruct (prefix_uses p lm lm' N Gd Tl E2) as [N' S']. rewrite EM, mprefixed_ren, <- M'. split; [|exists lm, lm'; auto].
    eapply lgood_same; [exact I|exact E'|exact O'|exact N'| |exact F|intros []]. eapply same_trans; eauto.
  Qed.
  Lemma mprefixed_text p M : M <> [] -> text_of (mprefixed p M) = prefixed p (text_of M).
  Proof.
    unfold mprefixed, prefixed.
    assert (G : forall M b, M <> [] -> text_of (mprefix p b M) = (if b then p else []) ++ indent p (text_of M)).
    { clear. induction M as [|[c a] M IH]; intros b H; [congruence|]. cbn [mprefix]. rewrite text_app. f_equal; [destruct b; [apply text_mark|reflexivity]|].
      cbn [text_of map fst]. destruct M as [|y M]; [reflexivity|]. fold (text_of (mprefix p (N.eqb c NL) (y :: M))). rewrite IH by discriminate.
      cbn [text_of map indent]. destruct (N.eqb c NL); reflexivity. }
    intro H. now rewrite G.
  Qed.
  Lemma line_text e : line_child md e -> forall M, line_marks nu md e = Some M -> text_of M = concat (leaf_texts e).
  Proof.
    induction e as [s|v|v n|v n o|p e IH|e h IH|l IH|v n m o i] using jexpr_ind'; intros X M E; cbn [line_marks leaf_texts concat] in *; rewrite ?app_nil_r; try contradiction;
      try (injection E as <-; first [now rewrite text_mark|now rewrite lines_text]).
    - destruct X as (X1 & X2 & X3 & X4 & X5 & X6). assert (Xc : line_child md e) by (destruct e; auto; destruct X6). unb E as M1 E1. injection E as <-.
      rewrite <- (IH Xc M1 E1) in *. apply mprefixed_text. intros ->. now apply X5.
    - apply line_concat in X. revert M E. induction IH as [|x l Hx _ IHl]; intros M E; [injection E as <-; reflexivity|].
      inversion X as [|? ? U1 U2]; subst. unb E as M1 E1. unb E as M2 E2. injection E as <-. cbn [flat_map]. rewrite text_app, concat_app. f_equal; [now apply Hx|now apply IHl].
    - destruct md; [|injection E as <-; now rewrite lines_text]. unfold line_says in E. unb E as segs E1. injection E as <-.
      now rewrite attribute_text, cut_lines_pieces, pieces_concat.
  Qed.

  Theorem made_lines e : line_child md e -> forall t, made c1 e t -> exists M, line_marks nu md e = Some M /\ lgood (unwrapped e) (import t) M (line_uses nu md e).
  Proof.
    induction e as [s|v|v n|v n o|p e IH|e h IH|l IH|v n m o i] using jexpr_ind'; intros X t Hm.
    - rewrite Hm. eexists. split; [reflexivity|].
      cbn [import]. rewrite plain_in by apply X. exists [inl s], []. cbn [flat_map cm_marks cm_used app]. rewrite app_nil_r, retarget_mark. repeat split; repeat constructor.
    - rewrite Hm. eexists. split; [reflexivity|].
      cbn [import]. rewrite plain_in by apply X. replace (mark None v) with (ren (list_marks [LCode v])) by (unfold list_marks; cbn [flat_map node_marks]; rewrite app_nil_r; now rewrite retarget_mark).
      apply lgood_one; [exact I|reflexivity|repeat constructor|repeat constructor|constructor].
    - destruct Hm as (vi & ni & -> & A & K). eexists. split; [reflexivity|].
      cbn [import]. rewrite plain_in by exact X.
      destruct (one_good v _ _ _ _ _ K A eq_refl) as (Q1 & Q2 & Q3 & Q4). rewrite <- Q3. apply lgood_one; [exact I|reflexivity|exact Q1|exact Q2|exact Q4].
    - destruct Hm as (ni & oi & -> & K & A). eexists. split; [reflexivity|].
      cbn [import]. rewrite plain_in by exact X.
      destruct (one_good v _ _ _ _ _ K A eq_refl) as (Q1 & Q2 & Q3 & Q4). rewrite <- Q3. apply lgood_one; [exact I|reflexivity|exact Q1|exact Q2|exact Q4].
    - destruct X as (X1 & X2 & X3 & X4 & X5 & X6). destruct Hm as (t2 & -> & Hm).
      assert (Xc : line_child md e) by (destruct e; auto; destruct X6). destruct (IH Xc t2 Hm) as (M & EM & GM). cbn [line_marks]. rewrite EM. cbn [bind].
      exists (mprefixed p M). split; [reflexivity|]. cbn [import line_uses]. rewrite plain_in by exact X1.
      assert (NS : match import t2 with TStr _ => False | _ => True end) by (apply (made_tree c1 e t2 Hm); intros s ->; destruct X6).
      apply (prefix_good (unwrapped e) (one_leaf md e) (import t2) p M _ (leaf_texts e)); auto; [|now apply line_text]. apply made_whole; auto. now apply line_edits_too.
    - destruct X.
    - apply line_concat in X. apply made_concat in Hm as (ts & -> & Hm).
      assert (Y : exists M, line_marks nu md (XConcat l) = Some M /\ lgoods (unwrapped (XConcat l)) (flat_map parts (map import ts)) M (line_uses nu md (XConcat l))).
      { revert ts Hm. induction IH as [|x l Hx _ IHl]; intros ts Hm; inversion Hm as [|? t3 ? ts3 M1 M2]; subst.
        - exists []. split; [reflexivity|]. exists [], []. repeat split; constructor.
        - inversion X as [|? ? X1 X2]; subst.
          destruct (Hx X1 t3 M1) as (M & EM & GM). destruct (IHl X2 ts3 M2) as (Ms & EMs & GMs). exists (M ++ Ms).
          cbn [line_marks] in EMs |- *. rewrite EM. cbn [bind]. rewrite EMs. cbn [bind]. split; [reflexivity|]. cbn [map flat_map line_uses].
          eapply lgoods_app; [|exact GM|exact GMs]. exact (fun H => H). }
      destruct Y as (M & EM & GM). exists M. split; [exact EM|]. cbn [import]. unfold lgood. cbn [parts]. rewrite flat_parts. exact GM.
    - destruct X as (Xv & Xm). destruct Hm as (vi & ni & d & oo & ii & -> & A & K & Pm & _ & _).
      cbn [import line_marks line_uses]. rewrite plain_in by exact Xv. set (x := match ii with Some _ => _ | None => _ end).
      assert (Hx : sms_value x = v /\ sms_value_idx x = vi /\ sms_name x = ni /\ sms_map x = mk_cell (Some d) None)
        by (unfold x; destruct ii, oo as [[? ?]|]; repeat split).
      destruct Hx as (X1 & X2 & X3 & X4). clearbody x. destruct md eqn:Emd.
      + destruct (Xm eq_refl) as [Xs Xf]. destruct (sms_good x v m d Xv X1 X4 Pm Xs Xf Emd) as (M & EM & G).
        rewrite EM. exists M. split; [reflexivity|]. apply G.
      + eexists. split; [reflexivity|]. destruct (one_good v _ _ _ _ _ K A eq_refl) as (Q1 & Q2 & Q3 & Q4). rewrite <- Q3.
        apply lgood_one; [exact I| |exact Q1|exact Q2|rewrite Q3; exact Q4].
        rewrite Emd. unfold t_list_map. cbn [fold_tree list_map_alg a_sms]. unfold sms_list_map. cbn [negb]. rewrite X1, X2, X3. reflexivity.
  Qed.
End Lines.

Lemma mprefix_plain p : plain p -> forall M b, plain (text_of M) -> plain (text_of (mprefix p b M)).
Proof.
  intro Hp. induction M as [|[c a] M IH]; intros b H; [exact H|]. cbn [mprefix text_of map fst] in *. inversion H as [|? ? H1 H2]; subst.
  rewrite map_app. apply Forall_app. split; [destruct b; [|constructor]; fold (text_of (mark a p)); now rewrite text_mark|]. cbn [map fst]. constructor; [exact H1|]. now apply IH.
Qed.
Lemma line_plain nu md e : line_child md e -> forall M, line_marks nu md e = Some M -> plain (text_of M).
Proof.
  induction e as [s|v|v n|v n o|p e IH|e h IH|l IH|v n m o i] using jexpr_ind'; intros X M E; cbn [line_marks] in E; try discriminate.
  - injection E as <-. now rewrite text_mark.
  - injection E as <-. now rewrite text_mark.
  - injection E as <-. now rewrite lines_text.
  - injection E as <-. now rewrite lines_text.
  - destruct X as (X1 & _ & _ & _ & _ & X6). unb E as M1 E1. injection E as <-. apply mprefix_plain; [exact X1|]. apply IH; [|exact E1]. destruct e; auto; destruct X6.
  - apply line_concat in X. revert M E. induction IH as [|x l Hx _ IHl]; intros M E; [injection E as <-; constructor|].
    inversion X as [|? ? X1 X2]; subst. unb E as M1 E1. unb E as M2 E2. injection E as <-. rewrite text_app. apply Forall_app. split; [now apply Hx|]. now apply IHl.
  - destruct X as [X _]. destruct md; [|injection E as <-; now rewrite lines_text]. unfold line_says in E. unb E as segs E1. injection E as <-.
    rewrite attribute_text, cut_lines_pieces, pieces_concat. exact X.
Qed.

Lemma annotate_by_rename f adv l s : forall p, annotate_by adv (rename_entries f l) p s = retarget (rename f) (annotate_by adv l p s).
Proof.
  induction s as [|c s IH]; intro p; [reflexivity|]. cbn [annotate_by retarget map fst snd]. unfold rename_entries at 1. rewrite lookup_map by reflexivity. f_equal. apply IH.
Qed.
Lemma carried_rename f M : forall a, carried (rename f a) (retarget (rename f) M) = retarget (rename f) (carried a M).
Proof.
  induction M as [|[c t] M IH]; intro a; [reflexivity|]. change (retarget (rename f) ((c, t) :: M)) with ((c, rename f t) :: retarget (rename f) M). cbn [carried].
  set (u := match t with Some _ => t | None => a end).
  assert (E : match rename f t with Some _ => rename f t | None => rename f a end = rename f u) by (unfold u; destruct t as [[[? ?] ?]|]; reflexivity).
  rewrite E. change (retarget (rename f) ((c, u) :: carried (if N.eqb c NL then None else u) M)) with ((c, rename f u) :: retarget (rename f) (carried (if N.eqb c NL then None else u) M)).
  f_equal. rewrite <- IH. destruct (N.eqb c NL); reflexivity.
Qed.

(** ** Sources and contents in the order of first use *)
Lemma filter_map {A B} (f : A -> B) g l : filter g (map f l) = map f (filter (fun x => g (f x)) l).
Proof. induction l as [|x l IH]; [reflexivity|]. cbn. destruct (g (f x)); cbn; now rewrite IH. Qed.
Lemma firsts_map f l : (forall x y, In x l -> In y l -> f x = f y -> x = y) -> firsts (map f l) = map f (firsts l).
Proof.
  induction l as [|x l IH]; intro H; [reflexivity|]. cbn [map firsts]. f_equal. rewrite IH by (intros a b Ha Hb; apply H; now right). rewrite filter_map. f_equal.
  apply filter_ext_in. intros y Hy. apply (firsts_in l) in Hy. f_equal. destruct (Z.eqb_spec y x) as [->|N]; [apply Z.eqb_refl|]. apply Z.eqb_neq. intro E. apply N.
  apply H; [now right|now left|exact E].
Qed.
Lemma uses_first nu c1 i s u U : numbering nu -> cache_ok c1 -> known c1 i s -> Forall2 (use_at nu c1) u U ->
  match SpecSlm.content_of u i, first_use U (nu s) with Some j, Some k => at_ c1 j k | None, None => True | _, _ => False end.
Proof.
  intros Hnu Hc K. unfold SpecSlm.content_of, first_use. induction 1 as [|[i' j] [z k] u U (s' & H1 & H2 & H3) _ IH]; [exact I|]. cbn [find fst snd] in *. subst z.
  destruct (Z.eqb_spec i' i) as [->|N]; destruct (Z.eqb_spec (nu s') (nu s)) as [E|N']; auto.
  - exfalso. apply N'. f_equal. eapply at_string; eapply known_at; eauto.
  - exfalso. apply N. apply Hnu in E. subst s'. eapply known_index; eauto.
Qed.

(** ** From a list to what is read off its result *)
Theorem list_end nu c1 lm M u U : numbering nu -> reached_cache c1 -> Forall node_ok lm -> Forall named lm ->
  M = retarget (rename (rho nu c1)) (list_marks lm) -> same_uses (lused lm) u -> Forall2 (use_at nu c1) u U -> plain (text_of M) ->
  exists Ls ms es, map nu Ls = firsts (map fst U) /\
    reads_as nu Ls [] ms = Some es /\ annotate_bytes es (text_of M) = carried None M /\ NoDup (map fst es) /\
    forall l, Forall quiet l -> let o := robj_new (list_result lm) false in
      (~ starts_with BOM (text_of M) -> snd (rstep (fst (rrun (c1, o) l)) RSource) = AText (text_of M)) /\
      snd (rstep (fst (rrun (c1, o) l)) (RGet FSources)) = AVal (VArr (map Some Ls)) /\
      snd (rstep (fst (rrun (c1, o) l)) (RGet FMappings)) = AVal (VStr ms) /\
      snd (rstep (fst (rrun (c1, o) l)) (RGet FNames)) = AVal VUndef /\
      exists v, snd (rstep (fst (rrun (c1, o) l)) (RGet FContents)) = AVal v /\
        lists v (map Some (flat_map (fun s => match first_use U (nu s) with Some k => [k] | None => [] end) Ls)).
Proof.
  intros Hnu Hr1 Ok Nm EMr [S1 S2] Us Pl. pose proof (reached_ok _ Hr1) as Hc1.
  destruct (list_map_exact lm None Ok) as (code & mp & es & Es & _ & Ec & Er & Ea & En).
  destruct (list_tables lm None Nm) as (code' & mp' & Es' & Ts & Tc). rewrite Es in Es'. injection Es' as <- <-.
  destruct (lused_uses lm) as [U1 U2]. rewrite <- U1, S1 in Ts.
  assert (Tc' : map_contents mp = flat_map (fun s => opt_list (SpecSlm.content_of u s)) (map_sources mp)).
  { rewrite Tc, Ts, <- S1, U1. apply flat_map_ext. intro s. now rewrite <- S2, U2. }
  assert (Kn : forall i, In i (map fst u) -> exists s, known c1 i s).
  { clear - Us. induction Us as [|x y u' U' (s & _ & K & _) _ IH]; intros i Hi; [destruct Hi|]. destruct Hi as [<-|Hi]; eauto. }
  assert (KL : exists Ls, Forall2 (known c1) (map_sources mp) Ls).
  { rewrite Ts. assert (Kf : forall i, In i (firsts (map fst u)) -> exists s, known c1 i s) by (intros i Hi; apply Kn; now apply firsts_in).
    clear - Kf. induction (firsts (map fst u)) as [|i l IH]; [exists []; constructor|]. destruct (Kf i (or_introl eq_refl)) as (s & K).
    destruct IH as (Ls & H); [intros; apply Kf; now right|]. exists (s :: Ls). now constructor. }
  destruct KL as (Ls & KL).
  set (r := list_result lm).
  assert (Ejr : jr_get_map r = Some (r, mp)) by (unfold r, list_result; rewrite Es; reflexivity).
  assert (Pr : produced r false) by constructor.
  destruct (produced_map r false _ _ Pr Ejr) as [As Nms]. specialize (Nms eq_refl).
  assert (Tx : text_of M = code) by (rewrite EMr, text_retarget; now rewrite Ec).
  exists Ls, (map_mappings mp), (rename_entries (rho nu c1) es).
  split.
  { rewrite <- (rho_map nu c1 Hc1 _ _ KL), Ts, <- firsts_map.
    - f_equal. clear - Us Hc1. induction Us as [|x y u' U' (s & E & K & _) _ IH]; [reflexivity|]. cbn [map]. rewrite IH, E. f_equal. now apply (rho_known nu c1 Hc1).
    - intros x y Hx Hy E. destruct (Kn x Hx) as (s & K), (Kn y Hy) as (s' & K'). eapply rho_inj; eauto. }
  split.
  { unfold reads_as. rewrite <- (rho_map nu c1 Hc1 _ _ KL). change (map nu []) with (map (rho nu c1) []). rewrite read_map_rename, Er. reflexivity. }
  split; [rewrite Tx|].
  { unfold annotate_bytes in *. rewrite annotate_by_rename, Ea, EMr. symmetry. exact (carried_rename (rho nu c1) (list_marks lm) None). }
  split; [unfold rename_entries; rewrite map_map; exact En|].
  intros l Hl. cbn zeta. fold r.
  assert (Ka : forall i s, at_ c1 i s -> (i < Z.of_nat (length (ca_array c1)))%Z).
  { intros i s (k & -> & E). assert (k < length (ca_array c1)) by (apply nth_error_Some; congruence). lia. }
  assert (Cs : Forall2 (at_ c1) (map_contents mp) (flat_map (fun s => match first_use (U) (nu s) with Some k => [k] | None => [] end) Ls)).
  { rewrite Tc'. clear - KL Us Hc1 Hnu. induction KL as [|i s is Ls K _ IH]; [constructor|]. cbn [flat_map]. pose proof (uses_first nu c1 i s _ _ Hnu Hc1 K Us) as F.
    destruct (SpecSlm.content_of u i), (first_use (U) (nu s)); try contradiction; cbn [opt_list app]; [now constructor|exact IH]. }
  assert (Res : resolvable c1 mp).
  { unfold resolvable. rewrite !Forall_app, Nms. split; [|split; [|constructor]].
    - clear - KL Ka Hc1. induction KL as [|i s is Ls K _ IH]; constructor; [exact (Ka _ _ (known_at _ _ _ Hc1 K))|exact IH].
    - clear - Cs Ka. induction Cs as [|i s is Ks K _ IH]; constructor; [exact (Ka _ _ K)|exact IH]. }
  assert (Hq : forall f, Forall (fun op => ~ clears op /\ ~ wraps op /\ ~ assigns f op) l).
  { intro f. eapply Forall_impl; [|exact Hl]. intros op Ho. destruct op; cbn in *; try (destruct Ho); repeat split; auto. }
  split; [|split; [|split; [|split]]].
  - intro NB. rewrite source_kept by exact Hl. f_equal.
    assert (Hs : jr_s r = text_of M) by (unfold r, list_result; rewrite Es; cbn; congruence). rewrite Hs. apply plain_out; [exact Pl|exact NB].
  - destruct (shows_map c1 r _ mp false FSources l Hr1 Ejr Res (Hq _)) as (v & Ev & Sh). rewrite Ev. inversion Sh as [l' St| | | | |]; subst. f_equal. f_equal. eapply stands_known; eauto.
  - destruct (shows_map c1 r _ mp false FMappings l Hr1 Ejr Res (Hq _)) as (v & Ev & Sh). rewrite Ev. inversion Sh; subst. f_equal. f_equal.
    apply ascii_plain in As as [A1 A2]. now apply plain_out.
  - destruct (shows_map c1 r _ mp false FNames l Hr1 Ejr Res (Hq _)) as (v & Ev & Sh). rewrite Ev.
    inversion Sh as [| | | |l' Ht St|Ht]; subst; [discriminate|]. reflexivity.
  - destruct (shows_map c1 r _ mp false FContents l Hr1 Ejr Res (Hq _)) as (v & Ev & Sh). exists v. split; [exact Ev|].
    assert (St : exists l', lists v l' /\ stands_for c1 (map_contents mp) l').
    { inversion Sh as [|s l' St|St| | |]; subst; [eexists; split; [constructor|exact St]|]. rewrite St. exists []. split; [constructor|constructor]. }
    destruct St as (l' & Li & St). now rewrite (stands_ats _ _ _ _ Cs St) in Li.
Qed.
(** ** The whole way *)
Theorem made_line_end nu e md c1 t : numbering nu -> reached_cache c1 -> line_expr md e -> (forall v, e <> XRaw v) -> made c1 e t ->
  exists o M Ls ms es, js_source_and_map false md t = Some (ResMap o) /\ line_marks nu md e = Some M /\
    map nu Ls = firsts (map fst (line_uses nu md e)) /\
    reads_as nu Ls [] ms = Some es /\ annotate_bytes es (text_of M) = carried None M /\ NoDup (map fst es) /\
    forall l, Forall quiet l ->
      (~ starts_with BOM (text_of M) -> snd (rstep (fst (rrun (c1, o) l)) RSource) = AText (text_of M)) /\
      snd (rstep (fst (rrun (c1, o) l)) (RGet FSources)) = AVal (VArr (map Some Ls)) /\
      snd (rstep (fst (rrun (c1, o) l)) (RGet FMappings)) = AVal (VStr ms) /\
      snd (rstep (fst (rrun (c1, o) l)) (RGet FNames)) = AVal VUndef /\
      exists v, snd (rstep (fst (rrun (c1, o) l)) (RGet FContents)) = AVal v /\
        lists v (map Some (flat_map (fun s => match first_use (line_uses nu md e) (nu s) with Some k => [k] | None => [] end) Ls)).
Proof.
  intros Hnu Hr1 X NR Hm. pose proof (reached_ok _ Hr1) as Hc1.
  assert (Xc : line_child md e) by (destruct e; auto; destruct X).
  assert (N0 : forall s, e <> XStr s) by (intros s ->; destruct X).
  destruct (made_lines nu Hnu c1 Hc1 md e Xc t Hm) as (M & EM & G).
  pose proof (made_tree c1 e t Hm N0) as NS. pose proof (made_mapped c1 e t Hm N0 NR) as NJ.
  destruct (lgood_list nu c1 md _ _ _ _ NS G) as (lm & u & Elm & Ok & Nm & EMr & Su & Us & _).
  destruct (list_end nu c1 lm M _ _ Hnu Hr1 Ok Nm EMr Su Us (line_plain _ _ _ Xc _ EM)) as (Ls & ms & es & A1 & A2 & A3 & A3' & A4).
  exists (robj_new (list_result lm) false), M, Ls, ms, es.
  split; [unfold js_source_and_map; destruct t; try (destruct NJ); rewrite Elm; reflexivity|].
  split; [exact EM|]. auto.
Qed.
Theorem end_lines nu c0 e md c1 t : numbering nu -> reached_cache c0 -> line_expr md e -> (forall v, e <> XRaw v) -> build c0 e = (c1, t) ->
  exists o M Ls ms es, js_source_and_map false md t = Some (ResMap o) /\ line_marks nu md e = Some M /\
    map nu Ls = firsts (map fst (line_uses nu md e)) /\
    reads_as nu Ls [] ms = Some es /\ annotate_bytes es (text_of M) = carried None M /\ NoDup (map fst es) /\
    forall l, Forall quiet l ->
      (~ starts_with BOM (text_of M) -> snd (rstep (fst (rrun (c1, o) l)) RSource) = AText (text_of M)) /\
      snd (rstep (fst (rrun (c1, o) l)) (RGet FSources)) = AVal (VArr (map Some Ls)) /\
      snd (rstep (fst (rrun (c1, o) l)) (RGet FMappings)) = AVal (VStr ms) /\
      snd (rstep (fst (rrun (c1, o) l)) (RGet FNames)) = AVal VUndef /\
      exists v, snd (rstep (fst (rrun (c1, o) l)) (RGet FContents)) = AVal v /\
        lists v (map Some (flat_map (fun s => match first_use (line_uses nu md e) (nu s) with Some k => [k] | None => [] end) Ls)).
Proof.
  intros Hnu Hr0 X NR Eb. apply made_line_end; auto; [eapply reached_build; eauto|]. now apply (build_made e c0 c1 t (reached_ok _ Hr0) Eb).
Qed.
