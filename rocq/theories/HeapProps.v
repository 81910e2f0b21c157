(** Repeatability of reads, snapshots, and the link between object graphs and trees. *)
From Verif Require Import Base Tactics ModelString ModelVlq ModelSm ModelSlm ModelSources ModelTree ModelHeap
  TextFacts TreeText MapFacts SpecHeap HeapFacts HeapGraph.
Require Import Relations.

(** ** SourceMapSources between reads *)
Definition kept (x y : sms) : Prop := steady x /\ asked x y.

Lemma asked_trans x y z : asked x y -> asked y z -> asked x z.
Proof. induction 1 as [x|x y n z' E _ IH|x m y l z' E _ IH]; intro H; [exact H| |]; [eapply as_node|eapply as_lines]; eauto. Qed.
Lemma sms_node_value x y n : sms_node x = Some (y, n) -> sms_value y = sms_value x.
Proof. unfold sms_node. intro H. unbind H. destruct v as [c g]. unbind H. destruct v as [[g' inner] ap]. unbind H. injection H as <- _. reflexivity. Qed.
Lemma sms_lines_value x m y l : sms_list_map x m = Some (y, l) -> sms_value y = sms_value x.
Proof.
  unfold sms_list_map. intro H. destruct (negb m); unbind H; [injection H as <- _; reflexivity|].
  destruct v as [c d]. unbind H. injection H as <- _. reflexivity.
Qed.
Lemma asked_value x y : asked x y -> sms_value y = sms_value x.
Proof.
  induction 1 as [x|x y n z E _ IH|x m y l z E _ IH]; [reflexivity| |]; rewrite IH.
  - eapply sms_node_value; eauto.
  - eapply sms_lines_value; eauto.
Qed.
Lemma kept_value x y : kept x y -> sms_value y = sms_value x.
Proof. intros [_ H]. now apply asked_value. Qed.
Lemma kept_source : respects kept source_alg.
Proof. intros x y K. cbn. exists y. rewrite (kept_value _ _ K). auto. Qed.
Lemma kept_node c m : respects kept (node_alg c m).
Proof.
  intros x y [S A]. cbn [a_sms node_alg]. destruct (S y A) as [H _].
  destruct (sms_node x) as [[x' v]|] eqn:Ex, (sms_node y) as [[y' v']|] eqn:Ey; cbn in H; try discriminate; [|reflexivity].
  injection H as ->. exists y'. split; [reflexivity|]. split; [exact S|]. eapply asked_trans; [exact A|]. eapply as_node; [exact Ey|apply as_none].
Qed.
Lemma kept_lines c m : respects kept (list_map_alg c m).
Proof.
  intros x y [S A]. cbn [a_sms list_map_alg]. destruct (S y A) as [_ H]. specialize (H m).
  destruct (sms_list_map x m) as [[x' v]|] eqn:Ex, (sms_list_map y m) as [[y' v']|] eqn:Ey; cbn in H; try discriminate; [|reflexivity].
  injection H as ->. exists y'. split; [reflexivity|]. split; [exact S|]. eapply asked_trans; [exact A|]. eapply as_lines; [exact Ey|apply as_none].
Qed.

(** ** Answers in a later heap *)
Lemma kept_refl h (D : nat -> Prop) : (forall i x, D i -> nth_error h i = Some (OSms x) -> steady x) -> later kept D h h.
Proof.
  intros S i Di. destruct (nth_error h i) as [o|] eqn:E; [|exact I]. destruct o; cbn; auto. split; [eauto|apply as_none].
Qed.
(** [pure_reply]: the answer as a function of the heap. *)
Definition pure_reply (h : heap) (i : nat) (q : question) : res answer :=
  let f := S (length h) in
  match q with
  | AskSource => do* v := p_eval source_alg f [] h (SRef i) in Val (GotText v)
  | AskSize => do* v := p_size f [] h (SRef i) in Val (GotSize v)
  | AskNode c m => do* v := p_eval (node_alg c m) f [] h (SRef i) in Val (GotNode v)
  | AskLines c m => do* v := p_eval (list_map_alg c m) f [] h (SRef i) in Val (GotLines v)
  end.
Lemma agrees_reply {A} R D h0 (p : res A) (r : res (heap * A)) (f : A -> answer) :
  agrees R D h0 p r -> p <> NoFuel -> r <> NoFuel ->
  (do* (_, v) := rmap f r in Val v) = (do* v := p in Val (f v)).
Proof.
  intros [H|[H|[[-> ->]|(v & h' & -> & -> & _)]]] P1 P2; try congruence; reflexivity.
Qed.
Lemma later_reply D h0 h i q : closed_under D h0 -> D i -> later kept D h0 h -> reply h i q = pure_reply h0 i q.
Proof.
  intros C Di L. pose proof (fresh_nil (length h)) as F. pose proof (fresh_nil (length h0)) as F0.
  destruct q as [| |c m|c m]; unfold reply; cbn [put pure_reply]; unfold h_read, h_size.
  - eapply agrees_reply; [apply (eval_agrees kept source_alg D h0 kept_source C); auto| |];
      [apply p_eval_fuel|apply h_eval_fuel]; auto; cbn [length]; lia.
  - eapply agrees_reply; [apply (size_agrees kept D h0 kept_source kept_value C); auto| |];
      [apply p_size_fuel|apply h_size_fuel]; auto; cbn [length]; lia.
  - eapply agrees_reply; [apply (eval_agrees kept (node_alg c m) D h0 (kept_node c m) C); auto| |];
      [apply p_eval_fuel|apply h_eval_fuel]; auto; cbn [length]; lia.
  - eapply agrees_reply; [apply (eval_agrees kept (list_map_alg c m) D h0 (kept_lines c m) C); auto| |];
      [apply p_eval_fuel|apply h_eval_fuel]; auto; cbn [length]; lia.
Qed.
Lemma put_later D h0 h i q h' v : later kept D h0 h -> put h i q = Val (h', v) -> later kept D h0 h'.
Proof.
  intros L E. destruct q as [| |c m|c m]; cbn [put] in E; unfold rmap, h_read, h_size in E;
    match type of E with rbind ?r _ = _ => destruct r as [[h1 w]| |] eqn:E1; try discriminate end; cbn [rbind] in E; injection E as <- _.
  - eapply (h_eval_later kept source_alg); eauto. apply respects_keeps, kept_source.
  - eapply h_size_later; eauto. apply respects_keeps, kept_source.
  - eapply (h_eval_later kept (node_alg c m)); eauto. apply respects_keeps, kept_node.
  - eapply (h_eval_later kept (list_map_alg c m)); eauto. apply respects_keeps, kept_lines.
Qed.
Lemma put_length h i q h' v : put h i q = Val (h', v) -> length h' = length h.
Proof.
  intros E. destruct q as [| |c m|c m]; cbn [put] in E; unfold rmap, h_read, h_size in E;
    match type of E with rbind ?r _ = _ => destruct r as [[h1 w]| |] eqn:E1; try discriminate end; cbn [rbind] in E; injection E as <- _.
  - eapply h_eval_length; eauto.
  - eapply h_size_length; eauto.
  - eapply h_eval_length; eauto.
  - eapply h_eval_length; eauto.
Qed.

(** ** C30: reads are repeatable *)
Theorem reads_repeatable h h' i q : steady_heap h -> reads h h' -> reply h' i q = reply h i q.
Proof.
  intros S Rd. set (D := fun _ : nat => True). assert (L0 : later kept D h h) by (apply kept_refl; intros; eapply S; eauto).
  assert (C : closed_under D h) by (intros ? ? _ _; exact I).
  assert (L : later kept D h h').
  { clear S C. revert L0. generalize h at 1 3 as h0. induction Rd as [h|h j q' h1 v h2 E _ IH]; intros h0 L0; [exact L0|].
    apply IH. eapply put_later; eauto. }
  rewrite (later_reply D h h' i q C I L), (later_reply D h h i q C I L0). reflexivity.
Qed.

(** ** Shared graphs answer like trees *)
Lemma pure_reply_tree h i t q : unfolds h (SRef i) t -> pure_reply h i q = lift (t_answer t q).
Proof.
  intro U. assert (B : forall j, sreaches h (SRef i) j -> ~ In j (@nil nat)) by (intros j _ []).
  pose proof (fresh_nil (length h)) as F. assert (Le : length h < S (length h) + length (@nil nat)) by (cbn [length]; lia).
  destruct q as [| |c m|c m]; cbn [pure_reply t_answer].
  - destruct (proj1 (eval_unfolds source_alg h) _ _ U (S (length h)) [] B) as [G|G].
    + exfalso. exact (p_eval_fuel source_alg h _ _ _ F Le G).
    + rewrite G. unfold t_source. destruct (fold_tree source_alg t); reflexivity.
  - destruct (proj1 (size_unfolds h) _ _ U (S (length h)) [] B) as [G|G].
    + exfalso. exact (p_size_fuel h _ _ _ F Le G).
    + rewrite G. destruct (t_size t); reflexivity.
  - destruct (proj1 (eval_unfolds (node_alg c m) h) _ _ U (S (length h)) [] B) as [G|G].
    + exfalso. exact (p_eval_fuel (node_alg c m) h _ _ _ F Le G).
    + rewrite G. unfold t_node. destruct (fold_tree (node_alg c m) t); reflexivity.
  - destruct (proj1 (eval_unfolds (list_map_alg c m) h) _ _ U (S (length h)) [] B) as [G|G].
    + exfalso. exact (p_eval_fuel (list_map_alg c m) h _ _ _ F Le G).
    + rewrite G. unfold t_list_map. destruct (fold_tree (list_map_alg c m) t); reflexivity.
Qed.
Theorem graph_tree h i t q : steady_heap h -> unfolds h (SRef i) t -> reply h i q = lift (t_answer t q).
Proof.
  intros S U. rewrite <- (pure_reply_tree h i t q U). apply (later_reply (fun _ => True)); [intros ? ? _ _; exact I|exact I|].
  apply kept_refl. intros; eapply S; eauto.
Qed.

(** ** C32: source on any heap *)
Lemma eq_source : respects eq source_alg.
Proof. intros x y <-. cbn. eauto. Qed.
Lemma eq_later h D : later eq D h h.
Proof. intros i _. destruct (nth_error h i) as [o|]; [|exact I]. destruct o; cbn; auto. Qed.
Theorem source_tree h i t q : (q = AskSource \/ q = AskSize) -> unfolds h (SRef i) t -> reply h i q = lift (t_answer t q).
Proof.
  intros Q U. rewrite <- (pure_reply_tree h i t q U).
  pose proof (fresh_nil (length h)) as F. assert (Le : length h < S (length h) + length (@nil nat)) by (cbn [length]; lia).
  assert (C : closed_under (fun _ => True) h) by (intros ? ? _ _; exact I). assert (L : later eq (fun _ => True) h h) by apply eq_later.
  destruct Q as [-> | ->]; unfold reply; cbn [put pure_reply]; unfold h_read, h_size.
  - eapply agrees_reply; [apply (eval_agrees eq source_alg _ h eq_source C); [exact L|exact I]| |]; [apply p_eval_fuel|apply h_eval_fuel]; auto.
  - eapply agrees_reply; [apply (size_agrees eq _ h eq_source); [intros x y ->; reflexivity|exact C|exact L|exact I]| |]; [apply p_size_fuel|apply h_size_fuel]; auto.
Qed.
Lemma panic_cycle h : closed h -> forall f busy i, i < length h -> (forall b, In b busy -> clos_trans nat (edge h) b i) ->
  p_eval source_alg f busy h (SRef i) = Panic -> cyclic h i.
Proof.
  intro C. induction f as [|f IH]; intros busy i Hi B E; [discriminate|]. cbn [p_eval] in E.
  destruct (is_busy busy i) eqn:Eb.
  { apply is_busy_In in Eb. exists i. split; [apply rt_refl|]. apply B. exact Eb. }
  destruct (nth_error h i) as [o|] eqn:Ei; [|apply nth_error_None in Ei; lia]. cbn [lift rbind] in E.
  assert (K : forall s, In s (items o) -> p_eval source_alg f (i :: busy) h s = Panic -> cyclic h i).
  { intros [s|j] Hin G; [destruct f; discriminate|]. assert (Ed : edge h i j) by (exists o; auto).
    destruct (IH (i :: busy) j) as (k & Hr & Hc); [eapply C; eauto| |exact G|].
    - intros b [<-|Hb]; [now apply t_step|]. eapply t_trans; [apply B; exact Hb|now apply t_step].
    - exists k. split; [|exact Hc]. eapply rt_trans; [apply rt_step; exact Ed|exact Hr]. }
  destruct o as [w|w wi n|w n og|p s|s st|l|x]; cbn [items source_alg a_raw a_original a_l2l a_prefix a_replace a_concat a_sms lift rbind] in *; try discriminate.
  - destruct (p_eval source_alg f (i :: busy) h s) as [x| |] eqn:E1; cbn [rbind] in E; [|eapply K; [now left|exact E1]|discriminate].
    rewrite prefix_source_spec in E. discriminate.
  - destruct (p_eval source_alg f (i :: busy) h s) as [x| |] eqn:E1; cbn [rbind] in E; [|eapply K; [now left|exact E1]|discriminate].
    rewrite replace_text_spec in E. discriminate.
  - destruct (p_items (p_eval source_alg f (i :: busy) h) l) as [xs| |] eqn:E1; try discriminate. clear E Ei.
    induction l as [|x l IHl]; [discriminate|]. cbn [p_items] in E1.
    destruct x as [s|j].
    + cbn [rbind] in E1. destruct (p_items (p_eval source_alg f (i :: busy) h) l) eqn:E2; try discriminate. apply IHl; [reflexivity|intros; eapply K; eauto; now right].
    + destruct (p_eval source_alg f (i :: busy) h (SRef j)) as [v| |] eqn:E3; try discriminate.
      * cbn [rbind] in E1. destruct (p_items (p_eval source_alg f (i :: busy) h) l) eqn:E2; try discriminate. apply IHl; [reflexivity|intros; eapply K; eauto; now right].
      * eapply K; [now left|exact E3].
Qed.
Theorem source_or_cycle h i : closed h -> i < length h ->
  (cyclic h i /\ forall q, reply h i q = Panic) \/
  (~ cyclic h i /\ exists t s, unfolds h (SRef i) t /\ t_source t = Some s /\
     reply h i AskSource = Val (GotText s) /\ reply h i AskSize = Val (GotSize (blen s))).
Proof.
  intros C Hi. destruct (reply h i AskSource) as [a| |] eqn:E.
  - right. destruct (answered_unfolds _ _ _ _ E) as [t U]. split; [eapply unfolds_acyclic; eauto|].
    destruct (source_total t) as [s Hs]. exists t, s. split; [exact U|]. split; [exact Hs|]. split.
    + rewrite (source_tree h i t AskSource (or_introl eq_refl) U) in E. cbn in E. rewrite Hs in E. cbn in E. congruence.
    + rewrite (source_tree h i t AskSize (or_intror eq_refl) U). cbn [t_answer]. rewrite (size_spec t s Hs). reflexivity.
  - left. assert (Cy : cyclic h i).
    { apply (panic_cycle h C (S (length h)) [] i Hi); [contradiction|].
      assert (E' : pure_reply h i AskSource = Panic).
      { rewrite <- E. symmetry. unfold reply. cbn [put pure_reply]. unfold h_read.
        eapply agrees_reply; [apply (eval_agrees eq source_alg (fun _ => True) h eq_source); [intros ? ? _ _; exact I|apply eq_later|exact I]| |];
          [apply p_eval_fuel|apply h_eval_fuel]; cbn [length]; first [lia | apply fresh_nil]. }
      cbn [pure_reply] in E'. destruct (p_eval source_alg (S (length h)) [] h (SRef i)); cbn in E'; congruence. }
    split; [exact Cy|]. intro q. now apply cyclic_panics.
  - exfalso. exact (reply_fuel _ _ _ E).
Qed.

(** ** C31: snapshots and sharing *)
Lemma later_outside D h0 h i o : later kept D h0 h -> ~ D i -> later kept D h0 (h_set h i o).
Proof.
  intros L Di j Dj. specialize (L j Dj). rewrite nth_h_set. destruct (Nat.eqb_spec i j) as [<-|]; [contradiction|exact L].
Qed.
Lemma h_add_cases h i x h1 : h_add h i x = Val h1 -> exists o, h1 = h_set h i o.
Proof.
  unfold h_add. destruct (nth_error h i) as [[]|]; try discriminate. destruct x as [s|j].
  - intro E. injection E as <-. eauto.
  - destruct (Nat.eqb i j); [discriminate|]. destruct (nth_error h j) as [[]|]; try discriminate; intro E; injection E as <-; eauto.
Qed.
Lemma history_later (D : nat -> Prop) (h0 h h' : heap) : (forall i, D i -> i < length h0) -> later kept D h0 h -> length h0 <= length h ->
  history D h h' -> later kept D h0 h' /\ length h0 <= length h'.
Proof.
  intros Dl L Le H. induction H as [h|h i q h1 v h2 E _ IH|h o h2 _ IH|h i x h1 h2 Di E _ IH|h i a b t c d h1 h2 Di E _ IH|h i a t c h1 h2 Di E _ IH].
  - auto.
  - apply IH; [eapply put_later; eauto|]. rewrite (put_length _ _ _ _ _ E). exact Le.
  - cbn [h_new fst] in IH. apply IH; [|rewrite app_length; lia]. intros i Di. specialize (L i Di). specialize (Dl i Di).
    rewrite nth_error_app1 by lia. exact L.
  - destruct (h_add_cases _ _ _ _ E) as [o ->]. apply IH; [now apply later_outside|now rewrite length_h_set].
  - unfold h_replace in E. destruct (nth_error h i) as [[]|]; try discriminate. injection E as <-.
    apply IH; [now apply later_outside|now rewrite length_h_set].
  - unfold h_insert in E. destruct (nth_error h i) as [[]|]; try discriminate. injection E as <-.
    apply IH; [now apply later_outside|now rewrite length_h_set].
Qed.
(** Changes of objects that are not reachable are not seen. *)
Theorem unreachable_unseen h h' i q : closed h -> steady_heap h -> i < length h ->
  history (reaches h i) h h' -> reply h' i q = reply h i q.
Proof.
  intros C S Hi H.
  assert (Cu : closed_under (reaches h i) h) by (intros j k Hj E; eapply rt_trans; [exact Hj|now apply rt_step]).
  assert (Dl : forall j, reaches h i j -> j < length h).
  { intros j Hj. apply clos_rt_rtn1 in Hj. destruct Hj as [|y z E _]; [exact Hi|]. eapply C; eauto. }
  assert (L0 : later kept (reaches h i) h h) by (apply kept_refl; intros; eapply S; eauto).
  destruct (history_later _ _ _ _ Dl L0 (le_n _) H) as [L _].
  rewrite (later_reply _ h h' i q Cu (rt_refl _ _ _) L), (later_reply _ h h i q Cu (rt_refl _ _ _) L0). reflexivity.
Qed.

(** The list of a ConcatSource is copied by add. *)
Theorem add_snapshot h outer inner l l' : nth_error h outer = Some (OConcat l) -> nth_error h inner = Some (OConcat l') -> outer <> inner ->
  exists h1, h_add h outer (SRef inner) = Val h1 /\ nth_error h1 outer = Some (OConcat (l ++ l')) /\ (forall j, j <> outer -> nth_error h1 j = nth_error h j) /\ length h1 = length h.
Proof.
  intros E1 E2 N. unfold h_add. rewrite E1, E2. destruct (Nat.eqb_spec outer inner); [contradiction|].
  eexists. split; [reflexivity|]. split; [|split].
  - rewrite nth_h_set, Nat.eqb_refl. assert (outer < length h) by (apply nth_error_Some; congruence).
    destruct (Nat.ltb_spec outer (length h)); [reflexivity|lia].
  - intros j Hj. rewrite nth_h_set. destruct (Nat.eqb_spec outer j); [congruence|reflexivity].
  - apply length_h_set.
Qed.
(** Where the inner ConcatSource cannot be reached from the outer one. *)
Lemma inner_unreachable h outer inner l l' h1 : nth_error h outer = Some (OConcat l) -> nth_error h inner = Some (OConcat l') -> outer <> inner ->
  h_add h outer (SRef inner) = Val h1 ->
  (forall j, In (SRef j) l -> ~ reaches h j inner) -> ~ on_cycle h inner ->
  ~ reaches h1 outer inner.
Proof.
  intros E1 E2 N Ea Hl Hc Hr. destruct (add_snapshot h outer inner l l' E1 E2 N) as (h1' & Ea' & N1 & N2 & _).
  rewrite Ea in Ea'. injection Ea' as <-.
  (** the last visit of [outer] on the way *)
  assert (G : forall j, reaches h1 outer j -> j = outer \/ (exists k, In (SRef k) (l ++ l') /\ reaches h k j)).
  { intros j Hj. apply clos_rt_rtn1 in Hj. induction Hj as [|y z E _ IH]; [now left|].
    destruct (Nat.eq_dec y outer) as [->|Ny].
    - right. destruct E as (o & Eo & Hin). rewrite N1 in Eo. injection Eo as <-. exists z. split; [exact Hin|apply rt_refl].
    - destruct IH as [->|(k & Hk & Rk)]; [contradiction|]. right. exists k. split; [exact Hk|]. eapply rt_trans; [exact Rk|]. apply rt_step.
      destruct E as (o & Eo & Hin). rewrite N2 in Eo by exact Ny. exists o. auto. }
  destruct (G _ Hr) as [->|(k & Hk & Rk)]; [contradiction|]. apply in_app_iff in Hk. destruct Hk as [Hk|Hk].
  - exact (Hl k Hk Rk).
  - apply Hc. exact (sreaches_item h inner (OConcat l') (SRef k) inner E2 Hk Rk).
Qed.
Theorem add_self h i l : nth_error h i = Some (OConcat l) -> h_add h i (SRef i) = Panic.
Proof. intro E. unfold h_add. now rewrite E, Nat.eqb_refl. Qed.

(** The text of a ConcatSource is that of its items as they are now. *)
Definition item_text (h : heap) (s : src) : res answer :=
  match s with SStr t => Val (GotText t) | SRef j => reply h j AskSource end.
Theorem concat_now h i l s : nth_error h i = Some (OConcat l) -> reply h i AskSource = Val (GotText s) ->
  exists ss, map (item_text h) l = map (fun t => Val (GotText t)) ss /\ s = concat ss.
Proof.
  intros E A. destruct (answered_unfolds _ _ _ _ A) as [t U]. rewrite (source_tree h i t AskSource (or_introl eq_refl) U) in A.
  inversion U as [ |k v E' Ek Et|k v vi n E' Ek Et|k v n o' E' Ek Et|k p s' t0 E' U' Ek Et|k s' st t0 E' U' Ek Et|k l0 ts E' U' Ek Et|k x E' Ek Et];
    subst; rewrite E in E'; try discriminate. injection E' as <-.
  assert (G : exists ss, map (item_text h) l = map (fun t => Val (GotText t)) ss /\ map t_source ts = map Some ss).
  { clear -U'. induction U' as [|x t l ts U _ (ss & H1 & H2)]; [exists []; auto|].
    destruct (source_total t) as [s Hs]. exists (s :: ss). cbn [map]. rewrite H1, H2, Hs. split; [|reflexivity]. f_equal.
    destruct x as [x|j]; cbn [item_text].
    - inversion U; subst. injection Hs as ->. reflexivity.
    - rewrite (source_tree h j t AskSource (or_introl eq_refl) U). cbn [t_answer]. rewrite Hs. reflexivity. }
  destruct G as (ss & H1 & H2). exists ss. split; [exact H1|]. cbn [t_answer] in A. rewrite (concat_source ts ss H2) in A. cbn in A. congruence.
Qed.

(** ** Steady SourceMapSources *)
Lemma or_insert_id {A} (t : list (Z * A)) k v : In k (map fst t) -> al_or_insert t k v = t.
Proof.
  intro H. unfold al_or_insert. destruct (al_get t k) eqn:E; [reflexivity|]. exfalso.
  induction t as [|[k' v'] t IH]; [contradiction|]. cbn in *. destruct (Z.eqb_spec k k') as [->|N]; [discriminate|].
  destruct H as [H|H]; [congruence|auto].
Qed.
Lemma apply_contents g inner file g' inner' k : apply_source_map_generator g inner file = Some (g', inner') ->
  In k (map fst (g_contents g)) -> In k (map fst (g_contents g')).
Proof.
  unfold apply_source_map_generator. intros H Hk. unbind H. unbind H. destruct v0 as [in1 l]. injection H as <- _.
  match goal with |- In k (map fst (g_contents (fold_left ?f ?cs ?g0))) => set (G := g0); set (F := f) end.
  assert (H0 : In k (map fst (g_contents G))).
  { subst G. assert (Hn : forall ns g, g_contents (fold_left gen_add_name ns g) = g_contents g).
    { induction ns as [|n ns IH]; intro g0; [reflexivity|]. cbn. now rewrite IH. }
    assert (Hs : forall ns g, g_contents (fold_left gen_add_source ns g) = g_contents g).
    { induction ns as [|n ns IH]; intro g0; [reflexivity|]. cbn. now rewrite IH. }
    rewrite Hn. cbn [gen_set_names g_contents]. rewrite Hs. destruct l; exact Hk. }
  clearbody G. clear Hk. revert G H0. induction (g_contents in1) as [|[s c] cs IH]; intros G H0; [exact H0|].
  cbn [fold_left]. apply IH. cbn. apply al_or_insert_keys. auto.
Qed.
Lemma set_content_id g k v : In k (map fst (g_contents g)) -> gen_set_source_content g k (Some v) = g.
Proof. intro H. cbn. rewrite or_insert_id by exact H. now destruct g. Qed.
Lemma get_generator_again c c' g : cell_get_generator c = Some (c', g) ->
  ce_gen c' = Some g /\ ce_data c' = ce_data c /\ cell_get_generator c' = Some (c', g).
Proof.
  unfold cell_get_generator. destruct (ce_gen c) as [g0|] eqn:E.
  - intro H. injection H as <- <-. rewrite E. auto.
  - intro H. unbind H. unbind H. injection H as <- <-. cbn. auto.
Qed.

(** Asking for the node once more changes nothing. *)
Lemma sms_node_again x y n : sms_node x = Some (y, n) -> sms_node y = Some (y, n).
Proof.
  unfold sms_node. intro H. unbind H. destruct v as [c g]. unbind H. destruct v as [[g1 inner] ap]. unbind H. injection H as <- <-.
  destruct (get_generator_again _ _ _ E) as (Ec & Ed & _).
  cbn [sms_map sms_inner sms_original sms_name sms_applied sms_value sms_value_idx].
  unfold cell_get_generator at 1. cbn [ce_gen bind]. rename v into n0.
  destruct (sms_inner x) as [ic|].
  - unbind E0. destruct v as [ic' ig]. destruct (get_generator_again _ _ _ E2) as (Ei & Ed' & Eagain).
    destruct (sms_applied x) eqn:Ea; cbn [negb] in E0.
    + injection E0 as <- <- <-. rewrite Eagain. cbn [bind negb].
      destruct (sms_original x) as [o|]; cbn [bind]; [|now rewrite E1].
      rewrite set_content_id; [now rewrite E1|]. cbn. apply al_or_insert_keys. auto.
    + unbind E0. destruct v as [g2 ig2]. injection E0 as <- <- <-. unfold cell_get_generator. cbn [ce_gen bind ce_data negb].
      destruct (sms_original x) as [o|]; cbn [bind]; [|now rewrite E1].
      rewrite set_content_id; [cbn [bind]; now rewrite E1|]. eapply apply_contents; [exact E3|]. cbn. apply al_or_insert_keys. auto.
  - injection E0 as <- <- <-. cbn [bind]. rewrite E1. reflexivity.
Qed.
Lemma sms_node_keeps x y n : sms_node x = Some (y, n) ->
  sms_value y = sms_value x /\ sms_value_idx y = sms_value_idx x /\ sms_name y = sms_name x /\ ce_data (sms_map y) = ce_data (sms_map x).
Proof.
  unfold sms_node. intro H. unbind H. destruct v as [c g]. unbind H. destruct v as [[g1 inner] ap]. unbind H. injection H as <- <-.
  destruct (get_generator_again _ _ _ E) as (Ec & Ed & _). cbn. auto.
Qed.

Lemma sms_eta x : mk_sms (sms_value x) (sms_value_idx x) (sms_name x) (sms_map x) (sms_original x) (sms_inner x) (sms_applied x) = x.
Proof. now destruct x. Qed.
Lemma data_lines x d m : ce_data (sms_map x) = Some d ->
  sms_list_map x m = (let* l := if negb m then slm_new (Some (GCode (LStr (sms_value x)))) (Some (sms_name x)) (Some (sms_value_idx x))
                                else slm_from_string (sms_value x) (sc_sources d) (sc_contents d) (sc_mappings d) in Some (x, l)).
Proof.
  intro E. unfold sms_list_map, cell_get_data. rewrite E. destruct (negb m); [reflexivity|]. cbn [bind]. now rewrite sms_eta.
Qed.

(** A SourceMapSource made from map data. *)
Theorem data_steady x d : ce_data (sms_map x) = Some d -> steady x.
Proof.
  intros Ed y A.
  assert (G : y = x \/ exists n, sms_node x = Some (y, n)).
  { induction A as [x|x y n z E _ IH|x m y l z E _ IH].
    - now left.
    - right. destruct IH as [->|[n' E']]; [now rewrite (proj2 (proj2 (proj2 (sms_node_keeps _ _ _ E))))|eauto|].
      rewrite (sms_node_again _ _ _ E) in E'. injection E' as <- <-. eauto.
    - rewrite (data_lines x d m Ed) in E. unbind E. injection E as <- _. auto. }
  destruct G as [->|[n E]]; [auto|]. split.
  - rewrite E, (sms_node_again _ _ _ E). reflexivity.
  - intro m. destruct (sms_node_keeps _ _ _ E) as (H1 & H2 & H3 & H4). rewrite (data_lines x d m Ed), (data_lines y d m) by congruence.
    rewrite H1, H2, H3. destruct (if negb m then _ else _); reflexivity.
Qed.

(** One made from a generator whose mappings are in order, without an inner map. *)
Lemma from_string_list v g g' : ml_list (g_mappings g') = ml_list (g_mappings g) -> g_contents g' = g_contents g ->
  sm_from_string v g' = sm_from_string v g.
Proof. intros H1 H2. unfold sm_from_string. rewrite H1, ?H2. reflexivity. Qed.
Theorem generator_steady x g : ce_data (sms_map x) = None -> ce_gen (sms_map x) = Some g ->
  isort mapping_cmp (ml_list (g_mappings g)) = ml_list (g_mappings g) -> sms_inner x = None -> steady x.
Proof.
  intros Ed Eg So Ei.
  assert (Nx : sms_node x = let* n := sm_from_string (sms_value x) g in Some (x, n)).
  { unfold sms_node, cell_get_generator. rewrite Eg, Ei. cbn [bind]. destruct (sm_from_string (sms_value x) g); [|reflexivity]. cbn [bind].
    f_equal. f_equal. destruct x as [v vi nm [d0 g0] og inn ap]. cbn in *. congruence. }
  (** reading the lines of the generated map fills in the data *)
  assert (Lx : forall x' l, sms_list_map x true = Some (x', l) ->
            steady x' /\ (let* (_, n) := sms_node x' in Some n) = (let* (_, n) := sms_node x in Some n) /\
            forall m, (let* (_, l) := sms_list_map x' m in Some l) = (let* (_, l) := sms_list_map x m in Some l)).
  { intros x' l E. pose proof E as E0. unfold sms_list_map, cell_get_data in E. cbn [negb] in E. rewrite Ed, Eg in E. cbn [bind] in E.
    unbind E. destruct v as [c d]. unbind E. injection E as <- <-. unbind E1. destruct v0 as [g1 mp]. injection E1 as <- <-.
    unfold gen_to_source_map, serialize_mappings in E. cbn [bind] in E. unbind E. destruct v0 as [g2 b]. injection E as <- <-. unbind E1. injection E1 as <- <-.
    match goal with |- steady ?y /\ _ => set (x' := y) in * end.
    assert (D' : ce_data (sms_map x') = Some (mk_smc (map fst (g_sources g)) (collect_contents (map fst (g_sources g)) (g_contents g)) (map fst (g_names g)) v0)) by reflexivity.
    split; [eapply data_steady; exact D'|]. split.
    - rewrite Nx. unfold sms_node, cell_get_generator. subst x'. cbn [sms_map ce_gen ce_data bind sms_inner sms_value]. rewrite Ei. cbn [bind].
      rewrite (from_string_list (sms_value x) g); [destruct (sm_from_string (sms_value x) g); reflexivity| |reflexivity].
      cbn. unfold ml_sort. destruct (ml_sorted (g_mappings g)); [reflexivity|exact So].
    - intros [|].
      + rewrite E0, (data_lines _ _ true D'). cbn [negb bind]. change (sms_value x') with (sms_value x).
        match type of E2 with ?a = _ => match goal with |- context [bind (bind ?b _) _] => change b with a end end. rewrite E2. reflexivity.
      + unfold sms_list_map. cbn [negb]. subst x'. cbn [sms_value sms_name sms_value_idx]. destruct (slm_new _ _ _); reflexivity. }
  intros y A.
  assert (G : y = x \/ exists x' l, sms_list_map x true = Some (x', l) /\ asked x' y).
  { clear Lx. remember x as x0 eqn:Ex0. assert (Hx : x0 = x) by exact Ex0. clear Ex0. revert Ed Eg Ei Nx.
    induction A as [x0|x0 y n z E Az IH|x0 m y l z E Az IH]; intros Ed Eg Ei Nx.
    - now left.
    - rewrite Nx in E. unbind E. injection E as <- <-. auto.
    - destruct m; [right; eauto|]. unfold sms_list_map in E. cbn [negb] in E. unbind E. injection E as <- <-. auto. }
  destruct G as [->|(x' & l & E & A')]; [auto|]. destruct (Lx _ _ E) as (S' & N' & L'). destruct (S' y A') as [H1 H2].
  split; [congruence|]. intro m. rewrite H2. apply L'.
Qed.
