(** When updateHash comes to an end. *)
From Verif Require Import Base Tactics IdxFacts ModelString ModelVlq ModelSm ModelSlm ModelSources ModelTree ModelHeap ModelWasm ModelJs ModelJsApi ModelJsResult
  SpecText SpecMap SpecAttr SpecJs SpecResult ModelEnd SpecEnd EndFacts MadeFacts ResultProps ModelJsProg SpecProg ProgFacts ProgSteps ProgProps SpecThrow ThrowProps.
Require Import Relations.

(** ** What is fed ends *)
Lemma hashes_acc vs :
  (forall a s, hashes vs a s -> match a with ArgStr _ => True | ArgObj i => Acc (fun b a => fed vs a b) i /\
     forall j, clos_refl_trans nat (fed vs) i j -> forall x l, nth_error vs j = Some (VEdit x l) -> ~ contains_itself vs j end) /\
  (forall l s, hashes_all vs l s -> Forall (fun a => match a with ArgStr _ => True | ArgObj i => Acc (fun b a => fed vs a b) i /\
     forall j, clos_refl_trans nat (fed vs) i j -> forall x l, nth_error vs j = Some (VEdit x l) -> ~ contains_itself vs j end) l).
Proof.
  assert (N : forall i v, nth_error vs i = Some v -> (forall j, fed vs i j -> Acc (fun b a => fed vs a b) j /\
      forall k, clos_refl_trans nat (fed vs) j k -> forall x l, nth_error vs k = Some (VEdit x l) -> ~ contains_itself vs k) ->
      (forall x l, v = VEdit x l -> ~ contains_itself vs i) -> Acc (fun b a => fed vs a b) i /\
      forall j, clos_refl_trans nat (fed vs) i j -> forall x l, nth_error vs j = Some (VEdit x l) -> ~ contains_itself vs j).
  { intros i v Ev K W. split; [constructor; intros j Hj; apply K, Hj|]. intros j R x l Ej. apply clos_rt_rt1n in R. inversion R as [|k m F R']; subst; [apply (W x l); congruence|].
    apply clos_rt1n_rt in R'. exact (proj2 (K _ F) _ R' _ _ Ej). }
  apply hashes_both; try (intros; exact I).
  - intros i v Ev. eapply N; [exact Ev| |discriminate]. intros j F. unfold fed, feeds in F. rewrite Ev in F. destruct F.
  - intros i v n Ev. eapply N; [exact Ev| |discriminate]. intros j F. unfold fed, feeds in F. rewrite Ev in F. destruct F.
  - intros i v n o Ev. eapply N; [exact Ev| |discriminate]. intros j F. unfold fed, feeds in F. rewrite Ev in F. destruct F.
  - intros i v n m o inner Ev. eapply N; [exact Ev| |discriminate]. intros j F. unfold fed, feeds in F. rewrite Ev in F. destruct F.
  - intros i p a s Ev _ IH. eapply N; [exact Ev| |discriminate]. intros j F. unfold fed, feeds in F. rewrite Ev in F. subst a. exact IH.
  - intros i a l e s Ev D Es. eapply N; [exact Ev| |intros _ _ _; eapply denotes_apart; eauto]. intros j F. unfold fed, feeds in F. rewrite Ev in F. destruct F.
  - intros i l g s Ev _ IH. eapply N; [exact Ev| |discriminate]. intros j F. unfold fed, feeds in F. rewrite Ev in F. rewrite Forall_forall in IH. exact (IH _ F).
  - intros i j s Ev _ IH. eapply N; [exact Ev| |discriminate]. intros k F. unfold fed, feeds in F. rewrite Ev in F. injection F as ->. exact IH.
  - constructor.
  - intros a s l t _ IHa _ IHl. constructor; assumption.
Qed.
Lemma hashes_ends vs i s : hashes vs (ArgObj i) s -> ~ hash_loops vs i.
Proof.
  intros H (j & R & L). destruct (proj1 (hashes_acc vs) _ _ H) as [A W]. destruct L as [L|[(x & l & E) L]]; [|exact (W _ R _ _ E L)].
  exact (acc_loop _ _ (acc_reach _ _ _ A R) L).
Qed.

(** ** What does not loop is fed *)
Definition fed_ranged (vs : list sobj) : Prop := forall i a, feeds vs i a -> given vs a.
Lemma loops_up vs i j : fed vs i j -> hash_loops vs j -> hash_loops vs i.
Proof. intros F (k & R & L). exists k. split; [|exact L]. eapply rt_trans; [apply rt_step; exact F|exact R]. Qed.
Definition leafy (vs : list sobj) : Prop := forall i e, nth_error vs i = Some (VLeaf e) -> exists s, hashes vs (ArgObj i) s.
Lemma hash_search vs : ranged vs -> leafy vs -> fed_ranged vs -> forall n busy i, length vs <= length busy + n -> NoDup busy ->
  (forall b, In b busy -> b < length vs /\ clos_trans nat (fed vs) b i) -> i < length vs -> (exists s, hashes vs (ArgObj i) s) \/ hash_loops vs i.
Proof.
  intros Rg Lf C. induction n as [|n IH]; intros busy i L Nd B Hi; (destruct (in_dec Nat.eq_dec i busy) as [Hb|Hb]; [right; exists i; split; [apply rt_refl|left; now apply B]|]).
  - exfalso. assert (K : incl (i :: busy) (seq 0 (length vs))).
    { intros x [<-|Hx]; apply in_seq; [lia|]. specialize (B _ Hx). lia. }
    apply NoDup_incl_length in K; [|now constructor]. rewrite seq_length in K. cbn [length] in K. lia.
  - assert (K : forall a, feeds vs i a -> (exists s, hashes vs a s) \/ hash_loops vs i).
    { intros [s|j] Ha; [left; exists s; constructor|]. destruct (IH (i :: busy) j) as [D|D].
      - cbn [length]. lia.
      - now constructor.
      - intros b [<-|Hb']; [split; [exact Hi|now apply t_step]|]. destruct (B _ Hb') as [B1 B2]. split; [exact B1|]. eapply t_trans; [exact B2|now apply t_step].
      - exact (C _ _ Ha).
      - now left.
      - right. eapply loops_up; eauto. }
    clear IH. destruct (nth_error vs i) as [v|] eqn:Ev; [|apply nth_error_None in Ev; lia]. unfold feeds in K. rewrite Ev in K.
    destruct v as [e|p a|a l|l g|j].
    + left. exact (Lf _ _ Ev).
    + destruct (K a eq_refl) as [[s D]|D]; [left; eexists; eapply ha_prefix; eauto|now right].
    + destruct (search vs Rg (length vs) [] i) as [(e & D)|D]; [cbn; lia|constructor|intros b []|exact Hi| |].
      * destruct (js_source_total (alone e)) as (s & Es & _). left. exists s. eapply ha_edit; eauto.
      * right. exists i. split; [apply rt_refl|]. right. split; [eauto|exact D].
    + assert (Y : (exists s, hashes_all vs g s) \/ hash_loops vs i).
      { clear Ev. induction g as [|a g IHg]; [left; eexists; constructor|]. destruct (K a (or_introl eq_refl)) as [[s D]|D]; [|now right].
        destruct IHg as [[t D']|D']; [intros b Hb'; apply K; now right| |now right]. left. eexists. constructor; eauto. }
      destruct Y as [[s D]|D]; [left; eexists; eapply ha_concat; eauto|now right].
    + destruct (K _ eq_refl) as [[s D]|D]; [left; eexists; eapply ha_same; eauto|now right].
Qed.
Theorem hashes_iff vs i : ranged vs -> leafy vs -> fed_ranged vs -> i < length vs -> ((exists s, hashes vs (ArgObj i) s) <-> ~ hash_loops vs i).
Proof.
  intros Rg Lf C Hi. split; [intros [s D]; eapply hashes_ends; eauto|]. intro H.
  destruct (hash_search vs Rg Lf C (length vs) [] i) as [D|D]; [cbn; lia|constructor|intros b []|exact Hi|exact D|contradiction].
Qed.
Theorem hashes_unique vs :
  (forall a s, hashes vs a s -> forall s', hashes vs a s' -> s' = s) /\
  (forall l s, hashes_all vs l s -> forall s', hashes_all vs l s' -> s' = s).
Proof.
  apply hashes_both.
  - intros s s' H. now inversion H.
  - intros i v Ev s' H. inversion H; subst; congruence.
  - intros i v n Ev s' H. inversion H; subst; congruence.
  - intros i v n o Ev s' H. inversion H; subst; congruence.
  - intros i v n m o inner Ev s' H. inversion H; subst; congruence.
  - intros i p a s Ev _ IH s' H. inversion H as [| | | | |? ? ? ? E D| | |]; subst; try congruence. rewrite Ev in E. injection E as <- <-. f_equal. now apply IH.
  - intros i a l e s Ev D Es s' H. inversion H as [| | | | | |? ? ? e' ? E D' Es'| |]; subst; try congruence. rewrite (proj1 (denotes_unique _) _ _ D _ D') in Es'. congruence.
  - intros i l g s Ev _ IH s' H. inversion H as [| | | | | | |? ? ? ? E D|]; subst; try congruence. rewrite Ev in E. injection E as <- <-. now apply IH.
  - intros i j s Ev _ IH s' H. inversion H as [| | | | | | | |? ? ? E D]; subst; try congruence. rewrite Ev in E. injection E as <-. now apply IH.
  - intros s' H. now inversion H.
  - intros a s l t _ IHa _ IHl s' H. inversion H; subst. f_equal; auto.
Qed.

(** ** In programs *)
Lemma inv_leafy st vs h0 : prog_inv st vs h0 -> leafy vs.
Proof.
  intros Iv i e Ev. destruct (inv_obj Iv _ _ Ev) as (b & Eb). destruct (iv_objs _ _ _ Iv _ _ _ Eb Ev) as (t & p & o & Hm & Ej & _).
  destruct e; cbn [made] in Hm.
  all: try (eexists; econstructor; eassumption).
  all: try (subst t; discriminate).
  all: exfalso; try (destruct Hm as (? & -> & _); discriminate).
  all: try (destruct Hm as (? & ? & -> & _); discriminate).
Qed.
Lemma ranged_new vs v : fed_ranged vs -> (forall a, match v with VPrefix _ b => a = b -> given vs a | VConcat _ g => In a g -> given vs a | VSame j => j < length vs | _ => True end) -> fed_ranged (vs ++ [v]).
Proof.
  intros Fr H i a F. assert (G : given vs a -> given (vs ++ [v]) a) by (destruct a; cbn [given]; [auto|rewrite app_length; lia]).
  unfold feeds in F. destruct (nth_error (vs ++ [v]) i) as [w|] eqn:E; [|destruct F]. apply nth_snoc in E as [E|[-> ->]].
  - apply G. apply (Fr i). unfold feeds. now rewrite E.
  - specialize (H a). destruct v; [destruct F|auto|destruct F|auto|]. subst a. apply G. exact H.
Qed.
Lemma ranged_add vs i a : fed_ranged vs -> given vs a -> fed_ranged (spec_add i vs a).
Proof.
  intros Fr G k b F. assert (K : given vs b -> given (spec_add i vs a) b) by (destruct b; cbn [given]; [auto|unfold spec_add; now rewrite length_update]).
  apply K. specialize (Fr k b). unfold feeds in *. rewrite spec_add_nth in F. destruct (nth_error vs k) as [[]|] eqn:E; auto. destruct (Nat.eqb_spec i k) as [<-|N]; auto.
  apply in_app_or in F as [F|[<-|[]]]; auto.
Qed.
Lemma ranged_call vs i c : fed_ranged vs -> fed_ranged (spec_call i vs c).
Proof.
  intros Fr k b F. assert (K : given vs b -> given (spec_call i vs c) b) by (destruct b; cbn [given]; [auto|unfold spec_call; now rewrite length_update]).
  apply K. specialize (Fr k b). unfold feeds, spec_call in *. rewrite nth_update in F. destruct (Nat.eqb i k); [|auto]. destruct (nth_error vs k) as [[]|]; auto.
Qed.
Lemma ranged_adds i l : forall vs, fed_ranged vs -> Forall (given vs) l -> fed_ranged (fold_left (spec_add i) l vs).
Proof.
  induction l as [|a l IH]; intros vs Fr F; [exact Fr|]. inversion F as [|? ? F1 F2]; subst. cbn [fold_left]. apply IH; [now apply ranged_add|].
  eapply Forall_impl; [|exact F2]. intros [u|k]; cbn [given]; [auto|]. unfold spec_add. now rewrite length_update.
Qed.
Lemma ranged_step st vs h0 op r : prog_inv st vs h0 -> jstep st op = Some r -> fed_ranged vs -> fed_ranged (spec_step vs op).
Proof.
  intros Iv E Fr. assert (A : unremembered vs op -> allowed vs op) by (eapply step_needed; eauto).
  destruct op; cbn [spec_step unremembered allowed] in *; auto; try (apply ranged_new; [exact Fr|try (intros; exact I)]).
  - intros x ->. auto.
  - apply ranged_adds; [apply ranged_new; [exact Fr|intros x []]|]. eapply Forall_impl; [|exact (A I)].
    intros [u|k]; cbn [given]; [auto|]. rewrite app_length. lia.
  - auto.
  - apply ranged_add; [exact Fr|apply A, I].
  - now apply ranged_call.
  - now apply ranged_call.
Qed.
Lemma run_ranged c0 ops st : reached_cache c0 -> jrun (jstate_new c0) ops = Some st -> fed_ranged (meaning ops).
Proof.
  intro R. assert (H : exists h0, prog_inv (jstate_new c0) [] h0) by (exists []; now apply inv_start).
  assert (F : fed_ranged []) by (intros [|i] a K; destruct K).
  revert H F. unfold meaning. generalize (jstate_new c0) as st0, (@nil sobj) as vs. induction ops as [|op ops IH]; intros st0 vs [h0 Iv] F E; cbn [jrun fold_left] in *; [exact F|].
  unb E as [st1 a] E1. destruct (inv_step _ _ _ _ _ _ Iv E1) as (h1 & Iv1). eapply IH; eauto. eapply ranged_step; eauto.
Qed.

(** What updateHash answers is what is fed. *)
Lemma hash_is vs h0 stack : forall st a st' s, prog_inv st vs h0 -> update_hash stack st a = Some (st', s) -> exists u, hashes vs a u.
Proof.
  induction stack as [|n IH]; intros st [u|i] st' s Iv E; try (exists u; constructor); [discriminate|].
  destruct (nth_error (js_objs st) i) as [b|] eqn:Ei; [|cbn [update_hash] in E; rewrite Ei in E; discriminate].
  destruct (inv_val Iv _ _ Ei) as (v & Ev). pose proof (iv_objs _ _ _ Iv _ _ _ Ei Ev) as M. destruct v as [e|p a|a l|l g|j]; cbn [matches] in M.
  - exact (inv_leafy _ _ _ Iv _ _ Ev).
  - destruct M as (q & x & -> & _). cbn [update_hash] in E. rewrite Ei in E. cbn [bind] in E. unb E as [st1 s1] E1. destruct (IH _ _ _ _ Iv E1) as (u & H).
    eexists. eapply ha_prefix; eauto.
  - destruct M as (q & x & -> & _). cbn [update_hash] in E. rewrite Ei in E. cbn [bind] in E. destruct (source_denotes Iv _ _ _ _ Ei E) as (e & D).
    destruct (js_source_total (alone e)) as (u & Eu & _). exists u. eapply ha_edit; eauto.
  - destruct M as (q & x & -> & _). rewrite (hash_concat _ _ _ _ _ Ei) in E. assert (Y : exists u, hashes_all vs g u); [|destruct Y as (u & H); exists u; eapply ha_concat; eauto].
    clear Ei Ev. revert st s Iv E. induction g as [|y g IHg]; intros st s Iv E; cbn [hash_all] in E; [eexists; constructor|].
    unb E as [st1 s1] E1. unb E as [st2 s2] E2. injection E as <- _. destruct (IH _ _ _ _ Iv E1) as (u & H).
    destruct (IHg _ _ (only_inv _ _ _ _ (hash_only _ _ _ _ _ E1) Iv) E2) as (w & H'). eexists. econstructor; eauto.
  - destruct M as (t & k & q & -> & _). cbn [update_hash] in E. rewrite Ei in E. cbn [bind] in E. destruct (IH _ _ _ _ Iv E) as (u & H). eexists. eapply ha_same; eauto.
Qed.

Section Run.
  Context {c0 : cache} {ops : list jop} {st : jstate} (R0 : reached_cache c0) (Run : jrun (jstate_new c0) ops = Some st).
  Theorem run_hashes i : i < length (meaning ops) -> ((exists s, hashes (meaning ops) (ArgObj i) s) <-> ~ hash_loops (meaning ops) i).
  Proof.
    intro Hi. destruct (inv_run _ _ _ R0 Run) as (h0 & Iv). apply hashes_iff; [exact (inv_ranged _ _ _ Iv)|exact (inv_leafy _ _ _ Iv)|exact (run_ranged _ _ _ R0 Run)|exact Hi].
  Qed.
  Theorem hash_ends i : i < length (meaning ops) -> ~ hash_loops (meaning ops) i ->
    exists s d, forall stack, d <= stack -> option_map snd (jstep st (OHash stack i)) = Some (NHash s).
  Proof. intros Hi L. destruct (proj2 (run_hashes i Hi) L) as (s & H). exists s. eapply run_hash; eauto. Qed.
  Theorem hash_never i stack : hash_loops (meaning ops) i -> jstep st (OHash stack i) = None.
  Proof.
    intro L. destruct (inv_run _ _ _ R0 Run) as (h0 & Iv). cbn [jstep]. destruct (update_hash stack st (ArgObj i)) as [[st' s]|] eqn:E; [|reflexivity].
    destruct (hash_is _ _ _ _ _ _ _ Iv E) as (u & H). destruct (hashes_ends _ _ _ H L).
  Qed.
  Theorem hash_outside i stack : length (meaning ops) <= i -> jstep st (OHash stack i) = None.
  Proof.
    intro L. destruct (inv_run _ _ _ R0 Run) as (h0 & Iv). cbn [jstep]. destruct stack as [|n]; [reflexivity|]. cbn [update_hash].
    rewrite (proj2 (nth_error_None _ _)); [reflexivity|]. rewrite (iv_len _ _ _ Iv). exact L.
  Qed.
End Run.

(** ** If what is added never feeds what it is added to *)
Definition fed_apart (vs : list sobj) : Prop := forall i, ~ clos_trans nat (fed vs) i i.
Lemma fed_lt vs i j : fed vs i j -> i < length vs.
Proof. unfold fed, feeds. intro P. apply nth_error_Some. destruct (nth_error vs i); [discriminate|destruct P]. Qed.
Definition fed_below (n : nat) (vs : list sobj) : Prop := forall k j, k < n -> fed vs k j -> j < n.
Lemma fed_below_reach n vs k j : fed_below n vs -> clos_refl_trans nat (fed vs) k j -> k < n -> j < n.
Proof. intros L H. induction H; eauto. Qed.
Lemma fed_new vs v : fed_below (length vs) vs -> fed_apart vs -> (forall j, match v with
    | VPrefix _ b => b = ArgObj j -> j < length vs
    | VConcat _ g => In (ArgObj j) g -> j < length vs
    | VSame k => k < length vs
    | VEdit _ _ | VLeaf _ => True end) -> fed_apart (vs ++ [v]).
Proof.
  intros L A H. refine (link_apart (i := length vs) (B := fun j => j < length vs) _ _ A).
  - intros x y P. unfold fed, feeds in P. destruct (nth_error (vs ++ [v]) x) as [w|] eqn:E; [|destruct P]. apply nth_snoc in E as [E|[-> ->]].
    + left. unfold fed, feeds. now rewrite E.
    + right. split; [reflexivity|]. specialize (H y). destruct v; [destruct P|now apply H|destruct P|now apply H|injection P as ->; exact H].
  - intros y Hy R. pose proof (fed_below_reach _ _ _ _ L R Hy). lia.
Qed.
Lemma fed_adds vs i a x y : fed (spec_add i vs a) x y -> fed vs x y \/ (x = i /\ a = ArgObj y).
Proof.
  unfold fed, feeds. rewrite spec_add_nth. destruct (nth_error vs x) as [[]|] eqn:E; auto. destruct (Nat.eqb_spec i x) as [<-|N]; auto.
  intro P. apply in_app_or in P as [P|[P|[]]]; auto.
Qed.
Lemma fed_add vs i a : fed_apart vs -> (forall k, a = ArgObj k -> ~ clos_refl_trans nat (fed vs) k i) -> fed_apart (spec_add i vs a).
Proof. intros A H. refine (link_apart (fed_adds vs i a) _ A). intros y ->. now apply H. Qed.
Lemma fed_call vs i k : fed_apart vs -> fed_apart (spec_call i vs k).
Proof.
  intros A. refine (link_apart (i := i) (B := fun _ => False) _ _ A); [|intros y []].
  intros a b P. left. unfold fed, feeds, spec_call in *. rewrite nth_update in P. destruct (Nat.eqb i a); [|exact P]. destruct (nth_error vs a) as [[]|]; exact P.
Qed.
Lemma fed_all n l : forall vs, fed_below n vs -> fed_apart vs -> Forall (given (firstn n vs)) l -> n <= length vs -> fed_apart (fold_left (spec_add n) l vs).
Proof.
  induction l as [|a l IH]; intros vs L A F Len; [exact A|]. inversion F as [|? ? F1 F2]; subst. cbn [fold_left].
  assert (Ln : length (firstn n vs) = n) by (rewrite firstn_length; lia).
  apply IH.
  - intros k j Hk P. destruct (fed_adds _ _ _ _ _ P) as [Q|[-> _]]; [exact (L _ _ Hk Q)|lia].
  - apply fed_add; [exact A|]. intros k -> R. cbn [given] in F1. rewrite Ln in F1. pose proof (fed_below_reach _ _ _ _ L R F1). lia.
  - eapply Forall_impl; [|exact F2]. intros [u|k]; cbn [given]; [auto|]. rewrite Ln, firstn_length. unfold spec_add. rewrite length_update. lia.
  - unfold spec_add. now rewrite length_update.
Qed.
Lemma fed_step vs op : fed_below (length vs) vs -> fed_apart vs -> proper vs op -> unfed vs op -> fed_apart (spec_step vs op).
Proof.
  intros L A P U. destruct op; cbn [spec_step proper allowed unfed] in *; auto; try (apply fed_new; [exact L|exact A|try (intros; exact I)]).
  - intros j ->. exact P.
  - apply fed_all.
    + intros k j Hk Q. unfold fed, feeds in Q. rewrite nth_error_app1 in Q by exact Hk. exact (L _ _ Hk Q).
    + apply fed_new; [exact L|exact A|intros j []].
    + rewrite firstn_app, firstn_all, Nat.sub_diag. cbn [firstn]. rewrite app_nil_r. exact P.
    + rewrite app_length. lia.
  - intros _. exact P.
  - apply fed_add; [exact A|exact U].
  - now apply fed_call.
  - now apply fed_call.
Qed.
Lemma fed_apart_run l : forall vs st h0 st', prog_inv st vs h0 -> jrun st l = Some st' -> fed_ranged vs -> fed_apart vs -> proper_run vs l -> unfed_run vs l -> fed_apart (fold_left spec_step l vs).
Proof.
  induction l as [|op l IH]; intros vs st h0 st' Iv Run Fr A P U; cbn [fold_left jrun] in *; [exact A|]. destruct P as [P1 P2], U as [U1 U2]. unb Run as [st1 a] E1.
  destruct (inv_step _ _ _ _ _ _ Iv E1) as (h1 & Iv1). refine (IH _ _ _ _ Iv1 Run (ranged_step _ _ _ _ _ Iv E1 Fr) _ P2 U2).
  apply fed_step; auto. intros k j _ Q. exact (Fr _ _ Q).
Qed.
Theorem proper_hash c0 ops : reached_cache c0 -> proper_run [] ops -> unfed_run [] ops -> Forall good_op ops ->
  exists st, jrun (jstate_new c0) ops = Some st /\ forall i, i < length (meaning ops) ->
    exists s d, forall stack, d <= stack -> option_map snd (jstep st (OHash stack i)) = Some (NHash s).
Proof.
  intros R P U G. destruct (proper_runs _ _ R P G) as ((st & Run) & A & _). exists st. split; [exact Run|]. intros i Hi. apply (hash_ends R Run); [exact Hi|].
  intros (j & _ & [L|[_ L]]); [|exact (A _ L)]. revert L.
  apply (fed_apart_run ops [] (jstate_new c0) [] st); auto.
  - now apply inv_start.
  - intros [|k] a K; destruct K.
  - intros k L. assert (E : forall a b, clos_trans nat (fed []) a b -> False) by (intros a b C; induction C as [a b C|]; [apply fed_lt in C; cbn in C; lia|assumption]); exact (E _ _ L).
Qed.
