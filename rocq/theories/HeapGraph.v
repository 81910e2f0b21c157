(** Termination, cycles, and the tree seen from an object. *)
From Verif Require Import Base Tactics ModelString ModelVlq ModelSm ModelSlm ModelSources ModelTree ModelHeap
  TextFacts TreeText SpecHeap HeapFacts.
Require Import Relations.

(** ** Fuel *)
Definition fresh (n : nat) (busy : list nat) : Prop := NoDup busy /\ (forall b, In b busy -> b < n).
Lemma fresh_le n busy : fresh n busy -> length busy <= n.
Proof.
  intros [H1 H2]. rewrite <- (seq_length n 0). apply NoDup_incl_length; [exact H1|].
  intros b Hb. apply in_seq. specialize (H2 b Hb). lia.
Qed.
Lemma fresh_cons n busy i : fresh n busy -> is_busy busy i = false -> i < n -> fresh n (i :: busy).
Proof.
  intros [H1 H2] Hb Hi. split.
  - constructor; [|exact H1]. rewrite <- is_busy_In. congruence.
  - intros b [<-|H]; auto.
Qed.

Lemma lift_fuel {A} (o : option A) : lift o <> NoFuel.
Proof. destruct o; discriminate. Qed.
Lemma rbind_fuel {A B} (r : res A) (k : A -> res B) : r <> NoFuel -> (forall v, r = Val v -> k v <> NoFuel) -> rbind r k <> NoFuel.
Proof. destruct r; cbn; auto. discriminate. Qed.

Lemma p_eval_fuel {A} (a : alg A) h : forall f busy s, fresh (length h) busy -> length h < f + length busy -> p_eval a f busy h s <> NoFuel.
Proof.
  induction f as [|f IH]; intros busy [t|i] F L.
  - cbn. apply lift_fuel.
  - pose proof (fresh_le _ _ F). lia.
  - cbn. apply lift_fuel.
  - cbn [p_eval]. destruct (is_busy busy i) eqn:Eb; [discriminate|]. destruct (nth_error h i) as [o|] eqn:Ei; [|discriminate].
    assert (Hi : i < length h) by (apply nth_error_Some; congruence).
    assert (IH' : forall s, p_eval a f (i :: busy) h s <> NoFuel).
    { intro s. apply IH; [now apply fresh_cons|]. cbn [length]. lia. }
    cbn [lift rbind]. destruct o as [w|w wi n|w n og|p s|s st|l|x]; try apply lift_fuel.
    1-2: apply rbind_fuel; [apply IH'|intros; apply lift_fuel].
    + apply rbind_fuel; [|intros; apply lift_fuel]. clear Ei. induction l as [|x l IHl]; cbn [p_items]; [discriminate|].
      apply rbind_fuel.
      * destruct x; [discriminate|]. apply rbind_fuel; [apply IH'|discriminate].
      * intros y _. apply rbind_fuel; [exact IHl|discriminate].
    + apply rbind_fuel; [apply lift_fuel|]. intros [y v] _. discriminate.
Qed.
Lemma p_size_fuel h : forall f busy s, fresh (length h) busy -> length h < f + length busy -> p_size f busy h s <> NoFuel.
Proof.
  induction f as [|f IH]; intros busy [t|i] F L.
  - discriminate.
  - pose proof (fresh_le _ _ F). lia.
  - discriminate.
  - cbn [p_size]. destruct (is_busy busy i) eqn:Eb; [discriminate|]. destruct (nth_error h i) as [o|] eqn:Ei; [|discriminate].
    assert (Hi : i < length h) by (apply nth_error_Some; congruence).
    cbn [lift rbind]. destruct o as [w|w wi n|w n og|p s|s st|l|x]; try discriminate.
    1-2: apply rbind_fuel; [apply p_eval_fuel; auto|discriminate].
    clear Ei. induction l as [|x l IHl]; cbn [p_sizes]; [discriminate|].
    apply rbind_fuel; [apply IH; [now apply fresh_cons|cbn [length]; lia]|]. intros n _. apply rbind_fuel; [exact IHl|discriminate].
Qed.
Lemma h_eval_fuel {A} (a : alg A) : forall f busy h s, fresh (length h) busy -> length h < f + length busy -> h_eval a f busy h s <> NoFuel.
Proof.
  induction f as [|f IH]; intros busy h [t|i] F L.
  - cbn. apply rbind_fuel; [apply lift_fuel|discriminate].
  - pose proof (fresh_le _ _ F). lia.
  - cbn. apply rbind_fuel; [apply lift_fuel|discriminate].
  - rewrite h_eval_ref. destruct (is_busy busy i) eqn:Eb; [discriminate|]. destruct (nth_error h i) as [o|] eqn:Ei; [|discriminate].
    assert (Hi : i < length h) by (apply nth_error_Some; congruence).
    assert (IH' : forall h1 s, length h1 = length h -> h_eval a f (i :: busy) h1 s <> NoFuel).
    { intros h1 s El. apply IH; rewrite El; [now apply fresh_cons|]. cbn [length]. lia. }
    cbn [lift rbind]. destruct o as [w|w wi n|w n og|p s|s st|l|x].
    1-3: apply rbind_fuel; [apply lift_fuel|discriminate].
    1-2: apply rbind_fuel; [now apply IH'|]; intros [h1 v] _; apply rbind_fuel; [apply lift_fuel|discriminate].
    + apply rbind_fuel; [|intros [h1 v] _; apply rbind_fuel; [apply lift_fuel|discriminate]].
      assert (G : forall l h1, length h1 = length h -> h_items (h_eval a f (i :: busy)) h1 l <> NoFuel).
      { clear Ei l. induction l as [|x l IHl]; intros h1 El; cbn [h_items]; [discriminate|].
        apply rbind_fuel.
        - destruct x; [discriminate|]. apply rbind_fuel; [now apply IH'|intros [? ?] _; discriminate].
        - intros [h2 y] E2. apply rbind_fuel; [|intros [? ?] _; discriminate]. apply IHl.
          destruct x as [s|j]; [injection E2 as <- _; exact El|].
          destruct (h_eval a f (i :: busy) h1 (SRef j)) as [[h3 v]| |] eqn:E3; try discriminate. cbn [rbind] in E2.
          injection E2 as <- _. rewrite (h_eval_length _ _ _ _ _ _ _ E3). exact El. }
      now apply G.
    + apply rbind_fuel; [apply lift_fuel|]. intros [y v] _. discriminate.
Qed.
Lemma h_size_fuel : forall f busy h s, fresh (length h) busy -> length h < f + length busy -> h_size_eval f busy h s <> NoFuel.
Proof.
  induction f as [|f IH]; intros busy h [t|i] F L.
  - discriminate.
  - pose proof (fresh_le _ _ F). lia.
  - discriminate.
  - rewrite h_size_ref. destruct (is_busy busy i) eqn:Eb; [discriminate|]. destruct (nth_error h i) as [o|] eqn:Ei; [|discriminate].
    assert (Hi : i < length h) by (apply nth_error_Some; congruence).
    cbn [lift rbind]. destruct o as [w|w wi n|w n og|p s|s st|l|x]; try discriminate.
    1-2: apply rbind_fuel; [apply h_eval_fuel; auto|intros [? ?] _; discriminate].
    assert (G : forall l h1, length h1 = length h -> h_sizes (h_size_eval f (i :: busy)) h1 l <> NoFuel).
    { clear Ei l. induction l as [|x l IHl]; intros h1 El; cbn [h_sizes]; [discriminate|].
      apply rbind_fuel; [apply IH; rewrite El; [now apply fresh_cons|cbn [length]; lia]|].
      intros [h2 n] E2. apply rbind_fuel; [|intros [? ?] _; discriminate]. apply IHl.
      rewrite (h_size_length _ _ _ _ _ _ E2). exact El. }
    now apply G.
Qed.

Lemma fresh_nil n : fresh n [].
Proof. split; [constructor|contradiction]. Qed.
Theorem reply_fuel h i q : reply h i q <> NoFuel.
Proof.
  assert (G : put h i q <> NoFuel).
  { destruct q; cbn [put]; unfold rmap, h_read, h_size; (apply rbind_fuel; [|intros [? ?] _; discriminate]).
    2: apply h_size_fuel; [apply fresh_nil|cbn [length]; lia].
    all: apply h_eval_fuel; [apply fresh_nil|cbn [length]; lia]. }
  unfold reply. apply rbind_fuel; [exact G|]. intros [? ?] _. discriminate.
Qed.

(** ** Unfoldings *)
Scheme unfolds_mind := Minimality for unfolds Sort Prop
  with unfolds_all_mind := Minimality for unfolds_all Sort Prop.
Combined Scheme unfolds_ind2 from unfolds_mind, unfolds_all_mind.

Lemma unfolds_fun h :
  (forall s t, unfolds h s t -> forall t', unfolds h s t' -> t = t') /\
  (forall l ts, unfolds_all h l ts -> forall ts', unfolds_all h l ts' -> ts = ts').
Proof.
  apply unfolds_ind2.
  - intros s t' U. now inversion U.
  - intros i v E t' U. inversion U; subst; congruence.
  - intros i v vi n E t' U. inversion U; subst; congruence.
  - intros i v n o E t' U. inversion U; subst; congruence.
  - intros i p s t E _ IH t' U. inversion U as [ | | | |j p' s' t0 E' U' Ej Et| | |]; subst; try congruence.
    rewrite E in E'. injection E' as <- <-. f_equal. auto.
  - intros i s st t E _ IH t' U. inversion U as [ | | | | |j s' st' t0 E' U' Ej Et| |]; subst; try congruence.
    rewrite E in E'. injection E' as <- <-. f_equal. auto.
  - intros i l ts E _ IH t' U. inversion U as [ | | | | | |j l' ts' E' U' Ej Et|]; subst; try congruence.
    rewrite E in E'. injection E' as <-. f_equal. auto.
  - intros i x E t' U. inversion U; subst; congruence.
  - intros ts' U. now inversion U.
  - intros s t l ts _ IH1 _ IH2 ts' U. inversion U; subst. f_equal; auto.
Qed.

Fixpoint tsize (t : tree) : nat :=
  S (match t with
     | TPrefix _ t => tsize t
     | TReplace t _ => tsize t
     | TConcat l => (fix go l := match l with [] => 0 | x :: r => tsize x + go r end) l
     | _ => 0
     end).
Definition tsizes (l : list tree) : nat := (fix go l := match l with [] => 0 | x :: r => tsize x + go r end) l.

Lemma unfolds_all_in h l ts s : unfolds_all h l ts -> In s l -> exists t, unfolds h s t /\ tsize t <= tsizes ts.
Proof.
  induction 1 as [|x t l ts U _ IH]; [contradiction|]. intros [<-|H].
  - exists t. split; [exact U|]. cbn. lia.
  - destruct (IH H) as (t' & U' & L). exists t'. split; [exact U'|]. cbn in *. fold (tsizes ts). lia.
Qed.
Lemma unfolds_edge h i t j : unfolds h (SRef i) t -> edge h i j -> exists t', unfolds h (SRef j) t' /\ tsize t' < tsize t.
Proof.
  intros U (o & E & I). inversion U as [ |k v E' Ek Et|k v vi n E' Ek Et|k v n o' E' Ek Et|k p s t0 E' U' Ek Et|k s st t0 E' U' Ek Et|k l ts E' U' Ek Et|k x E' Ek Et]; subst;
    rewrite E in E'; injection E' as ->; cbn [items] in I; try contradiction.
  - destruct I as [->|[]]. exists t0. split; [exact U'|cbn; lia].
  - destruct I as [->|[]]. exists t0. split; [exact U'|cbn; lia].
  - destruct (unfolds_all_in _ _ _ _ U' I) as (t' & H & L). exists t'. split; [exact H|]. cbn [tsize]. fold (tsizes ts). lia.
Qed.
Lemma unfolds_trans h i j : clos_trans nat (edge h) i j -> forall t, unfolds h (SRef i) t -> exists t', unfolds h (SRef j) t' /\ tsize t' < tsize t.
Proof.
  induction 1 as [i j E|i j k _ IH1 _ IH2]; intros t U.
  - eapply unfolds_edge; eauto.
  - destruct (IH1 _ U) as (t1 & U1 & L1). destruct (IH2 _ U1) as (t2 & U2 & L2). exists t2. split; [exact U2|lia].
Qed.
Lemma unfolds_reaches h i j t : reaches h i j -> unfolds h (SRef i) t -> exists t', unfolds h (SRef j) t'.
Proof.
  intro H. revert t. induction H as [i j E|i|i j k _ IH1 _ IH2]; intros t U.
  - destruct (unfolds_edge _ _ _ _ U E) as (t' & U' & _). eauto.
  - eauto.
  - destruct (IH1 _ U) as [t1 U1]. eauto.
Qed.
Lemma unfolds_acyclic h i t : unfolds h (SRef i) t -> ~ cyclic h i.
Proof.
  intros U (j & Hr & Hc). destruct (unfolds_reaches _ _ _ _ Hr U) as [t' U'].
  destruct (unfolds_trans _ _ _ Hc _ U') as (t2 & U2 & L). rewrite (proj1 (unfolds_fun h) _ _ U' _ U2) in L. lia.
Qed.

(** Evaluation of an unfolding. *)
Definition sreaches (h : heap) (s : src) (j : nat) : Prop := match s with SRef i => reaches h i j | SStr _ => False end.
Lemma sreaches_item h i o s j : nth_error h i = Some o -> In s (items o) -> sreaches h s j -> clos_trans nat (edge h) i j.
Proof.
  intros E I. destruct s as [t|k]; [contradiction|]. intro H. apply clos_rt_t with (y := i); [apply rt_refl|].
  assert (Ed : edge h i k) by (exists o; auto).
  clear -H Ed. apply clos_rt_rtn1 in H. induction H as [|y z E _ IH]; [now apply t_step|]. eapply t_trans; [exact IH|now apply t_step].
Qed.
Lemma sreaches_down h i o s j : nth_error h i = Some o -> In s (items o) -> sreaches h s j -> reaches h i j.
Proof.
  intros E I H. apply (sreaches_item _ _ _ _ _ E I) in H. clear -H.
  induction H as [x y H|x y z _ A _ B]; [now apply rt_step|eapply rt_trans; eauto].
Qed.

Lemma eval_unfolds {A} (a : alg A) h :
  (forall s t, unfolds h s t -> forall f busy, (forall j, sreaches h s j -> ~ In j busy) ->
     p_eval a f busy h s = NoFuel \/ p_eval a f busy h s = lift (fold_tree a t)) /\
  (forall l ts, unfolds_all h l ts -> forall f busy, (forall s j, In s l -> sreaches h s j -> ~ In j busy) ->
     p_items (p_eval a f busy h) l = NoFuel \/ p_items (p_eval a f busy h) l = lift (children a ts)).
Proof.
  assert (Busy : forall i (busy : list nat), (forall j, sreaches h (SRef i) j -> ~ In j busy) -> is_busy busy i = false).
  { intros i busy H. destruct (is_busy busy i) eqn:E; [|reflexivity]. apply is_busy_In in E. exfalso. apply (H i); [apply rt_refl|exact E]. }
  assert (Sub : forall i o s t (busy : list nat), nth_error h i = Some o -> In s (items o) -> unfolds h (SRef i) t ->
            (forall j, sreaches h (SRef i) j -> ~ In j busy) -> forall j, sreaches h s j -> ~ In j (i :: busy)).
  { intros i o s t busy E I U H j Hj [<-|Hb].
    - apply (unfolds_acyclic _ _ _ U). exists i. split; [apply rt_refl|]. eapply sreaches_item; eauto.
    - apply (H j); [|exact Hb]. eapply sreaches_down; eauto. }
  apply unfolds_ind2.
  - intros s f busy _. right. destruct f; reflexivity.
  - intros i v E [|f] busy H; [left; reflexivity|]. right. cbn [p_eval fold_tree]. rewrite (Busy _ _ H), E. reflexivity.
  - intros i v vi n E [|f] busy H; [left; reflexivity|]. right. cbn [p_eval fold_tree]. rewrite (Busy _ _ H), E. reflexivity.
  - intros i v n o E [|f] busy H; [left; reflexivity|]. right. cbn [p_eval fold_tree]. rewrite (Busy _ _ H), E. reflexivity.
  - intros i p s t E U IH [|f] busy H; [left; reflexivity|]. cbn [p_eval fold_tree]. rewrite (Busy _ _ H), E. cbn [lift rbind].
    destruct (IH f (i :: busy)) as [G|G].
    { eapply Sub; eauto; [left; reflexivity|]. eapply u_prefix; eauto. }
    + left. now rewrite G.
    + right. rewrite G. destruct (fold_tree a t); reflexivity.
  - intros i s st t E U IH [|f] busy H; [left; reflexivity|]. cbn [p_eval fold_tree]. rewrite (Busy _ _ H), E. cbn [lift rbind].
    destruct (IH f (i :: busy)) as [G|G].
    { eapply Sub; eauto; [left; reflexivity|]. eapply u_replace; eauto. }
    + left. now rewrite G.
    + right. rewrite G. destruct (fold_tree a t); reflexivity.
  - intros i l ts E U IH [|f] busy H; [left; reflexivity|]. rewrite fold_concat. cbn [p_eval]. rewrite (Busy _ _ H), E. cbn [lift rbind].
    destruct (IH f (i :: busy)) as [G|G].
    { intros s j I. eapply Sub; eauto. eapply u_concat; eauto. }
    + left. now rewrite G.
    + right. rewrite G. destruct (children a ts); reflexivity.
  - intros i x E [|f] busy H; [left; reflexivity|]. right. cbn [p_eval fold_tree]. rewrite (Busy _ _ H), E. cbn [lift rbind].
    destruct (a_sms a x) as [[y v]|]; reflexivity.
  - intros f busy _. right. reflexivity.
  - intros s t l ts U IH1 _ IH2 f busy H. cbn [p_items children].
    destruct (IH2 f busy) as [G2|G2]; [intros; eapply H; eauto; now right| |].
    + assert (D : forall r : res (str + A), r <> NoFuel -> (do* y := r in do* ys := p_items (p_eval a f busy h) l in Val (y :: ys)) = NoFuel \/ r = Panic).
      { intros [y| |] Hr; [left; cbn [rbind]; now rewrite G2|now right|congruence]. }
      destruct s as [s|i].
      * left. cbn [rbind]. now rewrite G2.
      * destruct (IH1 f busy) as [G1|G1]; [intros; eapply H; eauto; now left|left; now rewrite G1|].
        inversion U; subst; cbn [child] in *; rewrite G1;
        match goal with |- context [lift (fold_tree a ?t)] => destruct (fold_tree a t) as [res_v|] eqn:Ef end; cbn [lift rbind bind];
        rewrite ?G2; auto.
    + destruct s as [s|i].
      * right. inversion U; subst. cbn [rbind child bind]. rewrite G2. destruct (children a ts); reflexivity.
      * destruct (IH1 f busy) as [G1|G1]; [intros; eapply H; eauto; now left|left; now rewrite G1|].
        right. inversion U; subst; cbn [child] in *; rewrite G1, G2;
        match goal with |- context [lift (fold_tree a ?t)] => destruct (fold_tree a t) as [res_v|] end; cbn [lift rbind bind]; try reflexivity;
        destruct (children a ts); reflexivity.
Qed.

Lemma size_unfolds h :
  (forall s t, unfolds h s t -> forall f busy, (forall j, sreaches h s j -> ~ In j busy) ->
     p_size f busy h s = NoFuel \/ p_size f busy h s = lift (t_size t)) /\
  (forall l ts, unfolds_all h l ts -> forall f busy, (forall s j, In s l -> sreaches h s j -> ~ In j busy) ->
     p_sizes (p_size f busy h) l = NoFuel \/ p_sizes (p_size f busy h) l = lift (sizes ts)).
Proof.
  assert (Busy : forall i (busy : list nat), (forall j, sreaches h (SRef i) j -> ~ In j busy) -> is_busy busy i = false).
  { intros i busy H. destruct (is_busy busy i) eqn:E; [|reflexivity]. apply is_busy_In in E. exfalso. apply (H i); [apply rt_refl|exact E]. }
  assert (Sub : forall i o s t (busy : list nat), nth_error h i = Some o -> In s (items o) -> unfolds h (SRef i) t ->
            (forall j, sreaches h (SRef i) j -> ~ In j busy) -> forall j, sreaches h s j -> ~ In j (i :: busy)).
  { intros i o s t busy E I U H j Hj [<-|Hb].
    - apply (unfolds_acyclic _ _ _ U). exists i. split; [apply rt_refl|]. eapply sreaches_item; eauto.
    - apply (H j); [|exact Hb]. eapply sreaches_down; eauto. }
  assert (Src : forall i t f busy, unfolds h (SRef i) t -> (forall j, sreaches h (SRef i) j -> ~ In j busy) ->
            (do* t := p_eval source_alg f busy h (SRef i) in Val (blen t)) = NoFuel \/
            (do* t := p_eval source_alg f busy h (SRef i) in Val (blen t)) = lift (t_size t)).
  { intros i t f busy U H. destruct (proj1 (eval_unfolds source_alg h) _ _ U f busy H) as [->| ->]; [left; reflexivity|right].
    destruct (source_total t) as [s Hs]. unfold t_source in Hs. rewrite Hs, (size_spec t s Hs). reflexivity. }
  apply unfolds_ind2.
  - intros s f busy _. right. destruct f; reflexivity.
  - intros i v E [|f] busy H; [left; reflexivity|]. right. cbn [p_size t_size]. rewrite (Busy _ _ H), E. reflexivity.
  - intros i v vi n E [|f] busy H; [left; reflexivity|]. right. cbn [p_size t_size]. rewrite (Busy _ _ H), E. reflexivity.
  - intros i v n o E [|f] busy H; [left; reflexivity|]. right. cbn [p_size t_size]. rewrite (Busy _ _ H), E. reflexivity.
  - intros i p s t E U IH [|f] busy H; [left; reflexivity|].
    pose proof (Src i (TPrefix p t) (S f) busy (u_prefix _ _ _ _ _ E U) H) as G. cbn [p_size]. rewrite (Busy _ _ H), E. cbn [lift rbind]. exact G.
  - intros i s st t E U IH [|f] busy H; [left; reflexivity|].
    pose proof (Src i (TReplace t st) (S f) busy (u_replace _ _ _ _ _ E U) H) as G. cbn [p_size]. rewrite (Busy _ _ H), E. cbn [lift rbind]. exact G.
  - intros i l ts E U IH [|f] busy H; [left; reflexivity|]. rewrite size_concat. cbn [p_size]. rewrite (Busy _ _ H), E. cbn [lift rbind].
    apply IH. intros s j I. eapply Sub; eauto. eapply u_concat; eauto.
  - intros i x E [|f] busy H; [left; reflexivity|]. right. cbn [p_size t_size]. rewrite (Busy _ _ H), E. reflexivity.
  - intros f busy _. right. reflexivity.
  - intros s t l ts U IH1 _ IH2 f busy H. cbn [p_sizes sizes].
    destruct (IH1 f busy) as [G1|G1]; [intros; eapply H; eauto; now left|left; now rewrite G1|].
    destruct (source_total t) as [w Hw]. rewrite (size_spec t w Hw) in *. rewrite G1. cbn [lift rbind bind].
    destruct (IH2 f busy) as [G2|G2]; [intros; eapply H; eauto; now right|left; now rewrite G2|].
    right. rewrite G2. destruct (sizes ts); reflexivity.
Qed.

(** ** Existence of the unfolding *)
Lemma acyclic_item h i o j : nth_error h i = Some o -> In (SRef j) (items o) -> ~ cyclic h i -> ~ cyclic h j.
Proof.
  intros E I C (k & Hr & Hc). apply C. exists k. split; [|exact Hc]. eapply rt_trans; [|exact Hr]. apply rt_step. exists o. auto.
Qed.
Lemma unfolds_of h0 i o0 : nth_error h0 i = Some o0 -> (forall s, In s (items o0) -> exists t, unfolds h0 s t) -> exists t, unfolds h0 (SRef i) t.
Proof.
  intros E K. destruct o0 as [w|w wi n|w n og|p s|s st|l|x]; cbn [items] in *.
  + eexists. eapply u_raw; eauto.
  + eexists. eapply u_original; eauto.
  + eexists. eapply u_l2l; eauto.
  + destruct (K s) as [t Ht]; [now left|]. eexists. eapply u_prefix; eauto.
  + destruct (K s) as [t Ht]; [now left|]. eexists. eapply u_replace; eauto.
  + assert (exists ts, unfolds_all h0 l ts) as [ts Hts].
    { clear -K. induction l as [|s l IHl]; [exists []; constructor|].
      destruct (K s) as [t Ht]; [now left|]. destruct IHl as [ts Hts]; [intros; apply K; now right|]. exists (t :: ts). now constructor. }
    eexists. eapply u_concat; eauto.
  + eexists. eapply u_sms; eauto.
Qed.

Lemma acyclic_unfolds h : closed h -> forall f busy i, fresh (length h) busy -> length h < f + length busy -> i < length h ->
  (forall b, In b busy -> clos_trans nat (edge h) b i) -> ~ cyclic h i -> exists t, unfolds h (SRef i) t.
Proof.
  intro C. induction f as [|f IH]; intros busy i F L Hi B Ac.
  - pose proof (fresh_le _ _ F). lia.
  - assert (Eb : is_busy busy i = false).
    { destruct (is_busy busy i) eqn:E; [|reflexivity]. apply is_busy_In in E. exfalso. apply Ac. exists i. split; [apply rt_refl|]. apply B; exact E. }
    destruct (nth_error h i) as [o|] eqn:Ei; [|apply nth_error_None in Ei; lia].
    assert (K : forall j, In (SRef j) (items o) -> exists t, unfolds h (SRef j) t).
    { intros j I. assert (Ed : edge h i j) by (exists o; auto). apply (IH (i :: busy)).
      - now apply fresh_cons.
      - cbn [length]. lia.
      - eapply C; eauto.
      - intros b [<-|Hb]; [now apply t_step|]. eapply t_trans; [apply B; exact Hb|now apply t_step].
      - eapply acyclic_item; eauto. }
    assert (K' : forall s, In s (items o) -> exists t, unfolds h s t).
    { intros [s|j] I; [eexists; constructor|auto]. }
    exact (unfolds_of h i o Ei K').
Qed.

(** A successful read shows an unfolding. *)
Definition shape : sms -> sms -> Prop := fun _ _ => True.
Lemma later_items R h0 h i o : later R (fun _ => True) h0 h -> nth_error h i = Some o ->
  exists o0, nth_error h0 i = Some o0 /\ later_obj R o0 o /\ items o0 = items o.
Proof.
  intros L E. specialize (L i I). rewrite E in L. destruct (nth_error h0 i) as [o0|] eqn:E0; [|contradiction].
  exists o0. split; [reflexivity|]. split; [exact L|]. destruct o0; cbn in L; try (now subst).
  - destruct o; try contradiction. destruct L as [-> _]. reflexivity.
  - destruct o; try contradiction. reflexivity.
Qed.
Lemma shape_keeps {A} (a : alg A) : keeps shape a.
Proof. intros x y y' v _ _. exact I. Qed.

Lemma val_unfolds {A} (a : alg A) h0 : forall f busy h s h' v, later shape (fun _ => True) h0 h ->
  h_eval a f busy h s = Val (h', v) -> exists t, unfolds h0 s t.
Proof.
  induction f as [|f IH]; intros busy h [t|i] h' v L E; try (eexists; constructor; fail).
  - discriminate.
  - rewrite h_eval_ref in E. destruct (is_busy busy i); [discriminate|]. destruct (nth_error h i) as [o|] eqn:Ei; [|discriminate].
    destruct (later_items _ _ _ _ _ L Ei) as (o0 & E0 & _ & Eit). apply (unfolds_of h0 i o0 E0). rewrite Eit. clear E0 Eit o0.
    cbn [lift rbind] in E. destruct o as [w|w wi n|w n og|p s|s st|l|x]; cbn [items]; try contradiction.
    + destruct (h_eval a f (i :: busy) h s) as [[h1 x]| |] eqn:E1; try discriminate. intros s' [<-|[]]. eauto.
    + destruct (h_eval a f (i :: busy) h s) as [[h1 x]| |] eqn:E1; try discriminate. intros s' [<-|[]]. eauto.
    + destruct (h_items (h_eval a f (i :: busy)) h l) as [[h1 xs]| |] eqn:E1; try discriminate. clear E Ei.
      revert h xs h1 L E1. induction l as [|x l IHl]; intros h xs h1 L E1; [contradiction|]. cbn [h_items] in E1.
      destruct x as [s|j].
      * cbn [rbind] in E1. destruct (h_items (h_eval a f (i :: busy)) h l) as [[h2 ys]| |] eqn:E2; try discriminate.
        intros s' [<-|Hin]; [eexists; constructor|]. eapply IHl; [exact L|exact E2|exact Hin].
      * destruct (h_eval a f (i :: busy) h (SRef j)) as [[h2 y]| |] eqn:E3; try discriminate. cbn [rbind] in E1.
        destruct (h_items (h_eval a f (i :: busy)) h2 l) as [[h3 ys]| |] eqn:E2; try discriminate.
        intros s' [<-|Hin]; [eauto|]. eapply IHl; [|exact E2|exact Hin]. eapply h_eval_later; eauto. apply shape_keeps.
Qed.
Lemma val_size_unfolds h0 : forall f busy h s h' v, later shape (fun _ => True) h0 h ->
  h_size_eval f busy h s = Val (h', v) -> exists t, unfolds h0 s t.
Proof.
  induction f as [|f IH]; intros busy h [t|i] h' v L E; try (eexists; constructor; fail).
  - discriminate.
  - rewrite h_size_ref in E. destruct (is_busy busy i); [discriminate|]. destruct (nth_error h i) as [o|] eqn:Ei; [|discriminate].
    destruct (later_items _ _ _ _ _ L Ei) as (o0 & E0 & _ & Eit).
    cbn [lift rbind] in E. destruct o as [w|w wi n|w n og|p s|s st|l|x];
      try (apply (unfolds_of h0 i o0 E0); rewrite Eit; contradiction).
    1-2: destruct (h_eval source_alg (S f) busy h (SRef i)) as [[h1 y]| |] eqn:E1; try discriminate; eapply val_unfolds; eauto.
    apply (unfolds_of h0 i o0 E0). rewrite Eit. clear E0 Eit o0 Ei. cbn [items].
    revert h h' v L E. induction l as [|x l IHl]; intros h h' v L E; [contradiction|]. cbn [h_sizes] in E.
    destruct (h_size_eval f (i :: busy) h x) as [[h2 y]| |] eqn:E3; try discriminate. cbn [rbind] in E.
    destruct (h_sizes (h_size_eval f (i :: busy)) h2 l) as [[h3 ys]| |] eqn:E2; try discriminate.
    intros s' [<-|Hin]; [eauto|]. eapply IHl; [|exact E2|exact Hin]. eapply h_size_later; eauto. apply shape_keeps.
Qed.
Lemma shape_refl h D : later shape D h h.
Proof. intros i _. destruct (nth_error h i) as [o|]; [|exact I]. destruct o; cbn; auto. split; auto. Qed.

Theorem answered_unfolds h i q a : reply h i q = Val a -> exists t, unfolds h (SRef i) t.
Proof.
  intro E. unfold reply in E. destruct (put h i q) as [[h' v]| |] eqn:Ep; try discriminate. clear E.
  destruct q; cbn [put] in Ep; unfold rmap, h_read, h_size in Ep;
    match type of Ep with rbind ?r _ = _ => destruct r as [[h1 w]| |] eqn:E1; try discriminate end;
    first [eapply val_unfolds; [apply shape_refl|exact E1] | eapply val_size_unfolds; [apply shape_refl|exact E1]].
Qed.
(** A cycle makes every question panic. *)
Theorem cyclic_panics h i q : cyclic h i -> reply h i q = Panic.
Proof.
  intro C. destruct (reply h i q) as [a| |] eqn:E; [|reflexivity|exfalso; exact (reply_fuel _ _ _ E)].
  destruct (answered_unfolds _ _ _ _ E) as [t U]. exfalso. exact (unfolds_acyclic _ _ _ U C).
Qed.
