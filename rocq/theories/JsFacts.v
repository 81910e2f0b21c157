(** The string cache and CachedSource. *)
From Verif Require Import Base Tactics ModelString ModelVlq ModelSm ModelSlm ModelJs.
From Verif Require Export SpecCalls.

(** ** StringCache *)
Lemma jstr_eqb_eq a b : jstr_eqb a b = true <-> a = b.
Proof.
  revert b; induction a as [|x a IH]; intros [|y b]; cbn; try (split; congruence).
  rewrite andb_true_iff, N.eqb_eq, IH. split; [intros [-> ->]; reflexivity|]. intro H. injection H as -> ->. auto.
Qed.

Definition cache_ok (c : cache) : Prop := forall s i, cache_index_of c s = Some i -> nth_error (ca_array c) i = Some s.
Definition grows (c c' : cache) : Prop :=
  (exists l, ca_array c' = ca_array c ++ l) /\
  (forall s i, cache_index_of c s = Some i -> cache_index_of c' s = Some i).

Lemma grows_refl c : grows c c.
Proof. split; [exists []; now rewrite app_nil_r|auto]. Qed.
Lemma grows_trans a b c : grows a b -> grows b c -> grows a c.
Proof. intros [[l E] H] [[l' E'] H']. split; [exists (l ++ l'); now rewrite E', E, app_assoc|auto]. Qed.

Lemma cache_do_spec c o c' i : cache_ok c -> cache_do c o = (c', i) ->
  cache_ok c' /\ grows c c' /\ nth_error (ca_array c') i = Some (call_str o) /\
  (forall s, o = CAdd s -> cache_index_of c' s = Some i).
Proof.
  intros Hc E.
  assert (Hend : forall s, nth_error (ca_array c ++ [s]) (length (ca_array c)) = Some s).
  { intro s. rewrite nth_error_app2, Nat.sub_diag by lia. reflexivity. }
  assert (Hold : forall s i l, nth_error (ca_array c) i = Some s -> nth_error (ca_array c ++ l) i = Some s).
  { intros s j l H. rewrite nth_error_app1; [exact H|]. apply nth_error_Some. congruence. }
  destruct o as [s|s]; cbn [cache_do call_str] in *.
  - unfold cache_add in E. destruct (cache_index_of c s) as [j|] eqn:Ei.
    + injection E as <- <-. split; [exact Hc|]. split; [apply grows_refl|]. split; [auto|]. intros s0 H. injection H as <-. exact Ei.
    + injection E as <- <-.
      assert (Hi : forall s', cache_index_of (mk_cache (ca_array c ++ [s]) ((s, length (ca_array c)) :: ca_set c)) s' =
                   if jstr_eqb s' s then Some (length (ca_array c)) else cache_index_of c s') by reflexivity.
      split; [|split; [split|split]].
      * intros s' j. rewrite Hi. cbn [ca_array]. destruct (jstr_eqb s' s) eqn:Es.
        -- apply jstr_eqb_eq in Es. subst. intro H. injection H as <-. apply Hend.
        -- intro H. auto.
      * exists [s]. reflexivity.
      * intros s' j H. rewrite Hi. destruct (jstr_eqb s' s) eqn:Es; [|exact H]. apply jstr_eqb_eq in Es. subst. congruence.
      * apply Hend.
      * intros s0 H. injection H as <-. rewrite Hi. now replace (jstr_eqb s s) with true by (symmetry; now apply jstr_eqb_eq).
  - injection E as <- <-. split; [|split; [split|split]].
    + intros s' j H. cbn. apply Hold. exact (Hc s' j H).
    + exists [s]. reflexivity.
    + auto.
    + apply Hend.
    + discriminate.
Qed.
Lemma cache_run_spec : forall l c c' is, cache_ok c -> cache_run c l = (c', is) ->
  cache_ok c' /\ grows c c' /\
  Forall2 (fun o i => nth_error (ca_array c') i = Some (call_str o) /\ (forall s, o = CAdd s -> cache_index_of c' s = Some i)) l is.
Proof.
  induction l as [|o l IH]; intros c c' is Hc E; cbn [cache_run] in E.
  - injection E as <- <-. split; [exact Hc|]. split; [apply grows_refl|constructor].
  - destruct (cache_do c o) as [c1 i] eqn:E1. destruct (cache_run c1 l) as [c2 js] eqn:E2. injection E as <- <-.
    destruct (cache_do_spec _ _ _ _ Hc E1) as (O1 & G1 & N1 & I1). destruct (IH _ _ _ O1 E2) as (O2 & G2 & F).
    split; [exact O2|]. split; [eapply grows_trans; eauto|]. constructor; [|exact F]. destruct G2 as [[l' El] G2].
    split; [|intros s H; apply G2; auto]. rewrite El, nth_error_app1; [exact N1|]. apply nth_error_Some. congruence.
Qed.
Lemma cache_at_nth c i s : nth_error (ca_array c) i = Some s -> cache_at c (Z.of_nat i) = Some (Some s).
Proof.
  intro H. unfold cache_at. assert (i < length (ca_array c)) by (apply nth_error_Some; congruence).
  destruct (Z.ltb_spec (Z.of_nat i) 0); [lia|]. destruct (Z.ltb_spec (Z.of_nat i) (Z.of_nat (length (ca_array c)))); [|lia].
  rewrite Nat2Z.id, H. reflexivity.
Qed.

(** Everything the cache promises about a history without clear(). *)
Theorem cache_faithful l c is : cache_run cache_empty l = (c, is) ->
  length is = length l /\
  cache_resolve c (map Z.of_nat is) = Some (map (fun o => Some (call_str o)) l) /\
  (forall k o i, nth_error l k = Some o -> nth_error is k = Some i ->
     cache_at c (Z.of_nat i) = Some (Some (call_str o))) /\
  (forall k k' s s' i i', nth_error l k = Some (CAdd s) -> nth_error is k = Some i ->
     nth_error l k' = Some (CAdd s') -> nth_error is k' = Some i' -> (i = i' <-> s = s')).
Proof.
  intro E. assert (H0 : cache_ok cache_empty) by (intros s i H; discriminate).
  destruct (cache_run_spec _ _ _ _ H0 E) as (O & _ & F). clear E.
  assert (P : forall k o i, nth_error l k = Some o -> nth_error is k = Some i ->
     nth_error (ca_array c) i = Some (call_str o) /\ (forall s, o = CAdd s -> cache_index_of c s = Some i)).
  { clear O. induction F as [|o i l is H _ IH]; intros [|k] o' i'; cbn; try discriminate; [|apply IH].
    intros A B. injection A as <-. injection B as <-. exact H. }
  split; [clear - F; induction F; cbn; congruence|]. split; [|split].
  - clear P. induction F as [|o i l is [H _] _ IH]; [reflexivity|]. cbn [map cache_resolve].
    rewrite (cache_at_nth _ _ _ H). cbn [bind]. rewrite IH. reflexivity.
  - intros k o i A B. apply cache_at_nth. eapply P; eauto.
  - intros k k' s s' i i' A B A' B'. destruct (P _ _ _ A B) as [P1 P2]. destruct (P _ _ _ A' B') as [P3 P4]. cbn [call_str] in *.
    specialize (P2 s eq_refl). specialize (P4 s' eq_refl). split; intros ->; congruence.
Qed.
(** An index stays valid. *)
Theorem cache_forever l1 l2 c1 is1 c2 is2 i s : cache_run cache_empty l1 = (c1, is1) -> cache_run c1 l2 = (c2, is2) ->
  cache_at c1 i = Some s -> cache_at c2 i = Some s.
Proof.
  intros E1 E2. assert (H0 : cache_ok cache_empty) by (intros ? ? H; discriminate).
  destruct (cache_run_spec _ _ _ _ H0 E1) as (O1 & _ & _). destruct (cache_run_spec _ _ _ _ O1 E2) as (_ & [[l El] _] & _).
  unfold cache_at. destruct (Z.ltb_spec i 0); [auto|]. rewrite El, app_length.
  destruct (Z.ltb_spec i (Z.of_nat (length (ca_array c1)))); [|discriminate].
  destruct (Z.ltb_spec i (Z.of_nat (length (ca_array c1) + length l))); [|lia].
  rewrite nth_error_app1 by lia. auto.
Qed.

(** ** CachedSource *)
Section Cached.
  Context {M : Type} (w : wrapped M).

  Definition faithful (c : cached M) : Prop :=
    (forall s, cd_source c = Some s -> s = w_source w) /\
    (forall n, cd_size c = Some n -> n = w_size w) /\
    (forall o m, maps_get (cd_maps c) o = Some m -> m = w_map w o).

  Lemma optb_eqb_eq a b : optb_eqb a b = true -> a = b.
  Proof. destruct a as [[]|], b as [[]|]; cbn; congruence. Qed.
  Lemma jopt_eqb_eq a b : jopt_eqb a b = true -> a = b.
  Proof.
    destruct a, b; cbn; try congruence. rewrite andb_true_iff. intros [H1 H2].
    apply optb_eqb_eq in H1. apply optb_eqb_eq in H2. now subst.
  Qed.
  Lemma faithful_put c s n o m : faithful c -> (forall t, s = Some t -> t = w_source w) -> (forall k, n = Some k -> k = w_size w) ->
    m = w_map w o -> faithful (mk_cached s n ((o, m) :: cd_maps c)).
  Proof.
    intros (H1 & H2 & H3) Hs Hn Hm. split; [exact Hs|]. split; [exact Hn|]. cbn [cd_maps maps_get]. intros o' m'.
    destruct (jopt_eqb o' o) eqn:E; [|auto]. apply jopt_eqb_eq in E. subst. congruence.
  Qed.

  Lemma ask_faithful c q c' a : consistent w -> harmless w q -> faithful c -> ask w c q = (c', a) -> faithful c' /\ a = direct w q.
  Proof.
    intros [W1 W2] Hq F E. pose proof F as (F1 & F2 & F3). destruct q as [| |o|o]; cbn [ask direct harmless] in *.
    - unfold cached_source in E. destruct (cd_source c) as [s|] eqn:Es; injection E as <- <-.
      + split; [exact F|]. now rewrite (F1 s eq_refl).
      + split; [|reflexivity]. split; [cbn; congruence|]. split; [exact F2|exact F3].
    - unfold cached_size in E. destruct (cd_size c) as [n|] eqn:En; injection E as <- <-.
      + split; [exact F|]. now rewrite (F2 n eq_refl).
      + assert (X : (match cd_source c with Some s => length s | None => w_size w end) = w_size w).
        { destruct (cd_source c) as [s|] eqn:Es; [|reflexivity]. now rewrite (F1 s eq_refl). }
        rewrite X. split; [|reflexivity]. split; [exact F1|]. split; [cbn; congruence|exact F3].
    - unfold cached_map in E. set (o' := match o with JUndef => JObj None None | _ => o end) in *.
      assert (Eo : w_map w o' = w_map w o) by (destruct o; [now rewrite W2|reflexivity]).
      destruct (maps_get (cd_maps c) o') as [m|] eqn:Em; injection E as <- <-.
      + split; [exact F|]. rewrite (F3 _ _ Em), Eo. reflexivity.
      + split; [|now rewrite <- Hq]. apply faithful_put; [exact F|exact F1|exact F2|]. congruence.
    - unfold cached_source_and_map in E. rewrite W1 in *. cbn [fst snd].
      destruct (cd_source c) as [s|] eqn:Es; [pose proof (F1 s eq_refl) as Hs; subst s|];
        (destruct (maps_get (cd_maps c) o) as [m|] eqn:Em; [pose proof (F3 _ _ Em) as Hm; subst m|]);
        injection E as <- <-; (split; [|reflexivity]).
      + exact F.
      + apply faithful_put; auto.
      + split; [cbn; congruence|]. split; [exact F2|exact F3].
      + apply faithful_put; auto. intros t H. congruence.
  Qed.

  Theorem cached_faithful l c out : consistent w -> Forall (harmless w) l -> ask_all w cached_new l = (c, out) -> out = map (direct w) l.
  Proof.
    intros W H. assert (F : faithful cached_new) by (split; [|split]; intros; discriminate).
    revert F c out. generalize (@cached_new M) as c0. induction H as [|q l Hq _ IH]; intros c0 F c out E; cbn [ask_all] in E.
    - injection E as <- <-. reflexivity.
    - destruct (ask w c0 q) as [c1 a] eqn:E1. destruct (ask_all w c1 l) as [c2 as_] eqn:E2. injection E as <- <-.
      destruct (ask_faithful _ _ _ _ W Hq F E1) as [F1 ->]. cbn [map]. f_equal. eapply IH; eauto.
  Qed.
End Cached.
