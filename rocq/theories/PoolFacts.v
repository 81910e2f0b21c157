(** Ownership of wasm objects. *)
From Verif Require Import Base Tactics ModelJs ModelPool SpecPool JsFacts.

Lemma is_live_in s p : is_live s p = true <-> In p (ps_live s).
Proof.
  unfold is_live. rewrite existsb_exists. split.
  - intros (x & H & E). apply Nat.eqb_eq in E. now subst.
  - intro H. exists p. split; [exact H|apply Nat.eqb_refl].
Qed.
Lemma nth_set l o p : forall o', nth_error (set_nth_ptr l o p) o' =
  if o =? o' then match nth_error l o with Some (k, _) => Some (k, p) | None => None end else nth_error l o'.
Proof.
  revert o. induction l as [|[k q] l IH]; intros [|o] [|o']; cbn [set_nth_ptr nth_error Nat.eqb]; try reflexivity.
  - now destruct (o =? o').
  - apply IH.
Qed.
Lemma len_set l o p : length (set_nth_ptr l o p) = length l.
Proof. revert o. induction l as [|[k q] l IH]; intros [|o]; cbn; auto. Qed.

Section Core.
  (** The kinds of objects that may share a pointer. *)
  Variable E : kind -> Prop.

  Record core (s : pstate) : Prop := mk_core {
    co_live : forall p, In p (ps_live s) -> 1 <= p < ps_next s;
    co_bound : forall o k p, nth_error (ps_objs s) o = Some (k, p) -> p < ps_next s;
    co_owned : forall o k p, nth_error (ps_objs s) o = Some (k, p) -> p <> 0 -> ~ E k -> In p (ps_live s);
    co_alone : forall o o' k k' p, nth_error (ps_objs s) o = Some (k, p) -> nth_error (ps_objs s) o' = Some (k', p) ->
      p <> 0 -> o <> o' -> E k /\ E k';
    co_next : 1 <= ps_next s;
    co_pool_dup : NoDup (ps_pool s);
    co_pool : forall o, In o (ps_pool s) -> exists k p, nth_error (ps_objs s) o = Some (k, p) /\ (p <> 0 -> In p (ps_live s));
    co_pool_ptr : forall o o' k k' p, In o (ps_pool s) -> In o' (ps_pool s) ->
      nth_error (ps_objs s) o = Some (k, p) -> nth_error (ps_objs s) o' = Some (k', p) -> p <> 0 -> o = o';
    co_boot : forall k p, In (k, p) (ps_boot s) -> k < ps_strings s }.

  Ltac keep C := first [exact (co_live _ C) | exact (co_bound _ C) | exact (co_owned _ C) | exact (co_alone _ C) | exact (co_next _ C) |
    exact (co_pool_dup _ C) | exact (co_pool _ C) | exact (co_pool_ptr _ C) | exact (co_boot _ C)].

  Lemma core_new : core ps_new.
  Proof.
    constructor; cbn; try tauto; try lia; try (intros [|]; discriminate); try constructor.
  Qed.

  (** A new wasm object. *)
  Lemma core_alloc s s1 p : core s -> alloc s = (s1, p) -> core s1 /\ p = ps_next s /\ ps_objs s1 = ps_objs s /\ ps_pool s1 = ps_pool s /\
    ps_raw s1 = ps_raw s /\ ps_boot s1 = ps_boot s /\ ps_strings s1 = ps_strings s /\ ps_live s1 = p :: ps_live s /\ ps_next s1 = S p.
  Proof.
    intros C H. injection H as <- <-. split; [|repeat split].
    constructor; cbn [ps_objs ps_live ps_next ps_pool ps_raw ps_boot ps_strings]; try keep C.
    - intros p [<-|H]; [pose proof (co_next s C); lia|]. apply (co_live s C) in H. lia.
    - intros o k p H. apply (co_bound s C) in H. lia.
    - intros o k p H Hp He. right. now apply (co_owned s C o k p).
    - pose proof (co_next s C). lia.
    - intros o Ho. destruct (co_pool s C o Ho) as (k & p & H1 & H2). exists k, p. split; [exact H1|]. intro Hp. right. auto.
  Qed.

  (** A new object with a pointer nobody else has. *)
  Lemma nth_app_one {A} (l : list A) x o y : nth_error (l ++ [x]) o = Some y -> nth_error l o = Some y \/ o = length l /\ y = x.
  Proof.
    intro H. destruct (Nat.lt_ge_cases o (length l)) as [L|L]; [left; now rewrite nth_error_app1 in H by exact L|].
    right. rewrite nth_error_app2 in H by exact L. destruct (o - length l) as [|d] eqn:Ed; [|destruct d; discriminate].
    cbn in H. injection H as <-. split; [lia|reflexivity].
  Qed.
  Lemma nth_lt {A} (l : list A) o y : nth_error l o = Some y -> o < length l.
  Proof. intro H. apply nth_error_Some. congruence. Qed.
  Lemma core_add s k p pooled : core s -> In p (ps_live s) -> (forall o k', nth_error (ps_objs s) o <> Some (k', p)) ->
    core (add_obj s k p pooled).
  Proof.
    intros C Hl Hf. assert (Hn : p <> 0) by (apply (co_live s C) in Hl; lia).
    assert (Hb : p < ps_next s) by (apply (co_live s C) in Hl; lia).
    assert (Hlt : forall o, In o (ps_pool s) -> o < length (ps_objs s)).
    { intros o Ho. destruct (co_pool s C o Ho) as (k0 & p0 & H1 & _). now apply nth_lt in H1. }
    assert (H0 : forall l, l = ps_pool s \/ l = ps_pool s ++ [length (ps_objs s)] ->
      core (mk_ps (ps_objs s ++ [(k, p)]) (ps_live s) (ps_next s) l (ps_raw s) (ps_boot s) (ps_strings s))).
    2: { unfold add_obj. destruct pooled; apply H0; auto. }
    intros l Hll.
    assert (Hin : forall o, In o l -> In o (ps_pool s) \/ o = length (ps_objs s)).
    { intros o Ho. destruct Hll; subst l; [auto|]. apply in_app_iff in Ho as [Ho|[Ho|[]]]; auto. }
    constructor; cbn [ps_objs ps_live ps_next ps_pool ps_raw ps_boot ps_strings]; try keep C.
    - intros o k0 p0 H. apply nth_app_one in H as [H|[_ H]]; [now apply (co_bound s C) in H|]. injection H as -> ->. exact Hb.
    - intros o k0 p0 H Hp He. apply nth_app_one in H as [H|[_ H]]; [now apply (co_owned s C o k0)|]. injection H as -> ->. exact Hl.
    - intros o o' k0 k' p0 H H' Hp Ho. apply nth_app_one in H, H'. destruct H as [H|[Eo H]], H' as [H2|[Eo' H2]].
      + now apply (co_alone s C o o' k0 k' p0).
      + injection H2 as -> ->. exfalso. now apply (Hf o k0).
      + injection H as -> ->. exfalso. now apply (Hf o' k').
      + exfalso. congruence.
    - destruct Hll; subst l; [apply C|].
      clear -C Hlt. pose proof (co_pool_dup s C) as D. revert D Hlt. generalize (length (ps_objs s)). generalize (ps_pool s).
      induction l as [|x l IH]; intros n D Hlt; cbn; [repeat constructor; auto|].
      inversion D as [|? ? D1 D2]; subst. constructor.
      + rewrite in_app_iff. intros [H|[H|[]]]; [contradiction|]. subst. specialize (Hlt x (or_introl eq_refl)). lia.
      + apply IH; [exact D2|]. intros o Ho. apply Hlt. now right.
    - intros o Ho. apply Hin in Ho as [Ho| ->].
      + destruct (co_pool s C o Ho) as (k0 & p0 & H1 & H2). exists k0, p0. split; [|exact H2].
        rewrite nth_error_app1; [exact H1|]. now apply nth_lt in H1.
      + exists k, p. split; [|auto]. rewrite nth_error_app2, Nat.sub_diag by lia. reflexivity.
    - intros o o' k0 k' p0 Ho Ho' H H' Hp. apply Hin in Ho, Ho'.
      apply nth_app_one in H, H'. destruct H as [H|[Eo H]], H' as [H2|[Eo' H2]].
      + destruct Ho as [Ho| ->]; [|apply nth_lt in H; lia]. destruct Ho' as [Ho'| ->]; [|apply nth_lt in H2; lia].
        now apply (co_pool_ptr s C o o' k0 k' p0).
      + injection H2 as -> ->. exfalso. now apply (Hf o k0).
      + injection H as -> ->. exfalso. now apply (Hf o' k').
      + congruence.
  Qed.

  (** A second object with the pointer of a RawSource. *)
  Lemma core_share s k o p : core s -> E k -> In p (ps_live s) -> nth_error (ps_objs s) o = Some (k, p) -> core (add_obj s k p false).
  Proof.
    intros C He Hl Ho. assert (Hb : p < ps_next s) by (apply (co_live s C) in Hl; lia).
    unfold add_obj. constructor; cbn [set_objs ps_objs ps_live ps_next ps_pool ps_raw ps_boot ps_strings]; try keep C.
    - intros o0 k0 p0 H. apply nth_app_one in H as [H|[_ H]]; [now apply (co_bound s C) in H|]. injection H as -> ->. exact Hb.
    - intros o0 k0 p0 H Hp Hn. apply nth_app_one in H as [H|[_ H]]; [now apply (co_owned s C o0 k0)|]. injection H as -> ->. exact Hl.
    - assert (Hx : forall o1 k1, nth_error (ps_objs s) o1 = Some (k1, p) -> p <> 0 -> E k1).
      { intros o1 k1 H1 Hp. destruct (Nat.eq_dec o1 o) as [->|Hn]; [congruence|]. now apply (co_alone s C o1 o k1 k p). }
      intros o1 o2 k1 k2 p0 H1 H2 Hp Hn. apply nth_app_one in H1, H2. destruct H1 as [H1|[E1 H1]], H2 as [H2|[E2 H2]].
      + now apply (co_alone s C o1 o2 k1 k2 p0).
      + injection H2 as -> ->. split; [eapply Hx; eauto|exact He].
      + injection H1 as -> ->. split; [exact He|eapply Hx; eauto].
      + congruence.
    - intros o0 H0. destruct (co_pool s C o0 H0) as (k0 & p0 & H1 & H2). exists k0, p0. split; [|exact H2].
      rewrite nth_error_app1; [exact H1|]. now apply nth_lt in H1.
    - intros o1 o2 k1 k2 p0 I1 I2 H1 H2 Hp.
      assert (Hlt : forall o, In o (ps_pool s) -> o < length (ps_objs s)).
      { intros o3 H3. destruct (co_pool s C o3 H3) as (k3 & p3 & H4 & _). now apply nth_lt in H4. }
      rewrite nth_error_app1 in H1, H2 by auto. now apply (co_pool_ptr s C o1 o2 k1 k2 p0).
  Qed.

  (** Freeing. *)
  Lemma ptr_nth s o k p : nth_error (ps_objs s) o = Some (k, p) -> ptr_of s o = p.
  Proof. unfold ptr_of. now intros ->. Qed.
  Lemma in_remove p q l : In q (remove Nat.eq_dec p l) <-> In q l /\ q <> p.
  Proof. split; [apply in_remove|]. intros [H1 H2]. now apply in_in_remove. Qed.
  Lemma core_free s o k p : core s -> nth_error (ps_objs s) o = Some (k, p) -> p <> 0 -> In p (ps_live s) ->
    In o (ps_pool s) \/ ~ E k ->
    exists s', free_obj s o = Some s' /\ core s' /\ ps_pool s' = ps_pool s /\ ps_raw s' = ps_raw s /\ ps_boot s' = ps_boot s /\
      ps_strings s' = ps_strings s /\ ps_next s' = ps_next s /\ length (ps_objs s') = length (ps_objs s) /\
      (forall q, In q (ps_live s') <-> In q (ps_live s) /\ q <> p) /\
      (forall o', nth_error (ps_objs s') o' = if o =? o' then Some (k, 0) else nth_error (ps_objs s) o').
  Proof.
    intros C Ho Hp Hl Hc. unfold free_obj. rewrite (ptr_nth _ _ _ _ Ho). rewrite (proj2 (is_live_in s p) Hl).
    eexists. split; [reflexivity|].
    assert (Hn : forall o', nth_error (set_nth_ptr (ps_objs s) o 0) o' = if o =? o' then Some (k, 0) else nth_error (ps_objs s) o').
    { intro o'. rewrite nth_set, Ho. reflexivity. }
    split; [|do 5 (split; [reflexivity|]); split; [apply len_set|]; split; [intro q; apply in_remove|exact Hn]].
    constructor; cbn [set_live set_objs ps_objs ps_live ps_next ps_pool ps_raw ps_boot ps_strings]; try keep C.
    - intros q H. apply in_remove in H as [H _]. now apply (co_live s C).
    - intros o0 k0 p0. rewrite Hn. destruct (o =? o0); [intro H; injection H as <- <-; pose proof (co_next s C); lia|apply (co_bound s C)].
    - intros o0 k0 p0. rewrite Hn. destruct (Nat.eqb_spec o o0) as [<-|Hne]; [intro H; injection H as <- <-; lia|]. intros H H0 He.
      apply in_remove. split; [now apply (co_owned s C o0 k0)|]. intros ->.
      destruct (co_alone s C o0 o k0 k p H Ho Hp) as [X _]; [congruence|contradiction].
    - intros o1 o2 k1 k2 p0. rewrite !Hn. destruct (o =? o1); [intro H; injection H as <- <-; congruence|].
      destruct (o =? o2); [intros _ H; injection H as <- <-; congruence|]. apply (co_alone s C).
    - intros o0 H0. destruct (co_pool s C o0 H0) as (k0 & p0 & H1 & H2). rewrite Hn. destruct (Nat.eqb_spec o o0) as [<-|Hne].
      + exists k, 0. split; [reflexivity|congruence].
      + exists k0, p0. split; [exact H1|]. intro H3. apply in_remove. split; [auto|]. intros ->. destruct Hc as [Hc|Hc].
        * apply Hne. symmetry. now apply (co_pool_ptr s C o0 o k0 k p).
        * destruct (co_alone s C o0 o k0 k p H1 Ho Hp) as [_ X]; [congruence|contradiction].
    - intros o1 o2 k1 k2 p0 I1 I2. rewrite !Hn. destruct (Nat.eqb_spec o o1) as [<-|N1]; [intro H; injection H as <- <-; congruence|].
      destruct (Nat.eqb_spec o o2) as [<-|N2]; [intros _ H; injection H as <- <-; congruence|]. now apply (co_pool_ptr s C).
  Qed.

  Lemma core_free_all : forall l s, core s -> incl l (ps_pool s) ->
    exists s', free_all s l = Some s' /\ core s' /\ ps_pool s' = ps_pool s /\ ps_raw s' = ps_raw s /\ ps_boot s' = ps_boot s /\
      ps_strings s' = ps_strings s /\ ps_next s' = ps_next s /\ length (ps_objs s') = length (ps_objs s) /\
      (forall q, In q (ps_live s') <-> In q (ps_live s) /\ ~ exists o, In o l /\ ptr_of s o = q) /\
      (forall o', ~ In o' l -> nth_error (ps_objs s') o' = nth_error (ps_objs s) o') /\
      (forall o', kind_of s' o' = kind_of s o') /\ (forall o', In o' l -> ptr_of s' o' = 0).
  Proof.
    induction l as [|o l IH]; intros s C Hi.
    { exists s. split; [reflexivity|]. split; [exact C|]. do 6 (split; [reflexivity|]). split; [|split; [auto|split; [auto|now intros o' []]]].
      intro q. split; [|tauto]. intro H. split; [exact H|]. now intros (o & [] & _). }
    cbn [free_all]. assert (Hip : In o (ps_pool s)) by (apply Hi; now left).
    destruct (co_pool s C o Hip) as (k & p & Ho & Hl). rewrite (ptr_nth _ _ _ _ Ho). destruct (Nat.eqb_spec p 0) as [->|Hp].
    - cbn [bind]. destruct (IH s C) as (s' & -> & C' & A1 & A2 & A3 & A4 & A5 & A6 & A7 & A8 & A9 & A10); [intros x Hx; apply Hi; now right|].
      exists s'. split; [reflexivity|]. split; [exact C'|]. do 6 (split; [assumption|]). split; [|split; [|split; [exact A9|]]].
      + intro q. rewrite A7. split; intros [H1 H2]; (split; [exact H1|]); intros (o1 & H3 & H4); apply H2.
        * destruct H3 as [<-|H3]; [|eauto]. rewrite (ptr_nth _ _ _ _ Ho) in H4. subst q. apply (co_live s C) in H1. lia.
        * exists o1. split; [now right|exact H4].
      + intros o' H. apply A8. intro H'. apply H. now right.
      + intros o' [<-|H]; [|auto]. destruct (in_dec Nat.eq_dec o l) as [H|H]; [auto|].
        unfold ptr_of. rewrite (A8 o H), Ho. reflexivity.
    - destruct (core_free s o k p C Ho Hp (Hl Hp) (or_introl Hip)) as (s1 & -> & C1 & B1 & B2 & B3 & B4 & B5 & B6 & B7 & B8). cbn [bind].
      destruct (IH s1 C1) as (s' & -> & C' & A1 & A2 & A3 & A4 & A5 & A6 & A7 & A8 & A9 & A10); [rewrite B1; intros x Hx; apply Hi; now right|].
      assert (Hp1 : forall o', ptr_of s1 o' = if o =? o' then 0 else ptr_of s o').
      { intro o'. unfold ptr_of. rewrite B8. now destruct (o =? o'). }
      exists s'. split; [reflexivity|]. split; [exact C'|]. do 6 (split; [congruence|]). split; [|split; [|split]].
      + intro q. rewrite A7, B7. split.
        * intros ((H1 & H2) & H3). split; [exact H1|]. intros (o1 & H4 & H5). destruct H4 as [<-|H4].
          -- rewrite (ptr_nth _ _ _ _ Ho) in H5. congruence.
          -- apply H3. exists o1. split; [exact H4|]. rewrite Hp1. destruct (Nat.eqb_spec o o1) as [<-|]; [|exact H5].
             rewrite (ptr_nth _ _ _ _ Ho) in H5. congruence.
        * intros (H1 & H2). assert (q <> p).
          { intros ->. apply H2. exists o. split; [now left|]. now apply (ptr_nth _ _ k). }
          repeat split; auto. intros (o1 & H4 & H5). rewrite Hp1 in H5. destruct (Nat.eqb_spec o o1) as [<-|].
          -- subst q. apply (co_live s C) in H1. lia.
          -- apply H2. exists o1. split; [now right|exact H5].
      + intros o' H. rewrite A8 by (intro H'; apply H; now right). rewrite B8. destruct (Nat.eqb_spec o o') as [<-|]; [|reflexivity].
        exfalso. apply H. now left.
      + intro o'. rewrite A9. unfold kind_of. rewrite B8. destruct (Nat.eqb_spec o o') as [<-|]; [|reflexivity]. now rewrite Ho.
      + intros o' [<-|H]; [|auto]. destruct (in_dec Nat.eq_dec o l) as [H|H]; [auto|].
        unfold ptr_of. rewrite (A8 o H), B8, Nat.eqb_refl. reflexivity.
  Qed.

  Lemma deref_ok s : forall l, (forall o, In o l -> ptr_of s o = 0 \/ In (ptr_of s o) (ps_live s)) -> exists e, deref s l = Some e.
  Proof.
    induction l as [|o l IH]; intro H; cbn [deref]; [eauto|]. destruct (Nat.eqb_spec (ptr_of s o) 0); [eauto|].
    destruct (H o (or_introl eq_refl)) as [H1|H1]; [contradiction|]. rewrite (proj2 (is_live_in _ _) H1).
    apply IH. intros o' Ho. apply H. now right.
  Qed.
  Lemma owned_ptr s o : core s -> ~ E (kind_of s o) -> ptr_of s o = 0 \/ In (ptr_of s o) (ps_live s).
  Proof.
    intros C H. unfold ptr_of, kind_of in *. destruct (nth_error (ps_objs s) o) as [[k p]|] eqn:Ho; [|auto].
    destruct (Nat.eq_dec p 0); [auto|]. right. now apply (co_owned s C o k).
  Qed.
End Core.
