(** When the wrappers are memory safe, and what clear() leaves behind. *)
From Verif Require Import Base Tactics ModelJs ModelPool SpecPool JsFacts PoolFacts.

Section Step.
  Variable E : kind -> Prop.
  Hypothesis HE : forall k, E k -> k = KRaw.

  (** Objects that may share pointers, and these pointers, are left alone. *)
  Definition spares (s s' : pstate) : Prop :=
    ps_raw s' = ps_raw s /\ (length (ps_objs s) <= length (ps_objs s')) /\
    (forall o k p, E k -> (nth_error (ps_objs s') o = Some (k, p) <-> nth_error (ps_objs s) o = Some (k, p))) /\
    (forall o k p, E k -> nth_error (ps_objs s) o = Some (k, p) -> In p (ps_live s) -> In p (ps_live s')).
  Lemma spares_refl s : spares s s.
  Proof. repeat split; auto; lia. Qed.
  Lemma spares_trans a b c : spares a b -> spares b c -> spares a c.
  Proof.
    intros (A1 & A2 & A3 & A4) (B1 & B2 & B3 & B4). split; [congruence|]. split; [lia|]. split.
    - intros o k p He. rewrite (B3 o k p He). now apply A3.
    - intros o k p He H1 H2. apply (B4 o k p He); [now apply A3|]. now apply (A4 o k p).
  Qed.

  (** A new object of an unshared kind. *)
  Lemma step_new s k pooled : core E s -> ~ E k ->
    let s' := add_obj (fst (alloc s)) k (ps_next s) pooled in core E s' /\ spares s s'.
  Proof.
    intros C Hk. destruct (alloc s) as [s1 p] eqn:Ea. destruct (core_alloc E s s1 p C Ea) as (C1 & -> & A1 & A2 & A3 & A4 & A5 & A6 & A7).
    cbn [fst]. split.
    - apply core_add; [exact C1|rewrite A6; now left|]. intros o k'. rewrite A1. intro H. apply (co_bound E s C) in H. lia.
    - assert (X : forall t, t = set_objs s1 (ps_objs s1 ++ [(k, ps_next s)]) \/
        t = set_pool (set_objs s1 (ps_objs s1 ++ [(k, ps_next s)])) (ps_pool s1 ++ [length (ps_objs s1)]) -> spares s t).
      { intros t Ht. assert (H1 : ps_raw t = ps_raw s1 /\ ps_objs t = ps_objs s1 ++ [(k, ps_next s)] /\ ps_live t = ps_live s1)
          by (destruct Ht; subst t; repeat split). destruct H1 as (H1 & H2 & H3). split; [congruence|]. rewrite H2, H3, A1, A6.
        split; [rewrite app_length; lia|]. split.
        - intros o k0 p He. split; [|intro H; rewrite nth_error_app1; [exact H|now apply nth_lt in H]].
          intro H. apply nth_app_one in H as [H|[_ H]]; [exact H|]. injection H as -> ->. contradiction.
        - intros o k0 p _ _ H. now right. }
      unfold add_obj. destruct pooled; apply X; auto.
  Qed.
  Lemma spares_free s s1 o k p : core E s -> ~ E k -> p <> 0 -> nth_error (ps_objs s) o = Some (k, p) ->
    ps_raw s1 = ps_raw s -> length (ps_objs s1) = length (ps_objs s) ->
    (forall q, In q (ps_live s1) <-> In q (ps_live s) /\ q <> p) ->
    (forall o', nth_error (ps_objs s1) o' = if o =? o' then Some (k, 0) else nth_error (ps_objs s) o') -> spares s s1.
  Proof.
    intros C Hk Hp Ho H1 H2 H3 H4. split; [exact H1|]. split; [lia|]. split.
    - intros o' k' p' He. rewrite H4. destruct (Nat.eqb_spec o o') as [<-|]; [|reflexivity].
      rewrite Ho. split; intro H; injection H as <- <-; contradiction.
    - intros o' k' p' He Ho' Hl. apply H3. split; [exact Hl|]. intros ->. destruct (Nat.eq_dec o' o) as [->|Hn]; [congruence|].
      destruct (co_alone E s C o' o k' k p Ho' Ho Hp Hn) as [_ X]. contradiction.
  Qed.
  Lemma kind_nth s o k p : nth_error (ps_objs s) o = Some (k, p) -> kind_of s o = k.
  Proof. unfold kind_of. now intros ->. Qed.
  Lemma core_ext s s' : core E s -> ps_objs s' = ps_objs s -> ps_live s' = ps_live s -> ps_next s' = ps_next s -> ps_pool s' = ps_pool s ->
    (forall k p, In (k, p) (ps_boot s') -> k < ps_strings s') -> core E s'.
  Proof.
    intros C H1 H2 H3 H4 H5. destruct s' as [a b c d e f g]. cbn in *. subst. destruct C. constructor; cbn; auto.
  Qed.
  Lemma boot_get_in l k p : boot_get l k = Some p -> In (k, p) l.
  Proof.
    induction l as [|[k' p'] l IH]; cbn; [discriminate|]. destruct (Nat.eqb_spec k k') as [->|]; [intro H; injection H as ->; now left|].
    intro H. right. auto.
  Qed.

  Lemma step_other s op : core E s -> (forall v, op <> PNewRaw v) -> op <> PClear ->
    (forall o, In o (handed op) -> ptr_of s o = 0 \/ In (ptr_of s o) (ps_live s)) ->
    (forall o, op = PFree o -> ~ E (kind_of s o)) ->
    exists s' e, pstep s op = Some (s', e) /\ core E s' /\ spares s s'.
  Proof.
    intros C Hr Hcl Ha Hf. assert (NO : ~ E KOther) by (intro H; apply HE in H; discriminate).
    assert (NR : ~ E KResult) by (intro H; apply HE in H; discriminate).
    assert (Hself : forall o, kind_of s o <> KRaw -> ptr_of s o = 0 \/ In (ptr_of s o) (ps_live s)).
    { intros o Ho. apply (owned_ptr E); auto. }
    destruct op as [v|b|args|args|o args|o|o|r|o|k|]; cbn [pstep handed] in *.
    - now elim (Hr v).
    - set (s0 := set_strings s (ps_strings s + 1)).
      assert (Hb : (if b then boot_get (ps_boot s0) (ps_strings s) else None) = None).
      { destruct b; [|reflexivity]. destruct (boot_get (ps_boot s0) (ps_strings s)) as [p|] eqn:Eb; [|reflexivity].
        apply boot_get_in in Eb. apply (co_boot E s C) in Eb. lia. }
      assert (C0 : core E s0).
      { eapply core_ext; [exact C|reflexivity..|]. cbn. intros k p H. apply (co_boot E s C) in H. lia. }
      rewrite Hb. destruct (step_new s0 KOther true C0 NO) as [C1 S1]. cbn zeta in *.
      destruct (alloc s0) as [s1 p] eqn:Ea. destruct (core_alloc E s0 s1 p C0 Ea) as (_ & -> & A1 & A2 & A3 & A4 & A5 & A6 & A7).
      cbn [fst] in *. eexists _, _. split; [reflexivity|]. destruct b; [|split; [exact C1|exact S1]].
      split.
      + eapply core_ext; [exact C1|reflexivity..|]. cbn. intros k p [H|H].
        * injection H as <- _. unfold s0 in A5. cbn in A5. rewrite A5. lia.
        * rewrite A4 in H. unfold s0 in H. cbn in H. apply (co_boot E s C) in H. rewrite A5. unfold s0. cbn. lia.
      + destruct S1 as (S1 & S2 & S3 & S4). exact (conj S1 (conj S2 (conj S3 S4))).
    - destruct (deref_ok s args Ha) as [e ->]. cbn [bind]. destruct e.
      + destruct (step_new s KOther true C NO) as [C1 S1]. cbn zeta in *. cbn [alloc fst] in *. eexists _, _. split; [reflexivity|auto].
      + eexists _, _. split; [reflexivity|]. split; [exact C|apply spares_refl].
    - destruct (alloc s) as [s1 p] eqn:Ea. destruct (core_alloc E s s1 p C Ea) as (C1 & -> & A1 & A2 & A3 & A4 & A5 & A6 & A7).
      destruct (deref_ok s1 args) as [e ->].
      { intros o Ho. assert (X : ptr_of s1 o = ptr_of s o) by (unfold ptr_of; now rewrite A1). rewrite X, A6. destruct (Ha o Ho); [auto|]. right. now right. }
      cbn [bind]. destruct e.
      + destruct (step_new s KOther true C NO) as [C2 S2]. cbn zeta in *. rewrite Ea in C2, S2. cbn [fst] in *. eexists _, _. split; [reflexivity|auto].
      + eexists _, _. split; [reflexivity|]. split; [exact C1|]. split; [exact A3|]. rewrite A1, A6. split; [lia|]. split; [tauto|]. intros o k p _ _ H. now right.
    - destruct (kind_of s o) eqn:Ek.
      1: eexists _, _; split; [reflexivity|]; split; [exact C|apply spares_refl].
      all: destruct (deref_ok s (o :: args)) as [e ->]; [intros o' [<-|Ho']; [apply Hself; congruence|auto]|];
        eexists _, _; split; [reflexivity|]; split; [exact C|apply spares_refl].
    - assert (X : kind_of s o = KRaw \/ kind_of s o <> KRaw) by (destruct (kind_of s o); auto; right; discriminate). destruct X as [X|X].
      + rewrite X. eexists _, _. split; [reflexivity|]. split; [exact C|apply spares_refl].
      + destruct (deref_ok s [o]) as [e He]; [intros o' [<-|[]]; auto|]. rewrite He. cbn [bind].
        destruct (step_new s KResult true C NR) as [C1 S1]. cbn zeta in *. cbn [alloc fst] in *.
        destruct (kind_of s o); [contradiction| |]; (destruct e; eexists _, _; (split; [reflexivity|]); [auto|split; [exact C|apply spares_refl]]).
    - assert (X : kind_of s o = KRaw \/ kind_of s o <> KRaw) by (destruct (kind_of s o); auto; right; discriminate). destruct X as [X|X].
      + rewrite X. eexists _, _. split; [reflexivity|]. split; [exact C|apply spares_refl].
      + destruct (deref_ok s [o]) as [e He]; [intros o' [<-|[]]; auto|]. rewrite He. cbn [bind].
        destruct (step_new s KOther false C NO) as [C1 S1]. cbn zeta in *. cbn [alloc fst] in *.
        destruct (kind_of s o); [contradiction| |]; (destruct e; eexists _, _; (split; [reflexivity|]); [auto|split; [exact C|apply spares_refl]]).
    - assert (X : exists s1, match kind_of s r with KResult => if ptr_of s r =? 0 then Some s else free_obj s r | _ => Some s end = Some s1 /\
        core E s1 /\ spares s s1).
      { destruct (kind_of s r) eqn:Ek.
        1, 3: exists s; split; [reflexivity|]; split; [exact C|apply spares_refl].
        destruct (Nat.eqb_spec (ptr_of s r) 0) as [Hp|Hp]; [exists s; split; [reflexivity|]; split; [exact C|apply spares_refl]|].
        unfold ptr_of, kind_of in *. destruct (nth_error (ps_objs s) r) as [[k p]|] eqn:Ho; [|contradiction]. subst k.
        destruct (core_free E s r KResult p C Ho Hp) as (s1 & -> & C1 & B1 & B2 & B3 & B4 & B5 & B6 & B7 & B8).
        { now apply (co_owned E s C r KResult). } { now right. }
        exists s1. split; [reflexivity|]. split; [exact C1|]. eapply (spares_free s s1 r KResult p); eauto. }
      destruct X as (s1 & -> & C1 & S1). cbn [bind].
      destruct (step_new s1 KOther true C1 NO) as [C2 S2]. cbn zeta in *. cbn [alloc fst] in *. eexists _, _. split; [reflexivity|].
      split; [exact C2|]. eapply spares_trans; eauto.
    - destruct (Nat.eqb_spec (ptr_of s o) 0) as [Hp|Hp]; [eexists _, _; split; [reflexivity|]; split; [exact C|apply spares_refl]|].
      specialize (Hf o eq_refl). unfold ptr_of, kind_of in *. destruct (nth_error (ps_objs s) o) as [[k p]|] eqn:Ho; [|contradiction].
      destruct (core_free E s o k p C Ho Hp) as (s1 & -> & C1 & B1 & B2 & B3 & B4 & B5 & B6 & B7 & B8).
      { now apply (co_owned E s C o k). } { now right. }
      cbn [bind]. eexists _, _. split; [reflexivity|]. split; [exact C1|]. eapply (spares_free s s1 o k p); eauto.
    - eexists _, _. split; [reflexivity|]. split; [|apply (spares_refl s)]. eapply core_ext; [exact C|reflexivity..|].
      cbn. intros k0 p H. apply (co_boot E s C) in H. lia.
    - contradiction.
  Qed.

  Lemma step_clear s : core E s -> exists s', pstep s PClear = Some (s', Done) /\ core E s' /\ ps_raw s' = [] /\
    ps_pool s' = [] /\ length (ps_objs s') = length (ps_objs s) /\
    (forall q, In q (ps_live s') <-> In q (ps_live s) /\ ~ exists o, In o (ps_pool s) /\ ptr_of s o = q).
  Proof.
    intro C. cbn [pstep].
    assert (F : forall l s k, free_all (set_strings s k) l = let* t := free_all s l in Some (set_strings t k)).
    { clear. induction l as [|o l IH]; intros s k; [reflexivity|]. cbn [free_all].
      change (ptr_of (set_strings s k) o) with (ptr_of s o). destruct (ptr_of s o =? 0); cbn [bind]; [apply IH|].
      unfold free_obj. change (ptr_of (set_strings s k) o) with (ptr_of s o).
      change (is_live (set_strings s k) (ptr_of s o)) with (is_live s (ptr_of s o)). destruct (is_live s (ptr_of s o)); [|reflexivity].
      cbn [bind]. exact (IH (set_live (set_objs s (set_nth_ptr (ps_objs s) o 0)) (remove Nat.eq_dec (ptr_of s o) (ps_live s))) k). }
    rewrite F. destruct (core_free_all E (rev (ps_pool s)) s C) as (t & -> & C' & A1 & A2 & A3 & A4 & A5 & A6 & A7 & A8 & A9 & A10).
    { intros x Hx. now apply in_rev. }
    cbn [bind]. eexists. split; [reflexivity|]. split; [|cbn; split; [reflexivity|]; split; [reflexivity|]; split; [exact A6|]].
    - destruct C'. constructor; cbn in *; auto; try (now intros ? []); try constructor. all: try tauto.
    - intro q. rewrite A7. split; intros [H1 H2]; (split; [exact H1|]); intros (o & H3 & H4); apply H2; exists o; (split; [|exact H4]);
        [apply in_rev; rewrite rev_involutive|apply in_rev in H3]; exact H3.
  Qed.
End Step.

Lemma js_get_in l v p : js_get l v = Some p -> In (v, p) l.
Proof.
  induction l as [|[k q] l IH]; cbn; [discriminate|]. destruct (jstr_eqb v k) eqn:Ek; [|intro H; right; auto].
  intro H. injection H as ->. apply jstr_eqb_eq in Ek. subst k. now left.
Qed.

(** Careful programs: RawSources may share wasm objects. *)
Definition is_raw (k : kind) : Prop := k = KRaw.
Definition safe_inv (b : nat) (s : pstate) : Prop :=
  core is_raw s /\ b <= length (ps_objs s) /\
  (forall v p, In (v, p) (ps_raw s) -> In p (ps_live s) /\ exists o, nth_error (ps_objs s) o = Some (KRaw, p)) /\
  (forall o p, nth_error (ps_objs s) o = Some (KRaw, p) -> b <= o -> In p (ps_live s)).

Lemma safe_new : safe_inv 0 ps_new.
Proof. split; [apply core_new|]. split; [cbn; lia|]. split; [intros v p []|]. intros o p H. destruct o; discriminate. Qed.
Lemma safe_raw b s v : safe_inv b s -> exists s', pstep s (PNewRaw v) = Some (s', Done) /\ safe_inv b s'.
Proof.
  intros (C & Hb & Hr & Ho). cbn [pstep]. destruct (js_get (ps_raw s) v) as [p|] eqn:Eg.
  - apply js_get_in in Eg. destruct (Hr v p Eg) as (Hl & o & Ho1). eexists. split; [reflexivity|]. split; [|split; [|split]].
    + now apply (core_share is_raw s KRaw o p).
    + cbn. rewrite app_length. cbn. lia.
    + cbn. intros v' p' H. destruct (Hr v' p' H) as (H1 & o' & H2). split; [exact H1|]. exists o'. rewrite nth_error_app1; [exact H2|]. now apply nth_lt in H2.
    + cbn. intros o' p' H Hb'. apply nth_app_one in H as [H|[_ H]]; [now apply (Ho o')|]. injection H as ->. exact Hl.
  - destruct (alloc s) as [s1 p] eqn:Ea. destruct (core_alloc is_raw s s1 p C Ea) as (C1 & -> & A1 & A2 & A3 & A4 & A5 & A6 & A7).
    eexists. split; [reflexivity|]. split; [|split; [|split]].
    + apply (core_add is_raw (set_raw s1 ((v, ps_next s) :: ps_raw s1)) KRaw (ps_next s) true).
      * eapply (core_ext is_raw s1); [exact C1|reflexivity..|]. cbn. exact (co_boot is_raw s1 C1).
      * cbn. rewrite A6. now left.
      * cbn. intros o k H. rewrite A1 in H. apply (co_bound is_raw s C) in H. lia.
    + cbn. rewrite app_length, A1. cbn. lia.
    + cbn. rewrite A3, A6, A1. intros v' p' [H|H].
      * injection H as <- <-. split; [now left|]. exists (length (ps_objs s)). rewrite nth_error_app2 by lia. now rewrite Nat.sub_diag.
      * destruct (Hr v' p' H) as (H1 & o' & H2). split; [now right|]. exists o'. rewrite nth_error_app1; [exact H2|]. now apply nth_lt in H2.
    + cbn. rewrite A6, A1. intros o' p' H Hb'. apply nth_app_one in H as [H|[_ H]]; [right; now apply (Ho o')|]. injection H as ->. now left.
Qed.
Lemma safe_step b s op : safe_inv b s -> careful b s op ->
  exists s' e, pstep s op = Some (s', e) /\ safe_inv (next_base b s op) s'.
Proof.
  intros I (Hh & Hf). assert (D : (exists v, op = PNewRaw v) \/ op = PClear \/ ((forall v, op <> PNewRaw v) /\ op <> PClear)).
  { destruct op; eauto; right; (now left) || (right; split; intros; discriminate). }
  destruct D as [[v ->]|[->|[Hn1 Hn2]]].
  - destruct (safe_raw b s v I) as (s' & H1 & H2). exists s', Done. auto.
  - destruct I as (C & Hb & Hr & Ho). destruct (step_clear is_raw s C) as (s' & H1 & C' & H2 & _ & H3 & _). exists s', Done. split; [exact H1|].
    cbn [next_base]. split; [exact C'|]. split; [lia|]. split; [rewrite H2; intros v p []|]. intros o p H H'. apply nth_lt in H. lia.
  - destruct I as (C & Hb & Hr & Ho). destruct (step_other is_raw (fun k H => H) s op C Hn1 Hn2) as (s' & e & H1 & C' & S1 & S2 & S3 & S4).
    + intros o Hi. rewrite Forall_forall in Hh. specialize (Hh o Hi). destruct (kind_of s o) eqn:Ek.
      * unfold ptr_of, kind_of in *. destruct (nth_error (ps_objs s) o) as [[k p]|] eqn:Eo; [|auto]. right. subst k. apply (Ho o p Eo). now apply Hh.
      * apply (owned_ptr is_raw); [exact C|]. rewrite Ek. discriminate.
      * apply (owned_ptr is_raw); [exact C|]. rewrite Ek. discriminate.
    + intros o ->. exact Hf.
    + exists s', e. split; [exact H1|]. replace (next_base b s op) with b by (destruct op; auto; contradiction).
      split; [exact C'|]. split; [lia|]. split.
      * rewrite S1. intros v p H. destruct (Hr v p H) as (Hl & o & H2). split; [now apply (S4 o KRaw p)|]. exists o. now apply S3.
      * intros o p H Hbo. apply S3 in H; [|reflexivity]. apply (S4 o KRaw p); [reflexivity|exact H|]. now apply (Ho o).
Qed.
Lemma safe_run : forall l b s, safe_inv b s -> careful_run b s l -> exists s', prun s l = Some s'.
Proof.
  induction l as [|op l IH]; intros b s I Hc; [now exists s|]. destruct Hc as (Hc & Hn).
  destruct (safe_step b s op I Hc) as (s1 & e & H1 & I1). cbn [prun]. rewrite H1. cbn [bind].
  apply (IH _ _ I1). now apply (Hn s1 e).
Qed.

(** Programs in which no two RawSources have the same text. *)
Definition no_kind (k : kind) : Prop := False.
Definition unsh_inv (seen : list jstr) (s : pstate) : Prop :=
  core no_kind s /\ (forall v p, In (v, p) (ps_raw s) -> In v seen).
Lemma unsh_step seen s op : unsh_inv seen s -> (forall v, op = PNewRaw v -> ~ In v seen) ->
  exists s' e, pstep s op = Some (s', e) /\ unsh_inv (raw_values [op] ++ seen) s'.
Proof.
  intros (C & Hr) Hv. assert (D : (exists v, op = PNewRaw v) \/ op = PClear \/ ((forall v, op <> PNewRaw v) /\ op <> PClear)).
  { destruct op; eauto; right; (now left) || (right; split; intros; discriminate). }
  destruct D as [[v ->]|[->|[Hn1 Hn2]]].
  - cbn [pstep]. destruct (js_get (ps_raw s) v) as [p|] eqn:Eg.
    { exfalso. apply (Hv v eq_refl). apply js_get_in in Eg. now apply (Hr v p). }
    destruct (alloc s) as [s1 p] eqn:Ea. destruct (core_alloc no_kind s s1 p C Ea) as (C1 & -> & A1 & A2 & A3 & A4 & A5 & A6 & A7).
    eexists _, _. split; [reflexivity|]. split.
    + apply (core_add no_kind (set_raw s1 ((v, ps_next s) :: ps_raw s1)) KRaw (ps_next s) true).
      * eapply (core_ext no_kind s1); [exact C1|reflexivity..|]. cbn. exact (co_boot no_kind s1 C1).
      * cbn. rewrite A6. now left.
      * cbn. intros o k H. rewrite A1 in H. apply (co_bound no_kind s C) in H. lia.
    + cbn. rewrite A3. intros v' p' [H|H]; [injection H as <- <-; now left|right; now apply (Hr v' p')].
  - destruct (step_clear no_kind s C) as (s' & H1 & C' & H2 & _). exists s', Done. split; [exact H1|]. split; [exact C'|]. rewrite H2. intros v p [].
  - destruct (step_other no_kind (fun k H => match H with end) s op C Hn1 Hn2) as (s' & e & H1 & C' & S1 & _).
    + intros o _. apply (owned_ptr no_kind); [exact C|auto].
    + intros o _ [].
    + exists s', e. split; [exact H1|]. split; [exact C'|]. rewrite S1. intros v p H. apply in_or_app. right. now apply (Hr v p).
Qed.
Lemma unsh_run : forall l seen s, unsh_inv seen s -> NoDup (raw_values l) -> (forall v, In v (raw_values l) -> ~ In v seen) ->
  exists s', prun s l = Some s'.
Proof.
  induction l as [|op l IH]; intros seen s I Hd Hv; [now exists s|].
  destruct (unsh_step seen s op I) as (s1 & e & H1 & I1); [intros v ->; apply Hv; now left|].
  cbn [prun]. rewrite H1. cbn [bind]. apply (IH _ _ I1).
  - destruct op; cbn in Hd; try exact Hd. now inversion Hd.
  - intros v H Hi. apply in_app_or in Hi as [Hi|Hi].
    + destruct op; cbn in Hi; try contradiction. destruct Hi as [<-|[]]. cbn in Hd. inversion Hd as [|? ? Hx]. contradiction.
    + apply (Hv v); [|exact Hi]. destruct op; cbn; auto.
Qed.

(** Everything allocated is in the pool, so clear() frees it. *)
Definition pooled_all (s : pstate) : Prop := forall q, In q (ps_live s) -> exists o, In o (ps_pool s) /\ ptr_of s o = q.
Lemma pooled_keep s s' : pooled_all s -> ps_pool s' = ps_pool s -> ps_objs s' = ps_objs s -> ps_live s' = ps_live s -> pooled_all s'.
Proof. intros H H1 H2 H3 q Hq. rewrite H1. rewrite H3 in Hq. unfold ptr_of. rewrite H2. now apply H. Qed.
Lemma ptr_app s s' k p o : ps_objs s' = ps_objs s ++ [(k, p)] -> ptr_of s o <> 0 -> ptr_of s' o = ptr_of s o.
Proof.
  intros H Hn. unfold ptr_of in *. rewrite H. destruct (nth_error (ps_objs s) o) as [[k' p']|] eqn:Eo; [|contradiction].
  rewrite nth_error_app1, Eo; [reflexivity|]. now apply nth_lt in Eo.
Qed.
Lemma pooled_add E s s' k : core E s -> pooled_all s -> ps_objs s' = ps_objs s ++ [(k, ps_next s)] ->
  ps_live s' = ps_next s :: ps_live s -> ps_pool s' = ps_pool s ++ [length (ps_objs s)] -> pooled_all s'.
Proof.
  intros C H H1 H2 H3 q Hq. rewrite H3. rewrite H2 in Hq. destruct Hq as [<-|Hq].
  - exists (length (ps_objs s)). split; [apply in_or_app; right; now left|]. unfold ptr_of. rewrite H1, nth_error_app2, Nat.sub_diag by lia. reflexivity.
  - destruct (H q Hq) as (o & Ho & Hp). exists o. split; [apply in_or_app; now left|]. rewrite (ptr_app s s' k (ps_next s)); auto.
    rewrite Hp. apply (co_live E s C) in Hq. lia.
Qed.
Lemma pooled_free s o s' : pooled_all s -> free_obj s o = Some s' -> pooled_all s'.
Proof.
  intros H Hf. unfold free_obj in Hf. destruct (is_live s (ptr_of s o)); [|discriminate]. cbn [bind] in Hf.
  assert (X : s' = set_live (set_objs s (set_nth_ptr (ps_objs s) o 0)) (remove Nat.eq_dec (ptr_of s o) (ps_live s))) by congruence. subst s'.
  intros q Hq. cbn in Hq. apply in_remove in Hq as [Hq Hn]. destruct (H q Hq) as (o' & H1 & H2). exists o'. split; [exact H1|].
  unfold ptr_of. cbn. rewrite nth_set. destruct (Nat.eqb_spec o o') as [<-|]; [congruence|exact H2].
Qed.
Lemma pooled_step E s op s' : core E s -> pooled_all s -> (forall o, op <> PNode o) -> pstep s op = Some (s', Done) -> pooled_all s'.
Proof.
  intros C H Hn Hs. destruct op as [v|b|args|args|o args|o|o|r|o|k|]; cbn [pstep] in Hs.
  - destruct (js_get (ps_raw s) v) as [p|] eqn:Eg.
    + injection Hs as <-. intros q Hq. destruct (H q Hq) as (o & Ho & Hp). exists o. split; [exact Ho|].
      rewrite (ptr_app s _ KRaw p); auto. rewrite Hp. apply (co_live E s C) in Hq. lia.
    + cbn [alloc] in Hs. injection Hs as <-. eapply (pooled_add E s); [exact C|exact H|reflexivity..].
  - destruct b.
    + destruct (boot_get _ _) as [p|] eqn:Eb.
      * injection Hs as <-. intros q Hq. destruct (H q Hq) as (o & Ho & Hp). exists o. split; [exact Ho|].
        rewrite (ptr_app s _ KOther p); auto. rewrite Hp. apply (co_live E s C) in Hq. lia.
      * cbn [alloc] in Hs. injection Hs as <-. eapply (pooled_add E s); [exact C|exact H|reflexivity..].
    + cbn [alloc] in Hs. injection Hs as <-. eapply (pooled_add E s); [exact C|exact H|reflexivity..].
  - destruct (deref s args) as [[]|]; try discriminate. cbn [bind alloc] in Hs. injection Hs as <-.
    eapply (pooled_add E s); [exact C|exact H|reflexivity..].
  - cbn [alloc] in Hs. destruct (deref _ args) as [[]|]; try discriminate. cbn [bind] in Hs. injection Hs as <-.
    eapply (pooled_add E s); [exact C|exact H|reflexivity..].
  - destruct (kind_of s o); [injection Hs as <-; exact H|..]; (destruct (deref s (o :: args)) as [e|]; [|discriminate]); cbn [bind] in Hs;
      injection Hs as <- _; exact H.
  - destruct (kind_of s o); [injection Hs as <-; exact H|..]; (destruct (deref s [o]) as [[]|]; try discriminate); cbn [bind alloc] in Hs;
      injection Hs as <-; (eapply (pooled_add E s); [exact C|exact H|reflexivity..]).
  - now elim (Hn o).
  - destruct (match kind_of s r with KResult => if ptr_of s r =? 0 then Some s else free_obj s r | _ => Some s end) as [s1|] eqn:E1; [|discriminate].
    cbn [bind alloc] in Hs. injection Hs as <-.
    assert (X : pooled_all s1 /\ (forall q, In q (ps_live s1) -> q <> 0)).
    { assert (N0 : forall q, In q (ps_live s) -> q <> 0) by (intros q Hq; apply (co_live E s C) in Hq; lia).
      destruct (kind_of s r); [injection E1 as <-; auto| |injection E1 as <-; auto].
      destruct (ptr_of s r =? 0); [injection E1 as <-; auto|]. split; [now apply (pooled_free s r)|].
      unfold free_obj in E1. destruct (is_live s (ptr_of s r)); [|discriminate]. injection E1 as <-. cbn. intros q Hq. apply in_remove in Hq as [Hq _]. auto. }
    destruct X as [X N0]. intros q Hq. cbn in Hq. destruct Hq as [<-|Hq].
    + exists (length (ps_objs s1)). split; [cbn; apply in_or_app; right; now left|]. unfold ptr_of. cbn. rewrite nth_error_app2, Nat.sub_diag by lia. reflexivity.
    + destruct (X q Hq) as (o & Ho & Hp). exists o. split; [cbn; apply in_or_app; now left|]. rewrite (ptr_app s1 _ KOther (ps_next s1)); auto.
      rewrite Hp. now apply N0.
  - destruct (ptr_of s o =? 0); [discriminate|]. destruct (free_obj s o) as [s1|] eqn:E1; [|discriminate]. injection Hs as <-. now apply (pooled_free s o).
  - injection Hs as <-. exact H.
  - destruct (step_clear E s C) as (s1 & H1 & _ & _ & _ & _ & H2). cbn [pstep] in H1. rewrite H1 in Hs. injection Hs as <-.
    intros q Hq. apply H2 in Hq as [Hq Hx]. exfalso. apply Hx. now apply H.
Qed.
Lemma clear_run : forall l b s, safe_inv b s -> pooled_all s -> careful_run b s (l ++ [PClear]) -> plain_run s (l ++ [PClear]) ->
  exists s', prun s (l ++ [PClear]) = Some s' /\ ps_live s' = [].
Proof.
  induction l as [|op l IH]; intros b s I Hp Hc Hq.
  - destruct I as (C & _). destruct (step_clear is_raw s C) as (s' & H1 & C' & _ & _ & _ & H2). exists s'. cbn [app prun]. rewrite H1.
    split; [reflexivity|]. destruct (ps_live s') as [|q r] eqn:El; [reflexivity|]. exfalso.
    assert (Hi : In q (q :: r)) by now left. apply H2 in Hi as [Hi Hx]. apply Hx. now apply Hp.
  - cbn [app] in *. destruct Hc as (Hc & Hn). destruct Hq as (Hq1 & Hq2). destruct (safe_step b s op I Hc) as (s1 & e & H1 & I1).
    destruct (Hq2 s1 e H1) as [-> Hq3]. cbn [prun]. rewrite H1. cbn [bind]. apply (IH _ _ I1).
    + eapply pooled_step; [exact (proj1 I)|exact Hp|exact Hq1|exact H1].
    + now apply (Hn s1 Done).
    + exact Hq3.
Qed.
Lemma clear_core : forall l b s, safe_inv b s -> careful_run b s l -> exists s' b', prun s l = Some s' /\ safe_inv b' s'.
Proof.
  induction l as [|op l IH]; intros b s I Hc; [now exists s, b|]. destruct Hc as (Hc & Hn).
  destruct (safe_step b s op I Hc) as (s1 & e & H1 & I1). cbn [prun]. rewrite H1. cbn [bind]. apply (IH _ _ I1). now apply (Hn s1 e).
Qed.
Lemma stale_throws : forall l s, careful_run 0 ps_new (l ++ [PClear]) -> plain_run ps_new (l ++ [PClear]) ->
  prun ps_new (l ++ [PClear]) = Some s -> forall o args, kind_of s o <> KRaw -> pstep s (PCall o args) = Some (s, Threw).
Proof.
  intros l s Hc Hq Hs o args Hk. destruct (clear_run l 0 ps_new safe_new) as (s' & H1 & H2); [intros q []|auto..].
  destruct (clear_core (l ++ [PClear]) 0 ps_new safe_new Hc) as (s2 & b' & H3 & (C & _)).
  assert (s' = s) by congruence. assert (s2 = s) by congruence. subst s' s2.
  assert (Hp : ptr_of s o = 0). { destruct (owned_ptr is_raw s o C Hk) as [H|H]; [exact H|]. rewrite H2 in H. destruct H. }
  cbn [pstep deref]. rewrite Hp. cbn. now destruct (kind_of s o).
Qed.
