(** Trees that an expression can have: the numbers in them are those that the cache has for
    the strings. *)
From Verif Require Import Base Tactics ModelString ModelVlq ModelSm ModelSlm ModelSources ModelTree ModelWasm
  ModelJs ModelJsApi ModelJsResult SpecMap SpecAttr JsFacts SpecJs ModelEnd SpecEnd EndFacts.

Fixpoint jexpr_ind' (X : jexpr -> Prop) (H1 : forall s, X (XStr s)) (H2 : forall v, X (XRaw v)) (H3 : forall v n, X (XOriginal v n))
    (H4 : forall v n o, X (XL2L v n o)) (H5 : forall p e, X e -> X (XPrefix p e)) (H6 : forall e h, X e -> X (XEdit e h))
    (H7 : forall l, Forall X l -> X (XConcat l)) (H8 : forall v n m o i, X (XSms v n m o i)) (e : jexpr) : X e :=
  let rec := jexpr_ind' X H1 H2 H3 H4 H5 H6 H7 H8 in
  match e with
  | XStr s => H1 s
  | XRaw v => H2 v
  | XOriginal v n => H3 v n
  | XL2L v n o => H4 v n o
  | XPrefix p e => H5 p e (rec e)
  | XEdit e h => H6 e h (rec e)
  | XConcat l => H7 l ((fix go l : Forall X l := match l with [] => Forall_nil _ | x :: r => Forall_cons _ (rec x) (go r) end) l)
  | XSms v n m o i => H8 v n m o i
  end.

Section Made.
  Variable c : cache.
  Fixpoint made (e : jexpr) (t : jtree) : Prop :=
    match e with
    | XStr s => t = JStr s
    | XRaw v => t = JRaw v
    | XOriginal v n => exists vi ni, t = JOriginal v vi ni /\ at_ c vi v /\ known c ni n
    | XL2L v n o => exists ni oi, t = JL2L v ni oi o /\ known c ni n /\ at_ c oi o
    | XPrefix p e => exists t', t = JPrefix p t' /\ made e t'
    | XEdit e h => exists t', t = JEdit t' h /\ made e t'
    | XConcat l => exists ts, t = JConcat ts /\
        (fix all l ts := match l, ts with
         | [], [] => True
         | x :: l, t :: ts => made x t /\ all l ts
         | _, _ => False
         end) l ts
    | XSms v n m o i => exists vi ni d oo ii, t = JSms v vi ni d oo ii /\ at_ c vi v /\ known c ni n /\ passed c m d /\
        (match o with [] => oo = None | _ => exists oi, oo = Some (o, oi) /\ at_ c oi o end) /\
        match i with None => ii = None | Some m => exists d, ii = Some d /\ passed c m d end
    end.
  Lemma made_concat l t : made (XConcat l) t <-> exists ts, t = JConcat ts /\ Forall2 made l ts.
  Proof.
    cbn [made]. split; intros (ts & E & H); exists ts; (split; [exact E|]); clear E; revert ts H.
    - induction l as [|x l IH]; intros [|t' ts] H; try contradiction; constructor; [apply H|apply IH; apply H].
    - induction l as [|x l IH]; intros ts H; inversion H; subst; [exact I|]. split; [assumption|]. now apply IH.
  Qed.
  (** Not a string. *)
  Lemma made_tree e t : made e t -> (forall s, e <> XStr s) -> match import t with TStr _ => False | _ => True end.
  Proof.
    destruct e; cbn [made]; intros H N; try (now destruct (N s));
      repeat match goal with H : exists _, _ |- _ => destruct H as [? H] | H : _ /\ _ |- _ => destruct H as [H _] end; subst t; exact I.
  Qed.
  (** sourceAndMap has a map. *)
  Lemma made_mapped e t : made e t -> (forall s, e <> XStr s) -> (forall v, e <> XRaw v) -> match t with JStr _ | JRaw _ => False | _ => True end.
  Proof.
    destruct e; cbn [made]; intros H N N'; try (now destruct (N s)); try (now destruct (N' value));
      repeat match goal with H : exists _, _ |- _ => destruct H as [? H] | H : _ /\ _ |- _ => destruct H as [H _] end; subst t; exact I.
  Qed.
End Made.

Theorem made_grows c c' e : grows c c' -> forall t, made c e t -> made c' e t.
Proof.
  intro G. induction e as [s|v|v n|v n o|p e IH|e h IH|l IH|v n m o i] using jexpr_ind'; intros t H; try exact H.
  - destruct H as (vi & ni & E & A & K). exists vi, ni. eauto using at_grows, known_grows.
  - destruct H as (ni & oi & E & K & A). exists ni, oi. eauto using at_grows, known_grows.
  - destruct H as (t' & E & H). exists t'. auto.
  - destruct H as (t' & E & H). exists t'. auto.
  - apply made_concat in H as (ts & -> & H). apply made_concat. exists ts. split; [reflexivity|].
    induction H as [|x t l ts H _ IHl]; constructor; inversion IH; subst; auto.
  - destruct H as (vi & ni & d & oo & ii & E & A & K & P & O & I). exists vi, ni, d, oo, ii. split; [exact E|].
    split; [eauto using at_grows|]. split; [eauto using known_grows|]. split; [eauto using passed_grows|]. split.
    + destruct o; [exact O|]. destruct O as (oi & E' & A'). eauto using at_grows.
    + destruct i; [|exact I]. destruct I as (d' & E' & P'). eauto using passed_grows.
Qed.

Theorem build_made e : forall c c' t, cache_ok c -> build c e = (c', t) -> cache_ok c' /\ grows c c' /\ made c' e t.
Proof.
  induction e as [s|v|v n|v n o|p e IH|e h IH|l IH|v n m o i] using jexpr_ind'; intros c c' t Hc E; cbn [build] in E.
  - injection E as <- <-. split; [exact Hc|]. split; [apply grows_refl|reflexivity].
  - injection E as <- <-. split; [exact Hc|]. split; [apply grows_refl|reflexivity].
  - destruct (cache_add_unchecked c v) as [c2 vi] eqn:E1. destruct (cache_add c2 n) as [c3 ni] eqn:E2. injection E as <- <-.
    destruct (addu_at _ _ _ _ Hc E1) as (O1 & G1 & A1). destruct (add_known _ _ _ _ O1 E2) as (O2 & G2 & A2).
    split; [exact O2|]. split; [eapply grows_trans; eauto|]. exists (Z.of_nat vi), (Z.of_nat ni). eauto using at_grows.
  - destruct (cache_add c n) as [c2 ni] eqn:E1. destruct (cache_add_unchecked c2 o) as [c3 oi] eqn:E2. injection E as <- <-.
    destruct (add_known _ _ _ _ Hc E1) as (O1 & G1 & A1). destruct (addu_at _ _ _ _ O1 E2) as (O2 & G2 & A2).
    split; [exact O2|]. split; [eapply grows_trans; eauto|]. exists (Z.of_nat ni), (Z.of_nat oi). eauto using known_grows.
  - destruct (build c e) as [c2 t2] eqn:E1. injection E as <- <-. destruct (IH _ _ _ Hc E1) as (O1 & G1 & M1). split; [exact O1|]. split; [exact G1|]. exists t2. auto.
  - destruct (build c e) as [c2 t2] eqn:E1. injection E as <- <-. destruct (IH _ _ _ Hc E1) as (O1 & G1 & M1). split; [exact O1|]. split; [exact G1|]. exists t2. auto.
  - match type of E with context [?f c l] => set (go := f) in E end. destruct (go c l) as [c2 ts] eqn:E1. injection E as <- <-.
    assert (Y : cache_ok c2 /\ grows c c2 /\ Forall2 (made c2) l ts).
    { revert c c2 ts Hc E1. induction IH as [|x l Hx _ IHl]; intros c c2 ts Hc E1; cbn [go] in E1.
      - injection E1 as <- <-. split; [exact Hc|]. split; [apply grows_refl|constructor].
      - destruct (build c x) as [c3 t3] eqn:E3. fold go in E1. destruct (go c3 l) as [c4 ts4] eqn:E4. injection E1 as <- <-.
        destruct (Hx _ _ _ Hc E3) as (O3 & G3 & M3). destruct (IHl _ _ _ O3 E4) as (O4 & G4 & M4).
        split; [exact O4|]. split; [eapply grows_trans; eauto|]. constructor; [eapply made_grows; eauto|exact M4]. }
    destruct Y as (O2 & G2 & M2). split; [exact O2|]. split; [exact G2|]. apply made_concat. eauto.
  - destruct (cache_add_unchecked c v) as [c2 vi] eqn:E1. destruct (cache_add c2 n) as [c3 ni] eqn:E2. destruct (pass_map c3 m) as [c4 d] eqn:E3.
    destruct (addu_at _ _ _ _ Hc E1) as (O1 & G1 & A1). destruct (add_known _ _ _ _ O1 E2) as (O2 & G2 & A2).
    destruct (pass_map_spec _ _ _ _ O2 E3) as (O3 & G3 & A3).
    match type of E with (let '(_, _) := ?z in _) = _ => destruct z as [c5 oo] eqn:E5 end.
    assert (Y : cache_ok c5 /\ grows c4 c5 /\ match o with [] => oo = None | _ => exists oi, oo = Some (o, oi) /\ at_ c5 oi o end).
    { destruct o as [|x o]; [injection E5 as <- <-; split; [exact O3|]; split; [apply grows_refl|reflexivity]|].
      destruct (cache_add_unchecked c4 (x :: o)) as [c6 oi] eqn:E6. injection E5 as <- <-. destruct (addu_at _ _ _ _ O3 E6) as (O6 & G6 & A6). eauto 6. }
    destruct Y as (O5 & G5 & A5).
    match type of E with (let '(_, _) := ?z in _) = _ => destruct z as [c6 ii] eqn:E6 end. injection E as <- <-.
    assert (Y : cache_ok c6 /\ grows c5 c6 /\ match i with None => ii = None | Some im => exists id, ii = Some id /\ passed c6 im id end).
    { destruct i as [im|]; [|injection E6 as <- <-; split; [exact O5|]; split; [apply grows_refl|reflexivity]].
      destruct (pass_map c5 im) as [c7 id] eqn:E7. injection E6 as <- <-. destruct (pass_map_spec _ _ _ _ O5 E7) as (O7 & G7 & A7). eauto. }
    destruct Y as (O6 & G6 & A6). split; [exact O6|]. split; [eauto 6 using grows_trans|].
    exists (Z.of_nat vi), (Z.of_nat ni), d, oo, ii. split; [reflexivity|].
    split; [eapply at_grows; [|exact A1]; eauto 6 using grows_trans|]. split; [eapply known_grows; [|exact A2]; eauto 6 using grows_trans|].
    split; [eapply passed_grows; [|exact A3]; eauto 6 using grows_trans|]. split; [|exact A6].
    destruct o; [exact A5|]. destruct A5 as (oi & -> & A). exists oi. split; [reflexivity|]. eapply at_grows; eauto.
Qed.
