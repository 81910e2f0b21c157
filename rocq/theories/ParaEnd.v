(** Expressions built on two caches have related trees. *)
From Verif Require Import Base Tactics ModelString ModelVlq ModelSm ModelSlm ModelSources ModelTree ModelWasm
  ModelJs ModelJsApi ModelJsResult SpecResult ResultFacts ResultProps JsFacts ModelEnd SpecEnd EndFacts MadeFacts EndProps EndMap SpecSame ParaList.

Lemma at_bound c i s : at_ c i s -> (i < Z.of_nat (length (ca_array c)))%Z.
Proof. intros (k & -> & E). assert (k < length (ca_array c)) by (apply nth_error_Some; congruence). lia. Qed.

Section Two.
  Variable X : jstr -> Prop.
  Definition same (c c' : cache) (i i' : Z) : Prop := exists s, X s /\ known c i s /\ known c' i' s.
  Definition pairs (G : list (Z * Z)) (i i' : Z) : Prop := In (i, i') G.
  Definition paired (G : list (Z * Z)) (c c' : cache) : Prop :=
    (forall i i', pairs G i i' -> exists s, at_ c i s /\ at_ c' i' s) /\
    (forall i i' j j', pairs G i i' -> pairs G j j' -> (i =? j)%Z = (i' =? j')%Z).
  Definition stage : Type := list (Z * Z) * cache * cache.
  Definition sound (a : stage) : Prop := let '(G, c, c') := a in cache_ok c /\ cache_ok c' /\ paired G c c'.
  Definition later (a b : stage) : Prop := let '(G, c, c') := a in let '(G1, c1, c1') := b in incl G G1 /\ grows c c1 /\ grows c' c1'.
  Lemma later_refl a : later a a.
  Proof. destruct a as [[G c] c']. split; [apply incl_refl|]. split; apply grows_refl. Qed.
  Lemma later_trans a b d : later a b -> later b d -> later a d.
  Proof. destruct a as [[G c] c'], b as [[G1 c1] c1'], d as [[G2 c2] c2']. intros (A & B & C) (A1 & B1 & C1). split; [eapply incl_tran; eauto|]. split; eapply grows_trans; eauto. Qed.
  Definition sr (a : stage) (i i' : Z) : Prop := same (snd (fst a)) (snd a) i i'.
  Definition kr (a : stage) (i i' : Z) : Prop := pairs (fst (fst a)) i i'.
  Lemma sr_later a b i i' : later a b -> sr a i i' -> sr b i i'.
  Proof. destruct a as [[G c] c'], b as [[G1 c1] c1']. intros (_ & B & C) (s & Hx & K & K'). exists s. cbn in *. eauto using known_grows. Qed.
  Lemma kr_later a b i i' : later a b -> kr a i i' -> kr b i i'.
  Proof. destruct a as [[G c] c'], b as [[G1 c1] c1']. intros (A & _) H. apply A, H. Qed.
  Lemma sr_inj a i i' j j' : sound a -> sr a i i' -> sr a j j' -> (i =? j)%Z = (i' =? j')%Z.
  Proof.
    destruct a as [[G c] c']. intros (O & O' & _) (s & _ & K1 & K1') (t & _ & K2 & K2'). cbn in *.
    destruct (Z.eqb_spec i j) as [->|N], (Z.eqb_spec i' j') as [->|N']; try reflexivity; exfalso.
    - assert (s = t) by (exact (at_string _ _ _ _ (known_at _ _ _ O K1) (known_at _ _ _ O K2))). subst t. apply N'. eapply known_index; eauto.
    - assert (s = t) by (exact (at_string _ _ _ _ (known_at _ _ _ O' K1') (known_at _ _ _ O' K2'))). subst t. apply N. eapply known_index; eauto.
  Qed.
  Lemma kr_inj a i i' j j' : sound a -> kr a i i' -> kr a j j' -> (i =? j)%Z = (i' =? j')%Z.
  Proof. destruct a as [[G c] c']. intros (_ & _ & _ & H). apply H. Qed.

  Lemma add_step G c c' s c1 i c1' i' : sound (G, c, c') -> X s -> cache_add c s = (c1, i) -> cache_add c' s = (c1', i') ->
    sound (G, c1, c1') /\ later (G, c, c') (G, c1, c1') /\ sr (G, c1, c1') (Z.of_nat i) (Z.of_nat i').
  Proof.
    intros (O & O' & P1 & P2) Hx E E'. destruct (add_known _ _ _ _ O E) as (A1 & A2 & A3), (add_known _ _ _ _ O' E') as (B1 & B2 & B3).
    split; [|split; [split; [apply incl_refl|now split]|exists s; auto]]. split; [exact A1|]. split; [exact B1|]. split; [|exact P2].
    intros j j' H. destruct (P1 j j' H) as (t & T1 & T2). exists t. eauto using at_grows.
  Qed.
  Lemma addu_step G c c' s c1 i c1' i' : sound (G, c, c') -> cache_add_unchecked c s = (c1, i) -> cache_add_unchecked c' s = (c1', i') ->
    let a := ((Z.of_nat i, Z.of_nat i') :: G, c1, c1') in sound a /\ later (G, c, c') a /\ kr a (Z.of_nat i) (Z.of_nat i').
  Proof.
    intros (O & O' & P1 & P2) E E'. destruct (addu_at _ _ _ _ O E) as (A1 & A2 & A3), (addu_at _ _ _ _ O' E') as (B1 & B2 & B3). cbn zeta.
    split; [|split; [split; [intros x Hx; now right|now split]|now left]]. split; [exact A1|]. split; [exact B1|].
    assert (I : i = length (ca_array c)) by (unfold cache_add_unchecked in E; congruence). assert (I' : i' = length (ca_array c')) by (unfold cache_add_unchecked in E'; congruence).
    split.
    - intros j j' [H|H]; [injection H as <- <-; exists s; auto|]. destruct (P1 j j' H) as (t & T1 & T2). exists t. eauto using at_grows.
    - intros j j' k k' [H|H] [H1|H1].
      + injection H as <- <-. injection H1 as <- <-. now rewrite !Z.eqb_refl.
      + injection H as <- <-. destruct (P1 k k' H1) as (t & T1 & T2). apply at_bound in T1, T2. destruct (Z.eqb_spec (Z.of_nat i) k), (Z.eqb_spec (Z.of_nat i') k'); lia || reflexivity.
      + injection H1 as <- <-. destruct (P1 j j' H) as (t & T1 & T2). apply at_bound in T1, T2. destruct (Z.eqb_spec j (Z.of_nat i)), (Z.eqb_spec j' (Z.of_nat i')); lia || reflexivity.
      + exact (P2 j j' k k' H H1).
  Qed.
  Lemma add_list_step : forall l G c c' c1 is c1' is', sound (G, c, c') -> Forall X l -> add_list cache_add c l = (c1, is) -> add_list cache_add c' l = (c1', is') ->
    sound (G, c1, c1') /\ later (G, c, c') (G, c1, c1') /\ Forall2 (sr (G, c1, c1')) is is'.
  Proof.
    induction l as [|s l IH]; intros G c c' c1 is c1' is' H HX E E'; cbn [add_list] in E, E'.
    - injection E as <- <-. injection E' as <- <-. split; [exact H|]. split; [apply later_refl|constructor].
    - destruct (cache_add c s) as [c2 i] eqn:Ei, (cache_add c' s) as [c2' i'] eqn:Ei'. inversion HX as [|? ? X1 X2]; subst.
      destruct (add_list cache_add c2 l) as [c3 js] eqn:Ej, (add_list cache_add c2' l) as [c3' js'] eqn:Ej'. injection E as <- <-. injection E' as <- <-.
      destruct (add_step _ _ _ _ _ _ _ _ H X1 Ei Ei') as (A1 & A2 & A3). destruct (IH _ _ _ _ _ _ _ A1 X2 Ej Ej') as (B1 & B2 & B3).
      split; [exact B1|]. split; [eapply later_trans; eauto|]. constructor; [eapply sr_later; eauto|exact B3].
  Qed.
  Lemma addu_list_step : forall l G c c' c1 is c1' is', sound (G, c, c') -> add_list cache_add_unchecked c l = (c1, is) -> add_list cache_add_unchecked c' l = (c1', is') ->
    exists G1, sound (G1, c1, c1') /\ later (G, c, c') (G1, c1, c1') /\ Forall2 (kr (G1, c1, c1')) is is'.
  Proof.
    induction l as [|s l IH]; intros G c c' c1 is c1' is' H E E'; cbn [add_list] in E, E'.
    - injection E as <- <-. injection E' as <- <-. exists G. split; [exact H|]. split; [apply later_refl|constructor].
    - destruct (cache_add_unchecked c s) as [c2 i] eqn:Ei, (cache_add_unchecked c' s) as [c2' i'] eqn:Ei'.
      destruct (add_list cache_add_unchecked c2 l) as [c3 js] eqn:Ej, (add_list cache_add_unchecked c2' l) as [c3' js'] eqn:Ej'. injection E as <- <-. injection E' as <- <-.
      destruct (addu_step _ _ _ _ _ _ _ _ H Ei Ei') as (A1 & A2 & A3). destruct (IH _ _ _ _ _ _ _ A1 Ej Ej') as (G1 & B1 & B2 & B3).
      exists G1. split; [exact B1|]. split; [eapply later_trans; eauto|]. constructor; [eapply kr_later; eauto|exact B3].
  Qed.
  Lemma pass_step m G c c' c1 d c1' d' : sound (G, c, c') -> Forall X (jm_sources m ++ jm_names m) -> pass_map c m = (c1, d) -> pass_map c' m = (c1', d') ->
    exists G1, let a := (G1, c1, c1') in sound a /\ later (G, c, c') a /\ smc_rel (sr a) (kr a) d d'.
  Proof.
    intros H HX E E'. apply Forall_app in HX as [X1 X2]. unfold pass_map in E, E'.
    destruct (add_list cache_add c (jm_sources m)) as [c2 ss] eqn:E1, (add_list cache_add c' (jm_sources m)) as [c2' ss'] eqn:E1'.
    destruct (add_list cache_add_unchecked c2 (jm_contents m)) as [c3 ks] eqn:E2, (add_list cache_add_unchecked c2' (jm_contents m)) as [c3' ks'] eqn:E2'.
    destruct (add_list cache_add c3 (jm_names m)) as [c4 ns] eqn:E3, (add_list cache_add c3' (jm_names m)) as [c4' ns'] eqn:E3'. injection E as <- <-. injection E' as <- <-.
    destruct (add_list_step _ _ _ _ _ _ _ _ H X1 E1 E1') as (A1 & A2 & A3). destruct (addu_list_step _ _ _ _ _ _ _ _ A1 E2 E2') as (G1 & B1 & B2 & B3).
    destruct (add_list_step _ _ _ _ _ _ _ _ B1 X2 E3 E3') as (C1 & C2 & C3). exists G1. cbn zeta. split; [exact C1|]. split; [eauto using later_trans|].
    split; [|split; [|split; [exact C3|reflexivity]]]; cbn [sc_sources sc_contents].
    - eapply F2_impl; [|exact A3]. intros. eauto using sr_later.
    - eapply F2_impl; [|exact B3]. intros. eauto using kr_later.
  Qed.

  Definition related (a : stage) (t t' : jtree) : Prop := trel (sr a) (kr a) (import t) (import t').
  Lemma related_later a b t t' : later a b -> related a t t' -> related b t t'.
  Proof. intro L. apply trel_mono; intros; eauto using sr_later, kr_later. Qed.
  Lemma concat_rel S K l l' : Forall2 (trel S K) l l' -> forall acc acc', Forall2 (trel S K) acc acc' ->
    Forall2 (trel S K) (fold_left concat_add l acc) (fold_left concat_add l' acc').
  Proof.
    induction 1 as [|x y l l' Hx _ IH]; intros acc acc' Ha; [exact Ha|]. cbn [fold_left]. apply IH. destruct Hx; cbn [concat_add]; (apply Forall2_app; [exact Ha|]); try (repeat constructor; auto; fail).
    constructor; [|constructor]. now constructor.
  Qed.
  Theorem build_rel e : Forall X (looked_up e) -> forall G c c' c1 t c1' t', sound (G, c, c') -> build c e = (c1, t) -> build c' e = (c1', t') ->
    exists G1, sound (G1, c1, c1') /\ later (G, c, c') (G1, c1, c1') /\ related (G1, c1, c1') t t' /\
      match t, t' with JStr s, JStr s' | JRaw s, JRaw s' => s = s' | JStr _, _ | _, JStr _ | JRaw _, _ | _, JRaw _ => False | _, _ => True end.
  Proof.
    induction e as [s|v|v n|v n o|p e IH|e h IH|l IH|v n m o i] using jexpr_ind'; intros HX G c c' c1 t c1' t' H E E'; cbn [build looked_up] in *.
    - injection E as <- <-. injection E' as <- <-. exists G. split; [exact H|]. split; [apply later_refl|]. split; [constructor|reflexivity].
    - injection E as <- <-. injection E' as <- <-. exists G. split; [exact H|]. split; [apply later_refl|]. split; [constructor|reflexivity].
    - destruct (cache_add_unchecked c v) as [c2 vi] eqn:E1, (cache_add_unchecked c' v) as [c2' vi'] eqn:E1'.
      destruct (cache_add c2 n) as [c3 ni] eqn:E2, (cache_add c2' n) as [c3' ni'] eqn:E2'. injection E as <- <-. injection E' as <- <-.
      destruct (addu_step _ _ _ _ _ _ _ _ H E1 E1') as (A1 & A2 & A3). inversion HX as [|? ? X1 _]; subst. destruct (add_step _ _ _ _ _ _ _ _ A1 X1 E2 E2') as (B1 & B2 & B3).
      eexists. split; [exact B1|]. split; [eauto using later_trans|]. split; [|exact I]. constructor; [eapply kr_later; eauto|exact B3].
    - destruct (cache_add c n) as [c2 vi] eqn:E1, (cache_add c' n) as [c2' vi'] eqn:E1'.
      destruct (cache_add_unchecked c2 o) as [c3 ni] eqn:E2, (cache_add_unchecked c2' o) as [c3' ni'] eqn:E2'. injection E as <- <-. injection E' as <- <-.
      inversion HX as [|? ? X1 _]; subst. destruct (add_step _ _ _ _ _ _ _ _ H X1 E1 E1') as (A1 & A2 & A3). destruct (addu_step _ _ _ _ _ _ _ _ A1 E2 E2') as (B1 & B2 & B3).
      eexists. split; [exact B1|]. split; [eauto using later_trans|]. split; [|exact I]. constructor; [eapply sr_later; eauto|exact B3].
    - destruct (build c e) as [c2 t2] eqn:E2, (build c' e) as [c2' t2'] eqn:E2'. injection E as <- <-. injection E' as <- <-.
      destruct (IH HX _ _ _ _ _ _ _ H E2 E2') as (G1 & A1 & A2 & A3 & _). exists G1. split; [exact A1|]. split; [exact A2|]. split; [|exact I]. now constructor.
    - destruct (build c e) as [c2 t2] eqn:E2, (build c' e) as [c2' t2'] eqn:E2'. injection E as <- <-. injection E' as <- <-.
      destruct (IH HX _ _ _ _ _ _ _ H E2 E2') as (G1 & A1 & A2 & A3 & _). exists G1. split; [exact A1|]. split; [exact A2|]. split; [|exact I]. now constructor.
    - match type of E with (let '(_, _) := ?g c l in _) = _ => set (go := g) in * end.
      destruct (go c l) as [c2 ts] eqn:E2, (go c' l) as [c2' ts'] eqn:E2'. injection E as <- <-. injection E' as <- <-.
      assert (Y : exists G1, sound (G1, c2, c2') /\ later (G, c, c') (G1, c2, c2') /\ Forall2 (related (G1, c2, c2')) ts ts').
      { revert HX G c c' c2 ts c2' ts' H E2 E2'. induction IH as [|x l IHx _ IHl]; intros HX G c c' c2 ts c2' ts' H E2 E2'; cbn [flat_map] in HX.
        - injection E2 as <- <-. injection E2' as <- <-. exists G. split; [exact H|]. split; [apply later_refl|constructor].
        - apply Forall_app in HX as [X1 X2]. unfold go in E2, E2'; fold go in E2, E2'. destruct (build c x) as [c3 t3] eqn:E3, (build c' x) as [c3' t3'] eqn:E3'.
          destruct (go c3 l) as [c4 ts4] eqn:E4, (go c3' l) as [c4' ts4'] eqn:E4'. injection E2 as <- <-. injection E2' as <- <-.
          destruct (IHx X1 _ _ _ _ _ _ _ H E3 E3') as (G1 & A1 & A2 & A3 & _). destruct (IHl X2 _ _ _ _ _ _ _ A1 E4 E4') as (G2 & B1 & B2 & B3).
          exists G2. split; [exact B1|]. split; [eauto using later_trans|]. constructor; [eapply related_later; eauto|exact B3]. }
      destruct Y as (G1 & A1 & A2 & A3). exists G1. split; [exact A1|]. split; [exact A2|]. split; [|exact I]. unfold related. cbn [import]. constructor. apply concat_rel; [|constructor].
      clear - A3. induction A3; cbn [map]; constructor; auto.
    - inversion HX as [|? ? X1 X2]; subst. rewrite !Forall_app in X2. destruct X2 as (X2 & X3 & X4).
      destruct (cache_add_unchecked c v) as [c2 vi] eqn:E1, (cache_add_unchecked c' v) as [c2' vi'] eqn:E1'.
      destruct (cache_add c2 n) as [c3 ni] eqn:E2, (cache_add c2' n) as [c3' ni'] eqn:E2'.
      destruct (pass_map c3 m) as [c4 d] eqn:E3, (pass_map c3' m) as [c4' d'] eqn:E3'.
      match type of E with (let '(_, _) := ?z in _) = _ => destruct z as [c5 oo] eqn:E4 end. match type of E' with (let '(_, _) := ?z in _) = _ => destruct z as [c5' oo'] eqn:E4' end.
      match type of E with (let '(_, _) := ?z in _) = _ => destruct z as [c6 ii] eqn:E5 end. match type of E' with (let '(_, _) := ?z in _) = _ => destruct z as [c6' ii'] eqn:E5' end.
      injection E as <- <-. injection E' as <- <-.
      destruct (addu_step _ _ _ _ _ _ _ _ H E1 E1') as (A1 & A2 & A3). destruct (add_step _ _ _ _ _ _ _ _ A1 X1 E2 E2') as (B1 & B2 & B3).
      destruct (pass_step m _ _ _ _ _ _ _ B1 ltac:(apply Forall_app; now split) E3 E3') as (G4 & C1 & C2 & C3).
      assert (Y : exists G5, sound (G5, c5, c5') /\ later (G4, c4, c4') (G5, c5, c5') /\ orel (fun p q => kr (G5, c5, c5') (snd p) (snd q)) oo oo').
      { destruct o as [|x o]; [injection E4 as <- <-; injection E4' as <- <-; exists G4; split; [exact C1|]; split; [apply later_refl|constructor]|].
        destruct (cache_add_unchecked c4 (x :: o)) as [c7 oi] eqn:E7, (cache_add_unchecked c4' (x :: o)) as [c7' oi'] eqn:E7'. injection E4 as <- <-. injection E4' as <- <-.
        destruct (addu_step _ _ _ _ _ _ _ _ C1 E7 E7') as (D1 & D2 & D3). eexists. split; [exact D1|]. split; [exact D2|]. now constructor. }
      destruct Y as (G5 & D1 & D2 & D3).
      assert (Y : exists G6, sound (G6, c6, c6') /\ later (G5, c5, c5') (G6, c6, c6') /\ orel (smc_rel (sr (G6, c6, c6')) (kr (G6, c6, c6'))) ii ii').
      { destruct i as [im|]; [|injection E5 as <- <-; injection E5' as <- <-; exists G5; split; [exact D1|]; split; [apply later_refl|constructor]].
        destruct (pass_map c5 im) as [c7 d7] eqn:E7, (pass_map c5' im) as [c7' d7'] eqn:E7'. injection E5 as <- <-. injection E5' as <- <-.
        destruct (pass_step im _ _ _ _ _ _ _ D1 X4 E7 E7') as (G6 & F1 & F2 & F3). exists G6. split; [exact F1|]. split; [exact F2|]. now constructor. }
      destruct Y as (G6 & F1 & F2 & F3). exists G6. split; [exact F1|]. split; [eauto 6 using later_trans|]. split; [|exact I].
      unfold related. cbn [import].
      set (a := (G6, c6, c6')) in *. assert (Lb : later (G4, c4, c4') a) by eauto using later_trans.
      assert (Bn : sr a (Z.of_nat ni) (Z.of_nat ni')) by (eapply sr_later; [|exact B3]; eauto using later_trans).
      assert (Bv : kr a (Z.of_nat vi) (Z.of_nat vi')) by (eapply kr_later; [|exact A3]; eauto using later_trans).
      assert (Bd : smc_rel (sr a) (kr a) d d') by (eapply smc_mono; [| |exact C3]; intros; eauto using sr_later, kr_later).
      assert (Bc : cell_rel (sr a) (kr a) (mk_cell (Some d) None) (mk_cell (Some d') None)) by (exists d, d'; auto).
      assert (Bo : orel (kr a) (option_map snd oo) (option_map snd oo')) by (destruct D3 as [|p q D3]; cbn [option_map]; constructor; exact (kr_later _ _ _ _ F2 D3)).
      constructor. clear - Bn Bv Bd Bc Bo F3. destruct F3 as [|i1 i2 Hi]; destruct oo as [[os oi]|], oo' as [[os' oi']|]; inversion Bo; subst; repeat split; auto; try (constructor; auto; fail);
        constructor; exists i1, i2; auto.
  Qed.
End Two.
