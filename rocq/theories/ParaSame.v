(** Related results show the same. *)
From Verif Require Import Base Tactics ModelString ModelVlq ModelSm ModelSlm ModelSources ModelTree ModelWasm
  ModelJs ModelJsApi ModelJsResult SpecResult ResultFacts ResultProps JsFacts ModelEnd SpecEnd EndFacts MadeFacts EndProps EndMap SpecSame ParaList ParaMap ParaNode ParaEnd.

Definition twin (c c' : cache) (i i' : Z) : Prop := (exists s, at_ c i s /\ at_ c' i' s) \/ ((i < 0)%Z /\ (i' < 0)%Z).
Lemma twin_stands c c' is is' l l' : Forall2 (twin c c') is is' -> stands_for c is l -> stands_for c' is' l' -> l = l'.
Proof.
  intro H. revert l l'. induction H as [|i i' is is' H _ IH]; intros l l' St St'; inversion St as [|? y ? ys S1 S2]; inversion St' as [|? y' ? ys' S1' S2']; subst; [reflexivity|].
  f_equal; [|now apply IH]. destruct H as [(s & (k & -> & E) & (k' & -> & E'))|[L L']].
  - destruct y as [t|]; [|lia]. destruct y' as [t'|]; [|lia]. destruct S1 as (n & En & F), S1' as (n' & En' & F').
    apply Nat2Z.inj in En, En'. congruence.
  - destruct y as [t|]; [destruct S1 as (n & -> & _); lia|]. destruct y' as [t'|]; [destruct S1' as (n & -> & _); lia|]. reflexivity.
Qed.
Lemma twin_bound c c' is is' : Forall2 (twin c c') is is' ->
  Forall (fun i => i < Z.of_nat (length (ca_array c)))%Z is /\ Forall (fun i => i < Z.of_nat (length (ca_array c')))%Z is'.
Proof.
  induction 1 as [|i i' is is' H _ [A B]]; [split; constructor|].
  destruct H as [(s & H & H')|[L L']]; split; constructor; auto; try (eapply at_bound; eassumption); lia.
Qed.
Definition map_twin (c c' : cache) (m m' : source_map) : Prop :=
  Forall2 (twin c c') (map_sources m) (map_sources m') /\ Forall2 (twin c c') (map_contents m) (map_contents m') /\
  Forall2 (twin c c') (map_names m) (map_names m') /\ map_mappings m = map_mappings m'.
Lemma quiet_free f l : Forall quiet l -> Forall (fun op => ~ clears op /\ ~ wraps op /\ ~ assigns f op) l.
Proof. apply Forall_impl. intros op Ho. destruct op; cbn in *; try (destruct Ho); repeat split; auto. Qed.
Lemma no_map r names f l c0 : jr_get_map r = None -> Forall quiet l ->
  snd (rstep (fst (rrun (c0, robj_new r names) l)) (RGet f)) = if negb names && field_eqb f FNames then AVal VUndef else AError.
Proof.
  intros N H. set (Q := fun (_ : cache) (o : robj) => ro_wasm o = Some r /\ ro_names o = names /\ forall g, ro_fields o g = None).
  assert (S : forall c o op c1 o1 a, Q c o -> quiet op -> rstep (c, o) op = (c1, o1, a) -> Q c1 o1).
  { intros c o op c1 o1 a (W & A & F) Ho E. destruct op as [g| | | | | |s b|]; try destruct Ho; cbn [rstep] in E.
    - unfold ro_get in E. rewrite F, W, N in E. destruct (_ && _); injection E as <- <- _; repeat split; auto.
    - unfold ro_get_source in E. rewrite W in E. destruct (ro_source o); injection E as <- <- _; repeat split; auto.
    - injection E as <- <- _. repeat split; auto. }
  assert (H0 : Q c0 (robj_new r names)) by (repeat split).
  pose proof (run_keeps quiet Q S l c0 (robj_new r names) H0 H) as (W & A & F).
  destruct (rrun (c0, robj_new r names) l) as [[c o] out]. cbn [fst snd] in *. cbn [rstep]. unfold ro_get. rewrite F, W, N, A. now destruct (_ && _).
Qed.
Theorem results_same c c' r r' names : reached_cache c -> reached_cache c' -> jr_s r = jr_s r' ->
  orel (fun p q => map_twin c c' (snd p) (snd q)) (jr_get_map r) (jr_get_map r') ->
  same_result c (Some (ResMap (robj_new r names))) c' (Some (ResMap (robj_new r' names))).
Proof.
  intros Hc Hc' Es Em l l' q Hl Hl' [->|(f & ->)]; [rewrite !source_kept by assumption; now rewrite Es|].
  inversion Em as [E1 E2|[r1 m] [r1' m'] (T1 & T2 & T3 & T4) E1 E2]; [rewrite !no_map by (assumption || congruence); reflexivity|]. cbn [snd] in *.
  assert (R : resolvable c m /\ resolvable c' m').
  { unfold resolvable. rewrite !Forall_app. destruct (twin_bound _ _ _ _ T1), (twin_bound _ _ _ _ T2), (twin_bound _ _ _ _ T3). auto. }
  destruct R as [R R'].
  destruct (shows_map c r r1 m names f l Hc (eq_sym E1) R (quiet_free _ _ Hl)) as (v & Ev & Sh).
  destruct (shows_map c' r' r1' m' names f l' Hc' (eq_sym E2) R' (quiet_free _ _ Hl')) as (v' & Ev' & Sh').
  rewrite Ev, Ev'. f_equal. clear Ev Ev'.
  inversion Sh; subst; inversion Sh'; subst; try congruence.
  - apply (f_equal VArr). eapply twin_stands; [|eassumption|eassumption]; assumption.
  - apply (f_equal VArr). eapply twin_stands; [exact T2| |]; eassumption.
  - match goal with H : map_contents m' = [] |- _ => rewrite H in T2 end. inversion T2. match goal with H : stands_for c _ (_ :: _) |- _ => inversion H; congruence end.
  - match goal with H : map_contents m = [] |- _ => rewrite H in T2 end. inversion T2. match goal with H : stands_for c' _ (_ :: _) |- _ => inversion H; congruence end.
  - apply (f_equal VArr). eapply twin_stands; [|eassumption|eassumption]; assumption.
Qed.

Lemma sr_twin X a : sound a -> forall i i', sr X a i i' -> twin (snd (fst a)) (snd a) i i'.
Proof. destruct a as [[G c] c']. intros (O & O' & _) i i' (s & _ & K & K'). left. exists s. cbn in *. eauto using known_at. Qed.
Lemma kr_twin a : sound a -> forall i i', kr a i i' -> twin (snd (fst a)) (snd a) i i'.
Proof. destruct a as [[G c] c']. intros (_ & _ & P & _) i i' H. left. cbn in *. auto. Qed.

(** ** Line maps *)
Theorem lines_same c0 c0' e md c1 t c1' t' : reached_cache c0 -> reached_cache c0' -> build c0 e = (c1, t) -> build c0' e = (c1', t') ->
  same_result c1 (js_source_and_map false md t) c1' (js_source_and_map false md t').
Proof.
  intros H0 H0' E E'.
  set (X := fun _ : jstr => True). assert (HX : Forall X (looked_up e)) by (apply Forall_forall; intros ? _; exact I).
  assert (S0 : sound ([], c0, c0')).
  { split; [now apply reached_ok|]. split; [now apply reached_ok|]. split; [intros i i' []|intros i i' j j' []]. }
  destruct (build_rel X e HX [] c0 c0' c1 t c1' t' S0 E E') as (G & S1 & _ & R & Sh).
  pose proof (reached_build e c0 c1 t H0 E) as R1. pose proof (reached_build e c0' c1' t' H0' E') as R1'.
  pose proof (sr_twin X _ S1) as Tw. pose proof (kr_twin _ S1) as Tk. cbn [fst snd] in Tw, Tk.
  assert (L : orel (mrel (sr X (G, c1, c1')) (kr (G, c1, c1'))) (t_list_map false md (import t)) (t_list_map false md (import t'))).
  { apply list_map_rel; [intros; eapply sr_inj; eauto|intros; eapply kr_inj; eauto|exact R]. }
  assert (F : match t, t' with (JStr _ | JRaw _), _ | _, (JStr _ | JRaw _) => True | _, _ =>
    same_result c1 (js_source_and_map false md t) c1' (js_source_and_map false md t') end ->
    same_result c1 (js_source_and_map false md t) c1' (js_source_and_map false md t')).
  { destruct t, t'; intro W; try exact W; try (destruct Sh; fail); try exact I. subst. reflexivity. }
  assert (K : same_result c1 (let* lm := t_list_map false md (import t) in Some (ResMap (robj_new (list_result lm) false))) c1'
                (let* lm := t_list_map false md (import t') in Some (ResMap (robj_new (list_result lm) false)))).
  { inversion L as [E1 E2|lm lm' Hm E1 E2]; [exact I|]. cbn [bind].
    assert (Hi : forall i i' j j', sr X (G, c1, c1') i i' -> sr X (G, c1, c1') j j' -> (i =? j)%Z = (i' =? j')%Z) by (intros; eapply sr_inj; eauto).
    destruct (with_map_rel _ _ Hi _ _ Hm) as [P1 P2]. 
    apply results_same; [exact R1|exact R1'| |].
    all: unfold list_result; destruct (slm_to_string_with_source_map lm None) as [code mp] eqn:Em, (slm_to_string_with_source_map lm' None) as [code' mp'] eqn:Em'; cbn [fst snd] in *.
    - exact P1.
    - constructor. cbn [snd]. destruct P2 as (A & B & C & D & D'). split; [|split; [|split]].
      + eapply F2_impl; [|exact A]. intros i j [H|[-> ->]]; [auto|]. right. lia.
      + eapply F2_impl; [|exact B]. auto.
      + rewrite D, D'. constructor.
      + exact C. }
  apply F. clear F. destruct t, t'; exact I || exact K.
Qed.

(** ** Maps with columns *)
Theorem columns_same c0 c0' e md c1 t c1' t' : reached_cache c0 -> reached_cache c0' -> build c0 e = (c1, t) -> build c0' e = (c1', t') ->
  same_order c1 c1' (looked_up e) -> same_result c1 (js_source_and_map true md t) c1' (js_source_and_map true md t').
Proof.
  intros H0 H0' E E' So.
  set (X := fun s : jstr => In s (looked_up e)). assert (HX : Forall X (looked_up e)) by (apply Forall_forall; auto).
  assert (S0 : sound ([], c0, c0')).
  { split; [now apply reached_ok|]. split; [now apply reached_ok|]. split; [intros i i' []|intros i i' j j' []]. }
  destruct (build_rel X e HX [] c0 c0' c1 t c1' t' S0 E E') as (G & S1 & _ & R & Sh).
  pose proof (reached_build e c0 c1 t H0 E) as R1. pose proof (reached_build e c0' c1' t' H0' E') as R1'.
  pose proof (sr_twin X _ S1) as Tw. pose proof (kr_twin _ S1) as Tk. cbn [fst snd] in Tw, Tk.
  assert (C : forall i i' j j', sr X (G, c1, c1') i i' -> sr X (G, c1, c1') j j' -> (i ?= j)%Z = (i' ?= j')%Z).
  { intros i i' j j' (s & Xs & (k & -> & K) & (k' & -> & K')) (u & Xu & (n & -> & N) & (n' & -> & N')). cbn in *.
    rewrite !Nat2Z.inj_compare. exact (So s u k n k' n' Xs Xu K N K' N'). }
  assert (F : match t, t' with (JStr _ | JRaw _), _ | _, (JStr _ | JRaw _) => True | _, _ =>
    same_result c1 (js_source_and_map true md t) c1' (js_source_and_map true md t') end ->
    same_result c1 (js_source_and_map true md t) c1' (js_source_and_map true md t')).
  { destruct t, t'; intro W; try exact W; try (destruct Sh; fail); try exact I. subst. reflexivity. }
  assert (K : same_result c1 (let* n := t_node true md (import t) in let* r := node_result n in Some (ResMap (robj_new r true))) c1'
                (let* n := t_node true md (import t') in let* r := node_result n in Some (ResMap (robj_new r true)))).
  { pose proof (node_rel _ _ C md _ _ R) as L. inversion L as [E1 E2|n n' Hn E1 E2]; [exact I|]. cbn [bind].
    pose proof (result_rel _ _ C _ _ Hn) as Q. inversion Q as [E3 E4|r r' [Hs Hm] E3 E4]; [exact I|]. cbn [bind].
    apply results_same; [exact R1|exact R1'|exact Hs|]. eapply orel_impl; [|exact Hm]. intros [a m] [a' m'] [A1 A2 A3 A4]. cbn [snd] in *.
    split; [|split; [|split; [|exact A4]]]; (eapply F2_impl; [|eassumption]; auto). }
  apply F. clear F. destruct t, t'; exact I || exact K.
Qed.

(** ** When the order is the same *)
Theorem same_twice c0 e c1 t h c2 is cols md c3 t' : reached_cache c0 -> build c0 e = (c1, t) -> cache_run c1 h = (c2, is) -> build c2 e = (c3, t') ->
  same_result c1 (js_source_and_map cols md t) c3 (js_source_and_map cols md t').
Proof.
  intros H0 E Eh E'. pose proof (reached_build e c0 c1 t H0 E) as R1.
  assert (R2 : reached_cache c2).
  { destruct R1 as (h1 & i1 & E1). exists (h1 ++ h), (i1 ++ is). clear - E1 Eh. revert i1 E1. generalize cache_empty as c. induction h1 as [|o h1 IH]; intros c i1 E1; cbn [cache_run app] in *.
    - injection E1 as <- <-. exact Eh.
    - destruct (cache_do c o) as [c' i]. destruct (cache_run c' h1) as [c4 is'] eqn:E2. injection E1 as -> <-. rewrite (IH _ _ E2). reflexivity. }
  pose proof (reached_build e c2 c3 t' R2 E') as R3.
  assert (G : forall s i, cache_index_of c1 s = Some i -> cache_index_of c3 s = Some i).
  { destruct (cache_run_spec _ _ _ _ (reached_ok _ R1) Eh) as (_ & [_ G1] & _). intros s i Hi. apply G1 in Hi.
    assert (S0 : sound ([], c2, c2)) by (split; [now apply reached_ok|]; split; [now apply reached_ok|]; split; [intros ? ? []|intros ? ? ? ? []]).
    assert (HX : Forall (fun _ : jstr => True) (looked_up e)) by (apply Forall_forall; auto).
    destruct (build_rel _ e HX [] c2 c2 c3 t' c3 t' S0 E' E') as (G & _ & (_ & [_ G2] & _) & _). now apply G2. }
  destruct cols; [|exact (lines_same c0 c2 e md c1 t c3 t' H0 R2 E E')]. apply (columns_same c0 c2 e md c1 t c3 t' H0 R2 E E').
  intros s u i j i' j' _ _ H1 H2 H3 H4. apply G in H1, H2. congruence.
Qed.

Fixpoint adds (e : jexpr) : list cache_call :=
  match e with
  | XStr _ | XRaw _ => []
  | XOriginal v n => [CAddUnchecked v; CAdd n]
  | XL2L _ n o => [CAdd n; CAddUnchecked o]
  | XPrefix _ e | XEdit e _ => adds e
  | XConcat l => flat_map adds l
  | XSms v n m o i =>
      let of_map m := map CAdd (jm_sources m) ++ map CAddUnchecked (jm_contents m) ++ map CAdd (jm_names m) in
      CAddUnchecked v :: CAdd n :: of_map m ++ match o with [] => [] | _ => [CAddUnchecked o] end ++ match i with Some i => of_map i | None => [] end
  end.
Definition runc (c : cache) (h : list cache_call) : cache := fold_left (fun c o => fst (cache_do c o)) h c.
Lemma runc_app c h k : runc c (h ++ k) = runc (runc c h) k.
Proof. apply fold_left_app. Qed.
Lemma run_add l : forall c, fst (add_list cache_add c l) = runc c (map CAdd l).
Proof.
  induction l as [|s l IH]; intro c; [reflexivity|]. cbn [add_list map]. unfold runc. cbn [fold_left cache_do]. fold (runc (fst (cache_add c s)) (map CAdd l)). rewrite <- IH.
  destruct (cache_add c s) as [c1 i]. cbn [fst]. now destruct (add_list cache_add c1 l).
Qed.
Lemma run_addu l : forall c, fst (add_list cache_add_unchecked c l) = runc c (map CAddUnchecked l).
Proof.
  induction l as [|s l IH]; intro c; [reflexivity|]. cbn [add_list map]. unfold runc. cbn [fold_left cache_do]. fold (runc (fst (cache_add_unchecked c s)) (map CAddUnchecked l)). rewrite <- IH.
  destruct (cache_add_unchecked c s) as [c1 i]. cbn [fst]. now destruct (add_list cache_add_unchecked c1 l).
Qed.
Lemma run_pass c m : fst (pass_map c m) = runc c (map CAdd (jm_sources m) ++ map CAddUnchecked (jm_contents m) ++ map CAdd (jm_names m)).
Proof.
  unfold pass_map. rewrite !runc_app, <- (run_add _ c). destruct (add_list cache_add c (jm_sources m)) as [c1 ss]. cbn [fst]. rewrite <- (run_addu _ c1).
  destruct (add_list cache_add_unchecked c1 (jm_contents m)) as [c2 ks]. cbn [fst]. rewrite <- run_add. now destruct (add_list cache_add c2 (jm_names m)).
Qed.
Lemma run_build e : forall c, fst (build c e) = runc c (adds e).
Proof.
  induction e as [s|v|v n|v n o|p e IH|e h IH|l IH|v n m o i] using jexpr_ind'; intro c; cbn [build adds]; try reflexivity.
  - unfold runc. cbn [fold_left cache_do]. destruct (cache_add_unchecked c v) as [c1 vi]. cbn [fst]. now destruct (cache_add c1 n).
  - unfold runc. cbn [fold_left cache_do]. destruct (cache_add c n) as [c1 vi]. cbn [fst]. now destruct (cache_add_unchecked c1 o).
  - rewrite <- IH. now destruct (build c e).
  - rewrite <- IH. now destruct (build c e).
  - match goal with |- fst (let '(_, _) := ?g c l in _) = _ => set (go := g) end.
    assert (Y : fst (go c l) = runc c (flat_map adds l)).
    { revert c. induction IH as [|x l Hx _ IHl]; intro c; [reflexivity|]. cbn [flat_map]. rewrite runc_app, <- Hx, <- IHl.
      unfold go at 1; fold go. destruct (build c x) as [c1 t1]. cbn [fst]. now destruct (go c1 l). }
    rewrite <- Y. now destruct (go c l).
  - unfold runc. cbn [fold_left cache_do]. destruct (cache_add_unchecked c v) as [c1 vi]. cbn [fst]. destruct (cache_add c1 n) as [c2 ni]. cbn [fst].
    match goal with |- context [fold_left _ ?h c2] => fold (runc c2 h) end. rewrite runc_app, <- run_pass. destruct (pass_map c2 m) as [c3 d]. cbn [fst]. rewrite runc_app.
    assert (Y : fst (match o with [] => (c3, None) | _ => let '(c4, oi) := cache_add_unchecked c3 o in (c4, Some (o, Z.of_nat oi)) end) =
                runc c3 match o with [] => [] | _ => [CAddUnchecked o] end) by (destruct o; reflexivity).
    rewrite <- Y. destruct (match o with [] => _ | _ => _ end) as [c4 oo]. cbn [fst].
    destruct i as [im|]; [|reflexivity]. rewrite <- run_pass. now destruct (pass_map c4 im).
Qed.
Lemma adds_looked e s : In (CAdd s) (adds e) -> In s (looked_up e).
Proof.
  assert (Q : forall s l, In (CAdd s) (map CAdd l) -> In s l) by (intros u l H; apply in_map_iff in H as (y & Ey & Hy); injection Ey as ->; exact Hy).
  assert (U : forall s l, ~ In (CAdd s) (map CAddUnchecked l)) by (intros u l H; apply in_map_iff in H as (y & Ey & _); discriminate).
  induction e as [v|v|v n|v n o|p e IH|e h IH|l IH|v n m o i] using jexpr_ind'; cbn [adds looked_up]; auto.
  - intros [H|[H|[]]]; [discriminate|]. injection H as ->. now left.
  - intros [H|[H|[]]]; [|discriminate]. injection H as ->. now left.
  - intro H. apply in_flat_map in H as (x & Hx & Hs). apply in_flat_map. exists x. split; [exact Hx|]. rewrite Forall_forall in IH. auto.
  - intros [H|[H|H]]; [discriminate|injection H as ->; now left|]. right. rewrite !in_app_iff in *.
    destruct H as [[H|[H|H]]|[H|H]]; [left; now apply Q|destruct (U _ _ H)|right; left; now apply Q| |].
    + destruct o; [destruct H|]. destruct H as [H|[]]; discriminate.
    + right. right. destruct i as [im|]; [|destruct H]. rewrite !in_app_iff in *. destruct H as [H|[H|H]]; [left; now apply Q|destruct (U _ _ H)|right; now apply Q].
Qed.

Lemma index_add c s u : cache_index_of (fst (cache_add c s)) u =
  if jstr_eqb u s then Some (match cache_index_of c s with Some i => i | None => length (ca_array c) end) else cache_index_of c u.
Proof.
  unfold cache_add. destruct (cache_index_of c s) as [i|] eqn:E; cbn [fst].
  - destruct (jstr_eqb u s) eqn:Eu; [|reflexivity]. apply jstr_eqb_eq in Eu. now subst.
  - unfold cache_index_of. cbn [ca_set js_get]. reflexivity.
Qed.
Lemma ok_bound c s i : cache_ok c -> cache_index_of c s = Some i -> i < length (ca_array c).
Proof. intros H E. apply H in E. apply nth_error_Some. congruence. Qed.
Lemma aligned_add c c' l s : cache_ok c -> cache_ok c' -> In s l -> aligned c c' l -> aligned (fst (cache_add c s)) (fst (cache_add c' s)) l.
Proof.
  intros O O' Hs [A B]. split.
  - intros u Hu. rewrite !index_add. destruct (jstr_eqb u s); [split; discriminate|]. now apply A.
  - intros u w i j i' j' Hu Hw. rewrite !index_add.
    assert (N : forall u i i', In u l -> cache_index_of c u = Some i -> cache_index_of c' u = Some i' ->
      Nat.compare i (match cache_index_of c s with Some k => k | None => length (ca_array c) end) =
      Nat.compare i' (match cache_index_of c' s with Some k => k | None => length (ca_array c') end)).
    { intros x k k' Hx H1 H2. pose proof (A s Hs) as As. destruct (cache_index_of c s) as [n|] eqn:En, (cache_index_of c' s) as [n'|] eqn:En'.
      - eapply (B x s); eauto.
      - destruct As as [_ As]. specialize (As eq_refl). discriminate.
      - destruct As as [As _]. specialize (As eq_refl). discriminate.
      - pose proof (ok_bound _ _ _ O H1) as L1. pose proof (ok_bound _ _ _ O' H2) as L2. apply Nat.compare_lt_iff in L1, L2. congruence. }
    destruct (jstr_eqb u s) eqn:Eu, (jstr_eqb w s) eqn:Ew; intros H1 H2 H3 H4.
    + injection H1 as <-. injection H2 as <-. injection H3 as <-. injection H4 as <-. now rewrite !Nat.compare_refl.
    + injection H1 as <-. injection H3 as <-. rewrite (Nat.compare_antisym j), (Nat.compare_antisym j'). f_equal. now apply (N w).
    + injection H2 as <-. injection H4 as <-. now apply (N u).
    + now apply (B u w).
Qed.
Lemma aligned_addu c c' l s : aligned c c' l -> aligned (fst (cache_add_unchecked c s)) (fst (cache_add_unchecked c' s)) l.
Proof. exact (fun H => H). Qed.
Lemma aligned_run l h : (forall s, In (CAdd s) h -> In s l) -> forall c c', cache_ok c -> cache_ok c' -> aligned c c' l -> aligned (runc c h) (runc c' h) l.
Proof.
  induction h as [|o h IH]; intros Hh c c' O O' A; [exact A|]. unfold runc. cbn [fold_left]. apply IH; [intros; apply Hh; now right| | |].
  - destruct (cache_do c o) as [c1 i] eqn:E. apply (cache_do_spec _ _ _ _ O E).
  - destruct (cache_do c' o) as [c1 i] eqn:E. apply (cache_do_spec _ _ _ _ O' E).
  - destruct o as [s|s]; cbn [cache_do]; [|now apply aligned_addu]. apply aligned_add; auto. apply Hh. now left.
Qed.
Theorem aligned_same c0 c0' e cols md c1 t c1' t' : reached_cache c0 -> reached_cache c0' -> aligned c0 c0' (looked_up e) ->
  build c0 e = (c1, t) -> build c0' e = (c1', t') -> same_result c1 (js_source_and_map cols md t) c1' (js_source_and_map cols md t').
Proof.
  intros H0 H0' A E E'. destruct cols; [|exact (lines_same c0 c0' e md c1 t c1' t' H0 H0' E E')]. apply (columns_same c0 c0' e md c1 t c1' t' H0 H0' E E').
  pose proof (run_build e c0) as B. pose proof (run_build e c0') as B'. rewrite E in B. rewrite E' in B'. cbn [fst] in B, B'. subst c1 c1'.
  apply (aligned_run (looked_up e) (adds e) (adds_looked e) c0 c0'); auto using reached_ok.
Qed.
