(** Which calls of a program throw: proofs. *)
From Verif Require Import Base Tactics ModelString ModelVlq ModelSm ModelSlm ModelSources ModelTree ModelHeap
  ModelWasm ModelJs ModelJsApi ModelJsResult ModelEnd ModelJsProg TreeText SpecHeap HeapFacts HeapGraph HeapProps SpecBuilt PanicFacts PanicProps
  SpecMap SpecAttr JsFacts SpecJs SpecResult ResultFacts ResultProps SpecEnd EndFacts MadeFacts EndMap IdxFacts SpecProg ProgFacts ProgSteps ProgProps ProgEnd SpecThrow.
Require Import Relations Wellfounded.

(** ** The graph of parts *)
Lemma denotes_acc vs :
  (forall a e, denotes vs a e -> forall i, a = ArgObj i -> Acc (fun y x => part vs x y) i) /\
  (forall l es, denotes_all vs l es -> forall i, In (ArgObj i) l -> Acc (fun y x => part vs x y) i).
Proof.
  apply denotes_both; try discriminate.
  - intros i e Ev k E. injection E as <-. constructor. intros y H. unfold part, holds in H. rewrite Ev in H. destruct H.
  - intros i p a e Ev _ IH k E. injection E as <-. constructor. intros y H. unfold part, holds in H. rewrite Ev in H. now apply IH.
  - intros i a l e Ev _ IH k E. injection E as <-. constructor. intros y H. unfold part, holds in H. rewrite Ev in H. now apply IH.
  - intros i l g es Ev _ IH k E. injection E as <-. constructor. intros y H. unfold part, holds in H. rewrite Ev in H. now apply IH.
  - intros i j e Ev _ IH k E. injection E as <-. constructor. intros y H. unfold part, holds in H. rewrite Ev in H. now apply IH.
  - intros i [].
  - intros a e l es _ IHa _ IHl i [->|H]; auto.
Qed.
Lemma acc_loop {A} (R : A -> A -> Prop) x : Acc (fun b a => R a b) x -> ~ clos_trans A R x x.
Proof.
  intros H T. apply Acc_clos_trans in H. revert T. induction H as [x _ IH]. intro T.
  assert (F : forall y z, clos_trans A R y z -> clos_trans A (fun b a => R a b) z y).
  { intros y z H. induction H as [y z Hyz|y z w _ IH1 _ IH2]; [now apply t_step|eapply t_trans; eauto]. }
  exact (IH x (F _ _ T) T).
Qed.
Lemma acc_reach {A} (R : A -> A -> Prop) x y : Acc (fun b a => R a b) x -> clos_refl_trans A R x y -> Acc (fun b a => R a b) y.
Proof. intros H T. revert H. induction T as [a b Hab| |a b c _ IH1 _ IH2]; intro H; auto. exact (Acc_inv H Hab). Qed.
Lemma denotes_apart vs i e : denotes vs (ArgObj i) e -> ~ contains_itself vs i.
Proof. intros D (j & R & T). exact (acc_loop _ _ (acc_reach _ _ _ (proj1 (denotes_acc vs) _ _ D i eq_refl) R) T). Qed.

Definition ranged (vs : list sobj) : Prop := forall i a, holds vs i a -> given vs a.
Lemma search vs : ranged vs -> forall n busy i, length vs <= length busy + n -> NoDup busy -> (forall b, In b busy -> b < length vs /\ clos_trans nat (part vs) b i) ->
  i < length vs -> (exists e, denotes vs (ArgObj i) e) \/ contains_itself vs i.
Proof.
  intro C. induction n as [|n IH]; intros busy i L Nd B Hi; (destruct (in_dec Nat.eq_dec i busy) as [Hb|Hb]; [right; exists i; split; [apply rt_refl|now apply B]|]).
  - exfalso. assert (K : incl (i :: busy) (seq 0 (length vs))).
    { intros x [<-|Hx]; apply in_seq; [lia|]. specialize (B _ Hx). lia. }
    apply NoDup_incl_length in K; [|now constructor]. rewrite seq_length in K. cbn [length] in K. lia.
  - assert (K : forall a, holds vs i a -> (exists e, denotes vs a e) \/ contains_itself vs i).
    { intros [s|j] Ha; [left; exists (XStr s); constructor|]. destruct (IH (i :: busy) j) as [D|(k & R & T)].
      - cbn [length]. lia.
      - now constructor.
      - intros b [<-|Hb']; [split; [exact Hi|now apply t_step]|]. destruct (B _ Hb') as [B1 B2]. split; [exact B1|]. eapply t_trans; [exact B2|now apply t_step].
      - exact (C _ _ Ha).
      - now left.
      - right. exists k. split; [|exact T]. eapply rt_trans; [apply rt_step; exact Ha|exact R]. }
    clear IH. destruct (nth_error vs i) as [v|] eqn:Ev; [|apply nth_error_None in Ev; lia]. unfold holds in K. rewrite Ev in K.
    destruct v as [e|p a|a l|l g|j].
    + left. eexists. eapply de_leaf; eauto.
    + destruct (K a eq_refl) as [[e D]|D]; [left; eexists; eapply de_prefix; eauto|now right].
    + destruct (K a eq_refl) as [[e D]|D]; [left; eexists; eapply de_edit; eauto|now right].
    + assert (Y : (exists es, denotes_all vs l es) \/ contains_itself vs i).
      { clear Ev. induction l as [|a l IHl]; [left; eexists; constructor|]. destruct (K a (or_introl eq_refl)) as [[e D]|D]; [|now right].
        destruct IHl as [[es D']|D']; [intros b Hb'; apply K; now right| |now right]. left. eexists. constructor; eauto. }
      destruct Y as [[es D]|D]; [left; eexists; eapply de_concat; eauto|now right].
    + destruct (K _ eq_refl) as [[e D]|D]; [left; eexists; eapply de_same; eauto|now right].
Qed.
Theorem denotes_iff vs i : ranged vs -> i < length vs -> ((exists e, denotes vs (ArgObj i) e) <-> ~ contains_itself vs i).
Proof.
  intros C Hi. split; [intros [e D]; eapply denotes_apart; eauto|]. intro H.
  destruct (search vs C (length vs) [] i) as [D|D]; [cbn; lia|constructor|intros b []|exact Hi|exact D|contradiction].
Qed.
Theorem denotes_unique vs :
  (forall a e, denotes vs a e -> forall e', denotes vs a e' -> e' = e) /\
  (forall l es, denotes_all vs l es -> forall es', denotes_all vs l es' -> es' = es).
Proof.
  apply denotes_both.
  - intros s e' H. inversion H; subst. reflexivity.
  - intros i e Ev e' H. inversion H; subst; congruence.
  - intros i p a e Ev _ IH e' H. inversion H as [|? ? E|? ? ? ? E D|? ? ? ? E|? ? ? ? E|? ? ? E]; subst; rewrite Ev in E; try discriminate. injection E as <- <-. f_equal. now apply IH.
  - intros i a l e Ev _ IH e' H. inversion H as [|? ? E|? ? ? ? E|? ? ? ? E D|? ? ? ? E|? ? ? E]; subst; rewrite Ev in E; try discriminate. injection E as <- <-. f_equal. now apply IH.
  - intros i l g es Ev _ IH e' H. inversion H as [|? ? E|? ? ? ? E|? ? ? ? E|? ? ? ? E D|? ? ? E]; subst; rewrite Ev in E; try discriminate. injection E as <- <-. f_equal. now apply IH.
  - intros i j e Ev _ IH e' H. inversion H as [|? ? E|? ? ? ? E|? ? ? ? E|? ? ? ? E|? ? ? E D]; subst; rewrite Ev in E; try discriminate. injection E as <-. now apply IH.
  - intros es' H. now inversion H.
  - intros a e l es _ IHa _ IHl es' H. inversion H; subst. f_equal; auto.
Qed.

(** ** Parts of the objects of a program exist *)
Lemma pass_given st vs h0 a s : prog_inv st vs h0 -> pass_arg (js_objs st) a = Some s -> given vs a.
Proof.
  intros Iv E. destruct a as [u|i]; cbn [given]; [exact I|]. cbn [pass_arg] in E. unb E as p Ep.
  destruct (nth_error (js_objs st) i) as [b|] eqn:Ei; [apply nth_lt in Ei; rewrite <- (iv_len _ _ _ Iv); exact Ei|].
  unfold ptr_of in Ep. destruct i; cbn [ptr_from] in Ep; rewrite Ei in Ep; discriminate.
Qed.
Lemma given_pass st vs h0 a : prog_inv st vs h0 -> given vs a -> exists s, pass_arg (js_objs st) a = Some s /\ forall i, a = ArgObj i -> exists p, s = SRef p /\ ptr_of (js_objs st) i = Some p.
Proof.
  intros Iv G. destruct a as [u|i]; cbn [given pass_arg] in *; [eexists; split; [reflexivity|discriminate]|].
  rewrite <- (iv_len _ _ _ Iv) in G. destruct (inv_total Iv _ G) as (p & Ep). rewrite Ep. cbn [bind]. eexists. split; [reflexivity|]. intros k E. injection E as <-. eauto.
Qed.
Lemma inv_ranged st vs h0 : prog_inv st vs h0 -> ranged vs.
Proof.
  intros Iv i a H. unfold holds in H. destruct (nth_error vs i) as [v|] eqn:Ev; [|destruct H].
  destruct (inv_obj Iv _ _ Ev) as (b & Eb). pose proof (iv_objs _ _ _ Iv _ _ _ Eb Ev) as M. destruct v; cbn [matches] in M.
  - destruct H.
  - subst a. destruct M as (p' & s & _ & _ & P). eapply pass_given; eauto.
  - subst a. destruct M as (p' & s & _ & _ & P). eapply pass_given; eauto.
  - destruct M as (p' & ss & _ & _ & F). clear - F H Iv. induction F as [|x s l ss P F IH]; [destruct H|]. destruct H as [->|H]; [eapply pass_given; eauto|auto].
  - subst a. cbn [given]. pose proof (iv_down _ _ _ Iv _ _ Ev). apply nth_lt in Ev. lia.
Qed.
Lemma wraps_denotes vs i k e : wraps vs i k -> denotes vs (ArgObj k) e -> denotes vs (ArgObj i) e.
Proof. induction 1 as [|i j k E _ IH]; intro D; [exact D|]. eapply de_same; eauto. Qed.
Lemma wraps_le vs i k : (forall i j, nth_error vs i = Some (VSame j) -> j < i) -> wraps vs i k -> k <= i.
Proof. intros Dn. induction 1 as [|i j k E _ IH]; [lia|]. apply Dn in E. lia. Qed.
Lemma wraps_part vs i k : wraps vs i k -> clos_refl_trans nat (part vs) i k.
Proof. induction 1 as [|i j k E _ IH]; [apply rt_refl|]. eapply rt_trans; [apply rt_step|exact IH]. unfold part, holds. now rewrite E. Qed.
Lemma wraps_ext vs vs' i k : (forall m j, nth_error vs m = Some (VSame j) -> nth_error vs' m = Some (VSame j)) -> wraps vs i k -> wraps vs' i k.
Proof. intro H. induction 1 as [|i j k E _ IH]; [constructor|econstructor; eauto]. Qed.
Lemma wraps_ptr st vs h0 i k : prog_inv st vs h0 -> wraps vs i k -> ptr_of (js_objs st) i = ptr_of (js_objs st) k.
Proof.
  intro Iv. induction 1 as [|i j k E _ IH]; [reflexivity|]. rewrite <- IH. destruct (inv_cachedv Iv _ _ E) as (t & n & Eb).
  destruct (inv_same Iv _ _ _ _ Eb) as (_ & _ & p & -> & ->). reflexivity.
Qed.

(** ** What is answered denotes something *)
Scheme unfolds_mut := Induction for unfolds Sort Prop with unfolds_all_mut := Induction for unfolds_all Sort Prop.
Combined Scheme unfolds_both from unfolds_mut, unfolds_all_mut.
Lemma unfolded_denotes st vs h0 : prog_inv st vs h0 ->
  (forall s t, unfolds (js_heap st) s t -> forall a, pass_arg (js_objs st) a = Some s -> exists e, denotes vs a e) /\
  (forall ss ts, unfolds_all (js_heap st) ss ts -> forall l, Forall2 (fun a s => pass_arg (js_objs st) a = Some s) l ss -> exists es, denotes_all vs l es).
Proof.
  intro Iv.
  assert (K : forall i p o, nth_error (js_heap st) p = Some o ->
      (forall a s, (exists pre, o = OPrefix pre s) \/ (exists r, o = OReplace s r) -> pass_arg (js_objs st) a = Some s -> exists e, denotes vs a e) ->
      (forall l ss, o = OConcat ss -> Forall2 (fun a s => pass_arg (js_objs st) a = Some s) l ss -> exists es, denotes_all vs l es) ->
      pass_arg (js_objs st) (ArgObj i) = Some (SRef p) -> exists e, denotes vs (ArgObj i) e).
  { intros i p o En K1 K2 P. cbn [pass_arg] in P. unb P as q Ep. injection P as ->.
    assert (D : forall k b v, nth_error (js_objs st) k = Some b -> own_ptr b = Some p -> nth_error vs k = Some v -> exists e, denotes vs (ArgObj k) e).
    { intros k b v Eb Op Ev. pose proof (iv_objs _ _ _ Iv _ _ _ Eb Ev) as M. pose proof (iv_later _ _ _ Iv p I) as L. rewrite En in L. destruct v; cbn [matches] in M.
      - eexists. eapply de_leaf; eauto.
      - destruct M as (q & s & -> & En' & Ea). injection Op as ->. rewrite En' in L. destruct o; cbn in L; try contradiction; try discriminate. injection L as -> ->.
        destruct (K1 a s) as [e D]; [left; eauto|exact Ea|]. eexists. eapply de_prefix; eauto.
      - destruct M as (q & s & -> & En' & Ea). injection Op as ->. rewrite En' in L. destruct o; cbn in L; try contradiction; try discriminate. destruct L as [<- _].
        destruct (K1 a s) as [e D]; [right; eauto|exact Ea|]. eexists. eapply de_edit; eauto.
      - destruct M as (q & s & -> & En' & Ea). injection Op as ->. rewrite En' in L. destruct o; cbn in L; try contradiction; try discriminate. injection L as ->.
        destruct (K2 items s eq_refl Ea) as [es D]. eexists. eapply de_concat; eauto.
      - destruct M as (? & ? & ? & -> & _). discriminate. }
    destruct (inv_core _ _ _ _ _ Iv Ep) as (k & b & v & W & Ek & Op & Ev & _). destruct (D k b v Ek Op Ev) as [e De]. exists e. eapply wraps_denotes; eauto. }
  apply unfolds_both.
  - intros s a P. destruct a as [u|i]; [eexists; constructor|]. cbn [pass_arg] in P. unb P as q Ep. discriminate.
  - intros i v En [u|k] P; [discriminate|]. eapply K; eauto; [intros a s [[pre H]|[r H]]; discriminate|discriminate].
  - intros i v vi n En [u|k] P; [discriminate|]. eapply K; eauto; [intros a s [[pre H]|[r H]]; discriminate|discriminate].
  - intros i v n o En [u|k] P; [discriminate|]. eapply K; eauto; [intros a s [[pre H]|[r H]]; discriminate|discriminate].
  - intros i p s t En _ IH [u|k] P; [discriminate|]. eapply K; eauto; [intros a s' [[pre H]|[r H]]; [injection H as <- <-; apply IH|discriminate]|discriminate].
  - intros i s r t En _ IH [u|k] P; [discriminate|]. eapply K; eauto; [intros a s' [[pre H]|[r' H]]; [discriminate|injection H as <- <-; apply IH]|discriminate].
  - intros i l ts En _ IH [u|k] P; [discriminate|]. eapply K; eauto; [intros a s' [[pre H]|[r' H]]; discriminate|]. intros l' ss H. injection H as <-. apply IH.
  - intros i x En [u|k] P; [discriminate|]. eapply K; eauto; [intros a s [[pre H]|[r H]]; discriminate|discriminate].
  - intros l H. inversion H; subst. eexists; constructor.
  - intros s t ss ts _ IH1 _ IH2 l H. inversion H as [|a s' l' ss' H1 H2]; subst. destruct (IH1 _ H1) as [e De]. destruct (IH2 _ H2) as [es Des]. eexists. constructor; eauto.
Qed.

(** ** The heap of a program is one that API calls build *)
Lemma ptr_lt st vs h0 i p : prog_inv st vs h0 -> ptr_of (js_objs st) i = Some p -> p < length (js_heap st).
Proof.
  intros Iv E. destruct (inv_behind _ _ _ _ _ Iv E) as (k & b & v & Eb & Op & Ev & _). rewrite (lately_len _ _ (iv_later _ _ _ Iv)). exact (inv_lt Iv _ _ _ Eb Ev _ Op).
Qed.
Lemma built_put {A} (q : question) (f : A -> answer) (r : res (heap * A)) h p h1 v :
  put h p q = rmap f r -> of_res r = Some (h1, v) -> built h -> built h1.
Proof. intros E Er B. destruct r as [[h2 v2]| |]; try discriminate. injection Er as <- <-. cbn in E. eapply bt_read; eauto. Qed.
Lemma source_built st b st' s : read_source st b = Some (st', s) -> built (js_heap st) -> built (js_heap st').
Proof.
  intros E B. destruct b; cbn [read_source] in E; try discriminate; try (injection E as <- _; exact B);
    unb E as [h t] E1; injection E as <- _; (eapply (built_put AskSource GotText); [reflexivity|exact E1|exact B]).
Qed.
Lemma size_built st b st' s : read_size st b = Some (st', s) -> built (js_heap st) -> built (js_heap st').
Proof.
  intros E B. destruct b; cbn [read_size] in E; try discriminate; try (injection E as <- _; exact B);
    unb E as [h t] E1; injection E as <- _; (eapply (built_put AskSize GotSize); [reflexivity|exact E1|exact B]).
Qed.
Lemma map_built st b c m st' r : read_map_of st b c m = Some (st', r) -> built (js_heap st) -> built (js_heap st').
Proof.
  intros E B. destruct b; cbn [read_map_of own_ptr bind] in E; try discriminate; try (injection E as <- _; exact B);
    (destruct c; unb E as [h t] E1; [unb E as w E2|]; injection E as <- _;
     [eapply (built_put (AskNode true m) GotNode)|eapply (built_put (AskLines false m) GotLines)]; [reflexivity|exact E1|exact B|reflexivity|exact E1|exact B]).
Qed.
Lemma source_from_built d : forall st i st' s, source_from d st i = Some (st', s) -> built (js_heap st) -> built (js_heap st').
Proof.
  induction d as [|d IH]; intros st i st' s E B; cbn [source_from] in E; unb E as b Eb; destruct b as [| | | | | | |j [t|] n];
    try (eapply source_built; eauto; fail); try discriminate; try (injection E as <- _; exact B).
  unb E as [st2 s2] E2. injection E as <- _. cbn [set_obj js_heap]. eauto.
Qed.
Lemma size_from_built d : forall st i st' s, size_from d st i = Some (st', s) -> built (js_heap st) -> built (js_heap st').
Proof.
  induction d as [|d IH]; intros st i st' s E B; cbn [size_from] in E; unb E as b Eb; destruct b as [| | | | | | |j [t|] [n|]];
    try (eapply size_built; eauto; fail); try discriminate; try (injection E as <- _; exact B).
  unb E as [st2 s2] E2. injection E as <- _. cbn [set_obj js_heap]. eauto.
Qed.
Lemma hash_built stack : forall st a st' s, update_hash stack st a = Some (st', s) -> built (js_heap st) -> built (js_heap st').
Proof.
  induction stack as [|n IH]; intros st [u|i] st' s E B; try (injection E as <- _; exact B); [discriminate|].
  destruct (nth_error (js_objs st) i) as [b|] eqn:Ei; [|cbn [update_hash] in E; rewrite Ei in E; discriminate].
  destruct b as [p v|p v|p v o|p pre a|p|p l|p v o|j t k].
  6: { rewrite (hash_concat _ _ _ _ _ Ei) in E. clear Ei. revert st s E B. induction l as [|x l IHl]; intros st s E B; cbn [hash_all] in E.
       - injection E as <- _. exact B.
       - unb E as [st1 s1] E1. unb E as [st2 s2] E2. injection E as <- _. eapply IHl; eauto. }
  all: cbn [update_hash] in E; rewrite Ei in E; cbn [bind] in E; try (injection E as <- _; exact B).
  - unb E as [st1 s1] E1. injection E as <- _. eauto.
  - eapply source_built; eauto.
  - eauto.
Qed.
Lemma add_built st i a st' : js_add st i a = Some st' -> built (js_heap st) -> built (js_heap st').
Proof.
  intros E B. unfold js_add in E. destruct (nth_error (js_objs st) i) as [b|]; [|discriminate]. destruct b as [| | | | |p g| |]; try discriminate.
  unb E as s E1. destruct (h_add (js_heap st) p s) as [h| |] eqn:Eh; try discriminate. injection E as <-. cbn [set_obj set_heap js_heap]. eapply bt_add; eauto.
Qed.
Lemma adds_built l : forall st i st', js_adds st i l = Some st' -> built (js_heap st) -> built (js_heap st').
Proof.
  induction l as [|a l IH]; intros st i st' E B; cbn [js_adds] in E; [injection E as <-; exact B|].
  unb E as st1 E1. eapply IH; eauto. eapply add_built; eauto.
Qed.
Lemma passed_fine c m d : cache_ok c -> sound_map m -> passed c m d -> fine_map d.
Proof.
  intros Hc Hs Hp. destruct (sound_readable _ _ _ Hc Hs Hp) as (es & N1 & N2 & Rm & Sg & _). unfold fine_map. eauto.
Qed.
Lemma new_built st c o b : built (js_heap st) -> createable (js_heap st) o -> built (js_heap (new_obj st c o b)).
Proof. intros B C. exact (bt_new _ _ B C). Qed.

Theorem built_step st vs h0 op st' a : prog_inv st vs h0 -> good_op op -> jstep st op = Some (st', a) -> built (js_heap st) -> built (js_heap st').
Proof.
  intros Iv Gd E B. destruct op as [v|v n|v n o|pre x|x|l|v n m o inner|j|i x|i s e tx|i s tx|i|i|sk i|i cl md|s ck]; cbn [jstep] in E.
  - destruct (js_get (js_raws st) v); cbn [h_new] in E; injection E as <- _; [exact B|]. exact (bt_new _ (ORaw (from_js v)) B I).
  - destruct (cache_add_unchecked (js_cache st) v) as [c1 vi] eqn:E1. destruct (cache_add c1 n) as [c2 ni] eqn:E2.
    pose proof (bt_new _ (OOriginal (from_js v) (Z.of_nat vi) (Z.of_nat ni)) B I) as B'.
    destruct (jstr_eqb n BOOTSTRAP); [destruct (boot_get (js_boots st) vi); cbn [h_new] in E|]; injection E as <- _; auto.
  - destruct (cache_add (js_cache st) n) as [c1 ni] eqn:E1. destruct (cache_add_unchecked c1 o) as [c2 oi] eqn:E2. injection E as <- _. now apply new_built.
  - unb E as s E1. injection E as <- _. apply new_built; [exact B|]. destruct x as [u|k]; [destruct Gd|]. cbn [pass_arg] in E1. unb E1 as p Ep. injection E1 as <-.
    cbn [createable is_handle]. eapply ptr_lt; eauto.
  - unb E as s E1. injection E as <- _. apply new_built; [exact B|]. destruct x as [u|k]; [destruct Gd|]. cbn [pass_arg] in E1. unb E1 as p Ep. injection E1 as <-.
    cbn [createable is_handle]. split; [eapply ptr_lt; eauto|reflexivity].
  - match type of E with (if ?g then _ else _) = _ => destruct g; [|discriminate] end. unb E as st2 E1. injection E as <- _.
    eapply adds_built; [exact E1|]. apply new_built; [exact B|reflexivity].
  - destruct Gd as [Sm Si]. pose proof (reached_ok _ (iv_cache _ _ _ Iv)) as O0.
    destruct (cache_add_unchecked (js_cache st) v) as [c2 vi] eqn:E1. destruct (cache_add c2 n) as [c3 ni] eqn:E2. destruct (pass_map c3 m) as [c4 d] eqn:E3.
    destruct (addu_at _ _ _ _ O0 E1) as (O2 & _ & _). destruct (add_known _ _ _ _ O2 E2) as (O3 & _ & _).
    destruct (pass_map_spec _ _ _ _ O3 E3) as (O4 & G4 & A4). pose proof (passed_fine _ _ _ O4 Sm A4) as F.
    match type of E with (let '(_, _) := ?z in _) = _ => destruct z as [c5 x1] eqn:E5 end.
    assert (X5 : cache_ok c5 /\ exists oo, x1 = mk_sms (from_js v) (Z.of_nat vi) (Z.of_nat ni) (mk_cell (Some d) None) oo None false).
    { destruct o as [|z o]; [injection E5 as <- <-; split; [exact O4|eexists; reflexivity]|]. destruct (cache_add_unchecked c4 (z :: o)) as [c7 oi] eqn:E7. injection E5 as <- <-.
      split; [exact (proj1 (addu_at _ _ _ _ O4 E7))|eexists; reflexivity]. }
    destruct X5 as (O5 & oo & ->).
    match type of E with (let '(_, _) := ?z in _) = _ => destruct z as [c6 x2] eqn:E6 end. injection E as <- _. cbn [new_obj h_new js_heap].
    destruct inner as [im|].
    + destruct (pass_map c5 im) as [c7 id] eqn:E7. injection E6 as <- <-. destruct (pass_map_spec _ _ _ _ O5 E7) as (O7 & _ & A7).
      exact (bt_sms_inner _ (from_js v) (Z.of_nat vi) (Z.of_nat ni) _ oo _ B (mc_given _ F) (mc_given _ (passed_fine _ _ _ O7 Si A7))).
    + injection E6 as <- <-. exact (bt_sms _ (from_js v) (Z.of_nat vi) (Z.of_nat ni) _ oo B (mc_given _ F)).
  - destruct (Nat.ltb j (length (js_objs st))); [|discriminate]. injection E as <- _. exact B.
  - unb E as st1 E1. injection E as <- _. eapply add_built; eauto.
  - unb E as b E1. destruct b; try discriminate. unb E as h E2. injection E as <- _. cbn [set_heap js_heap].
    match type of E2 with of_res ?r = _ => destruct r as [h'| |] eqn:Er; try discriminate end. injection E2 as <-. eapply bt_replace; eauto.
  - unb E as b E1. destruct b; try discriminate. unb E as h E2. injection E as <- _. cbn [set_heap js_heap].
    match type of E2 with of_res ?r = _ => destruct r as [h'| |] eqn:Er; try discriminate end. injection E2 as <-. eapply bt_insert; eauto.
  - unb E as [st1 s] E1. injection E as <- _. eapply source_from_built; eauto.
  - unb E as [st1 s] E1. injection E as <- _. eapply size_from_built; eauto.
  - unb E as [st1 s] E1. injection E as <- _. eapply hash_built; eauto.
  - unb E as b E1. unb E as [st1 r] E2. injection E as <- _. eapply map_built; eauto.
  - injection E as <- _. exact B.
Qed.
Theorem built_run c0 ops st : reached_cache c0 -> jrun (jstate_new c0) ops = Some st -> Forall good_op ops -> built (js_heap st).
Proof.
  intros R Run Gd. assert (K : forall l st0 vs h0, prog_inv st0 vs h0 -> built (js_heap st0) -> Forall good_op l -> jrun st0 l = Some st -> built (js_heap st)).
  { induction l as [|op l IH]; intros st0 vs h0 Iv B G E; cbn [jrun] in E; [injection E as <-; exact B|]. inversion G as [|? ? G1 G2]; subst.
    unb E as [st1 a] E1. destruct (inv_step _ _ _ _ _ _ Iv E1) as (h1 & Iv1). exact (IH _ _ _ Iv1 (built_step _ _ _ _ _ _ Iv G1 E1 B) G2 E). }
  eapply K; [apply inv_start; exact R|constructor|exact Gd|exact Run].
Qed.

(** ** Calls *)
Lemma reply_val h p q h1 v : put h p q = Val (h1, v) -> reply h p q = Val v.
Proof. intro E. unfold reply. now rewrite E. Qed.
Lemma reply_put h p q v : reply h p q = Val v -> exists h1, put h p q = Val (h1, v).
Proof. unfold reply. destruct (put h p q) as [[h1 w]| |]; cbn; intro E; try discriminate. injection E as <-. eauto. Qed.
Lemma js_source_total t : exists s, js_source t = Some s /\ exists n, js_size t = Some n.
Proof.
  destruct (source_total (import t)) as (s & Es). pose proof (size_spec _ _ Es) as Ez.
  destruct t; cbn [js_source js_size]; rewrite ?Es, ?Ez; cbn [option_map]; eauto.
Qed.
Section Calls.
  Context {st : jstate} {vs : list sobj} {h0 : heap} (Iv : prog_inv st vs h0).

  Lemma answered i p q v : ptr_of (js_objs st) i = Some p -> reply (js_heap st) p q = Val v -> exists e, denotes vs (ArgObj i) e.
  Proof.
    intros Ep E. destruct (answered_unfolds _ _ _ _ E) as (t & U). eapply (proj1 (unfolded_denotes _ _ _ Iv)); eauto. cbn [pass_arg]. now rewrite Ep.
  Qed.
  Lemma own_denotes i b : nth_error (js_objs st) i = Some b -> match b with BRaw _ _ | BOriginal _ _ | BL2L _ _ _ | BSms _ _ _ => True | _ => False end -> exists e, denotes vs (ArgObj i) e.
  Proof.
    intros Eb H. destruct (inv_val Iv _ _ Eb) as (v & Ev). pose proof (iv_objs _ _ _ Iv _ _ _ Eb Ev) as M. destruct v; cbn [matches] in M.
    - eexists. eapply de_leaf; eauto.
    - destruct M as (q & s & -> & _). destruct H.
    - destruct M as (q & s & -> & _). destruct H.
    - destruct M as (q & s & -> & _). destruct H.
    - destruct M as (? & ? & ? & -> & _). destruct H.
  Qed.
  Lemma source_denotes i b st1 s : nth_error (js_objs st) i = Some b -> read_source st b = Some (st1, s) -> exists e, denotes vs (ArgObj i) e.
  Proof.
    intros Eb E. destruct b; cbn [read_source] in E; try discriminate.
    all: try (apply (own_denotes _ _ Eb); exact I).
    all: unb E as [h t] E1; destruct (h_read source_alg (js_heap st) ptr) as [[h1 w]| |] eqn:Er; try discriminate;
      eapply (answered i ptr AskSource); [exact (ptr_own _ _ _ _ Eb eq_refl)|unfold reply; cbn [put]; rewrite Er; reflexivity].
  Qed.
  Lemma size_denotes i b st1 s : nth_error (js_objs st) i = Some b -> read_size st b = Some (st1, s) -> exists e, denotes vs (ArgObj i) e.
  Proof.
    intros Eb E. destruct b; cbn [read_size] in E; try discriminate.
    all: try (apply (own_denotes _ _ Eb); exact I).
    all: unb E as [h t] E1; destruct (h_size (js_heap st) ptr) as [[h1 w]| |] eqn:Er; try discriminate;
      eapply (answered i ptr AskSize); [exact (ptr_own _ _ _ _ Eb eq_refl)|unfold reply; cbn [put]; rewrite Er; reflexivity].
  Qed.
  Lemma map_denotes i b c m st1 s : nth_error (js_objs st) i = Some b -> read_map_of st b c m = Some (st1, s) -> exists e, denotes vs (ArgObj i) e.
  Proof.
    intros Eb E. destruct b; cbn [read_map_of own_ptr bind] in E; try discriminate.
    all: try (apply (own_denotes _ _ Eb); exact I).
    all: destruct c; unb E as [h t] E1;
      [destruct (h_read (node_alg true m) (js_heap st) ptr) as [[h1 w]| |] eqn:Er; try discriminate; eapply (answered i ptr (AskNode true m))
      |destruct (h_read (list_map_alg false m) (js_heap st) ptr) as [[h1 w]| |] eqn:Er; try discriminate; eapply (answered i ptr (AskLines false m))];
      first [exact (ptr_own _ _ _ _ Eb eq_refl)|unfold reply; cbn [put]; rewrite Er; reflexivity].
  Qed.
  Lemma denoted_source i e b : denotes vs (ArgObj i) e -> nth_error (js_objs st) i = Some b -> (exists p, own_ptr b = Some p) ->
    (exists r, read_source st b = Some r) /\ (exists r, read_size st b = Some r).
  Proof.
    intros D Eb (p & Op). destruct (inv_answers _ _ _ _ _ _ _ Iv Eb Op D) as (t & Hm & A1 & A2 & _).
    destruct (js_source_total t) as (s & Es & n & En). rewrite Es in A1. rewrite En in A2.
    split; [destruct (read_source st b)|destruct (read_size st b)]; try discriminate; eauto.
  Qed.
  (** add *)
  Lemma concat_obj i l g : nth_error vs i = Some (VConcat l g) -> exists p ss, nth_error (js_objs st) i = Some (BConcat p g) /\ nth_error (js_heap st) p = Some (OConcat ss) /\
    nth_error h0 p = Some (OConcat ss).
  Proof.
    intro Ev. destruct (inv_obj Iv _ _ Ev) as (b & Eb). destruct (iv_objs _ _ _ Iv _ _ _ Eb Ev) as (p & ss & -> & En & _). exists p, ss. split; [exact Eb|]. split; [|exact En].
    eapply lately_same'; [apply (iv_later _ _ _ Iv)|exact En|exact I].
  Qed.
  Lemma own_is i p ss g k q : nth_error (js_objs st) i = Some (BConcat p g) -> nth_error h0 p = Some (OConcat ss) -> ptr_of (js_objs st) k = Some q -> q = p <-> is_object vs i (ArgObj k).
  Proof.
    intros Ei En Ek. cbn [is_object]. split.
    - intros ->. destruct (inv_core _ _ _ _ _ Iv Ek) as (m & b & v & W & Em & Op & Ev & _).
      assert (m = i) as <- by exact (iv_own _ _ _ Iv m i _ _ _ _ Em Ei Op eq_refl En I). exact W.
    - intro W. rewrite (wraps_ptr _ _ _ _ _ Iv W), (ptr_own _ _ _ _ Ei eq_refl) in Ek. congruence.
  Qed.
  Lemma add_iff i a : (exists st', js_add st i a = Some st') <-> ((exists l g, nth_error vs i = Some (VConcat l g)) /\ given vs a /\ ~ is_object vs i a).
  Proof.
    split.
    - intros (st' & E). unfold js_add in E. destruct (nth_error (js_objs st) i) as [b|] eqn:Ei; [|discriminate]. destruct b as [| | | | |p g| |]; try discriminate.
      unb E as s Es. destruct (inv_val Iv _ _ Ei) as (v & Ev). pose proof (iv_objs _ _ _ Iv _ _ _ Ei Ev) as M.
      assert (Hv : exists l, v = VConcat l g).
      { destruct v; cbn [matches] in M.
        - destruct M as (t' & q' & o' & _ & B & _). destruct t'; discriminate.
        - destruct M as (q' & s' & B & _); discriminate.
        - destruct M as (q' & s' & B & _); discriminate.
        - destruct M as (q' & s' & B & _). injection B as _ <-. eauto.
        - destruct M as (t' & n' & q' & B & _). discriminate. }
      destruct Hv as (l & ->). split; [eauto|]. split; [eapply pass_given; eauto|]. intro S. destruct a as [u|k]; [destruct S|].
      cbn [pass_arg] in Es. unb Es as q Eq. injection Es as <-. destruct (concat_obj _ _ _ Ev) as (p' & ss & Ei' & Eh & E0). rewrite Ei in Ei'. injection Ei' as <-.
      apply (own_is i p ss g k q Ei E0 Eq) in S. subst q. unfold h_add in E. rewrite Eh, Nat.eqb_refl in E. discriminate.
    - intros ((l & g & Ev) & G & S). destruct (concat_obj _ _ _ Ev) as (p & ss & Ei & Eh & E0). unfold js_add. rewrite Ei.
      destruct (given_pass _ _ _ _ Iv G) as (s & Es & Hs). rewrite Es. cbn [bind]. unfold h_add. rewrite Eh. destruct s as [u|q]; [eauto|].
      destruct a as [u|k]; [discriminate|]. destruct (Hs k eq_refl) as (q' & Eq & Ek). injection Eq as <-.
      destruct (Nat.eqb_spec p q) as [<-|N]; [destruct S; now apply (own_is i p ss g k p Ei E0 Ek)|].
      pose proof (ptr_lt _ _ _ _ _ Iv Ek) as Lt. destruct (nth_error (js_heap st) q) as [o|] eqn:En; [|apply nth_error_None in En; lia].
      destruct o; eauto.
  Qed.
  Lemma edit_iff i : (exists a l, nth_error vs i = Some (VEdit a l)) <-> exists p s r, nth_error (js_objs st) i = Some (BReplace p) /\ nth_error (js_heap st) p = Some (OReplace s r).
  Proof.
    split.
    - intros (a & l & Ev). destruct (inv_obj Iv _ _ Ev) as (b & Eb). destruct (iv_objs _ _ _ Iv _ _ _ Eb Ev) as (p & s & -> & En & _).
      pose proof (iv_later _ _ _ Iv p I) as L. rewrite En in L. destruct (nth_error (js_heap st) p) as [o|] eqn:Eh; [|destruct L]. destruct o; try destruct L. eauto 6.
    - intros (p & s & r & Eb & _). destruct (inv_val Iv _ _ Eb) as (v & Ev). pose proof (iv_objs _ _ _ Iv _ _ _ Eb Ev) as M. destruct v; cbn [matches] in M.
      + destruct M as (t' & q' & o' & _ & B & _). destruct t'; discriminate.
      + destruct M as (q' & s' & B & _); discriminate.
      + eauto.
      + destruct M as (q' & s' & B & _). discriminate.
      + destruct M as (t' & n' & q' & B & _). discriminate.
  Qed.
  Lemma fresh_iff i b : nth_error (js_objs st) i = Some b -> fresh_reads vs i <-> exists p, own_ptr b = Some p.
  Proof.
    intro Eb. destruct (inv_val Iv _ _ Eb) as (v & Ev). pose proof (iv_objs _ _ _ Iv _ _ _ Eb Ev) as M. unfold fresh_reads. rewrite Ev. destruct v; cbn [matches] in M.
    - destruct M as (t' & q' & o' & _ & B & _). split; [intros _; exists q'; eapply leaf_ptr; eauto|discriminate].
    - destruct M as (q' & s' & -> & _). split; [eexists; reflexivity|discriminate].
    - destruct M as (q' & s' & -> & _). split; [eexists; reflexivity|discriminate].
    - destruct M as (q' & s' & -> & _). split; [eexists; reflexivity|discriminate].
    - destruct M as (t' & n' & q' & -> & _). split; [intro H; destruct (H i0); reflexivity|intros (p & H); discriminate].
  Qed.
  Lemma denoted_from i : forall d e, i <= d -> denotes vs (ArgObj i) e -> (exists r, source_from d st i = Some r) /\ (exists r, size_from d st i = Some r).
  Proof.
    induction i as [i IH] using lt_wf_ind. intros d e L D.
    assert (Hv : exists v, nth_error vs i = Some v) by (inversion D; subst; eauto). destruct Hv as (v & Ev).
    destruct (inv_obj Iv _ _ Ev) as (b & Eb). destruct (own_ptr b) as [p|] eqn:Op.
    - rewrite (source_own _ _ _ _ _ Eb Op), (size_own _ _ _ _ _ Eb Op). apply (denoted_source _ _ _ D Eb). eauto.
    - destruct b as [| | | | | | |j t n]; try discriminate. destruct (inv_same Iv _ _ _ _ Eb) as (Ev' & Lj & _). rewrite Ev in Ev'. injection Ev' as ->.
      assert (D' : denotes vs (ArgObj j) e) by (inversion D; subst; congruence).
      destruct d as [|d]; [lia|]. destruct (IH j Lj d e ltac:(lia) D') as (([st1 s1] & E1) & ([st2 s2] & E2)). cbn [source_from size_from]. rewrite Eb. cbn [bind].
      rewrite E1, E2. cbn [bind]. destruct t, n; eauto.
  Qed.
  Lemma denotes_here i : i < length vs -> ~ contains_itself vs i -> exists e, denotes vs (ArgObj i) e.
  Proof. intros Hi H. apply denotes_iff; auto. exact (inv_ranged _ _ _ Iv). Qed.
  (** Maps. *)
  Lemma denoted_map i e b c m : built (js_heap st) -> denotes vs (ArgObj i) e -> nth_error (js_objs st) i = Some b -> (exists p, own_ptr b = Some p) ->
    exists r, read_map_of st b c m = Some r.
  Proof.
    intros B D Eb (p & Op). pose proof (ptr_own _ _ _ _ Eb Op) as Ep. pose proof (ptr_lt _ _ _ _ _ Iv Ep) as Lt.
    assert (Ac : ~ cyclic (js_heap st) p).
    { destruct (proj1 (denotes_made _ _ _ Iv) _ _ D) as (s & t & Es & _ & U). cbn [pass_arg] in Es. rewrite Ep in Es. injection Es as <-.
      pose proof (inv_reply _ _ _ _ _ AskSource Iv U) as R. cbn [t_answer] in R. destruct (source_total (import t)) as (s & Hs). rewrite Hs in R. cbn [bind lift] in R.
      eapply answered_acyclic. exact R. }
    assert (K : forall q, exists v, reply (js_heap st) p q = Val v) by (intro q; destruct (built_answers _ _ q B Lt) as [H|[_ H]]; [exact H|contradiction]).
    assert (K1 : exists h n r, h_read (node_alg true m) (js_heap st) p = Val (h, n) /\ node_result n = Some r).
    { destruct (K (AskNode true m)) as (v & Ev). unfold reply in Ev. cbn [put] in Ev. destruct (h_read (node_alg true m) (js_heap st) p) as [[h n]| |] eqn:Er; try discriminate.
      cbn in Ev. injection Ev as <-. destruct (built_serialised (js_heap st) p true m n None None B) as (code & mp & g & _ & G & _).
      - unfold reply. cbn [put]. now rewrite Er.
      - exists h, n. unfold node_result. rewrite G. cbn [bind]. eauto. }
    assert (K2 : exists h l, h_read (list_map_alg false m) (js_heap st) p = Val (h, l)).
    { destruct (K (AskLines false m)) as (v & Ev). unfold reply in Ev. cbn [put] in Ev. destruct (h_read (list_map_alg false m) (js_heap st) p) as [[h l]| |] eqn:Er; try discriminate. eauto. }
    destruct K1 as (h1 & n & r & E1 & E2), K2 as (h2 & l & E3).
    destruct b; cbn [own_ptr] in Op; try discriminate; injection Op as ->; cbn [read_map_of own_ptr bind]; eauto;
      (destruct c; [rewrite E1|rewrite E3]; cbn [of_res bind]; rewrite ?E2; cbn [bind]; eauto).
  Qed.
End Calls.
Lemma spec_add_nth i vs a k : nth_error (spec_add i vs a) k = match nth_error vs k with Some (VConcat l g) => if Nat.eqb i k then Some (VConcat (l ++ added vs a) (g ++ [a])) else Some (VConcat l g) | o => o end.
Proof. unfold spec_add. rewrite nth_update. destruct (Nat.eqb i k); destruct (nth_error vs k) as [v|]; try reflexivity; now destruct v. Qed.
Lemma adds_succeed i l : forall st vs h0, prog_inv st vs h0 -> (exists its g, nth_error vs i = Some (VConcat its g)) -> Forall (fun a => given vs a /\ ~ is_object vs i a) l ->
  exists st', js_adds st i l = Some st'.
Proof.
  induction l as [|a l IH]; intros st vs h0 Iv Ev F; cbn [js_adds]; [eauto|]. inversion F as [|? ? F1 F2]; subst.
  destruct (proj2 (add_iff Iv i a)) as (st1 & E1); [tauto|]. rewrite E1. cbn [bind]. destruct (inv_add _ _ _ _ _ _ Iv E1) as (h1 & Iv1 & _).
  apply (IH _ _ _ Iv1).
  - destruct Ev as (its & g & Ev). rewrite spec_add_nth, Ev, Nat.eqb_refl. eauto.
  - eapply Forall_impl; [|exact F2]. intros x [G S]. split.
    + destruct x; [exact I|]. cbn [given] in *. unfold spec_add. now rewrite length_update.
    + destruct x as [u|k]; [exact S|]. intro H. apply S. revert H. apply wraps_ext. intros m j. apply add_same.
Qed.

Theorem step_succeeds st vs h0 op : prog_inv st vs h0 -> allowed vs op -> (forall i c m, op = OMap i c m -> built (js_heap st)) -> exists r, jstep st op = Some r.
Proof.
  intros Iv A B. destruct op as [v|v n|v n o|pre x|x|l|v n m o inner|j|i x|i s e tx|i s tx|i|i|sk i|i cl md|s ck]; cbn [jstep allowed] in *.
  - destruct (js_get (js_raws st) v); eauto. destruct (h_new (js_heap st) (ORaw (from_js v))). eauto.
  - destruct (cache_add_unchecked (js_cache st) v) as [c1 vi]. destruct (cache_add c1 n) as [c2 ni].
    destruct (jstr_eqb n BOOTSTRAP); [destruct (boot_get (js_boots st) vi)|]; eauto. cbn [h_new]. eauto.
  - destruct (cache_add (js_cache st) n) as [c1 ni]. destruct (cache_add_unchecked c1 o) as [c2 oi]. eauto.
  - destruct (given_pass _ _ _ _ Iv A) as (s & Es & _). rewrite Es. cbn [bind]. eauto.
  - destruct (given_pass _ _ _ _ Iv A) as (s & Es & _). rewrite Es. cbn [bind]. eauto.
  - assert (G : forallb (fun a => match a with ArgStr _ => true | ArgObj j => Nat.ltb j (length (js_objs st)) end) l = true).
    { apply forallb_forall. intros a Ha. rewrite Forall_forall in A. specialize (A _ Ha). destruct a; [reflexivity|]. apply Nat.ltb_lt. rewrite (iv_len _ _ _ Iv). exact A. }
    rewrite G.
    assert (Iv' : prog_inv (new_obj st (js_cache st) (OConcat []) (fun p => BConcat p [])) (vs ++ [VConcat [] []]) (h0 ++ [OConcat []])).
    { apply inv_new; try exact Iv; auto using grows_refl; try discriminate.
      - exact (iv_cache _ _ _ Iv).
      - intros l' H. congruence.
      - intros p En. cbn [matches]. exists p, []. split; [reflexivity|]. split; [exact En|constructor]. }
    destruct (adds_succeed (length (js_objs st)) l _ _ _ Iv') as (st' & E).
    + rewrite (iv_len _ _ _ Iv). exists [], []. apply nth_last.
    + eapply Forall_impl; [|exact A]. intros [u|k] Gk; cbn [given is_object] in *; [tauto|]. rewrite app_length. cbn [length]. split; [lia|].
      rewrite (iv_len _ _ _ Iv). intro H. apply (wraps_le _ _ _ (iv_down _ _ _ Iv')) in H. lia.
    + rewrite E. cbn [bind]. eauto.
  - destruct (cache_add_unchecked (js_cache st) v) as [c2 vi]. destruct (cache_add c2 n) as [c3 ni]. destruct (pass_map c3 m) as [c4 d].
    repeat match goal with |- exists r, (let '(_, _) := ?z in _) = _ => destruct z end. eauto.
  - rewrite <- (iv_len _ _ _ Iv) in A. apply Nat.ltb_lt in A. rewrite A. eauto.
  - destruct (proj2 (add_iff Iv i x) A) as (st1 & E). rewrite E. cbn [bind]. eauto.
  - destruct (proj1 (edit_iff Iv i) A) as (p & s' & r & Eb & En). rewrite Eb. cbn [bind]. unfold h_replace. rewrite En. cbn [of_res bind]. eauto.
  - destruct (proj1 (edit_iff Iv i) A) as (p & s' & r & Eb & En). rewrite Eb. cbn [bind]. unfold h_insert. rewrite En. cbn [of_res bind]. eauto.
  - destruct A as [Hi C]. destruct (denotes_here Iv _ Hi C) as (e & D). destruct (denoted_from Iv i i e (le_n _) D) as (([st1 u] & E1) & _). unfold source_of. rewrite E1. cbn [bind]. eauto.
  - destruct A as [Hi C]. destruct (denotes_here Iv _ Hi C) as (e & D). destruct (denoted_from Iv i i e (le_n _) D) as (_ & ([st1 u] & E1)). unfold size_of. rewrite E1. cbn [bind]. eauto.
  - destruct A.
  - destruct A as (Hi & C & F). destruct (denotes_here Iv _ Hi C) as (e & D). destruct (nth_error vs i) as [v|] eqn:Ev; [|apply nth_error_None in Ev; lia].
    destruct (inv_obj Iv _ _ Ev) as (b & Eb). rewrite Eb. cbn [bind]. apply (fresh_iff Iv _ _ Eb) in F.
    destruct (denoted_map Iv _ _ _ cl md (B _ _ _ eq_refl) D Eb F) as ([st1 r] & Er). rewrite Er. cbn [bind]. eauto.
  - eauto.
Qed.

Lemma own_fresh st vs h0 i b : prog_inv st vs h0 -> nth_error (js_objs st) i = Some b -> (forall j t n, b <> BCached j t n) -> i < length vs /\ fresh_reads vs i.
Proof.
  intros Iv Eb H. split; [rewrite <- (iv_len _ _ _ Iv); apply nth_error_Some; congruence|]. apply (fresh_iff Iv _ _ Eb). destruct b; try (eexists; reflexivity). destruct (H source text size); reflexivity.
Qed.
Lemma adds_given i l : forall st vs h0 st', prog_inv st vs h0 -> js_adds st i l = Some st' -> Forall (fun a => given vs a /\ ~ is_object vs i a) l.
Proof.
  induction l as [|a l IH]; intros st vs h0 st' Iv E; [constructor|]. cbn [js_adds] in E. unb E as st1 E1.
  destruct (proj1 (add_iff Iv i a) (ex_intro _ st1 E1)) as (Ev & G & S). constructor; [tauto|]. destruct (inv_add _ _ _ _ _ _ Iv E1) as (h1 & Iv1 & _).
  eapply Forall_impl; [|exact (IH _ _ _ _ Iv1 E)]. intros x [Gx Sx]. split.
  - destruct x; [exact I|]. cbn [given] in *. unfold spec_add in Gx. now rewrite length_update in Gx.
  - destruct x as [u|k]; [exact Sx|]. intro H. apply Sx. revert H. apply wraps_ext. intros m j. apply add_same.
Qed.
Theorem step_needed st vs h0 op r : prog_inv st vs h0 -> jstep st op = Some r -> unremembered vs op -> allowed vs op.
Proof.
  intros Iv E Nc. destruct op as [v|v n|v n o|pre x|x|l|v n m o inner|j|i x|i s e tx|i s tx|i|i|sk i|i cl md|s ck]; cbn [jstep allowed unremembered] in *; try exact I.
  - unb E as s Es. eapply pass_given; eauto.
  - unb E as s Es. eapply pass_given; eauto.
  - destruct (forallb _ l) eqn:G; [|discriminate]. rewrite forallb_forall in G. apply Forall_forall. intros a Ha. specialize (G _ Ha). destruct a as [u|k]; [exact I|].
    apply Nat.ltb_lt in G. rewrite (iv_len _ _ _ Iv) in G. exact G.
  - destruct (Nat.ltb_spec j (length (js_objs st))) as [L|]; [|discriminate]. rewrite <- (iv_len _ _ _ Iv). exact L.
  - unb E as st1 E1. apply (add_iff Iv). eauto.
  - unb E as b Eb. destruct b; try discriminate. unb E as h1 E1. apply (edit_iff Iv). unfold h_replace in E1. destruct (nth_error (js_heap st) ptr) as [o'|] eqn:Ep; [|discriminate].
    destruct o'; try discriminate. eauto.
  - unb E as b Eb. destruct b; try discriminate. unb E as h1 E1. apply (edit_iff Iv). unfold h_insert in E1. destruct (nth_error (js_heap st) ptr) as [o'|] eqn:Ep; [|discriminate].
    destruct o'; try discriminate. eauto.
  - unb E as [st1 u] E1. destruct (nth_error (js_objs st) i) as [b|] eqn:Eb; [|unfold source_of in E1; destruct i; cbn [source_from] in E1; rewrite Eb in E1; discriminate].
    destruct (proj1 (fresh_iff Iv _ _ Eb) Nc) as (p & Op). unfold source_of in E1. rewrite (source_own _ _ _ _ _ Eb Op) in E1.
    assert (Hi : i < length vs) by (rewrite <- (iv_len _ _ _ Iv); apply nth_error_Some; congruence). split; [exact Hi|].
    apply (denotes_iff vs i (inv_ranged _ _ _ Iv) Hi). exact (source_denotes Iv _ _ _ _ Eb E1).
  - unb E as [st1 u] E1. destruct (nth_error (js_objs st) i) as [b|] eqn:Eb; [|unfold size_of in E1; destruct i; cbn [size_from] in E1; rewrite Eb in E1; discriminate].
    destruct (proj1 (fresh_iff Iv _ _ Eb) Nc) as (p & Op). unfold size_of in E1. rewrite (size_own _ _ _ _ _ Eb Op) in E1.
    assert (Hi : i < length vs) by (rewrite <- (iv_len _ _ _ Iv); apply nth_error_Some; congruence). split; [exact Hi|].
    apply (denotes_iff vs i (inv_ranged _ _ _ Iv) Hi). exact (size_denotes Iv _ _ _ _ Eb E1).
  - destruct Nc.
  - unb E as b Eb. unb E as [st1 u] E1. assert (Hi : i < length vs) by (rewrite <- (iv_len _ _ _ Iv); apply nth_error_Some; congruence). split; [exact Hi|].
    split; [apply (denotes_iff vs i (inv_ranged _ _ _ Iv) Hi); exact (map_denotes Iv _ _ _ _ _ _ Eb E1)|].
    apply (own_fresh _ _ _ _ _ Iv Eb). intros j' t n ->. discriminate.
Qed.

(** ** Runs *)
Section Run.
  Context {c0 : cache} {ops : list jop} {st : jstate} (R0 : reached_cache c0) (Run : jrun (jstate_new c0) ops = Some st).
  Theorem run_succeeds op : allowed (meaning ops) op -> (forall i c m, op = OMap i c m -> Forall good_op ops) -> exists r, jstep st op = Some r.
  Proof.
    intros A G. destruct (inv_run _ _ _ R0 Run) as (h0 & Iv). apply (step_succeeds _ _ _ _ Iv A). intros i c m E. exact (built_run _ _ _ R0 Run (G _ _ _ E)).
  Qed.
  Theorem run_needed op r : jstep st op = Some r -> unremembered (meaning ops) op -> allowed (meaning ops) op.
  Proof. intros E U. destruct (inv_run _ _ _ R0 Run) as (h0 & Iv). exact (step_needed _ _ _ _ _ Iv E U). Qed.
  Theorem run_denotes i : i < length (meaning ops) -> ((exists e, denotes (meaning ops) (ArgObj i) e) <-> ~ contains_itself (meaning ops) i).
  Proof. intro Hi. destruct (inv_run _ _ _ R0 Run) as (h0 & Iv). apply denotes_iff; [exact (inv_ranged _ _ _ Iv)|exact Hi]. Qed.
End Run.
Theorem runs_through c0 ops : reached_cache c0 -> allowed_run [] ops -> Forall good_op ops -> exists st, jrun (jstate_new c0) ops = Some st.
Proof.
  intros R A G. assert (K : forall l st vs h0, prog_inv st vs h0 -> built (js_heap st) -> allowed_run vs l -> Forall good_op l -> exists st', jrun st l = Some st').
  { induction l as [|op l IH]; intros st vs h0 Iv B Al Gl; cbn [jrun]; [eauto|]. destruct Al as [A1 A2]. inversion Gl as [|? ? G1 G2]; subst.
    destruct (step_succeeds _ _ _ _ Iv A1 (fun _ _ _ _ => B)) as ([st1 a] & E). rewrite E. cbn [bind]. destruct (inv_step _ _ _ _ _ _ Iv E) as (h1 & Iv1).
    exact (IH _ _ _ Iv1 (built_step _ _ _ _ _ _ Iv G1 E B) A2 G2). }
  exact (K _ _ _ _ (inv_start _ R) bt_start A G).
Qed.

(** ** Nothing contains itself *)
Definition apart (vs : list sobj) : Prop := forall i, ~ clos_trans nat (part vs) i i.
Lemma apart_not vs i : apart vs -> ~ contains_itself vs i.
Proof. intros L (j & _ & H). exact (L _ H). Qed.
Lemma crt_ct {A} (R : A -> A -> Prop) x y z : clos_refl_trans A R x y -> clos_trans A R y z -> clos_trans A R x z.
Proof. intros H. induction H as [x y H|x|x y w H1 I1 H2 I2]; intro K; auto. eapply t_trans; [apply t_step; exact H|exact K]. Qed.
Lemma ct_crt {A} (R : A -> A -> Prop) x y : clos_trans A R x y -> clos_refl_trans A R x y.
Proof. intro H. induction H; [now apply rt_step|eapply rt_trans; eauto]. Qed.
Section Link.
  Context {G G' : nat -> nat -> Prop} {i : nat} {B : nat -> Prop}.
  Hypothesis (New : forall x y, G' x y -> G x y \/ (x = i /\ B y)) (Far : forall y, B y -> ~ clos_refl_trans nat G y i).
  Lemma link_path x y : clos_trans nat G' x y -> clos_trans nat G x y \/ exists j, B j /\ clos_refl_trans nat G x i /\ clos_refl_trans nat G j y.
  Proof.
    intro H. induction H as [x y H|x y z H1 I1 H2 I2].
    - destruct (New _ _ H) as [K|[-> K]]; [left; now apply t_step|right; exists y; split; [exact K|split; apply rt_refl]].
    - destruct I1 as [I1|(j & Hj & P1 & P2)], I2 as [I2|(j' & Hj' & Q1 & Q2)].
      + left. eapply t_trans; eauto.
      + right. exists j'. split; [exact Hj'|]. split; [|exact Q2]. eapply rt_trans; [apply ct_crt; exact I1|exact Q1].
      + right. exists j. split; [exact Hj|]. split; [exact P1|]. eapply rt_trans; [exact P2|apply ct_crt; exact I2].
      + destruct (Far _ Hj). eapply rt_trans; eauto.
  Qed.
  Lemma link_apart : (forall x, ~ clos_trans nat G x x) -> forall x, ~ clos_trans nat G' x x.
  Proof.
    intros A x H. destruct (link_path _ _ H) as [K|(j & Hj & P1 & P2)]; [exact (A _ K)|]. apply (Far _ Hj). eapply rt_trans; eauto.
  Qed.
End Link.
(** From objects below [n] one only comes to such. *)
Definition below (n : nat) (vs : list sobj) : Prop := forall k j, k < n -> part vs k j -> j < n.
Lemma below_reach n vs k j : below n vs -> clos_refl_trans nat (part vs) k j -> k < n -> j < n.
Proof. intros L H. induction H; eauto. Qed.
Lemma apart_new vs v : below (length vs) vs -> apart vs -> (forall j, match v with
    | VPrefix _ b | VEdit b _ => b = ArgObj j -> j < length vs
    | VConcat l _ => In (ArgObj j) l -> j < length vs
    | VSame k => k < length vs
    | VLeaf _ => True end) -> apart (vs ++ [v]).
Proof.
  intros L A H. refine (link_apart (i := length vs) (B := fun j => j < length vs) _ _ A).
  - intros x y P. unfold part, holds in P. destruct (nth_error (vs ++ [v]) x) as [w|] eqn:E; [|destruct P]. apply nth_snoc in E as [E|[-> ->]].
    + left. unfold part, holds. now rewrite E.
    + right. split; [reflexivity|]. specialize (H y). destruct v; auto; [destruct P|injection P as ->; exact H].
  - intros y Hy R. pose proof (below_reach _ _ _ _ L R Hy). lia.
Qed.
Lemma part_lt vs i j : part vs i j -> i < length vs.
Proof. unfold part, holds. intro P. apply nth_error_Some. destruct (nth_error vs i); [discriminate|destruct P]. Qed.
(** What is added is, or is part of, the argument. *)
Lemma inside_part vs n : forall k l g, inside n vs k = Some (VConcat l g) -> exists m, clos_refl_trans nat (part vs) k m /\ nth_error vs m = Some (VConcat l g).
Proof.
  induction n as [|n IH]; intros k l g E; cbn [inside] in E; destruct (nth_error vs k) as [w|] eqn:Ek; try discriminate.
  - exists k. split; [apply rt_refl|]. destruct w; congruence.
  - destruct w; try discriminate; [exists k; split; [apply rt_refl|congruence]|].
    destruct (IH _ _ _ E) as (m & R & Em). exists m. split; [|exact Em]. eapply rt_trans; [apply rt_step|exact R]. unfold part, holds. now rewrite Ek.
Qed.
Lemma added_part vs a j : In (ArgObj j) (added vs a) -> exists k, a = ArgObj k /\ clos_refl_trans nat (part vs) k j.
Proof.
  destruct a as [u|k]; cbn [added]; [intros [H|[]]; discriminate|]. intro H. exists k. split; [reflexivity|].
  destruct (behind vs k) as [w|] eqn:Ek; [|destruct H as [H|[]]; injection H as <-; apply rt_refl].
  destruct w; try (destruct H as [H|[]]; injection H as <-; apply rt_refl).
  destruct (inside_part _ _ _ _ _ Ek) as (m & R & Em). eapply rt_trans; [exact R|apply rt_step]. unfold part, holds. now rewrite Em.
Qed.
Lemma add_parts vs i a x y : part (spec_add i vs a) x y -> part vs x y \/ (x = i /\ exists k, a = ArgObj k /\ clos_refl_trans nat (part vs) k y).
Proof.
  unfold part, holds. rewrite spec_add_nth. destruct (nth_error vs x) as [[]|] eqn:E; auto. destruct (Nat.eqb_spec i x) as [<-|N]; auto.
  intro P. apply in_app_or in P as [P|P]; auto. right. split; [reflexivity|]. now apply added_part in P.
Qed.
Lemma apart_add vs i a : apart vs -> (forall k, a = ArgObj k -> ~ clos_refl_trans nat (part vs) k i) -> apart (spec_add i vs a).
Proof.
  intros A H. refine (link_apart (add_parts vs i a) _ A). intros y (k & -> & R) K. apply (H k eq_refl). eapply rt_trans; eauto.
Qed.
Lemma apart_call vs i k : apart vs -> apart (spec_call i vs k).
Proof.
  intros A. refine (link_apart (i := i) (B := fun _ => False) _ _ A); [|intros y []].
  intros a b P. left. unfold part, holds, spec_call in *. rewrite nth_update in P. destruct (Nat.eqb i a); [|exact P]. destruct (nth_error vs a) as [[]|]; exact P.
Qed.
Lemma apart_adds n l : forall vs, below n vs -> apart vs -> Forall (given (firstn n vs)) l -> n <= length vs -> apart (fold_left (spec_add n) l vs).
Proof.
  induction l as [|a l IH]; intros vs L A F Len; [exact A|]. inversion F as [|? ? F1 F2]; subst. cbn [fold_left].
  assert (Ln : length (firstn n vs) = n) by (rewrite firstn_length; lia).
  apply IH.
  - intros k j Hk P. destruct (add_parts _ _ _ _ _ P) as [Q|[-> _]]; [exact (L _ _ Hk Q)|lia].
  - apply apart_add; [exact A|]. intros k -> R. cbn [given] in F1. rewrite Ln in F1. pose proof (below_reach _ _ _ _ L R F1). lia.
  - eapply Forall_impl; [|exact F2]. intros [u|k]; cbn [given]; [auto|]. rewrite Ln, firstn_length. unfold spec_add. rewrite length_update. lia.
  - unfold spec_add. now rewrite length_update.
Qed.
Lemma apart_step vs op : below (length vs) vs -> apart vs -> proper vs op -> apart (spec_step vs op).
Proof.
  intros L A P. destruct op; cbn [spec_step proper allowed] in *; auto.
  - apply apart_new; auto.
  - apply apart_new; auto.
  - apply apart_new; auto.
  - apply apart_new; [exact L|exact A|]. intros j ->. exact P.
  - apply apart_new; [exact L|exact A|]. intros j ->. exact P.
  - apply apart_adds.
    + intros k j Hk Q. unfold part, holds in Q. rewrite nth_error_app1 in Q by exact Hk. exact (L _ _ Hk Q).
    + apply apart_new; [exact L|exact A|intros j []].
    + rewrite firstn_app, firstn_all, Nat.sub_diag. cbn [firstn]. rewrite app_nil_r. exact P.
    + rewrite app_length. lia.
  - apply apart_new; auto.
  - apply apart_new; [exact L|exact A|]. intros _. exact P.
  - apply apart_add; [exact A|apply P].
  - now apply apart_call.
  - now apply apart_call.
Qed.
Lemma proper_allowed vs op : apart vs -> proper vs op -> allowed vs op.
Proof.
  intros A P. destruct op; cbn [proper allowed] in *; auto.
  - destruct P as (C & G & F). split; [exact C|]. split; [exact G|]. destruct item as [u|k]; [intros []|]. intro H. apply (F k eq_refl). now apply wraps_part.
  - split; [exact P|]. now apply apart_not.
  - split; [exact P|]. now apply apart_not.
  - destruct P as [P F]. split; [exact P|]. split; [now apply apart_not|exact F].
Qed.
Theorem proper_runs c0 ops : reached_cache c0 -> proper_run [] ops -> Forall good_op ops ->
  (exists st, jrun (jstate_new c0) ops = Some st) /\ (forall i, ~ contains_itself (meaning ops) i) /\ allowed_run [] ops.
Proof.
  intros R A G.
  assert (K : forall l st vs h0, prog_inv st vs h0 -> built (js_heap st) -> apart vs -> proper_run vs l -> Forall good_op l ->
    (exists st', jrun st l = Some st') /\ apart (fold_left spec_step l vs) /\ allowed_run vs l).
  { induction l as [|op l IH]; intros st vs h0 Iv B Ap Pl Gl; cbn [jrun fold_left allowed_run]; [eauto|]. destruct Pl as [P1 P2]. inversion Gl as [|? ? G1 G2]; subst.
    destruct (step_succeeds _ _ _ _ Iv (proper_allowed _ _ Ap P1) (fun _ _ _ _ => B)) as ([st1 a] & E). rewrite E. cbn [bind]. destruct (inv_step _ _ _ _ _ _ Iv E) as (h1 & Iv1).
    assert (Ap1 : apart (spec_step vs op)) by (apply apart_step; [intros k j _ Q; apply (inv_ranged _ _ _ Iv) in Q; exact Q|exact Ap|exact P1]).
    destruct (IH _ _ _ Iv1 (built_step _ _ _ _ _ _ Iv G1 E B) Ap1 P2 G2) as (X1 & X2 & X3). split; [exact X1|]. split; [exact X2|]. split; [|exact X3].
    now apply proper_allowed. }
  destruct (K _ _ _ _ (inv_start _ R) bt_start ltac:(intros i H; assert (E : forall a b, clos_trans nat (part []) a b -> False) by (intros a b C; induction C as [a b C|]; [apply part_lt in C; cbn in C; lia|assumption]); exact (E _ _ H)) A G) as (E1 & E2 & E3).
  split; [exact E1|]. split; [|exact E3]. intro i. apply apart_not. exact E2.
Qed.
Theorem proper_reads c0 ops : reached_cache c0 -> proper_run [] ops -> Forall good_op ops ->
  exists st, jrun (jstate_new c0) ops = Some st /\ forall i, ~ contains_itself (meaning ops) i /\
    (i < length (meaning ops) -> (exists r, jstep st (OSource i) = Some r) /\ (exists r, jstep st (OSize i) = Some r) /\
      (fresh_reads (meaning ops) i -> forall c m, exists r, jstep st (OMap i c m) = Some r)).
Proof.
  intros R P G. destruct (proper_runs _ _ R P G) as ((st & Run) & A & _). exists st. split; [exact Run|]. intro i. split; [apply A|]. intro Hi.
  split; [apply (run_succeeds R Run); [split; auto|discriminate]|]. split; [apply (run_succeeds R Run); [split; auto|discriminate]|].
  intros F c m. apply (run_succeeds R Run); [split; auto|auto].
Qed.
(** For examples. *)
Lemma not_reached vs (P : nat -> Prop) k i : P k -> ~ P i -> (forall a b, P a -> part vs a b -> P b) -> ~ clos_refl_trans nat (part vs) k i.
Proof. intros Hk Hi Cl R. apply Hi. clear Hi. induction R; eauto. Qed.
