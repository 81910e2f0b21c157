(** Programs of the JavaScript API answer as the expressions they stand for. *)
From Verif Require Import Base Tactics ModelString ModelVlq ModelSm ModelSlm ModelSources ModelTree ModelHeap
  ModelWasm ModelJs ModelJsApi ModelJsResult ModelEnd ModelJsProg SortFacts EditFacts TreeText SpecHeap HeapFacts HeapProps
  SpecMap SpecAttr JsFacts SpecJs SpecResult ResultFacts ResultProps SpecEnd EndFacts MadeFacts EndMap IdxFacts SpecProg ProgFacts ProgSteps.

Scheme denotes_mut := Induction for denotes Sort Prop with denotes_all_mut := Induction for denotes_all Sort Prop.
Combined Scheme denotes_both from denotes_mut, denotes_all_mut.
Scheme hashes_mut := Induction for hashes Sort Prop with hashes_all_mut := Induction for hashes_all Sort Prop.
Combined Scheme hashes_both from hashes_mut, hashes_all_mut.

Lemma fold_plain l : Forall (fun t => forall l', t <> TConcat l') l -> forall acc, fold_left concat_add l acc = acc ++ l.
Proof.
  induction 1 as [|t l H _ IH]; intro acc; cbn [fold_left]; [now rewrite app_nil_r|]. rewrite IH.
  destruct t; cbn [concat_add]; try (now rewrite <- app_assoc). destruct (H children). reflexivity.
Qed.
Lemma unfolds_plain h s t : unfolds h s t -> (forall q l, s = SRef q -> nth_error h q <> Some (OConcat l)) -> forall l', t <> TConcat l'.
Proof. intros U N l' ->. inversion U; subst. eapply N; eauto. Qed.
Lemma leaf_unfolds h p t o : leaf_obj t = Some o -> nth_error h p = Some o -> unfolds h (SRef p) (import t).
Proof. unfold leaf_obj. destruct (import t); intros E En; try discriminate; injection E as <-; now constructor. Qed.
Lemma leaf_ptr p t b : leaf_js p t = Some b -> own_ptr b = Some p.
Proof. intro E. destruct t; cbn [leaf_js] in E; try discriminate; injection E as <-; reflexivity. Qed.
Lemma ptr_own objs i b p : nth_error objs i = Some b -> own_ptr b = Some p -> ptr_of objs i = Some p.
Proof. intros E O. unfold ptr_of. destruct i; cbn [ptr_from]; rewrite E; destruct b; (exact O || discriminate). Qed.
Lemma source_own st d i b p : nth_error (js_objs st) i = Some b -> own_ptr b = Some p -> source_from d st i = read_source st b.
Proof. intros E O. destruct d; cbn [source_from]; rewrite E; destruct b; (reflexivity || discriminate). Qed.
Lemma size_own st d i b p : nth_error (js_objs st) i = Some b -> own_ptr b = Some p -> size_from d st i = read_size st b.
Proof. intros E O. destruct d; cbn [size_from]; rewrite E; destruct b; (reflexivity || discriminate). Qed.

Theorem denotes_made st vs h0 : prog_inv st vs h0 ->
  (forall a e, denotes vs a e -> exists s t, pass_arg (js_objs st) a = Some s /\ made (js_cache st) e t /\ unfolds h0 s (import t)) /\
  (forall l es, denotes_all vs l es -> forall ss, Forall2 (fun a s => pass_arg (js_objs st) a = Some s) l ss ->
     exists ts, Forall2 (made (js_cache st)) es ts /\ unfolds_all h0 ss (map import ts)).
Proof.
  intro Iv. apply denotes_both; cbn [pass_arg].
  - intro s. exists (SStr (from_js s)), (JStr s). split; [reflexivity|]. split; [reflexivity|constructor].
  - intros i e Ev. destruct (inv_obj Iv _ _ Ev) as (b & Eb). destruct (iv_objs _ _ _ Iv _ _ _ Eb Ev) as (t & p & o & Hm & Ej & Eo & En).
    exists (SRef p), t. rewrite (ptr_own _ _ _ _ Eb (leaf_ptr _ _ _ Ej)). split; [reflexivity|]. split; [exact Hm|]. eapply leaf_unfolds; eauto.
  - intros i pre a e Ev _ (s & t & Es & Hm & U). destruct (inv_obj Iv _ _ Ev) as (b & Eb). destruct (iv_objs _ _ _ Iv _ _ _ Eb Ev) as (p & s' & -> & En & Es').
    rewrite Es in Es'. injection Es' as <-. exists (SRef p), (JPrefix pre t). rewrite (ptr_own _ _ _ _ Eb eq_refl). split; [reflexivity|].
    split; [exists t; auto|]. cbn [import]. econstructor; eauto.
  - intros i a l e Ev _ (s & t & Es & Hm & U). destruct (inv_obj Iv _ _ Ev) as (b & Eb). destruct (iv_objs _ _ _ Iv _ _ _ Eb Ev) as (p & s' & -> & En & Es').
    rewrite Es in Es'. injection Es' as <-. exists (SRef p), (JEdit t l). rewrite (ptr_own _ _ _ _ Eb eq_refl). split; [reflexivity|].
    split; [exists t; auto|]. cbn [import]. econstructor; eauto.
  - intros i l g es Ev _ IH. destruct (inv_obj Iv _ _ Ev) as (b & Eb). destruct (iv_objs _ _ _ Iv _ _ _ Eb Ev) as (p & ss & -> & En & Hf).
    destruct (IH _ Hf) as (ts & Hm & U). exists (SRef p), (JConcat ts). rewrite (ptr_own _ _ _ _ Eb eq_refl). split; [reflexivity|].
    split; [apply made_concat; eauto|]. cbn [import]. rewrite fold_plain.
    + cbn [app]. econstructor; eauto.
    + pose proof (fun q => iv_flat _ _ _ Iv p ss q En) as F.
      clear - U F. revert ts U F. induction ss as [|s l IH]; intros ts U F; destruct ts as [|t ts]; inversion U; subst; constructor.
      * eapply unfolds_plain; [eassumption|]. intros q l' -> E. destruct (F q (or_introl eq_refl)) as (o & Eo & No). rewrite E in Eo. injection Eo as <-. now apply (No l').
      * apply IH; [assumption|]. intros q Hq. apply F. now right.
  - intros i j e Ev _ (s & t & Es & Hm & U). destruct (inv_obj Iv _ _ Ev) as (b & Eb). destruct (iv_objs _ _ _ Iv _ _ _ Eb Ev) as (t' & n & p & -> & _).
    exists s, t. split; [|auto]. destruct (inv_same Iv _ _ _ _ Eb) as (_ & _ & q & Pj & Pi). rewrite Pj in Es. now rewrite Pi.
  - intros ss H. inversion H; subst. exists []. split; constructor.
  - intros a e l es _ (s & t & Es & Hm & U) _ IH ss H. inversion H as [|? s' ? ss' H1 H2]; subst. rewrite Es in H1. injection H1 as <-.
    destruct (IH _ H2) as (ts & Hms & Us). exists (t :: ts). split; constructor; auto.
Qed.

(** ** Answers *)
Lemma inv_reply st vs h0 p T q : prog_inv st vs h0 -> unfolds h0 (SRef p) T -> reply (js_heap st) p q = lift (t_answer T q).
Proof.
  intros Iv U. rewrite <- (pure_reply_tree h0 p T q U). apply (later_reply (fun _ => True)); [intros ? ? _ _; exact I|exact I|apply (iv_later _ _ _ Iv)].
Qed.
Lemma reply_source h p T : reply h p AskSource = lift (t_answer T AskSource) -> option_map snd (of_res (h_read source_alg h p)) = t_source T.
Proof.
  unfold reply. cbn [put t_answer]. destruct (h_read source_alg h p) as [[h' s]| |], (t_source T) as [s'|]; cbn; intro E; congruence.
Qed.
Lemma reply_size h p T : reply h p AskSize = lift (t_answer T AskSize) -> option_map snd (of_res (h_size h p)) = t_size T.
Proof.
  unfold reply. cbn [put t_answer]. destruct (h_size h p) as [[h' s]| |], (t_size T) as [s'|]; cbn; intro E; congruence.
Qed.
Lemma reply_node h p T c m : reply h p (AskNode c m) = lift (t_answer T (AskNode c m)) -> option_map snd (of_res (h_read (node_alg c m) h p)) = t_node c m T.
Proof.
  unfold reply. cbn [put t_answer]. destruct (h_read (node_alg c m) h p) as [[h' s]| |], (t_node c m T) as [s'|]; cbn; intro E; congruence.
Qed.
Lemma reply_lines h p T c m : reply h p (AskLines c m) = lift (t_answer T (AskLines c m)) -> option_map snd (of_res (h_read (list_map_alg c m) h p)) = t_list_map c m T.
Proof.
  unfold reply. cbn [put t_answer]. destruct (h_read (list_map_alg c m) h p) as [[h' s]| |], (t_list_map c m T) as [s'|]; cbn; intro E; congruence.
Qed.

(** The object itself; [b] is not a CachedSource. *)
Definition answers (st : jstate) (b : jobj) (t : jtree) : Prop :=
  option_map snd (read_source st b) = js_source t /\
  option_map snd (read_size st b) = js_size t /\
  forall c m, option_map snd (read_map_of st b c m) = js_source_and_map c m t.
Theorem inv_answers st vs h0 i b p e : prog_inv st vs h0 -> nth_error (js_objs st) i = Some b -> own_ptr b = Some p -> denotes vs (ArgObj i) e ->
  exists t, made (js_cache st) e t /\ answers st b t.
Proof.
  intros Iv Eb Op D. destruct (proj1 (denotes_made _ _ _ Iv) _ _ D) as (s & t & Es & Hm & U). cbn [pass_arg] in Es. rewrite (ptr_own _ _ _ _ Eb Op) in Es. injection Es as <-.
  pose proof (fun q => inv_reply _ _ _ _ _ q Iv U) as R.
  pose proof (reply_source _ _ _ (R AskSource)) as Rs. pose proof (reply_size _ _ _ (R AskSize)) as Rz.
  pose proof (fun m => reply_node _ _ _ _ _ (R (AskNode true m))) as Rn. pose proof (fun m => reply_lines _ _ _ _ _ (R (AskLines false m))) as Rl. clear R.
  destruct (inv_val Iv _ _ Eb) as (v & Ev). pose proof (iv_objs _ _ _ Iv _ _ _ Eb Ev) as M.
  assert (MM : forall c m, (forall v, b <> BRaw p v) -> match t with JStr _ | JRaw _ => False | _ => True end ->
    option_map snd (read_map_of st b c m) = js_source_and_map c m t).
  { intros c m NB NT. assert (E : option_map snd (if c then
        let* (h, n) := of_res (h_read (node_alg true m) (js_heap st) p) in let* r := node_result n in Some (set_heap st h, ResMap (robj_new r true))
      else let* (h, l) := of_res (h_read (list_map_alg false m) (js_heap st) p) in Some (set_heap st h, ResMap (robj_new (list_result l) false))) =
      if c then let* n := t_node true m (import t) in let* r := node_result n in Some (ResMap (robj_new r true))
      else let* l := t_list_map false m (import t) in Some (ResMap (robj_new (list_result l) false))).
    { rewrite <- Rn, <- Rl. destruct c.
      - destruct (of_res (h_read (node_alg true m) (js_heap st) p)) as [[h n]|]; [|reflexivity]. cbn [bind option_map snd]. now destruct (node_result n).
      - destruct (of_res (h_read (list_map_alg false m) (js_heap st) p)) as [[h n]|]; reflexivity. }
    destruct b; cbn [own_ptr] in Op; try discriminate; injection Op as ->; try (now destruct (NB value));
      cbn [read_map_of own_ptr bind]; rewrite E; destruct t; try contradiction; reflexivity. }
  destruct v as [e'|pre a|a l|l g|j]; cbn [matches] in M.
  - inversion D as [|? e2 Ev'| | | |]; subst; try congruence. rewrite Ev in Ev'. injection Ev' as ->.
    destruct M as (t' & q & o & Hm' & Ej & Eo & En). pose proof (leaf_ptr _ _ _ Ej) as Op'. rewrite Op in Op'. injection Op' as <-.
    pose proof (leaf_unfolds _ _ _ _ Eo En) as U'.
    clear U Hm t Rs Rz Rn Rl MM.
    exists t'. split; [exact Hm'|].
    pose proof (fun q => inv_reply _ _ _ _ _ q Iv U') as R.
    pose proof (fun m => reply_node _ _ _ _ _ (R (AskNode true m))) as Rn. pose proof (fun m => reply_lines _ _ _ _ _ (R (AskLines false m))) as Rl.
    destruct t'; cbn [leaf_js] in Ej; try discriminate; injection Ej as <-; (split; [reflexivity|]; split; [reflexivity|]; intros c m); try reflexivity;
      cbn [read_map_of own_ptr bind]; unfold js_source_and_map; destruct c; rewrite <- ?Rn, <- ?Rl;
      match goal with |- context [of_res ?x] => destruct (of_res x) as [[h n]|] end; try reflexivity; cbn [bind option_map snd]; now destruct (node_result n).
  - destruct M as (q & s & -> & _). injection Op as ->. inversion D; subst; try congruence. destruct Hm as (t' & -> & Hm). exists (JPrefix p0 t').
    split; [exists t'; auto|]. split; [|split; [|intros; apply MM; [discriminate|exact I]]]; cbn [read_source read_size js_source js_size]; rewrite <- ?Rs, <- ?Rz;
      match goal with |- context [of_res ?x] => destruct (of_res x) as [[h n]|] end; reflexivity.
  - destruct M as (q & s & -> & _). injection Op as ->. inversion D; subst; try congruence. destruct Hm as (t' & -> & Hm). eexists.
    split; [exists t'; split; [reflexivity|exact Hm]|]. split; [|split; [|intros; apply MM; [discriminate|exact I]]]; cbn [read_source read_size js_source js_size]; rewrite <- ?Rs, <- ?Rz;
      match goal with |- context [of_res ?x] => destruct (of_res x) as [[h n]|] end; reflexivity.
  - destruct M as (q & s & -> & _). injection Op as ->. inversion D; subst; try congruence. apply made_concat in Hm as (ts & -> & Hm). exists (JConcat ts).
    split; [apply made_concat; eauto|]. split; [|split; [|intros; apply MM; [discriminate|exact I]]]; cbn [read_source read_size js_source js_size]; rewrite <- ?Rs, <- ?Rz;
      match goal with |- context [of_res ?x] => destruct (of_res x) as [[h n]|] end; reflexivity.
  - destruct M as (? & ? & ? & -> & _). discriminate.
Qed.

(** ** The calls *)
Definition alone_made e : made (fst (build cache_empty e)) e (alone e).
Proof.
  unfold alone. destruct (build cache_empty e) as [c t] eqn:E. refine (proj2 (proj2 (build_made e cache_empty c t _ E))).
  apply reached_ok. exists [], []. reflexivity.
Qed.
Lemma inv_fresh st vs h0 i e : prog_inv st vs h0 -> denotes vs (ArgObj i) e -> fresh_reads vs i ->
  exists b p, nth_error (js_objs st) i = Some b /\ own_ptr b = Some p.
Proof.
  intros Iv D F. assert (Hv : exists v, nth_error vs i = Some v) by (inversion D; subst; eauto). destruct Hv as (v & Ev).
  destruct (inv_obj Iv _ _ Ev) as (b & Eb). exists b. pose proof (iv_objs _ _ _ Iv _ _ _ Eb Ev) as M.
  destruct v; cbn [matches] in M.
  - destruct M as (t & q & o & _ & Ej & _). exists q. split; [exact Eb|]. eapply leaf_ptr; eauto.
  - destruct M as (q & s & -> & _). exists q. split; [exact Eb|reflexivity].
  - destruct M as (q & s & -> & _). exists q. split; [exact Eb|reflexivity].
  - destruct M as (q & s & -> & _). exists q. split; [exact Eb|reflexivity].
  - destruct (F i0 Ev).
Qed.

Section Run.
  Context {c0 : cache} {ops : list jop} {st : jstate} (R0 : reached_cache c0) (Run : jrun (jstate_new c0) ops = Some st).

  Theorem run_object i e : denotes (meaning ops) (ArgObj i) e -> fresh_reads (meaning ops) i ->
    reached_cache (js_cache st) /\ exists t, made (js_cache st) e t /\
      option_map snd (jstep st (OSource i)) = option_map NText (js_source t) /\
      option_map snd (jstep st (OSize i)) = option_map NSize (js_size t) /\
      forall c m, option_map snd (jstep st (OMap i c m)) = option_map NResult (js_source_and_map c m t).
  Proof.
    intros D F. destruct (inv_run _ _ _ R0 Run) as (h0 & Iv). split; [apply (iv_cache _ _ _ Iv)|].
    destruct (inv_fresh _ _ _ _ _ Iv D F) as (b & p & Eb & Op). destruct (inv_answers _ _ _ _ _ _ _ Iv Eb Op D) as (t & Hm & A1 & A2 & A3).
    exists t. split; [exact Hm|]. cbn [jstep]. unfold source_of, size_of. rewrite (source_own _ _ _ _ _ Eb Op), (size_own _ _ _ _ _ Eb Op), Eb, <- A1, <- A2. cbn [bind]. split; [|split].
    - destruct (read_source st b) as [[? ?]|]; reflexivity.
    - destruct (read_size st b) as [[? ?]|]; reflexivity.
    - intros c m. rewrite <- A3. destruct (read_map_of st b c m) as [[? ?]|]; reflexivity.
  Qed.
  Theorem run_source i e : denotes (meaning ops) (ArgObj i) e -> fresh_reads (meaning ops) i ->
    option_map snd (jstep st (OSource i)) = option_map NText (js_source (alone e)).
  Proof.
    intros D F. destruct (run_object i e D F) as (_ & t & Hm & -> & _). now rewrite (proj1 (made_js_source _ _ _ _ _ Hm (alone_made e))).
  Qed.
  Theorem run_size i e : denotes (meaning ops) (ArgObj i) e -> fresh_reads (meaning ops) i ->
    option_map snd (jstep st (OSize i)) = option_map NSize (js_size (alone e)).
  Proof.
    intros D F. destruct (run_object i e D F) as (_ & t & Hm & _ & -> & _). now rewrite (proj2 (made_js_source _ _ _ _ _ Hm (alone_made e))).
  Qed.
End Run.

(** ** updateHash *)
Lemma inv_hashes st vs h0 : prog_inv st vs h0 ->
  (forall a s, hashes vs a s -> exists d, forall n, d <= n -> forall h, lately h0 h ->
     exists h', update_hash n (set_heap st h) a = Some (set_heap st h', s) /\ lately h0 h') /\
  (forall l s, hashes_all vs l s -> exists d, forall n, d <= n -> forall h, lately h0 h ->
     exists h', hash_all n (set_heap st h) l = Some (set_heap st h', s) /\ lately h0 h').
Proof.
  intro Iv.
  assert (Leaf : forall i e (s : jstr), nth_error vs i = Some (VLeaf e) ->
    (forall b, (exists t p, made (js_cache st) e t /\ leaf_js p t = Some b) -> match b with BRaw _ v | BOriginal _ v => v = s | BL2L _ v o | BSms _ v o => v ++ o = s | _ => False end) ->
    exists d, forall n, d <= n -> forall h, lately h0 h -> exists h', update_hash n (set_heap st h) (ArgObj i) = Some (set_heap st h', s) /\ lately h0 h').
  { intros i e s Ev H. exists 1. intros [|n] Hn h L; [lia|]. exists h. split; [|exact L].
    destruct (inv_obj Iv _ _ Ev) as (b & Eb). destruct (iv_objs _ _ _ Iv _ _ _ Eb Ev) as (t & p & o & Hm & Ej & _).
    specialize (H b (ex_intro _ t (ex_intro _ p (conj Hm Ej)))). cbn [update_hash set_heap js_objs]. rewrite Eb. cbn [bind].
    destruct b; try contradiction; now rewrite H. }
  apply hashes_both.
  - intro s. exists 0. intros n _ h L. exists h. split; [|exact L]. now destruct n.
  - intros i v Ev. eapply Leaf; [exact Ev|]. intros b (t & p & Hm & Ej). cbn [made] in Hm. subst t. injection Ej as <-. reflexivity.
  - intros i v n Ev. eapply Leaf; [exact Ev|]. intros b (t & p & Hm & Ej). destruct Hm as (? & ? & -> & _). injection Ej as <-. reflexivity.
  - intros i v n o Ev. eapply Leaf; [exact Ev|]. intros b (t & p & Hm & Ej). destruct Hm as (? & ? & -> & _). injection Ej as <-. reflexivity.
  - intros i v n m o inner Ev. eapply Leaf; [exact Ev|]. intros b (t & p & Hm & Ej). destruct Hm as (? & ? & ? & oo & ? & -> & _ & _ & _ & Ho & _). injection Ej as <-.
    f_equal. destruct o; [now rewrite Ho|]. destruct Ho as (oi & -> & _). reflexivity.
  - intros i p a s Ev _ (d & IH). exists (S d). intros [|n] Hn h L; [lia|]. destruct (IH n ltac:(lia) h L) as (h' & E & L').
    exists h'. split; [|exact L']. destruct (inv_obj Iv _ _ Ev) as (b & Eb). destruct (iv_objs _ _ _ Iv _ _ _ Eb Ev) as (q & s' & -> & _).
    cbn [update_hash set_heap js_objs]. rewrite Eb. cbn [bind]. change (mk_jstate _ h _ _ _) with (set_heap st h). rewrite E. reflexivity.
  - intros i a l e s Ev D Es. exists 1. intros [|n] Hn h L; [lia|].
    destruct (inv_obj Iv _ _ Ev) as (b & Eb). destruct (iv_objs _ _ _ Iv _ _ _ Eb Ev) as (q & s' & -> & _).
    destruct (inv_answers _ _ _ i (BReplace q) q e (inv_heap _ _ _ _ Iv L) Eb eq_refl D) as (t & Hm & A & _).
    rewrite (proj1 (made_js_source _ _ _ _ _ Hm (alone_made e))), Es in A.
    cbn [update_hash]. cbn [set_heap js_objs]. rewrite Eb. cbn [bind].
    change (mk_jstate _ h _ _ _) with (set_heap st h). destruct (read_source (set_heap st h) (BReplace q)) as [[st2 s2]|] eqn:Er; [|discriminate].
    injection A as ->. destruct (source_only _ _ _ _ Er) as (h' & -> & K). exists h'. split; [reflexivity|]. now apply K.
  - intros i l g s Ev _ (d & IH). exists (S d). intros [|n] Hn h L; [lia|]. destruct (IH n ltac:(lia) h L) as (h' & E & L').
    exists h'. split; [|exact L']. destruct (inv_obj Iv _ _ Ev) as (b & Eb). destruct (iv_objs _ _ _ Iv _ _ _ Eb Ev) as (q & s' & -> & _).
    now rewrite (hash_concat n (set_heap st h) i q g Eb).
  - intros i j s Ev _ (d & IH). exists (S d). intros [|n] Hn h L; [lia|]. destruct (IH n ltac:(lia) h L) as (h' & E & L').
    exists h'. split; [|exact L']. destruct (inv_obj Iv _ _ Ev) as (b & Eb). destruct (iv_objs _ _ _ Iv _ _ _ Eb Ev) as (t & k & q & -> & _).
    cbn [update_hash set_heap js_objs]. rewrite Eb. cbn [bind]. exact E.
  - exists 0. intros n _ h L. exists h. split; [reflexivity|exact L].
  - intros a s l t _ (d & IH) _ (d' & IH'). exists (d + d'). intros n Hn h L. destruct (IH n ltac:(lia) h L) as (h1 & E1 & L1).
    destruct (IH' n ltac:(lia) h1 L1) as (h2 & E2 & L2). exists h2. split; [|exact L2]. cbn [hash_all]. rewrite E1. cbn [bind]. rewrite E2. reflexivity.
Qed.
Theorem run_hash c0 ops st i s : reached_cache c0 -> jrun (jstate_new c0) ops = Some st -> hashes (meaning ops) (ArgObj i) s ->
  exists d, forall stack, d <= stack -> option_map snd (jstep st (OHash stack i)) = Some (NHash s).
Proof.
  intros R Run H. destruct (inv_run _ _ _ R Run) as (h0 & Iv). destruct (proj1 (inv_hashes _ _ _ Iv) _ _ H) as (d & K).
  exists d. intros n Hn. destruct (K n Hn (js_heap st) (iv_later _ _ _ Iv)) as (h' & E & _). rewrite set_heap_same in E. cbn [jstep]. now rewrite E.
Qed.

(** ** CachedSource *)
Definition memo (st : jstate) (i : nat) : option (nat * option jstr * option nat) :=
  match nth_error (js_objs st) i with Some (BCached j t n) => Some (j, t, n) | _ => None end.
(** Every call but source and size of [i], or of a CachedSource around it, leaves what [i] remembers. *)
Definition apart_from (vs : list sobj) (i : nat) (op : jop) : Prop := match op with OSource k | OSize k => ~ wraps vs k i | _ => True end.
Lemma memo_snoc objs i x t : match nth_error objs i with Some (BCached j t n) => Some (j, t, n) | _ => None end = Some t ->
  match nth_error (objs ++ [x]) i with Some (BCached j t n) => Some (j, t, n) | _ => None end = Some t.
Proof.
  intro E. destruct (nth_error objs i) as [b|] eqn:Eb; [|discriminate]. now rewrite (nth_old _ _ _ _ Eb).
Qed.
Lemma memo_set objs i k x t : k <> i -> match nth_error objs i with Some (BCached j t n) => Some (j, t, n) | _ => None end = Some t ->
  match nth_error (set_nth objs k x) i with Some (BCached j t n) => Some (j, t, n) | _ => None end = Some t.
Proof. intros N E. rewrite nth_set_nth. apply Nat.eqb_neq in N. now rewrite N. Qed.
Lemma memo_add st i a st' k t : js_add st i a = Some st' -> memo st k = Some t -> memo st' k = Some t.
Proof.
  intros E M. unfold js_add in E. destruct (nth_error (js_objs st) i) as [b|] eqn:Ei; [|discriminate]. destruct b as [| | | | |p g| |]; try discriminate.
  unb E as s E1. destruct (h_add (js_heap st) p s); try discriminate. injection E as <-. unfold memo, set_obj, set_heap. cbn [js_objs].
  apply memo_set; [|exact M]. intros ->. unfold memo in M. rewrite Ei in M. discriminate.
Qed.
Lemma memo_adds l : forall st i st' k t, js_adds st i l = Some st' -> memo st k = Some t -> memo st' k = Some t.
Proof.
  induction l as [|a l IH]; intros st i st' k t E M; cbn [js_adds] in E; [injection E as <-; exact M|].
  unb E as st1 E1. eapply IH; [exact E|]. eapply memo_add; eauto.
Qed.
Lemma memo_only st st' k : only_reads st st' -> memo st' k = memo st k.
Proof. intros (h & -> & _). reflexivity. Qed.
Lemma source_memo vs h0 d : forall st i st' s k, prog_inv st vs h0 -> source_from d st i = Some (st', s) -> ~ wraps vs i k -> memo st' k = memo st k.
Proof.
  induction d as [|d IH]; intros st i st' s k Iv E W; cbn [source_from] in E; unb E as b Eb; destruct b as [| | | | | | |j [u|] n];
    try discriminate; try (injection E as <- _; reflexivity); try (rewrite (memo_only _ _ _ (source_only _ _ _ _ E)); reflexivity).
  unb E as [st2 s2] E2. injection E as <- _. destruct (inv_same Iv _ _ _ _ Eb) as (Ev & _). unfold memo, set_obj. cbn [js_objs]. rewrite nth_set_nth.
  destruct (Nat.eqb_spec i k) as [<-|N]; [destruct W; constructor|]. apply (IH _ _ _ _ _ Iv E2). intro W'. apply W. econstructor; eauto.
Qed.
Lemma size_memo vs h0 d : forall st i st' s k, prog_inv st vs h0 -> size_from d st i = Some (st', s) -> ~ wraps vs i k -> memo st' k = memo st k.
Proof.
  assert (S : forall st st2 i x k, ~ wraps vs i k -> memo st2 k = memo st k -> memo (set_obj st2 i x) k = memo st k).
  { intros st st2 i x k W E. unfold memo, set_obj. cbn [js_objs]. rewrite nth_set_nth. destruct (Nat.eqb_spec i k) as [<-|N]; [destruct W; constructor|]. exact E. }
  induction d as [|d IH]; intros st i st' s k Iv E W; cbn [size_from] in E; unb E as b Eb; destruct b as [| | | | | | |j [u|] [n|]];
    try discriminate; try (injection E as <- _; reflexivity); try (rewrite (memo_only _ _ _ (size_only _ _ _ _ E)); reflexivity);
    try (injection E as <- _; now apply S).
  unb E as [st2 s2] E2. injection E as <- _. destruct (inv_same Iv _ _ _ _ Eb) as (Ev & _). apply S; [exact W|].
  apply (IH _ _ _ _ _ Iv E2). intro W'. apply W. econstructor; eauto.
Qed.
Lemma memo_step st vs h0 op st' a k t : prog_inv st vs h0 -> jstep st op = Some (st', a) -> apart_from vs k op -> memo st k = Some t -> memo st' k = Some t.
Proof.
  intros Iv E Q M.
  destruct op as [v|v n|v n o|pre x|x|l|v n m o inner|j|i x|i s e tx|i s tx|i|i|sk i|i cl md|s ck]; cbn [jstep] in E.
  - destruct (js_get (js_raws st) v); cbn [h_new] in E; injection E as <- _; now apply memo_snoc.
  - destruct (cache_add_unchecked (js_cache st) v) as [c1 vi]. destruct (cache_add c1 n) as [c2 ni]. destruct (jstr_eqb n BOOTSTRAP).
    + destruct (boot_get (js_boots st) vi); cbn [h_new] in E; injection E as <- _; now apply memo_snoc.
    + injection E as <- _. unfold new_obj. cbn [h_new]. now apply memo_snoc.
  - destruct (cache_add (js_cache st) n) as [c1 ni]. destruct (cache_add_unchecked c1 o) as [c2 oi]. injection E as <- _. unfold new_obj. cbn [h_new]. now apply memo_snoc.
  - unb E as s E1. injection E as <- _. unfold new_obj. cbn [h_new]. now apply memo_snoc.
  - unb E as s E1. injection E as <- _. unfold new_obj. cbn [h_new]. now apply memo_snoc.
  - match type of E with (if ?g then _ else _) = _ => destruct g; [|discriminate] end. unb E as st2 E1. injection E as <- _.
    eapply memo_adds; [exact E1|]. unfold new_obj. cbn [h_new]. now apply memo_snoc.
  - destruct (cache_add_unchecked (js_cache st) v) as [c2 vi]. destruct (cache_add c2 n) as [c3 ni]. destruct (pass_map c3 m) as [c4 d].
    match type of E with (let '(_, _) := ?z in _) = _ => destruct z as [c5 x1] end.
    match type of E with (let '(_, _) := ?z in _) = _ => destruct z as [c6 x2] end.
    injection E as <- _. unfold new_obj. cbn [h_new]. now apply memo_snoc.
  - destruct (Nat.ltb j (length (js_objs st))); [|discriminate]. injection E as <- _. now apply memo_snoc.
  - unb E as st2 E1. injection E as <- _. eapply memo_add; eauto.
  - unb E as b E1. destruct b; try discriminate. unb E as h E2. injection E as <- _. exact M.
  - unb E as b E1. destruct b; try discriminate. unb E as h E2. injection E as <- _. exact M.
  - cbn [apart_from] in Q. unb E as [st2 s] E1. injection E as <- _. rewrite (source_memo _ _ _ _ _ _ _ _ Iv E1 Q). exact M.
  - cbn [apart_from] in Q. unb E as [st2 s] E1. injection E as <- _. rewrite (size_memo _ _ _ _ _ _ _ _ Iv E1 Q). exact M.
  - unb E as [st2 s] E1. injection E as <- _. rewrite (memo_only _ _ _ (hash_only _ _ _ _ _ E1)). exact M.
  - unb E as b E1. unb E as [st2 r] E2. injection E as <- _. rewrite (memo_only _ _ _ (map_only _ _ _ _ _ _ E2)). exact M.
  - injection E as <- _. exact M.
Qed.
