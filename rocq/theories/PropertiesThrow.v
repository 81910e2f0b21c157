(** C61: which calls of a program throw. *)
From Verif Require Import Base ModelString ModelVlq ModelSm ModelSlm ModelSources ModelTree ModelWasm ModelJs ModelJsApi ModelJsResult
  SpecText SpecMap SpecAttr SpecEdit SpecLineEdit SpecList SpecEffect SpecJs SpecResult ResultProps ModelEnd SpecEnd EndFacts ModelJsProg SpecProg ProgProps SpecThrow ThrowProps HashProps PropertiesEnd PropertiesEdited PropertiesProg.
Require Import Relations.

(** A call that is allowed by what the calls before amount to does not throw... *)
Theorem C61_succeeds : forall c0 ops st op, reached_cache c0 -> jrun (jstate_new c0) ops = Some st ->
  allowed (meaning ops) op -> (forall i c m, op = OMap i c m -> Forall good_op ops) -> exists r, jstep st op = Some r.
Proof. intros c0 ops st op R Run. exact (run_succeeds R Run op). Qed.
Print Assumptions C61_succeeds.
(** ... and one that is not allowed throws. *)
Theorem C61_throws : forall c0 ops st op, reached_cache c0 -> jrun (jstate_new c0) ops = Some st ->
  unremembered (meaning ops) op -> ~ allowed (meaning ops) op -> jstep st op = None.
Proof. intros c0 ops st op R Run U A. destruct (jstep st op) as [r|] eqn:E; [|reflexivity]. destruct A. exact (run_needed R Run op r E U). Qed.
Print Assumptions C61_throws.
(** Whole programs. *)
Theorem C61_runs : forall c0 ops, reached_cache c0 -> allowed_run [] ops -> Forall good_op ops -> exists st, jrun (jstate_new c0) ops = Some st.
Proof. exact runs_through. Qed.
Print Assumptions C61_runs.
(** If what is added never contains what it is added to, nothing ever contains itself, and the kinds of the objects
    decide; all objects can be read at any time. *)
Theorem C61_proper : forall c0 ops, reached_cache c0 -> proper_run [] ops -> Forall good_op ops ->
  exists st, jrun (jstate_new c0) ops = Some st /\ forall i, ~ contains_itself (meaning ops) i /\
    (i < length (meaning ops) -> (exists r, jstep st (OSource i) = Some r) /\ (exists r, jstep st (OSize i) = Some r) /\
      (fresh_reads (meaning ops) i -> forall c m, exists r, jstep st (OMap i c m) = Some r)).
Proof. exact proper_reads. Qed.
Print Assumptions C61_proper.
(** What does not contain itself amounts to exactly one expression. *)
Theorem C61_denotes : forall c0 ops st i, reached_cache c0 -> jrun (jstate_new c0) ops = Some st -> i < length (meaning ops) ->
  ((exists e, denotes (meaning ops) (ArgObj i) e) <-> ~ contains_itself (meaning ops) i) /\
  (forall e e', denotes (meaning ops) (ArgObj i) e -> denotes (meaning ops) (ArgObj i) e' -> e = e').
Proof. intros c0 ops st i R Run Hi. split; [exact (run_denotes R Run i Hi)|]. intros e e' D D'. exact (proj1 (denotes_unique _) _ _ D' _ D). Qed.
Print Assumptions C61_denotes.

(** updateHash: it ends, with enough stack, exactly if it comes neither to itself nor to a ReplaceSource that contains itself. *)
Theorem C61_hash : forall c0 ops st i, reached_cache c0 -> jrun (jstate_new c0) ops = Some st -> i < length (meaning ops) -> ~ hash_loops (meaning ops) i ->
  exists s, (forall s', hashes (meaning ops) (ArgObj i) s' <-> s' = s) /\
    exists d, forall stack, d <= stack -> option_map snd (jstep st (OHash stack i)) = Some (NHash s).
Proof.
  intros c0 ops st i R Run Hi L. destruct (proj2 (run_hashes R Run i Hi) L) as (s & H). exists s. split; [|exact (run_hash _ _ _ _ _ R Run H)].
  intro s'. split; [intro H'; exact (proj1 (hashes_unique _) _ _ H _ H')|intros ->; exact H].
Qed.
Print Assumptions C61_hash.
Theorem C61_hash_throws : forall c0 ops st i stack, reached_cache c0 -> jrun (jstate_new c0) ops = Some st ->
  hash_loops (meaning ops) i \/ length (meaning ops) <= i -> jstep st (OHash stack i) = None.
Proof. intros c0 ops st i stack R Run [L|L]; [exact (hash_never R Run i stack L)|exact (hash_outside R Run i stack L)]. Qed.
Print Assumptions C61_hash_throws.
(** If what is added moreover never feeds what it is added to, every updateHash ends. *)
Theorem C61_hash_proper : forall c0 ops, reached_cache c0 -> proper_run [] ops -> unfed_run [] ops -> Forall good_op ops ->
  exists st, jrun (jstate_new c0) ops = Some st /\ forall i, i < length (meaning ops) ->
    exists s d, forall stack, d <= stack -> option_map snd (jstep st (OHash stack i)) = Some (NHash s).
Proof. exact proper_hash. Qed.
Print Assumptions C61_hash_proper.

(** ** Examples *)
(** The programs of C60: sharing, a string in a sequence, a change after a read, a map. *)
Example C61_runs_case : proper_run [] eops60 /\ allowed_run [] eops60 /\ Forall good_op eops60.
Proof.
  assert (P : proper_run [] eops60 /\ Forall good_op eops60).
  { split; [|repeat constructor].
    cbn -[lit nlj part]. repeat split; try (cbn; lia); try (eexists _, _; reflexivity); try (intro; cbn; discriminate); try (repeat constructor; cbn; lia).
    intros k E. injection E as <-. apply (not_reached _ (fun n => In n [5; 3; 2])); [cbn; tauto|cbn; lia|].
    intros a b [<-|[<-|[<-|[]]]] H; cbv [part holds nth_error] in H; try (injection H as ->); cbn; tauto. }
  split; [apply P|]. split; [|apply P]. apply (proper_runs cache_empty); [exists [], []; reflexivity|apply P|apply P].
Qed.
(** c = new ConcatSource("a"); p = new PrefixSource("x", c): both can be read.  c.add(p) does not throw, but then
    no read of either succeeds, nor of what is made of them; adding c to itself throws at once, also through CachedSources. *)
Definition ops61 : list jop := [ONewConcat [ArgStr (lit "a")]; ONewPrefix (lit "x") (ArgObj 0); OSource 1; OAdd 0 (ArgObj 1); ONewReplace (ArgObj 1); ONewCached 0; ONewCached 3].
Example C61_throws_case : exists st, jrun (jstate_new cache_empty) ops61 = Some st /\
  Forall (fun op => unremembered (meaning ops61) op /\ ~ allowed (meaning ops61) op /\ jstep st op = None)
    [OSource 0; OSize 1; OMap 0 true true; OMap 1 false true; OSource 2; OAdd 0 (ArgObj 0); OAdd 0 (ArgObj 3); OAdd 0 (ArgObj 4); OAdd 1 (ArgObj 0);
     OInsertAt 0 (Fin 0 0) []; ONewCached 5; OSource 5].
Proof.
  eexists. split; [vm_compute; reflexivity|].
  assert (L : clos_trans nat (part (meaning ops61)) 0 0).
  { apply t_trans with 1; apply t_step; unfold part, holds; cbn; auto. }
  assert (C : forall i, i < 3 -> contains_itself (meaning ops61) i).
  { intros i Hi. exists 0. split; [|exact L]. destruct i as [|[|[|i]]]; [apply rt_refl|apply rt_step; reflexivity|apply rt_trans with 1; apply rt_step; reflexivity|lia]. }
  repeat constructor; try (intros j H; vm_compute in H; discriminate); try (vm_compute; reflexivity); intro A; cbn [allowed] in A.
  - apply A, C. lia.
  - apply A, C. lia.
  - apply A, C. lia.
  - apply A, C. lia.
  - apply A, C. lia.
  - apply A. constructor.
  - apply A. econstructor; [reflexivity|constructor].
  - apply A. econstructor; [reflexivity|]. econstructor; [reflexivity|constructor].
  - destruct A as ((l & g & H) & _). discriminate.
  - destruct A as (a & l & H). discriminate.
  - vm_compute in A. lia.
  - destruct A as [A _]. vm_compute in A. lia.
Qed.

(** The program of C60: one sequence in another. *)
Example C61_hash_case : proper_run [] eops60 /\ unfed_run [] eops60 /\ Forall good_op eops60 /\ forall i, i < length (meaning eops60) -> ~ hash_loops (meaning eops60) i.
Proof.
  destruct C61_runs_case as (P & _ & G). split; [exact P|]. assert (U : unfed_run [] eops60).
  { cbn -[lit nlj fed]. repeat split. intros k E. injection E as <-. intro R. apply clos_rt_rt1n in R. revert R.
    assert (K : forall a b, clos_refl_trans_1n nat (fed (meaning (firstn 11 eops60))) a b -> In a [5; 3; 2] -> In b [5; 3; 2]).
    { intros a b R. induction R as [|a m b F _ IH]; [auto|]. intro H. apply IH. destruct H as [<-|[<-|[<-|[]]]]; vm_compute in F; try (injection F as ->); cbn; tauto. }
    intro R. apply K in R; cbn in *; intuition discriminate. }
  split; [exact U|]. split; [exact G|]. intros i Hi L. destruct (C61_hash_proper cache_empty eops60) as (st & Run & H); [exists [], []; reflexivity|exact P|exact U|exact G|].
  destruct (H i Hi) as (s & d & K). specialize (K d (le_n _)). rewrite (C61_hash_throws cache_empty eops60 st i d) in K; [discriminate|exists [], []; reflexivity|exact Run|now left].
Qed.
(** a.add(b); b.add(a): each comes to itself; so do a PrefixSource and a CachedSource around one.  And a ReplaceSource around what contains
    itself never gets its text. *)
Example C61_hash_throws_case : (forall i, i < 4 -> hash_loops (meaning (cops60 ++ [ONewPrefix (lit "x") (ArgObj 0); ONewCached 1])) i) /\
  (forall i, i < 2 -> ~ contains_itself (meaning cops60) i) /\ hash_loops (meaning ops61) 2.
Proof.
  split; [|split].
  - set (vs := meaning _). assert (L : clos_trans nat (fed vs) 0 0) by (apply t_trans with 1; apply t_step; vm_compute; auto).
    assert (L1 : clos_trans nat (fed vs) 1 1) by (apply t_trans with 0; apply t_step; vm_compute; auto).
    intros [|[|[|[|i]]]] Hi; [exists 0|exists 1|exists 0|exists 1|lia]; (split; [|now left]); try apply rt_refl; apply rt_step; reflexivity.
  - intros i Hi (j & _ & L). assert (K : forall a b, ~ part (meaning cops60) a b).
    { intros [|[|[|a]]] b; vm_compute; intuition discriminate. }
    clear - L K. revert L. generalize j at 2. intros j' L. induction L as [a b P|]; [exact (K _ _ P)|assumption].
  - exists 2. split; [apply rt_refl|]. right. split; [eexists _, _; reflexivity|]. exists 0. split; [apply rt_trans with 1; apply rt_step; reflexivity|].
    apply t_trans with 1; apply t_step; unfold part, holds; cbn; auto.
Qed.
