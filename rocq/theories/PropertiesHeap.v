(** Final theorems about shared objects: C30 - C32. *)
From Verif Require Import Base Tactics ModelString ModelVlq ModelSm ModelSlm ModelSources ModelTree ModelHeap
  SpecText SpecHeap EditFacts HeapFacts HeapGraph HeapProps HeapSettle.
Require Import Relations.

(** A graph: 0 is shared by 1, 2 and 3; 4 is a SourceMapSource with an inner map. *)
Definition map4 : sm_content := mk_smc [1%Z] [] [] (lit "AAAA").
Definition inner4 : sm_content := mk_smc [2%Z] [20%Z] [] (lit "AAAA").
Definition sms4 : sms := sms_set_original (sms_set_inner (sms_new (lit "ab") 10 1 map4 None) inner4 None) 11.
Definition heap1 : heap :=
  [OReplace (SRef 4) (run [Replace 1 1 (lit "X") 0 0; Insert 0 (lit "!") 0]);
   OPrefix (lit "> ") (SRef 0);
   OConcat [SRef 0; SStr (lit ";")];
   OConcat [SRef 1; SRef 0];
   OSms sms4].
Lemma heap1_steady : steady_heap heap1.
Proof.
  intros i x H. do 5 (destruct i as [|i]; [first [discriminate H | injection H as <-; eapply data_steady; reflexivity]|]). destruct i; discriminate.
Qed.
Lemma heap1_edges i j : edge heap1 i j -> (j = 4 /\ i = 0) \/ (j = 0 /\ (i = 1 \/ i = 2)) \/ (i = 3 /\ (j = 0 \/ j = 1)).
Proof.
  intros (o & E & H).
  do 5 (destruct i as [|i]; [injection E as <-; cbn in H; intuition (try congruence);
        repeat match goal with H : SRef _ = SRef _ |- _ => injection H as <- end; auto 7|]).
  destruct i; discriminate.
Qed.
Lemma heap1_closed : closed heap1.
Proof. intros i j E. apply heap1_edges in E. cbn. lia. Qed.

Lemma stays_in (P : nat -> Prop) h i j : (forall a b, P a -> edge h a b -> P b) -> P i -> reaches h i j -> P j.
Proof. intros H Hi R. apply clos_rt_rtn1 in R. induction R as [|y z E _ IH]; [exact Hi|]. eapply H; eauto. Qed.

(** C30 *)
Theorem C30_reads_partial : forall h h' i q, steady_heap h -> reads h h' -> reply h' i q = reply h i q.
Proof. exact reads_repeatable. Qed.
Print Assumptions C30_reads_partial.

(** Which SourceMapSources are steady: all made from map data, with or without inner
    map, and those made from a generator with mappings in order and no inner map. *)
Theorem C30_steady_data : forall v vi nm d g, steady (sms_new v vi nm d g) /\
  (forall o, steady (sms_set_original (sms_new v vi nm d g) o)) /\
  (forall d' g', steady (sms_set_inner (sms_new v vi nm d g) d' g')) /\
  (forall g', steady (sms_set_inner_generator (sms_new v vi nm d g) g')) /\
  (forall o d' g', steady (sms_set_inner (sms_set_original (sms_new v vi nm d g) o) d' g')) /\
  (forall o g', steady (sms_set_inner_generator (sms_set_original (sms_new v vi nm d g) o) g')).
Proof. intros v vi nm d g. refine (conj _ (conj _ (conj _ (conj _ (conj _ _))))); intros; eapply data_steady; reflexivity. Qed.
Print Assumptions C30_steady_data.
Theorem C30_steady_generator : forall v vi nm g, isort mapping_cmp (ml_list (g_mappings g)) = ml_list (g_mappings g) ->
  steady (sms_new_with_generator v vi nm g).
Proof. intros v vi nm g H. eapply generator_steady; [reflexivity|reflexivity|exact H|reflexivity]. Qed.
Print Assumptions C30_steady_generator.

Definition text_after (h : heap) (l : list (nat * question)) (i : nat) : res answer :=
  (fix go (h : heap) (l : list (nat * question)) : res answer :=
     match l with
     | [] => reply h i AskSource
     | (j, q) :: r => do* (h, _) := put h j q in go h r
     end) h l.
Example C30_case :
  steady_heap heap1 /\
  text_after heap1 [(3, AskNode true true); (2, AskLines false true); (4, AskNode true false)] 3 = reply heap1 3 AskSource /\
  reply heap1 3 AskSource = Val (GotText (lit "> !aX!aX")).
Proof. split; [exact heap1_steady|]. split; vm_compute; reflexivity. Qed.

(** A SourceMapSource made from a generator, with an inner map: the lines of its map
    change once its node has been asked for. *)
Definition gen30 : generator :=
  match gen_add_mapping (gen_new None None true) (mk_mapping (1%N, 0%N) (Some 1%Z) None (Some (1%N, 0%N))) with
  | Some g => g | None => gen_new None None true end.
Definition sms30 : sms := sms_set_inner (sms_new_with_generator (lit "ab") 10 1 gen30) inner4 None.
Theorem C30_refuted : exists h h' i q, reads h h' /\ closed h /\ reply h' i q <> reply h i q /\
  (exists a, reply h i q = Val a) /\ (exists a, reply h' i q = Val a).
Proof.
  exists [OSms sms30]. destruct (put [OSms sms30] 0 (AskNode true true)) as [[h1 v]| |] eqn:E; [|vm_compute in E; discriminate|vm_compute in E; discriminate].
  exists h1, 0, (AskLines false true). split; [eapply rd_one; [exact E|apply rd_none]|].
  split; [intros i j (o & Eo & H); destruct i as [|[|i]]; try discriminate; injection Eo as <-; contradiction|].
  vm_compute in E. injection E as <- _. split; [intro H; vm_compute in H; discriminate|].
  split; eexists; vm_compute; reflexivity.
Qed.
Print Assumptions C30_refuted.
(** So does one whose generator has mappings out of order. *)
Definition gen30' : generator :=
  match (let* g := gen_add_mapping (gen_new None None true) (mk_mapping (1%N, 1%N) (Some 1%Z) None (Some (1%N, 0%N))) in
         gen_add_mapping g (mk_mapping (1%N, 0%N) (Some 2%Z) None (Some (1%N, 0%N)))) with
  | Some g => g | None => gen_new None None true end.
Theorem C30_unordered_refuted : exists h h' i q, reads h h' /\ closed h /\ reply h' i q <> reply h i q /\
  (exists a, reply h i q = Val a) /\ (exists a, reply h' i q = Val a).
Proof.
  set (x := sms_new_with_generator (lit "ab") 10 1 gen30').
  exists [OSms x]. destruct (put [OSms x] 0 (AskLines true true)) as [[h1 v]| |] eqn:E; [|vm_compute in E; discriminate|vm_compute in E; discriminate].
  exists h1, 0, (AskNode true true). split; [eapply rd_one; [exact E|apply rd_none]|].
  split; [intros i j (o & Eo & H); destruct i as [|[|i]]; try discriminate; injection Eo as <-; contradiction|].
  vm_compute in E. injection E as <- _. split; [intro H; vm_compute in H; discriminate|].
  split; eexists; vm_compute; reflexivity.
Qed.
Print Assumptions C30_unordered_refuted.
(** Any objects at all: reads are repeatable as long as column maps and line maps are not both asked for... *)
Theorem C30_columns : forall h h' i q, reads_of (fun q => forall c m, q <> AskLines c m) h h' -> (forall c m, q <> AskLines c m) ->
  reply h' i q = reply h i q.
Proof. exact node_reads. Qed.
Print Assumptions C30_columns.
Theorem C30_lines : forall h h' i q, reads_of (fun q => forall c m, q <> AskNode c m) h h' -> (forall c m, q <> AskNode c m) ->
  reply h' i q = reply h i q.
Proof. exact line_reads. Qed.
Print Assumptions C30_lines.
(** ... and all reads of an object are, once its line map was asked for (with module not false). *)
Theorem C30_settled : forall h i c h1 v h2 q, put h i (AskLines c true) = Val (h1, v) -> reads h1 h2 -> reply h2 i q = reply h1 i q.
Proof. exact settled_reads. Qed.
Print Assumptions C30_settled.
(** The objects of C30_refuted and C30_unordered_refuted, shared in two ConcatSources. *)
Example C30_settled_case : let h := [OSms sms30; OSms (sms_new_with_generator (lit "ab") 10 1 gen30'); OConcat [SRef 0; SRef 1]; OPrefix (lit "> ") (SRef 2)] in
  (exists h1 v h2 v2, put h 3 (AskLines false true) = Val (h1, v) /\ put h1 0 (AskNode true true) = Val (h2, v2) /\ h2 <> h1) /\
  (exists h1 v, put h 3 (AskNode true true) = Val (h1, v) /\ reads_of (fun q => forall c m, q <> AskLines c m) h h1 /\ h1 <> h).
Proof.
  split.
  - eexists _, _, _, _. split; [vm_compute; reflexivity|]. split; [vm_compute; reflexivity|]. vm_compute. discriminate.
  - eexists _, _. split; [vm_compute; reflexivity|]. split; [|vm_compute; discriminate].
    eapply ro_one with (i := 3) (q := AskNode true true); [discriminate|vm_compute; reflexivity|apply ro_none].
Qed.

(** C31 *)
Theorem C31_snapshot : forall h outer inner l l' h1,
  nth_error h outer = Some (OConcat l) -> nth_error h inner = Some (OConcat l') -> outer <> inner ->
  h_add h outer (SRef inner) = Val h1 ->
  nth_error h1 outer = Some (OConcat (l ++ l')) /\ (forall j, j <> outer -> nth_error h1 j = nth_error h j) /\ length h1 = length h.
Proof.
  intros h outer inner l l' h1 E1 E2 N Ea. destruct (add_snapshot h outer inner l l' E1 E2 N) as (h1' & Ea' & H).
  rewrite Ea in Ea'. injection Ea' as <-. exact H.
Qed.
Print Assumptions C31_snapshot.

(** Later changes of anything the outer object does not reach, in particular inner.add,
    are not seen through it. *)
Theorem C31_unaffected : forall h outer inner l l' h1 h2 q,
  nth_error h outer = Some (OConcat l) -> nth_error h inner = Some (OConcat l') -> outer <> inner ->
  closed h -> steady_heap h ->
  (forall j, In (SRef j) l -> ~ reaches h j inner) -> ~ on_cycle h inner ->
  h_add h outer (SRef inner) = Val h1 ->
  ~ reaches h1 outer inner /\ (history (reaches h1 outer) h1 h2 -> reply h2 outer q = reply h1 outer q).
Proof.
  intros h outer inner l l' h1 h2 q E1 E2 N C S Hl Hc Ea. split; [eapply inner_unreachable; eauto|].
  destruct (C31_snapshot h outer inner l l' h1 E1 E2 N Ea) as (N1 & N2 & Le).
  apply unreachable_unseen.
  - intros i j (o & Eo & Hin). rewrite Le. destruct (Nat.eq_dec i outer) as [->|Ni].
    + rewrite N1 in Eo. injection Eo as <-. cbn [items] in Hin. apply in_app_iff in Hin. destruct Hin as [Hin|Hin].
      * apply (C outer j). exists (OConcat l). auto.
      * apply (C inner j). exists (OConcat l'). auto.
    + apply (C i j). exists o. rewrite N2 in Eo by exact Ni. auto.
  - intros i x Ex. destruct (Nat.eq_dec i outer) as [->|Ni]; [congruence|]. rewrite N2 in Ex by exact Ni. eapply S; eauto.
  - rewrite Le. apply nth_error_Some. congruence.
Qed.
Print Assumptions C31_unaffected.

(** Shared children are read as they are now, through every ConcatSource that has them. *)
Theorem C31_shared : forall h i l1 c l2 s,
  nth_error h i = Some (OConcat (l1 ++ SRef c :: l2)) -> reply h i AskSource = Val (GotText s) ->
  exists a sc b, reply h c AskSource = Val (GotText sc) /\ s = a ++ sc ++ b.
Proof.
  intros h i l1 c l2 s E A. destruct (concat_now _ _ _ _ E A) as (ss & H & ->). clear E A. rewrite map_app in H. cbn [map] in H.
  revert ss H. induction l1 as [|x l1 IH]; intros [|s ss] H; try discriminate; cbn [map app] in H.
  - injection H as H _. exists [], s, (concat ss). auto.
  - injection H as _ H. destruct (IH ss H) as (a & sc & b & H1 & H2). exists (s ++ a), sc, b. cbn [concat]. rewrite H2, <- app_assoc. auto.
Qed.
Print Assumptions C31_shared.

(** 3 gets the list of 2 appended; then 2 gets a string, and the shared 0 an edit. *)
Example C31_case : exists h1 h2 h3,
  h_add heap1 3 (SRef 2) = Val h1 /\
  h_add h1 2 (SStr (lit "new")) = Val h2 /\ history (reaches h1 3) h1 h2 /\
  h_replace h2 0 0 0 (lit "Y") 0 0 = Val h3 /\
  reply heap1 3 AskSource = Val (GotText (lit "> !aX!aX")) /\
  reply h1 3 AskSource = Val (GotText (lit "> !aX!aX!aX;")) /\
  reply h2 3 AskSource = Val (GotText (lit "> !aX!aX!aX;")) /\
  reply h2 2 AskSource = Val (GotText (lit "!aX;new")) /\
  reply h3 3 AskSource = Val (GotText (lit "> !YX!YX!YX;")) /\
  reply h3 2 AskSource = Val (GotText (lit "!YX;new")).
Proof.
  eexists _, _, _. split; [reflexivity|]. split; [reflexivity|]. split.
  - eapply (hi_add _ _ 2 (SStr (lit "new"))); [|reflexivity|apply hi_none].
    eapply (inner_unreachable heap1 3 2); [reflexivity|reflexivity|discriminate|reflexivity| |].
    + intros j Hj R. apply (stays_in (fun k => k <> 2 /\ k <> 3)) in R; [lia| |].
      * intros a b Ha E. apply heap1_edges in E. lia.
      * cbn in Hj. intuition congruence.
    + intro Cy. assert (G : forall i j, clos_trans nat (edge heap1) i j -> i = 2 \/ i = 0 \/ i = 4 -> j = 0 \/ j = 4).
      { induction 1 as [a b E|a b c _ IH1 _ IH2]; [apply heap1_edges in E; lia|]. intro H. apply IH2. specialize (IH1 H). lia. }
      specialize (G 2 2 Cy). lia.
  - split; [reflexivity|]. repeat split; vm_compute; reflexivity.
Qed.

(** Adding a ConcatSource to itself panics. *)
Theorem C31_self : forall h i l, nth_error h i = Some (OConcat l) -> h_add h i (SRef i) = Panic.
Proof. exact add_self. Qed.
Print Assumptions C31_self.

(** C32 *)
Theorem C32_terminates : forall h i q, reply h i q <> NoFuel.
Proof. exact reply_fuel. Qed.
Print Assumptions C32_terminates.

Theorem C32_cycle_or_text : forall h i, closed h -> i < length h ->
  (cyclic h i /\ forall q, reply h i q = Panic) \/
  (~ cyclic h i /\ exists t s, unfolds h (SRef i) t /\ t_source t = Some s /\
     reply h i AskSource = Val (GotText s) /\ reply h i AskSize = Val (GotSize (blen s))).
Proof. exact source_or_cycle. Qed.
Print Assumptions C32_cycle_or_text.

Theorem C32_panic_iff_cycle : forall h i, closed h -> i < length h -> (reply h i AskSource = Panic <-> cyclic h i).
Proof.
  intros h i C Hi. destruct (source_or_cycle h i C Hi) as [[Cy P]|[N (t & s & _ & _ & E & _)]].
  - split; auto.
  - split; [congruence|contradiction].
Qed.
Print Assumptions C32_panic_iff_cycle.

(** An acyclic graph answers every question like the tree seen from the object, so what
    is shown about trees holds for shared objects. *)
Theorem C32_like_tree : forall h i t q, steady_heap h -> unfolds h (SRef i) t -> reply h i q = lift (t_answer t q).
Proof. exact graph_tree. Qed.
Print Assumptions C32_like_tree.
Theorem C32_tree_exists : forall h i, closed h -> i < length h -> (~ cyclic h i <-> exists t, unfolds h (SRef i) t).
Proof.
  intros h i C Hi. split.
  - intro N. destruct (source_or_cycle h i C Hi) as [[Cy _]|[_ (t & s & U & _)]]; [contradiction|eauto].
  - intros [t U]. eapply unfolds_acyclic; eauto.
Qed.
Print Assumptions C32_tree_exists.

Example C32_case : closed heap1 /\ reply heap1 3 AskSize = Val (GotSize 8) /\
  exists h1, h_add heap1 2 (SRef 1) = Val h1 /\
  exists h2, h_add h1 3 (SRef 1) = Val h2 /\ reply h2 3 AskSource = Val (GotText (lit "> !aX!aX> !aX")) /\
  exists h3 h4, h_new h2 (OPrefix (lit "P") (SRef 3)) = (h3, 5) /\ h_add h3 3 (SRef 5) = Val h4 /\
    cyclic h4 3 /\ reply h4 3 AskSource = Panic /\ reply h4 5 (AskNode true true) = Panic /\ reply h4 1 AskSource = Val (GotText (lit "> !aX")).
Proof.
  split; [exact heap1_closed|]. split; [vm_compute; reflexivity|].
  eexists. split; [reflexivity|]. eexists. split; [reflexivity|]. split; [vm_compute; reflexivity|].
  eexists _, _. split; [reflexivity|]. split; [reflexivity|]. split.
  - exists 3. split; [apply rt_refl|]. eapply t_trans; apply t_step.
    + eexists. split; [reflexivity|]. cbn. auto 8.
    + eexists. split; [reflexivity|]. cbn. auto.
  - repeat split; vm_compute; reflexivity.
Qed.
