(** Final theorems: C40. *)
From Verif Require Import Base Tactics ModelString ModelVlq ModelSm ModelSlm ModelSources ModelTree ModelHeap
  SpecText SpecMap ParseFacts SpecHeap EditFacts HeapFacts HeapGraph HeapProps SpecBuilt PanicFacts PanicProps.
Require Import Relations.

(** In every graph built through the API, every question is answered, except on cycles. *)
Theorem C40_answers : forall h i q, built h -> i < length h ->
  (exists v, reply h i q = Val v) \/ (reply h i q = Panic /\ cyclic h i).
Proof. exact built_answers. Qed.
Print Assumptions C40_answers.
(** The node that was answered can be serialised in both ways, and the generator again. *)
Theorem C40_serialised : forall h i c m n file root, built h -> reply h i (AskNode c m) = Val (GotNode n) ->
  exists code mp g, to_string_with_source_map n file root = Some (code, mp) /\
    to_string_with_generator n file root = Some (code, g) /\
    exists g', gen_to_source_map g = Some (g', mp).
Proof. exact built_serialised. Qed.
Print Assumptions C40_serialised.
(** The exception. *)
Theorem C40_wrapped_string : forall h i o s c m, nth_error h i = Some o ->
  (exists p, o = OPrefix p (SStr s)) \/ (exists st, o = OReplace (SStr s) st) ->
  reply h i (AskNode c m) = Panic /\ reply h i (AskLines c m) = Panic /\ exists t, reply h i AskSource = Val (GotText t).
Proof. exact wrapped_string. Qed.
Print Assumptions C40_wrapped_string.

Ltac all_small := repeat apply Forall_cons; try apply Forall_nil; unfold small, u32, u32_max; cbn; lia.

(** A map that lists a source twice, which the map format permits, makes node() panic:
    the condition in [fine_map] is needed. *)
Definition twice_map : sm_content := mk_smc [1; 1; 2]%Z [] [] (lit "AEAA").
Theorem C40_duplicate_source_refuted : exists d v, 
  (exists segs es, decode (sc_mappings d) = Some segs /\ Forall small segs /\
     read_map (sc_sources d) (sc_names d) (sc_mappings d) = Some es) /\
  reply [OSms (sms_new v 0 7 d None)] 0 (AskNode true true) = Panic /\
  exists l, reply [OSms (sms_new v 0 7 d None)] 0 (AskLines true true) = Val l.
Proof.
  exists twice_map, (lit "ab"). split; [|split; [vm_compute; reflexivity|eexists; vm_compute; reflexivity]].
  eexists _, _. split; [vm_compute; reflexivity|]. split; [|vm_compute; reflexivity].
  all_small.
Qed.
Print Assumptions C40_duplicate_source_refuted.

(** A graph built by thirteen calls: edits, sharing, an emitted map used again as inner
    map, and a cycle closed at the end. *)
Definition start : heap := [].
Definition step_new (o : obj) (h : heap) : heap := fst (h_new h o).
Definition val_of {A} (r : res A) (d : A) : A := match r with Val v => v | _ => d end.
Definition map40 : sm_content := mk_smc [1; 2]%Z [10]%Z [5]%Z (lit "AAAAA,CCAA;AACA").
Lemma map40_fine : fine_map map40.
Proof.
  split; [|split; [|split]].
  - repeat constructor; cbn; intuition discriminate.
  - repeat constructor; cbn; intuition discriminate.
  - eexists. split; [vm_compute; reflexivity|]. all_small.
  - eexists. vm_compute. reflexivity.
Qed.
Definition g1 : heap := step_new (OOriginal [97; 10; 98]%N 3 4) start.
Definition g2 : heap := step_new (OReplace (SRef 0) rstate_new) g1.
Definition g3 : heap := val_of (h_replace g2 1 0 0 (lit "xyz") 0 0) [].
Definition g4 : heap := val_of (h_insert g3 1 1 (lit "!") 1) [].
Definition emitted : smnode := match reply g4 1 (AskNode true true) with Val (GotNode n) => n | _ => SmStr [] end.
Definition em_gen : generator := match to_string_with_generator emitted None None with Some (_, g) => g | None => gen_new None None false end.
Definition g5 : heap := val_of (do* (h, _) := put g4 1 (AskNode true true) in Val h) [].
Definition g6 : heap := step_new (OSms (mk_sms [97; 10; 98]%N 3 1 (mk_cell (Some map40) None) (Some 9%Z)
                                         (Some (mk_cell None (Some em_gen))) false)) g5.
Definition g7 : heap := step_new (OConcat []) g6.
Definition g8 : heap := val_of (h_add g7 3 (SRef 1)) [].
Definition g9 : heap := val_of (h_add g8 3 (SRef 2)) [].
Definition g10 : heap := step_new (OPrefix (lit "> ") (SRef 3)) g9.
Definition g11 : heap := val_of (h_add g10 3 (SRef 4)) [].
Lemma g6_built : built g6.
Proof.
  assert (B4 : built g4).
  { eapply (bt_insert g3 1 1 (lit "!") 1); [|vm_compute; reflexivity].
    eapply (bt_replace g2 1 0 0 (lit "xyz") 0 0); [|vm_compute; reflexivity].
    apply bt_new; [apply bt_new; [apply bt_start|exact I]|]. split; [cbn; lia|reflexivity]. }
  apply bt_sms_inner.
  - eapply (bt_read g4 1 (AskNode true true)); [exact B4|vm_compute; reflexivity].
  - apply mc_given, map40_fine.
  - eapply (mc_emitted g4 1 true true emitted None None); [exact B4|vm_compute; reflexivity|vm_compute; reflexivity].
Qed.
Lemma g10_built : built g10.
Proof.
  apply bt_new; [|vm_compute; lia].
  eapply (bt_add g8 3 (SRef 2)); [|vm_compute; reflexivity].
  eapply (bt_add g7 3 (SRef 1)); [|vm_compute; reflexivity].
  apply bt_new; [apply g6_built|reflexivity].
Qed.
Example C40_case :
  built g10 /\ built g11 /\
  reply g10 4 AskSource = Val (GotText (lit "> xyz!" ++ [10%N] ++ lit "> ba" ++ [10%N] ++ lit "> b")) /\
  reply g11 4 (AskLines true true) = Panic /\
  (exists l, reply g10 4 (AskLines true true) = Val (GotLines l)) /\
  (exists n code mp, reply g10 4 (AskNode true true) = Val (GotNode n) /\
     to_string_with_source_map n None None = Some (code, mp) /\ map_sources mp = [4; 2]%Z).
Proof.
  split; [exact g10_built|]. split; [eapply (bt_add g10 3 (SRef 4)); [exact g10_built|vm_compute; reflexivity]|].
  split; [vm_compute; reflexivity|]. split; [vm_compute; reflexivity|]. split; [eexists; vm_compute; reflexivity|].
  eexists _, _, _. split; [vm_compute; reflexivity|]. split; [vm_compute; reflexivity|]. vm_compute. reflexivity.
Qed.
