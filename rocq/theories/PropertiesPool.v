(** C51: who owns the wasm objects behind the JavaScript wrappers. *)
From Verif Require Import Base ModelJs ModelPool SpecPool PoolProps.

(** No careful program reads freed memory or frees it twice. *)
Theorem C51_safe : forall l, careful_run 0 ps_new l -> exists s, prun ps_new l = Some s.
Proof. intros l. exact (safe_run l 0 ps_new safe_new). Qed.
Print Assumptions C51_safe.

(** Nor does any program, whatever it frees and whenever it clears, as long as no two RawSources
    have the same text. *)
Theorem C51_unshared : forall l, NoDup (raw_values l) -> exists s, prun ps_new l = Some s.
Proof. intros l H. apply (unsh_run l [] ps_new); [split; [apply PoolFacts.core_new|intros v p []]|exact H|auto]. Qed.
Print Assumptions C51_unshared.

(** clear() frees everything, unless a call threw or the user took a node(). *)
Theorem C51_clear : forall l, careful_run 0 ps_new (l ++ [PClear]) -> plain_run ps_new (l ++ [PClear]) ->
  exists s, prun ps_new (l ++ [PClear]) = Some s /\ ps_live s = [].
Proof. intros l. apply (clear_run l 0 ps_new safe_new). intros q []. Qed.
Print Assumptions C51_clear.

(** After it, a call on any source but a RawSource is an exception. *)
Theorem C51_stale : forall l s, careful_run 0 ps_new (l ++ [PClear]) -> plain_run ps_new (l ++ [PClear]) ->
  prun ps_new (l ++ [PClear]) = Some s -> forall o args, kind_of s o <> KRaw -> pstep s (PCall o args) = Some (s, Threw).
Proof. exact stale_throws. Qed.
Print Assumptions C51_stale.

(** Two equal RawSources in a ConcatSource, its result wrapped in a SourceMapSource which is freed by
    hand, a clear() and a second round. *)
Definition text_a : jstr := [97%N].
Definition round1 : list pop :=
  [PNewRaw text_a; PNewRaw text_a; PNewOriginal true; PNewConcat [0; 1; 2]; PResult 3; PWrap 4; PCall 5 []; PFree 5; PWrap 4].
Definition round2 : list pop := [PNewRaw text_a; PCall 0 []; PNewPooled [7]; PCall 3 [7]; PCall 8 [7]].
Ltac walk := repeat (match goal with
  | |- careful_run _ _ [] => exact I
  | |- careful_run _ _ (_ :: _) => split; [split; [repeat constructor; vm_compute; intros; (discriminate || lia)|vm_compute; (exact I || discriminate)]|
      let s := fresh in let e := fresh in let H := fresh in intros s e H; vm_compute in H; injection H as <- <-; cbn [next_base length ps_objs]]
  | |- plain_run _ [] => exact I
  | |- plain_run _ (_ :: _) => split; [intros; discriminate|
      let s := fresh in let e := fresh in let H := fresh in intros s e H; vm_compute in H; injection H as <- <-; split; [reflexivity|]]
  end).
Example C51_case : careful_run 0 ps_new (round1 ++ PClear :: round2) /\ careful_run 0 ps_new (round1 ++ [PClear]) /\
  plain_run ps_new (round1 ++ [PClear]) /\
  (let* s := prun ps_new (round1) in Some (length (ps_live s), ps_pool s)) = Some (4, [0; 2; 3; 4; 5; 6]) /\
  (let* s := prun ps_new (round1 ++ PClear :: round2) in Some (length (ps_live s), ps_pool s)) = Some (2, [7; 8]).
Proof. unfold round1, round2. cbn [app]. split; [walk|]. split; [walk|]. split; [walk|]. now vm_compute. Qed.
(** Freed by hand, used afterwards, and a second time freed by clear(). *)
Example C51_unshared_case : NoDup (raw_values [PNewRaw text_a; PNewRaw []; PFree 0; PNewConcat [1; 0]; PFree 1; PFree 1; PClear; PCall 0 []]) /\
  prun ps_new [PNewRaw text_a; PNewRaw []; PFree 0; PNewConcat [1; 0]; PFree 1; PFree 1; PClear; PCall 0 []] <> None.
Proof. split; [|vm_compute; discriminate]. cbn. repeat constructor; cbn; intuition discriminate. Qed.

(** The second of two RawSources with the same text keeps its pointer over clear(): using it reads
    freed memory, though nothing was freed by hand and clear() itself was fine. *)
Theorem C51_clear_refuted : exists l s, prun ps_new (l ++ [PClear]) = Some s /\ (forall o, ~ In (PFree o) l) /\
  pstep s (PNewPooled [0]) = Some (s, Threw) /\ pstep s (PNewPooled [1]) = None.
Proof.
  exists [PNewRaw text_a; PNewRaw text_a]. eexists. split; [vm_compute; reflexivity|]. split; [|now vm_compute].
  intros o [H|[H|[]]]; discriminate.
Qed.
Print Assumptions C51_clear_refuted.
(** Freeing one of them by hand leaves the other dangling, and clear() frees the object again. *)
Theorem C51_free_refuted : exists l, prun ps_new l <> None /\ prun ps_new (l ++ [PNewConcat [0]]) = None /\
  prun ps_new (l ++ [PClear]) = None.
Proof. exists [PNewRaw text_a; PNewRaw text_a; PFree 1]. split; [vm_compute; discriminate|]. now vm_compute. Qed.
Print Assumptions C51_free_refuted.
(** A RawSource made after one with its text was freed is dangling from the start. *)
Theorem C51_reuse_refuted : exists l, prun ps_new l <> None /\ prun ps_new (l ++ [PNewRaw text_a; PNewConcat [1]]) = None.
Proof. exists [PNewRaw text_a; PFree 0]. split; [vm_compute; discriminate|]. now vm_compute. Qed.
Print Assumptions C51_reuse_refuted.
(** What clear() leaves behind: the wasm object of a ConcatSource whose constructor threw, and a
    node the user asked for. *)
Theorem C51_leak_refuted : exists l l' s s', careful_run 0 ps_new (l ++ [PClear]) /\ careful_run 0 ps_new (l' ++ [PClear]) /\
  (forall o, ~ In (PNode o) l) /\ prun ps_new (l ++ [PClear]) = Some s /\ prun ps_new (l' ++ [PClear]) = Some s' /\
  ps_live s <> [] /\ ps_live s' <> [].
Proof.
  exists [PNewOriginal false; PFree 0; PNewConcat [0]], [PNewOriginal false; PNode 0].
  eexists _, _. cbn [app]. split; [walk|]. split; [walk|]. split; [intros o [H|[H|[H|[]]]]; discriminate|].
  split; [vm_compute; reflexivity|]. split; [vm_compute; reflexivity|]. split; discriminate.
Qed.
Print Assumptions C51_leak_refuted.
