(** C51 for allocators that reuse addresses. *)
From Verif Require Import Base ModelJs ModelPool SpecPool ModelPoolReuse SpecPoolReuse PoolReuse PropertiesPool.

(** Where the addresses come from makes no difference: with any allocator the same programs fault
    as with addresses that are never reused; the same calls throw, the same wrappers have
    a pointer, and as many objects stay allocated. *)
Theorem C51_allocator : forall al l, honest_allocator al -> match prun ps_new l, reuse_run al rs_new l with
  | Some s, Some r => length (ps_live s) = length (rs_heap r) /\ ps_pool s = rs_pool r /\
      (forall o, kind_of s o = rkind_of r o /\ (ptr_of s o = 0 <-> fst (handle_of r o) = 0)) /\
      forall op, option_map snd (pstep s op) = option_map snd (reuse_step al r op)
  | None, None => True
  | _, _ => False
  end.
Proof. exact allocators. Qed.
Print Assumptions C51_allocator.

(** So no careful program, and none whose RawSources all differ, uses freed memory or an object that
    took the place of a freed one. *)
Theorem C51_reuse_safe : forall al l, honest_allocator al -> careful_run 0 ps_new l \/ NoDup (raw_values l) ->
  exists r, reuse_run al rs_new l = Some r.
Proof.
  intros al l Ha H. pose proof (C51_allocator al l Ha) as X.
  assert (E : exists s, prun ps_new l = Some s) by (destruct H as [H|H]; [now apply C51_safe|now apply C51_unshared]).
  destruct E as [s E]. rewrite E in X. destruct (reuse_run al rs_new l) as [r|]; [eauto|contradiction].
Qed.
Print Assumptions C51_reuse_safe.
(** And clear() frees everything where C51_clear says so. *)
Theorem C51_reuse_clear : forall al l, honest_allocator al -> careful_run 0 ps_new (l ++ [PClear]) -> plain_run ps_new (l ++ [PClear]) ->
  exists r, reuse_run al rs_new (l ++ [PClear]) = Some r /\ rs_heap r = [].
Proof.
  intros al l Ha H1 H2. pose proof (C51_allocator al (l ++ [PClear]) Ha) as X. destruct (C51_clear l H1 H2) as (s & E & L). rewrite E in X.
  destruct (reuse_run al rs_new (l ++ [PClear])) as [r|]; [|contradiction]. exists r. split; [reflexivity|]. destruct X as [X _]. rewrite L in X. now destruct (rs_heap r).
Qed.
Print Assumptions C51_reuse_clear.

(** An allocator that takes up what is free at the end of memory. *)
Definition top_allocator : allocator := fun _ used => S (list_max used).
Lemma top_honest : honest_allocator top_allocator.
Proof.
  intros n used. split; [|discriminate]. intro H. pose proof (proj1 (list_max_le used (list_max used)) (le_n _)) as F.
  rewrite Forall_forall in F. specialize (F _ H). unfold top_allocator in F. lia.
Qed.
(** Of the program of C51_case: the second round gets the addresses of the first again. *)
Example C51_allocator_case : honest_allocator top_allocator /\
  (let* r := reuse_run top_allocator rs_new round1 in Some (rs_heap r)) = Some [(4, 6); (3, 3); (2, 2); (1, 1)] /\
  (let* r := reuse_run top_allocator rs_new (round1 ++ PClear :: round2) in Some (rs_heap r)) = Some [(2, 8); (1, 7)] /\
  careful_run 0 ps_new (round1 ++ PClear :: round2).
Proof. split; [exact top_honest|]. split; [vm_compute; reflexivity|]. split; [vm_compute; reflexivity|]. exact (proj1 C51_case). Qed.

(** What the faults of equal RawSources can come to: after clear() the second of them has
    the address of an OriginalSource made since, and using the one uses the other. *)
Theorem C51_alias_refuted : exists al l r, honest_allocator al /\ (forall o, ~ In (PFree o) l) /\ reuse_run al rs_new l = Some r /\
  rkind_of r 1 = KRaw /\ rkind_of r 2 = KOther /\ fst (handle_of r 1) = fst (handle_of r 2) /\ snd (handle_of r 1) <> snd (handle_of r 2) /\
  is_meant r (handle_of r 2) = true /\ reuse_step al r (PNewConcat [1]) = None.
Proof.
  exists top_allocator, [PNewRaw text_a; PNewRaw text_a; PClear; PNewOriginal false]. eexists. split; [exact top_honest|].
  split; [intros o [H|[H|[H|[H|[]]]]]; discriminate|]. split; [vm_compute; reflexivity|]. vm_compute. repeat split; discriminate.
Qed.
Print Assumptions C51_alias_refuted.
