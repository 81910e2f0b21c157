(** Reusing addresses makes no difference to whether objects are used rightly. *)
From Verif Require Import Base Tactics ModelJs ModelPool PoolFacts ModelPoolReuse SpecPoolReuse.

Definition means (s : pstate) (r : rstate) (p : nat) (h : handle) : Prop :=
  (fst h = 0 <-> p = 0) /\ p < ps_next s /\ (p <> 0 -> snd h = p /\ (In p (ps_live s) -> In (fst h, p) (rs_heap r))).
Definition reps (s : pstate) (r : rstate) : Prop :=
  Forall2 (fun x y => fst x = fst y /\ means s r (snd x) (snd y)) (ps_objs s) (rs_objs r) /\
  Forall2 (fun x y => fst x = fst y /\ means s r (snd x) (snd y)) (ps_raw s) (rs_raw r) /\
  Forall2 (fun x y => fst x = fst y /\ means s r (snd x) (snd y)) (ps_boot s) (rs_boot r) /\
  ps_live s = map snd (rs_heap r) /\ NoDup (map fst (rs_heap r)) /\ NoDup (ps_live s) /\ Forall (fun x => fst x <> 0) (rs_heap r) /\
  Forall (fun p => p < ps_next s) (ps_live s) /\
  ps_next s = S (rs_count r) /\ ps_pool s = rs_pool r /\ ps_strings s = rs_strings r.

Lemma object_in h a i : NoDup (map fst h) -> object_at h a = Some i <-> In (a, i) h.
Proof.
  induction h as [|[b j] h IH]; intro N; cbn in *; [split; [discriminate|tauto]|]. inversion N as [|? ? N1 N2]; subst. unfold object_at in *. cbn [find fst].
  destruct (Nat.eqb_spec b a) as [->|D]; cbn [option_map snd].
  - split; [intro H; left; congruence|]. intros [H|H]; [congruence|]. elim N1. apply (in_map fst) in H. exact H.
  - rewrite (IH N2). split; [tauto|]. intros [H|H]; [congruence|exact H].
Qed.
Lemma snd_inj h (a b i : nat) : NoDup (map snd h) -> In (a, i) h -> In (b, i) h -> a = b.
Proof.
  induction h as [|[c j] h IH]; intros N H1 H2; [destruct H1|]. inversion N as [|? ? N1 N2]; subst.
  destruct H1 as [H1|H1], H2 as [H2|H2]; try congruence; [| |eauto].
  - injection H1 as -> ->. elim N1. apply (in_map snd) in H2. exact H2.
  - injection H2 as -> ->. elim N1. apply (in_map snd) in H1. exact H1.
Qed.
Lemma means_live s r p h : reps s r -> means s r p h -> p <> 0 -> is_live s p = is_meant r h.
Proof.
  intros (_ & _ & _ & L & N1 & N2 & _) (_ & _ & M) Hp. destruct (M Hp) as [M1 M2]. unfold is_meant.
  apply Bool.eq_iff_eq_true. rewrite is_live_in. split.
  - intro H. apply M2 in H. apply (object_in _ _ _ N1) in H. rewrite H, M1. apply Nat.eqb_refl.
  - destruct (object_at (rs_heap r) (fst h)) as [i|] eqn:E; [|discriminate]. intro H. apply Nat.eqb_eq in H. subst i. apply (object_in _ _ _ N1) in E.
    rewrite L, <- M1. apply (in_map snd) in E. exact E.
Qed.
Lemma handle_means s r o : reps s r -> kind_of s o = rkind_of r o /\ means s r (ptr_of s o) (handle_of r o).
Proof.
  intros (F & _ & _ & _ & _ & _ & _ & _ & E & _). unfold kind_of, rkind_of, ptr_of, handle_of.
  assert (D : KOther = KOther /\ means s r 0 (0, 0)) by (split; [reflexivity|]; split; [tauto|]; split; [lia|]; intro H; now elim H).
  revert o. induction F as [|[k p] [k' h] l l' [H1 H2] _ IH]; intros [|o]; cbn [nth_error]; auto.
Qed.
Lemma deref_same s r l : reps s r -> deref s l = rderef r l.
Proof.
  intro R. induction l as [|o l IH]; [reflexivity|]. cbn [deref rderef]. destruct (handle_means s r o R) as [_ M]. pose proof M as (Z & _).
  destruct (Nat.eqb_spec (ptr_of s o) 0) as [H|H]; destruct (Nat.eqb_spec (fst (handle_of r o)) 0) as [H'|H']; try tauto.
  rewrite (means_live s r _ _ R M H), IH. reflexivity.
Qed.
(** Handles stay good when the objects at their addresses stay. *)
Lemma means_mono s r s' r' p h : means s r p h -> ps_next s <= ps_next s' ->
  (p < ps_next s -> In p (ps_live s') -> In p (ps_live s) /\ (In (fst h, p) (rs_heap r) -> In (fst h, p) (rs_heap r'))) -> means s' r' p h.
Proof. intros (A & B & C) L H. split; [exact A|]. split; [lia|]. intro Hp. destruct (C Hp) as [C1 C2]. split; [exact C1|]. intro Hl. destruct (H B Hl) as [D1 D2]. auto. Qed.
Lemma all_mono {X} s r s' r' (l : list (X * nat)) l' : (forall p h, means s r p h -> means s' r' p h) ->
  Forall2 (fun x y => fst x = fst y /\ means s r (snd x) (snd y)) l l' -> Forall2 (fun x y => fst x = fst y /\ means s' r' (snd x) (snd y)) l l'.
Proof. intros H F. induction F as [|x y l l' [A B] _ IH]; constructor; auto. Qed.

Lemma alloc_reps al s r : honest_allocator al -> reps s r -> reps (fst (alloc s)) (fst (ralloc al r)) /\ means (fst (alloc s)) (fst (ralloc al r)) (snd (alloc s)) (snd (ralloc al r)).
Proof.
  intros Ha (F1 & F2 & F3 & L & N1 & N2 & Z & B & C & P & S0). destruct (Ha (rs_count r) (map fst (rs_heap r))) as [A1 A2].
  cbn [alloc ralloc fst snd]. set (a := al _ _) in *.
  assert (Mo : forall p h, means s r p h -> means (fst (alloc s)) (fst (ralloc al r)) p h).
  { intros p h M. apply (means_mono s r); [exact M|cbn; lia|]. intros Hp [H|H]; [lia|]. split; [exact H|]. intro Hin. right. exact Hin. }
  split.
  - split; [exact (all_mono _ _ _ _ _ _ Mo F1)|]. split; [exact (all_mono _ _ _ _ _ _ Mo F2)|]. split; [exact (all_mono _ _ _ _ _ _ Mo F3)|].
    cbn [ps_live rs_heap map fst snd ps_next rs_count ps_pool rs_pool ps_strings rs_strings]. rewrite <- L, <- C. split; [reflexivity|].
    split; [now constructor|]. split; [constructor; [|exact N2]; intro H; rewrite Forall_forall in B; specialize (B _ H); lia|].
    split; [now constructor|]. split; [constructor; [lia|]; eapply Forall_impl; [|exact B]; cbn; intros; lia|]. auto.
  - split; [cbn [fst snd]; split; intro H; [now elim A2|lia]|]. split; [cbn; lia|]. intros _. cbn [snd fst rs_heap]. split; [symmetry; exact C|]. intros _. left. now rewrite C.
Qed.
Lemma add_reps s r k p h b : reps s r -> means s r p h -> reps (add_obj s k p b) (radd_obj r k h b).
Proof.
  intros (F1 & F2 & F3 & L & N1 & N2 & Z & B & C & P & S0) M.
  assert (F : Forall2 (fun x y => fst x = fst y /\ means s r (snd x) (snd y)) (ps_objs s ++ [(k, p)]) (rs_objs r ++ [(k, h)])) by (apply Forall2_app; [exact F1|]; constructor; [auto|constructor]).
  assert (Ln : length (ps_objs s) = length (rs_objs r)) by (clear - F1; induction F1; cbn; congruence).
  destruct b; unfold reps, add_obj, radd_obj, set_pool, set_objs, rset_pool, rset_objs; cbn; rewrite <- ?P, <- ?Ln; auto 20.
Qed.
Lemma free_reps s r o : reps s r -> match free_obj s o, rfree_obj r o with Some s', Some r' => reps s' r' | None, None => True | _, _ => False end \/ ptr_of s o = 0.
Proof.
  intro R. destruct (Nat.eq_dec (ptr_of s o) 0) as [H0|Hp]; [now right|left]. destruct (handle_means s r o R) as [_ M].
  unfold free_obj, rfree_obj. rewrite (means_live s r _ _ R M Hp). destruct (is_meant r (handle_of r o)) eqn:Em; [|exact I].
  assert (Hl : In (ptr_of s o) (ps_live s)) by (apply is_live_in; rewrite (means_live s r _ _ R M Hp); exact Em).
  destruct R as (F1 & F2 & F3 & L & N1 & N2 & Z & B & C & P & S0). destruct M as (M1 & M2 & M3). destruct (M3 Hp) as [M4 M5]. specialize (M5 Hl).
  set (p := ptr_of s o) in *. set (a := fst (handle_of r o)) in *.
  set (s' := set_live _ _). set (r' := rset_heap _ _).
  assert (Lr : remove Nat.eq_dec p (ps_live s) = map snd (filter (fun x => negb (fst x =? a)) (rs_heap r))).
  { rewrite L. rewrite L in N2. clear - N1 N2 M5. induction (rs_heap r) as [|[b j] h IH]; [reflexivity|]. cbn in N1, N2. inversion N1 as [|? ? A1 A2]; inversion N2 as [|? ? B1 B2]; subst.
    cbn [map snd remove filter fst]. destruct M5 as [E|M5].
    - injection E as -> ->. rewrite Nat.eqb_refl. cbn [negb]. destruct (Nat.eq_dec p p) as [_|X]; [|now elim X].
      rewrite notin_remove by exact B1. f_equal. clear - A1. induction h as [|[c k] h IH]; [reflexivity|]. cbn [filter fst] in *. cbn in A1. destruct (Nat.eqb_spec c a) as [->|D]; [tauto|]. cbn [negb]. f_equal. tauto.
    - destruct (Nat.eqb_spec b a) as [->|D]; [elim A1; apply (in_map fst) in M5; exact M5|]. destruct (Nat.eq_dec p j) as [->|D']; [elim B1; apply (in_map snd) in M5; exact M5|].
      cbn [negb map snd]. now rewrite IH. }
  assert (Mo : forall q h, means s r q h -> means s' r' q h).
  { intros q h Mq. apply (means_mono s r); [exact Mq|cbn; lia|]. intros _ H. cbn [s' set_live ps_live] in H. apply in_remove in H as [H H']. split; [exact H|].
    intro Hi. cbn [r' rset_heap rs_heap]. apply filter_In. split; [exact Hi|]. cbn [fst]. destruct (Nat.eqb_spec (fst h) a) as [E|D]; [|reflexivity]. exfalso. apply H'.
    rewrite E in Hi. apply (object_in _ _ _ N1) in Hi, M5. congruence. }
  split; [|split; [exact (all_mono _ _ _ _ _ _ Mo F2)|split; [exact (all_mono _ _ _ _ _ _ Mo F3)|]]].
  - cbn [s' r' set_live set_objs rset_heap rset_objs ps_objs rs_objs].
    assert (M0 : means s' r' 0 (0, 0)) by (split; [tauto|]; split; [cbn; lia|]; intro H; now elim H).
    assert (F : Forall2 (fun x y => fst x = fst y /\ means s' r' (snd x) (snd y)) (ps_objs s) (rs_objs r)) by (exact (all_mono _ _ _ _ _ _ Mo F1)).
    generalize o as o0. clearbody s' r'. clear - F M0. induction F as [|[k q] [k' h] l l' [H1 H2] F IH]; intros [|o0]; cbn [set_nth_ptr drop_ptr]; constructor; auto.
  - cbn [s' r' set_live set_objs rset_heap rset_objs ps_live rs_heap ps_next rs_count ps_pool rs_pool ps_strings rs_strings].
    split; [exact Lr|]. split; [|split; [|split; [|split; [|auto]]]].
    + clear - N1. induction (rs_heap r) as [|[b j] h IH]; [constructor|]. cbn in N1. inversion N1 as [|? ? A1 A2]; subst. cbn [filter fst]. destruct (negb (b =? a)); [|auto]. cbn. constructor; [|auto].
      intro H. apply A1. apply in_map_iff in H as (x & <- & H). apply filter_In in H as [H _]. now apply in_map.
    + clear - N2. induction N2 as [|x l H N IH]; cbn; [constructor|]. destruct (Nat.eq_dec p x); [exact IH|]. constructor; [|exact IH]. intro X. apply in_remove in X as [X _]. tauto.
    + apply Forall_forall. intros x Hx. apply filter_In in Hx as [Hx _]. rewrite Forall_forall in Z. auto.
    + apply Forall_forall. intros x Hx. apply in_remove in Hx as [Hx _]. rewrite Forall_forall in B. auto.
Qed.
Lemma free_all_reps l : forall s r, reps s r -> match free_all s l, rfree_all r l with Some s', Some r' => reps s' r' | None, None => True | _, _ => False end.
Proof.
  induction l as [|o l IH]; intros s r R; cbn [free_all rfree_all]; [exact R|].
  destruct (handle_means s r o R) as [_ (Z & _)].
  destruct (Nat.eqb_spec (ptr_of s o) 0) as [H|H]; destruct (Nat.eqb_spec (fst (handle_of r o)) 0) as [H'|H']; try tauto; cbn [bind]; [now apply IH|].
  destruct (free_reps s r o R) as [F|F]; [|contradiction]. destruct (free_obj s o) as [s'|], (rfree_obj r o) as [r'|]; cbn [bind]; try contradiction; [now apply IH|exact I].
Qed.
Lemma raw_same s r v : reps s r -> match js_get (ps_raw s) v, raw_get (rs_raw r) v with Some p, Some h => means s r p h | None, None => True | _, _ => False end.
Proof.
  intros (_ & F & _). induction F as [|[k p] [k' h] l l' [E M] _ IH]; cbn [js_get raw_get]; [exact I|]. cbn [fst snd] in *. subst k'. destruct (jstr_eqb v k); [exact M|exact IH].
Qed.
Lemma boot_same s r v : reps s r -> match boot_get (ps_boot s) v, rboot_get (rs_boot r) v with Some p, Some h => means s r p h | None, None => True | _, _ => False end.
Proof.
  intros (_ & _ & F & _). induction F as [|[k p] [k' h] l l' [E M] _ IH]; cbn [boot_get rboot_get]; [exact I|]. cbn [fst snd] in *. subst k'. destruct (v =? k); [exact M|exact IH].
Qed.
Lemma reps_strings s r n : reps s r -> reps (set_strings s n) (rset_strings r n).
Proof. intros (F1 & F2 & F3 & L & N1 & N2 & Z & B & C & P & S0). unfold reps. cbn. auto 20. Qed.
Lemma reps_raw s r v p h : reps s r -> means s r p h -> reps (set_raw s ((v, p) :: ps_raw s)) (rset_raw r ((v, h) :: rs_raw r)).
Proof.
  intros (F1 & F2 & F3 & L & N1 & N2 & Z & B & C & P & S0) M. unfold reps. cbn. split; [exact F1|]. split; [constructor; [split; [reflexivity|exact M]|exact F2]|]. auto 20.
Qed.
Lemma reps_boot s r v p h : reps s r -> means s r p h -> reps (set_boot s ((v, p) :: ps_boot s)) (rset_boot r ((v, h) :: rs_boot r)).
Proof.
  intros (F1 & F2 & F3 & L & N1 & N2 & Z & B & C & P & S0) M. unfold reps. cbn. split; [exact F1|]. split; [exact F2|]. split; [constructor; [split; [reflexivity|exact M]|exact F3]|]. auto 20.
Qed.

Theorem step_same al s r op : honest_allocator al -> reps s r ->
  match pstep s op, reuse_step al r op with Some (s', e), Some (r', e') => e = e' /\ reps s' r' | None, None => True | _, _ => False end.
Proof.
  intros Ha R.
  assert (New : forall s r k b, reps s r -> reps (add_obj (fst (alloc s)) k (snd (alloc s)) b) (radd_obj (fst (ralloc al r)) k (snd (ralloc al r)) b)).
  { intros s0 r0 k b R0. destruct (alloc_reps al s0 r0 Ha R0) as [A B]. now apply add_reps. }
  destruct op as [v|b|args|args|o args|o|o|o|o|k|]; cbn [pstep reuse_step].
  - pose proof (raw_same s r v R) as X. destruct (js_get (ps_raw s) v) as [p|], (raw_get (rs_raw r) v) as [h|]; try contradiction.
    + split; [reflexivity|]. now apply add_reps.
    + destruct (alloc_reps al s r Ha R) as [A B]. destruct (alloc s) as [s1 p], (ralloc al r) as [r1 h]. cbn [fst snd] in *. split; [reflexivity|]. apply add_reps; [now apply reps_raw|exact B].
  - assert (Es : ps_strings s = rs_strings r) by apply R. rewrite <- Es. pose proof (reps_strings s r (ps_strings s + 1) R) as R1.
    change (rs_boot (rset_strings r (ps_strings s + 1))) with (rs_boot r). change (ps_boot (set_strings s (ps_strings s + 1))) with (ps_boot s).
    pose proof (boot_same s r (ps_strings s) R) as X.
    assert (G : forall b, (let '(s2, p) := alloc (set_strings s (ps_strings s + 1)) in Some (add_obj (if b : bool then set_boot s2 ((ps_strings s, p) :: ps_boot s2) else s2) KOther p true, Done)) <> None) by (intros; discriminate).
    clear G. destruct b.
    + destruct (boot_get (ps_boot s) (ps_strings s)) as [p|], (rboot_get (rs_boot r) (ps_strings s)) as [h|]; try contradiction.
      * split; [reflexivity|]. apply add_reps; [exact R1|exact X].
      * destruct (alloc_reps al _ _ Ha R1) as [A B]. destruct (alloc (set_strings s (ps_strings s + 1))) as [s1 p], (ralloc al (rset_strings r (ps_strings s + 1))) as [r1 h]. cbn [fst snd] in *.
        split; [reflexivity|]. apply add_reps; [now apply reps_boot|exact B].
    + pose proof (New _ _ KOther true R1) as Y. destruct (alloc (set_strings s (ps_strings s + 1))) as [s1 p], (ralloc al (rset_strings r (ps_strings s + 1))) as [r1 h]. split; [reflexivity|exact Y].
  - rewrite (deref_same s r args R). destruct (rderef r args) as [[|]|]; cbn [bind]; [|auto|exact I].
    pose proof (New _ _ KOther true R) as Y. destruct (alloc s) as [s1 p], (ralloc al r) as [r1 h]. split; [reflexivity|exact Y].
  - destruct (alloc_reps al s r Ha R) as [A B]. destruct (alloc s) as [s1 p], (ralloc al r) as [r1 h]. cbn [fst snd] in *. rewrite (deref_same s1 r1 args A).
    destruct (rderef r1 args) as [[|]|]; cbn [bind]; [|auto|exact I]. split; [reflexivity|]. now apply add_reps.
  - destruct (handle_means s r o R) as [-> _]. destruct (rkind_of r o); [auto| |]; rewrite (deref_same s r (o :: args) R); destruct (rderef r (o :: args)); cbn [bind]; auto.
  - destruct (handle_means s r o R) as [-> _]. destruct (rkind_of r o); [auto| |]; rewrite (deref_same s r [o] R); destruct (rderef r [o]) as [[|]|]; cbn [bind]; auto;
      pose proof (New _ _ KResult true R) as Y; destruct (alloc s) as [s1 p], (ralloc al r) as [r1 h]; (split; [reflexivity|exact Y]).
  - destruct (handle_means s r o R) as [-> _]. destruct (rkind_of r o); [auto| |]; rewrite (deref_same s r [o] R); destruct (rderef r [o]) as [[|]|]; cbn [bind]; auto;
      pose proof (New _ _ KOther false R) as Y; destruct (alloc s) as [s1 p], (ralloc al r) as [r1 h]; (split; [reflexivity|exact Y]).
  - destruct (handle_means s r o R) as [-> (Z & _)].
    assert (Y : match (match rkind_of r o with KResult => if ptr_of s o =? 0 then Some s else free_obj s o | _ => Some s end),
      (match rkind_of r o with KResult => if fst (handle_of r o) =? 0 then Some r else rfree_obj r o | _ => Some r end) with Some s', Some r' => reps s' r' | None, None => True | _, _ => False end).
    { destruct (rkind_of r o); auto. destruct (Nat.eqb_spec (ptr_of s o) 0) as [H|H]; destruct (Nat.eqb_spec (fst (handle_of r o)) 0) as [H'|H']; try tauto.
      destruct (free_reps s r o R) as [F|F]; [exact F|contradiction]. }
    destruct (match rkind_of r o with KResult => if ptr_of s o =? 0 then Some s else free_obj s o | _ => Some s end) as [s1|],
      (match rkind_of r o with KResult => if fst (handle_of r o) =? 0 then Some r else rfree_obj r o | _ => Some r end) as [r1|]; cbn [bind]; try contradiction; [|exact I].
    pose proof (New _ _ KOther true Y) as W. destruct (alloc s1) as [s2 p], (ralloc al r1) as [r2 h]. split; [reflexivity|exact W].
  - destruct (handle_means s r o R) as [_ (Z & _)].
    destruct (Nat.eqb_spec (ptr_of s o) 0) as [H|H]; destruct (Nat.eqb_spec (fst (handle_of r o)) 0) as [H'|H']; try tauto.
    destruct (free_reps s r o R) as [F|F]; [|contradiction]. destruct (free_obj s o), (rfree_obj r o); cbn [bind]; try contradiction; auto.
  - split; [reflexivity|]. assert (Es : ps_strings s = rs_strings r) by apply R. rewrite <- Es. now apply reps_strings.
  - assert (Ep : ps_pool s = rs_pool r) by apply R. rewrite Ep. pose proof (free_all_reps (rev (rs_pool r)) _ _ (reps_strings s r 0 R)) as Y.
    destruct (free_all (set_strings s 0) (rev (rs_pool r))) as [s1|], (rfree_all (rset_strings r 0) (rev (rs_pool r))) as [r1|]; cbn [bind]; try contradiction; [|exact I].
    split; [reflexivity|]. destruct Y as (F1 & F2 & F3 & L & N1 & N2 & Z & B & C & P & S0). unfold reps. cbn. split; [exact F1|]. split; [constructor|]. split; [constructor|]. auto 20.
Qed.
Lemma reps_new : reps ps_new rs_new.
Proof. unfold reps. cbn. repeat split; constructor. Qed.
Lemma run_same al l : honest_allocator al -> forall s r, reps s r ->
  match prun s l, reuse_run al r l with Some s', Some r' => reps s' r' | None, None => True | _, _ => False end.
Proof.
  intro Ha. induction l as [|op l IH]; intros s r R; cbn [prun reuse_run]; [exact R|]. pose proof (step_same al s r op Ha R) as Y.
  destruct (pstep s op) as [[s1 e]|], (reuse_step al r op) as [[r1 e']|]; cbn [bind]; try contradiction; [|exact I]. now apply IH.
Qed.
Theorem allocators al l : honest_allocator al -> match prun ps_new l, reuse_run al rs_new l with
  | Some s, Some r => length (ps_live s) = length (rs_heap r) /\ ps_pool s = rs_pool r /\
      (forall o, kind_of s o = rkind_of r o /\ (ptr_of s o = 0 <-> fst (handle_of r o) = 0)) /\
      forall op, option_map snd (pstep s op) = option_map snd (reuse_step al r op)
  | None, None => True
  | _, _ => False
  end.
Proof.
  intro Ha. pose proof (run_same al l Ha _ _ reps_new) as Y. destruct (prun ps_new l) as [s|], (reuse_run al rs_new l) as [r|]; try contradiction; [|exact I].
  split; [destruct Y as (_ & _ & _ & -> & _); now rewrite map_length|]. split; [apply Y|]. split.
  - intro o. destruct (handle_means s r o Y) as [A (B & _)]. split; [exact A|tauto].
  - intro op. pose proof (step_same al s r op Ha Y) as X. destruct (pstep s op) as [[s1 e]|], (reuse_step al r op) as [[r1 e']|]; try contradiction; [|reflexivity]. cbn. now destruct X as [-> _].
Qed.
