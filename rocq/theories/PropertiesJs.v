(** Final theorems about the state kept in JavaScript: C36, C37. *)
From Verif Require Import Base Tactics ModelString ModelVlq ModelSm ModelSlm ModelJs JsFacts.

(** C36 *)
Theorem C36_interning : forall l c is, cache_run cache_empty l = (c, is) ->
  length is = length l /\
  cache_resolve c (map Z.of_nat is) = Some (map (fun o => Some (call_str o)) l) /\
  (forall k o i, nth_error l k = Some o -> nth_error is k = Some i ->
     cache_at c (Z.of_nat i) = Some (Some (call_str o))) /\
  (forall k k' s s' i i', nth_error l k = Some (CAdd s) -> nth_error is k = Some i ->
     nth_error l k' = Some (CAdd s') -> nth_error is k' = Some i' -> (i = i' <-> s = s')).
Proof. exact cache_faithful. Qed.
Print Assumptions C36_interning.
Theorem C36_forever : forall l1 l2 c1 is1 c2 is2 i s,
  cache_run cache_empty l1 = (c1, is1) -> cache_run c1 l2 = (c2, is2) ->
  cache_at c1 i = Some s -> cache_at c2 i = Some s.
Proof. exact cache_forever. Qed.
Print Assumptions C36_forever.
Example C36_case :
  let l := [CAdd (lit "a"); CAddUnchecked (lit "a"); CAdd (lit "b"); CAdd (lit "a"); CAddUnchecked (lit "b"); CAdd (lit "b")] in
  snd (cache_run cache_empty l) = [0; 1; 2; 0; 3; 2] /\
  cache_resolve (fst (cache_run cache_empty l)) [3; -1; 0]%Z = Some [Some (lit "b"); None; Some (lit "a")].
Proof. split; reflexivity. Qed.

(** After clear() no old index stands for a string, and the table is faithful again. *)
Theorem C36_cleared : forall c0 l c is, cache_run (cache_clear c0) l = (c, is) ->
  (forall i, (0 <= i)%Z -> cache_at (cache_clear c0) i = None) /\
  length is = length l /\
  cache_resolve c (map Z.of_nat is) = Some (map (fun o => Some (call_str o)) l) /\
  (forall k k' s s' i i', nth_error l k = Some (CAdd s) -> nth_error is k = Some i ->
     nth_error l k' = Some (CAdd s') -> nth_error is k' = Some i' -> (i = i' <-> s = s')).
Proof.
  intros c0 l c is E. split; [intros [|p|p] H; cbn; [reflexivity| |lia]; now destruct (Pos.to_nat p)|].
  destruct (cache_faithful l c is E) as (H1 & H2 & _ & H3). split; [exact H1|]. split; [exact H2|exact H3].
Qed.
Print Assumptions C36_cleared.
Example C36_cleared_case :
  let c0 := fst (cache_run cache_empty [CAdd (lit "a"); CAdd (lit "b")]) in
  cache_at c0 1 = Some (Some (lit "b")) /\ snd (cache_run (cache_clear c0) [CAdd (lit "b"); CAdd (lit "a"); CAdd (lit "b")]) = [0; 1; 0].
Proof. split; reflexivity. Qed.

(** C37.  [harmless]: map with options that make no difference, size where bytes and
    UTF-16 units agree. *)
Theorem C37_cached_partial : forall (M : Type) (w : wrapped M) l c out,
  consistent w -> Forall (harmless w) l -> ask_all w cached_new l = (c, out) -> out = map (direct w) l.
Proof. exact (fun M w l c out => @cached_faithful M w l c out). Qed.
Print Assumptions C37_cached_partial.

(** A wrapped source whose map depends on [columns]. *)
Definition w37 : wrapped bool :=
  let m := fun o => match o with JObj (Some false) _ => false | _ => true end in
  mk_wrapped (lit "ab") 2 m (fun o => (lit "ab", m o)).
Example C37_case : consistent w37 /\
  Forall (harmless w37) [QBoth (JObj (Some false) None); QSize; QMap (JObj None (Some true)); QSource; QBoth JUndef; QMap JUndef].
Proof. split; [split; reflexivity|]. repeat constructor. Qed.

(** map(options) answers for other options, and from then on sourceAndMap does too. *)
Theorem C37_map_refuted : exists (w : wrapped bool) o, consistent w /\
  snd (ask_all w cached_new [QMap o; QBoth o]) <> map (direct w) [QMap o; QBoth o] /\
  nth_error (snd (ask_all w cached_new [QMap o; QBoth o])) 0 <> Some (direct w (QMap o)) /\
  nth_error (snd (ask_all w cached_new [QMap o; QBoth o])) 1 <> Some (direct w (QBoth o)).
Proof.
  exists w37, (JObj (Some false) None). split; [split; reflexivity|]. repeat split; intro H; vm_compute in H; discriminate.
Qed.
Print Assumptions C37_map_refuted.
(** size() after source() counts UTF-16 units, before it bytes. *)
Theorem C37_size_refuted : exists (w : wrapped bool), consistent w /\
  snd (ask_all w cached_new [QSource; QSize]) <> map (direct w) [QSource; QSize].
Proof.
  exists (mk_wrapped [233%N] 2 (fun _ => true) (fun _ => ([233%N], true))). split; [split; reflexivity|].
  intro H; vm_compute in H; discriminate.
Qed.
Print Assumptions C37_size_refuted.
