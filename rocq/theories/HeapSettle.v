(** Once a line map has been asked for, all reads are repeatable. *)
From Verif Require Import Base Tactics ModelString ModelVlq ModelSm ModelSlm ModelSources ModelTree ModelHeap
  TextFacts TreeText MapFacts SpecHeap HeapFacts HeapGraph HeapProps IdxFacts.
Require Import Relations.

Definition has_data (x : sms) : Prop := exists d, ce_data (sms_map x) = Some d.
Definition held (x y : sms) : Prop := has_data x -> has_data y.
Lemma lines_data x y l : sms_list_map x true = Some (y, l) -> has_data y.
Proof.
  unfold sms_list_map. cbn [negb]. intro E. unb E as [c d] E1. unb E as m E2. injection E as <- _. unfold cell_get_data in E1. unfold has_data. cbn [sms_map].
  destruct (ce_data (sms_map x)) eqn:Ed; [injection E1 as <- _; eauto|]. unb E1 as g E3. unb E1 as [g' m'] E4. injection E1 as <- _. cbn. eauto.
Qed.
Lemma lines_held x m y l : sms_list_map x m = Some (y, l) -> held x y.
Proof.
  destruct m; [intros E _; eapply lines_data; eauto|]. unfold sms_list_map. cbn [negb]. intro E. unb E as s E1. injection E as <- _. now intro.
Qed.
Lemma node_held x y n : sms_node x = Some (y, n) -> held x y.
Proof. intros E (d & H). exists d. destruct (sms_node_keeps _ _ _ E) as (_ & _ & _ & K). congruence. Qed.
Lemma held_lines c m : keeps held (list_map_alg c m).
Proof. intros x y y' v H E. cbn [a_sms list_map_alg] in E. intro K. eapply lines_held; eauto. Qed.
Lemma held_refl h : later held (fun _ => True) h h.
Proof. intros i _. destruct (nth_error h i) as [o|]; [|exact I]. destruct o; cbn; auto. now intro. Qed.
Lemma held_at h0 h j x : later held (fun _ => True) h0 h -> (forall x0, nth_error h0 j = Some (OSms x0) -> has_data x0) -> nth_error h j = Some (OSms x) -> has_data x.
Proof.
  intros L H E. specialize (L j I). rewrite E in L. destruct (nth_error h0 j) as [o|] eqn:E0; [|contradiction]. destruct o; cbn in L; try discriminate; try contradiction.
  apply L. now apply H.
Qed.
Lemma reach_split h i j : reaches h i j -> j = i \/ exists o s, nth_error h i = Some o /\ In s (items o) /\ sreaches h s j.
Proof.
  intro H. apply clos_rt_rt1n in H. destruct H as [|k j (o & E & Hin) H]; [now left|]. right. exists o, (SRef k). split; [exact E|]. split; [exact Hin|]. now apply clos_rt1n_rt.
Qed.
Lemma settle c h0 : forall f busy h s h' v, later shape (fun _ => True) h0 h -> h_eval (list_map_alg c true) f busy h s = Val (h', v) ->
  forall j x, sreaches h0 s j -> nth_error h' j = Some (OSms x) -> has_data x.
Proof.
  set (a := list_map_alg c true).
  induction f as [|f IH]; intros busy h [t|i] h' v L E j x R Ej; try (destruct R; fail); [discriminate|].
  pose proof (h_eval_later held a (fun _ => True) h (held_lines c true) (S f) busy h (SRef i) h' v (held_refl h) E) as Lh.
  rewrite h_eval_ref in E. destruct (is_busy busy i); [discriminate|]. destruct (nth_error h i) as [o|] eqn:Ei; [|discriminate].
  destruct (later_items _ _ _ _ _ L Ei) as (o0 & E0 & _ & Eit). cbn [lift rbind] in E. cbn [sreaches] in R.
  destruct (reach_split _ _ _ R) as [->|(o1 & s & E1 & Hin & Rs)].
  - (* the object itself *)
    pose proof (Lh i I) as Li. rewrite Ei, Ej in Li. destruct o as [w|w wi n|w n og|p s|s st|l|y]; cbn in Li; try discriminate; try contradiction.
    destruct (a_sms a y) as [[y' l]|] eqn:Ey; [|discriminate E]. cbn [lift rbind] in E. injection E as <- <-.
    rewrite nth_h_set, Nat.eqb_refl in Ej. destruct (Nat.ltb i (length h)); [|discriminate]. injection Ej as <-. eapply lines_data. exact Ey.
  - rewrite E0 in E1. injection E1 as <-. rewrite Eit in Hin. clear E0 Eit Lh R.
    destruct o as [w|w wi n|w n og|p s1|s1 st|l|y]; cbn [items] in Hin; try contradiction.
    + destruct Hin as [->|[]]. destruct (h_eval a f (i :: busy) h s) as [[h1 y]| |] eqn:E1; try discriminate. cbn [rbind] in E.
      destruct (a_prefix a p y); cbn [lift rbind] in E; [|discriminate]. injection E as <- _. eapply IH; eauto.
    + destruct Hin as [->|[]]. destruct (h_eval a f (i :: busy) h s) as [[h1 y]| |] eqn:E1; try discriminate. cbn [rbind] in E.
      match type of E with context [lift ?z] => destruct z; cbn [lift rbind] in E; [|discriminate] end. injection E as <- _.
      rewrite nth_h_set in Ej. destruct (Nat.eqb i j); [destruct (Nat.ltb j (length h1)); discriminate Ej|]. eapply IH; eauto.
    + destruct (h_items (h_eval a f (i :: busy)) h l) as [[h1 xs]| |] eqn:E1; try discriminate. cbn [rbind] in E.
      destruct (a_concat a xs); cbn [lift rbind] in E; [|discriminate]. injection E as <- _. clear Ei.
      revert h xs L E1. induction l as [|z l IHl]; intros h xs L E1; [contradiction|]. cbn [h_items] in E1.
      destruct z as [u|k].
      * cbn [rbind] in E1. destruct (h_items (h_eval a f (i :: busy)) h l) as [[h2 ys]| |] eqn:E2; try discriminate. cbn [rbind] in E1. injection E1 as <- _.
        destruct Hin as [<-|Hin]; [destruct Rs|]. eapply IHl; eauto.
      * destruct (h_eval a f (i :: busy) h (SRef k)) as [[h2 y]| |] eqn:E3; try discriminate. cbn [rbind] in E1.
        destruct (h_items (h_eval a f (i :: busy)) h2 l) as [[h3 ys]| |] eqn:E2; try discriminate. cbn [rbind] in E1. injection E1 as <- _.
        assert (L2 : later shape (fun _ => True) h0 h2) by (eapply h_eval_later; eauto; apply shape_keeps).
        destruct Hin as [<-|Hin]; [|eapply IHl; eauto].
        apply (held_at h2 h3 j x); [|intros x0 E4; exact (IH _ _ _ _ _ L E3 _ _ Rs E4)|exact Ej].
        clear IHl Ej E3 L L2. assert (K : forall l ha hb ys, later held (fun _ => True) h2 ha -> h_items (h_eval a f (i :: busy)) ha l = Val (hb, ys) -> later held (fun _ => True) h2 hb).
        { clear. induction l as [|z l IHl]; intros ha hb ys L E; cbn [h_items] in E; [injection E as <- _; exact L|]. destruct z as [u|k].
          - cbn [rbind] in E. destruct (h_items (h_eval a f (i :: busy)) ha l) as [[hc zs]| |] eqn:E2; try discriminate. cbn [rbind] in E. injection E as <- _. eauto.
          - destruct (h_eval a f (i :: busy) ha (SRef k)) as [[hc y]| |] eqn:E3; try discriminate. cbn [rbind] in E.
            destruct (h_items (h_eval a f (i :: busy)) hc l) as [[hd zs]| |] eqn:E2; try discriminate. cbn [rbind] in E. injection E as <- _.
            eapply IHl; [|exact E2]. exact (h_eval_later held a (fun _ => True) h2 (held_lines c true) _ _ _ _ _ _ L E3). }
        eapply K; [apply held_refl|exact E2].
Qed.
Lemma put_shape h i q h' v : put h i q = Val (h', v) -> later shape (fun _ => True) h h'.
Proof.
  intros E. destruct q as [| |c m|c m]; cbn [put] in E; unfold rmap, h_read, h_size in E;
    match type of E with rbind ?r _ = _ => destruct r as [[h1 w]| |] eqn:E1; try discriminate end; cbn [rbind] in E; injection E as <- _.
  - eapply (h_eval_later shape source_alg); eauto using shape_keeps, shape_refl.
  - eapply h_size_later; eauto using shape_keeps, shape_refl.
  - eapply (h_eval_later shape (node_alg c m)); eauto using shape_keeps, shape_refl.
  - eapply (h_eval_later shape (list_map_alg c m)); eauto using shape_keeps, shape_refl.
Qed.
(** After sourceAndMap({columns: false}) (module: false not given) of an object. *)
Theorem settled h i c h1 v : put h i (AskLines c true) = Val (h1, v) -> forall j x, reaches h1 i j -> nth_error h1 j = Some (OSms x) -> steady x.
Proof.
  intros E j x R Ej. pose proof (put_shape _ _ _ _ _ E) as Sh. cbn [put] in E. unfold rmap, h_read in E.
  destruct (h_eval (list_map_alg c true) (S (length h)) [] h (SRef i)) as [[h2 w]| |] eqn:E1; try discriminate. cbn [rbind] in E. injection E as <- _.
  assert (R0 : reaches h i j).
  { clear -R Sh. induction R as [a b (o & Eo & Hin)|a|a b d R1 I1 R2 I2]; [|apply rt_refl|eapply rt_trans; eauto]. apply rt_step.
    destruct (later_items _ _ _ _ _ Sh Eo) as (o0 & E0 & _ & Eit). exists o0. split; [exact E0|]. now rewrite Eit. }
  destruct (settle c h _ _ _ _ _ _ (shape_refl h _) E1 j x R0 Ej) as (d & Hd). eapply data_steady; eauto.
Qed.
Theorem settled_reads h i c h1 v h2 q : put h i (AskLines c true) = Val (h1, v) -> reads h1 h2 -> reply h2 i q = reply h1 i q.
Proof.
  intros E Rd. set (D := reaches h1 i).
  assert (C : closed_under D h1) by (intros j k Hj Ed; eapply rt_trans; [exact Hj|now apply rt_step]).
  assert (L0 : later kept D h1 h1) by (apply kept_refl; intros j x Dj Ex; eapply settled; eauto).
  assert (L : later kept D h1 h2).
  { clear C E. enough (K : forall h0, later kept D h0 h1 -> later kept D h0 h2) by auto. clear L0. clearbody D.
    induction Rd as [h1|h1 j q' h3 w h2 E _ IH]; intros h0 L0; [exact L0|]. apply IH. eapply put_later; eauto. }
  rewrite (later_reply D h1 h2 i q C (rt_refl _ _ _) L), (later_reply D h1 h1 i q C (rt_refl _ _ _) L0). reflexivity.
Qed.

(** ** Reads of one kind *)
Definition noded (x y : sms) : Prop := y = x \/ exists n, sms_node x = Some (y, n).
Definition lined (x y : sms) : Prop := y = x \/ exists l, sms_list_map x true = Some (y, l).
Lemma noded_value x y : noded x y -> sms_value y = sms_value x.
Proof. intros [->|(n & E)]; [reflexivity|]. eapply sms_node_value; eauto. Qed.
Lemma lined_value x y : lined x y -> sms_value y = sms_value x.
Proof. intros [->|(n & E)]; [reflexivity|]. eapply sms_lines_value; eauto. Qed.
Lemma noded_source : respects noded source_alg.
Proof. intros x y K. cbn. exists y. rewrite (noded_value _ _ K). auto. Qed.
Lemma lined_source : respects lined source_alg.
Proof. intros x y K. cbn. exists y. rewrite (lined_value _ _ K). auto. Qed.
Lemma noded_node c m : respects noded (node_alg c m).
Proof.
  intros x y K. cbn [a_sms node_alg]. destruct K as [->|(n & E)].
  - destruct (sms_node x) as [[x' v]|] eqn:E; [|reflexivity]. exists x'. split; [reflexivity|]. right. eauto.
  - rewrite E, (sms_node_again _ _ _ E). exists y. split; [reflexivity|]. right. eauto.
Qed.
Lemma lines_again x y l : sms_list_map x true = Some (y, l) -> sms_list_map y true = Some (y, l) /\
  sms_list_map y false = let* (_, m) := sms_list_map x false in Some (y, m).
Proof.
  intro E. destruct (lines_data _ _ _ E) as (d & Hd). rewrite (data_lines y d true Hd), (data_lines y d false Hd). cbn [negb].
  unfold sms_list_map in E |- *. cbn [negb] in *. unb E as [c d'] E1. unb E as m E2. injection E as <- <-. cbn [sms_map sms_value sms_name sms_value_idx] in *.
  assert (d' = d) as ->.
  { unfold cell_get_data in E1. destruct (ce_data (sms_map x)) eqn:Ed; [injection E1 as <- <-; congruence|]. unb E1 as g E3. unb E1 as [g' m'] E4. injection E1 as <- <-. cbn in Hd. congruence. }
  rewrite E2. split; [reflexivity|]. destruct (slm_new _ _ _); reflexivity.
Qed.
Lemma lined_lines c m : respects lined (list_map_alg c m).
Proof.
  intros x y K. cbn [a_sms list_map_alg]. destruct K as [->|(l & E)].
  - destruct (sms_list_map x m) as [[x' v]|] eqn:E; [|reflexivity]. exists x'. split; [reflexivity|]. destruct m; [right; eauto|]. left.
    unfold sms_list_map in E. cbn [negb] in E. unb E as s E1. injection E as <- _. reflexivity.
  - destruct (lines_again _ _ _ E) as [A1 A2]. destruct m.
    + rewrite E, A1. exists y. split; [reflexivity|]. right. eauto.
    + rewrite A2. destruct (sms_list_map x false) as [[x' v]|]; [|reflexivity]. exists y. split; [reflexivity|]. right. eauto.
Qed.
Section Kind.
  Context {K : sms -> sms -> Prop} {P : question -> Prop}.
  Hypothesis (Kr : forall x, K x x) (Ks : respects K source_alg) (Kv : forall x y, K x y -> sms_value y = sms_value x)
    (Kn : forall c m, P (AskNode c m) -> respects K (node_alg c m)) (Kl : forall c m, P (AskLines c m) -> respects K (list_map_alg c m)).
  Lemma kind_reply h0 h i q : P q -> later K (fun _ => True) h0 h -> reply h i q = pure_reply h0 i q.
  Proof.
    intros Pq L. pose proof (fresh_nil (length h)) as F. pose proof (fresh_nil (length h0)) as F0.
    assert (C : closed_under (fun _ => True) h0) by (intros ? ? _ _; exact I).
    destruct q as [| |c m|c m]; unfold reply; cbn [put pure_reply]; unfold h_read, h_size.
    - eapply agrees_reply; [apply (eval_agrees K source_alg (fun _ => True) h0 Ks C); auto; exact I| |];
        [apply p_eval_fuel|apply h_eval_fuel]; auto; cbn [length]; lia.
    - eapply agrees_reply; [apply (size_agrees K (fun _ => True) h0 Ks Kv C); auto; exact I| |];
        [apply p_size_fuel|apply h_size_fuel]; auto; cbn [length]; lia.
    - eapply agrees_reply; [apply (eval_agrees K (node_alg c m) (fun _ => True) h0 (Kn c m Pq) C); auto; exact I| |];
        [apply p_eval_fuel|apply h_eval_fuel]; auto; cbn [length]; lia.
    - eapply agrees_reply; [apply (eval_agrees K (list_map_alg c m) (fun _ => True) h0 (Kl c m Pq) C); auto; exact I| |];
        [apply p_eval_fuel|apply h_eval_fuel]; auto; cbn [length]; lia.
  Qed.
  Lemma kind_put h0 h i q h' v : P q -> later K (fun _ => True) h0 h -> put h i q = Val (h', v) -> later K (fun _ => True) h0 h'.
  Proof.
    intros Pq L E. destruct q as [| |c m|c m]; cbn [put] in E; unfold rmap, h_read, h_size in E;
      match type of E with rbind ?r _ = _ => destruct r as [[h1 w]| |] eqn:E1; try discriminate end; cbn [rbind] in E; injection E as <- _.
    - eapply (h_eval_later K source_alg); eauto. now apply respects_keeps.
    - eapply h_size_later; eauto. now apply respects_keeps.
    - eapply (h_eval_later K (node_alg c m)); eauto. apply respects_keeps. now apply Kn.
    - eapply (h_eval_later K (list_map_alg c m)); eauto. apply respects_keeps. now apply Kl.
  Qed.
  Theorem kind_reads h h' i q : reads_of P h h' -> P q -> reply h' i q = reply h i q.
  Proof.
    intros Rd Pq. assert (L0 : later K (fun _ => True) h h).
    { intros j _. destruct (nth_error h j) as [o|]; [|exact I]. destruct o; cbn; auto. }
    assert (L : later K (fun _ => True) h h').
    { enough (G : forall h0, later K (fun _ => True) h0 h -> later K (fun _ => True) h0 h') by auto. clear L0.
      induction Rd as [h|h j q' h1 v h2 Pq' E _ IH]; intros h0 L0; [exact L0|]. apply IH. exact (kind_put _ _ _ _ _ _ Pq' L0 E). }
    rewrite (kind_reply h h' i q Pq L), (kind_reply h h i q Pq L0). reflexivity.
  Qed.
End Kind.
Theorem node_reads h h' i q : reads_of (fun q => forall c m, q <> AskLines c m) h h' -> (forall c m, q <> AskLines c m) -> reply h' i q = reply h i q.
Proof.
  apply (kind_reads (K := noded) (P := fun q => forall c m, q <> AskLines c m)); auto using noded_source, noded_value, noded_node; [now left|]. intros c m H. now destruct (H c m).
Qed.
Theorem line_reads h h' i q : reads_of (fun q => forall c m, q <> AskNode c m) h h' -> (forall c m, q <> AskNode c m) -> reply h' i q = reply h i q.
Proof.
  apply (kind_reads (K := lined) (P := fun q => forall c m, q <> AskNode c m)); auto using lined_source, lined_value, lined_lines; [now left|]. intros c m H. now destruct (H c m).
Qed.
