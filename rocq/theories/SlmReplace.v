(** ReplaceSource::list_map: the replacement pass over an arbitrary cutting of the text
    yields what source() yields. *)
From Verif Require Import Base Tactics ModelString StringFacts ModelVlq ModelSm ModelSlm ModelSources ModelTree
  SpecText SpecMap SpecAttr SpecList SortFacts TextFacts EditFacts NodeFacts SlmFacts SlmMap.

(** ** The stepping closure *)
Lemma step_chars_spec : forall rest p n rem, (0 <= rem)%Z ->
  let m := Z.to_nat (n - rem) in
  step_chars rest p p n rem =
  if m <=? length rest
  then (mk_citer (skipn m rest) (p + blen (firstn m rest)) (p + blen (firstn m rest)),
        StOk (p + blen (firstn m rest)) (rem + Z.of_nat m))
  else (mk_citer [] (p + blen rest) (p + blen rest),
        StErr (n - rem - Z.of_nat (length rest)) (rem + Z.of_nat (length rest))).
Proof.
  induction rest as [|c rest IH]; intros p n rem Hr; cbn zeta; cbn [step_chars].
  - destruct (Z.ltb_spec rem n).
    + destruct (Nat.leb_spec (Z.to_nat (n - rem)) (length (@nil char))); [cbn in *; lia|]. cbn. rewrite !Nat.add_0_r. f_equal. f_equal; lia.
    + replace (Z.to_nat (n - rem)) with 0 by lia. cbn. rewrite Nat.add_0_r. do 2 f_equal. lia.
  - destruct (Z.ltb_spec rem n).
    + rewrite IH by lia. replace (Z.to_nat (n - rem)) with (S (Z.to_nat (n - (rem + 1)))) by lia.
      cbn [length Nat.leb skipn firstn blen]. destruct (_ <=? _); rewrite !Nat.add_assoc; f_equal; f_equal; lia.
    + replace (Z.to_nat (n - rem)) with 0 by lia. cbn. rewrite Nat.add_0_r. do 2 f_equal. lia.
Qed.

Lemma str_range_spec a b c : str_range (a ++ b ++ c) (blen a) (blen a + blen b) = Some b.
Proof.
  unfold str_range. destruct (Nat.leb_spec (blen a) (blen a + blen b)); [|lia]. cbn [bind].
  rewrite split_at_bytes_app. cbn [bind]. replace (blen a + blen b - blen a) with (blen b) by lia.
  rewrite split_at_bytes_app. reflexivity.
Qed.
Lemma str_range_tail a b : str_range (a ++ b) (blen a) (blen (a ++ b)) = Some b.
Proof. rewrite blen_app. rewrite <- (app_nil_r b) at 1. rewrite str_range_spec. reflexivity. Qed.

(** ** The pass as one function of the whole text *)
Fixpoint forth (s : str) (rs : list repl) (cur : nat) : str :=
  match rs with
  | [] => skipn cur s
  | r :: rs =>
      let a := Nat.max cur (Z.to_nat (rp_start_pos r)) in
      let b := Nat.max a (Z.to_nat (rp_end_pos r)) in
      piece_of s cur a ++ rp_text r ++ forth s rs b
  end.

Definition ordered (a b : repl) : Prop := (rp_end_pos a <= rp_start_pos b)%Z.
Definition upright (r : repl) : Prop := (rp_start_pos r <= rp_end_pos r)%Z.
Lemma start_range r : (-2147483648 <= rp_start_pos r < 2147483648)%Z.
Proof. apply to_i32_range. Qed.
Lemma end_range r : (-2147483648 <= rp_end_pos r < 2147483648)%Z.
Proof. apply to_i32_range. Qed.

Section Pass.
Variable repls : list repl.
Definition asc (k : nat) : list repl := rev (firstn k repls).
Lemma asc_S k r : nth_error repls k = Some r -> asc (S k) = r :: asc k.
Proof.
  intro H. unfold asc. replace (firstn (S k) repls) with (firstn k repls ++ [r]); [now rewrite rev_app_distr|].
  revert k H. induction repls as [|x l IH]; intros [|k] H; try discriminate.
  - injection H as ->. reflexivity.
  - cbn [firstn app]. f_equal. apply IH. exact H.
Qed.

Lemma extra_code_spec : forall k, k <= length repls -> extra_code repls k = Some (flat_map rp_text (asc k)).
Proof.
  induction k as [|k IH]; intro Hk; [reflexivity|]. cbn [extra_code].
  destruct (nth_error repls k) as [r|] eqn:En; [|apply nth_error_None in En; lia]. cbn [bind].
  rewrite IH by lia. cbn [bind]. now rewrite (asc_S k r En).
Qed.

Definition at_pos (k : nat) (cur : Z) (q : nat) : Prop := k = 0 \/ cur = Z.of_nat q.

(** ** It never fails, whatever the edits *)
Lemma rmap_total code : forall k, k <= length repls -> forall a rest current out, code = a ++ rest ->
  exists st out' sb tail, rmap_loop repls code k (mk_citer rest (blen a) (blen a)) current out (blen a) = Some (st, out', sb) /\
    str_range code sb (blen code) = Some tail /\ rm_k st <= k.
Proof.
  induction k as [|k IH]; intros Hk a rest current out Hc.
  - eexists _, _, _, rest. split; [reflexivity|]. split; [rewrite Hc; apply str_range_tail|cbn; lia].
  - cbn [rmap_loop]. destruct (nth_error repls k) as [r|] eqn:En; [|apply nth_error_None in En; lia]. cbn [bind].
    unfold code_step. cbn [ci_rest ci_p ci_bound]. rewrite step_chars_spec by lia. cbn zeta. set (m := Z.to_nat _).
    destruct (Nat.leb_spec m (length rest)) as [Hle|Hgt].
    + set (x := firstn m rest). set (y := skipn m rest). assert (Exy : rest = x ++ y) by (symmetry; apply firstn_skipn). clearbody x y.
      assert (Er : str_range code (blen a) (blen a + blen x) = Some x) by (rewrite Hc, Exy; apply str_range_spec).
      rewrite Er. cbn [bind ci_rest ci_p ci_bound]. rewrite step_chars_spec by lia. cbn zeta. set (m2 := Z.to_nat _).
      destruct (Nat.leb_spec m2 (length y)) as [Hle2|Hgt2].
      * set (x2 := firstn m2 y). set (y2 := skipn m2 y). assert (Exy2 : y = x2 ++ y2) by (symmetry; apply firstn_skipn). clearbody x2 y2.
        replace (blen a + blen x + blen x2) with (blen (a ++ x ++ x2)) by (rewrite !blen_app; lia).
        match goal with |- context [rmap_loop _ _ _ _ ?c ?o _] => destruct (IH ltac:(lia) (a ++ x ++ x2) y2 c o) as (st & out' & sb & tail & E1 & E2 & E3) end.
        { rewrite Hc, Exy, Exy2, <- !app_assoc. reflexivity. }
        exists st, out', sb, tail. split; [exact E1|]. split; [exact E2|lia].
      * eexists _, _, _, []. split; [reflexivity|]. split; [rewrite <- (app_nil_r code) at 1; rewrite <- (app_nil_r code) at 3; apply str_range_tail|cbn; lia].
    + eexists _, _, _, rest. split; [reflexivity|]. split; [rewrite Hc; apply str_range_tail|cbn; lia].
Qed.
Lemma mapfun_total st x : rm_k st <= length repls -> exists st' o, replace_mapfun repls st x = Some (st', o) /\ rm_k st' <= length repls.
Proof.
  intro Hk. unfold replace_mapfun. destruct (0 <? rm_remove st)%Z.
  - unfold code_step. cbn [ci_rest ci_p ci_bound]. rewrite step_chars_spec by lia. cbn zeta. set (m := Z.to_nat _). destruct (Nat.leb_spec m (length x)) as [Hle|Hgt].
    + change (0 + blen (firstn m x)) with (blen (firstn m x)).
      destruct (rmap_total x (rm_k st) Hk (firstn m x) (skipn m x) (to_i32 (rm_current st + (0 + Z.of_nat m))) []) as (st' & out' & sb & tail & E1 & E2 & E3); [symmetry; apply firstn_skipn|].
      rewrite E1. cbn [bind]. rewrite E2. cbn [bind]. eexists _, _. split; [reflexivity|lia].
    + eexists _, _. split; [reflexivity|exact Hk].
  - destruct (rmap_total x (rm_k st) Hk [] x (rm_current st) []) as (st' & out' & sb & tail & E1 & E2 & E3); [reflexivity|].
    cbn [blen] in E1. rewrite E1. cbn [bind]. rewrite E2. cbn [bind]. eexists _, _. split; [reflexivity|lia].
Qed.
Lemma run_total : forall xs st, rm_k st <= length repls -> exists st' outs, run_fun (replace_mapfun repls) st xs = Some (st', outs) /\ rm_k st' <= length repls.
Proof.
  induction xs as [|x xs IH]; intros st Hk; [exists st, []; auto|]. destruct (mapfun_total st x Hk) as (st1 & o & E1 & K1). destruct (IH st1 K1) as (st' & outs & E2 & K2).
  exists st', (o :: outs). cbn [run_fun]. rewrite E1. cbn [bind]. rewrite E2. auto.
Qed.

(** ** Edits that do not overlap: the counters stay within 32 bits *)
Hypothesis Hup : Forall upright repls.
Hypothesis Hord : StronglySorted (fun a b => ordered b a) repls.
Lemma asc_next k r : nth_error repls k = Some r -> Forall (fun x => rp_end_pos r <= rp_start_pos x)%Z (asc k) /\ upright r.
Proof.
  intro H. split; [|rewrite Forall_forall in Hup; apply Hup; eapply nth_error_In; eauto].
  unfold asc. apply Forall_rev. clear Hup. revert k H Hord. induction repls as [|x l IH]; intros [|k] H Hs; try discriminate.
  - constructor.
  - cbn [firstn]. inversion Hs as [|? ? S1 S2]; subst. constructor; [|apply IH; auto].
    rewrite Forall_forall in S2. apply (S2 r). eapply nth_error_In; eauto.
Qed.
(** No edit starts before the position reached. *)
Definition reached (k q : nat) : Prop := Forall (fun r => Z.of_nat q <= Z.max 0 (rp_start_pos r))%Z (asc k).
Lemma reached_small k q : k <= length repls -> reached k q -> k = 0 \/ (Z.of_nat q < 2147483648)%Z.
Proof.
  intros Hk H. destruct k as [|k]; [now left|right]. destruct (nth_error repls k) as [r|] eqn:En; [|apply nth_error_None in En; lia].
  unfold reached in H. rewrite (asc_S k r En) in H. inversion H as [|? ? H1 _]; subst. pose proof (start_range r). lia.
Qed.
Lemma at_sum k c q m q' : k <= length repls -> reached k q' -> c = Z.of_nat q -> q' = q + m -> at_pos k (to_i32 (c + Z.of_nat m)) q'.
Proof. intros Hk H -> ->. destruct (reached_small k _ Hk H) as [->|L]; [now left|right]. rewrite to_i32_small by lia. lia. Qed.

Lemma rmap_loop_spec code w s P : forall k, k <= length repls ->
  forall a rest current out, code = a ++ rest -> skipn (P + length a) s = rest ++ w ->
  at_pos k current (P + length a) -> reached k (P + length a) ->
  exists st out' sb tail o,
    rmap_loop repls code k (mk_citer rest (blen a) (blen a)) current out (blen a) = Some (st, out', sb) /\
    str_range code sb (blen code) = Some tail /\ out' ++ tail = out ++ o /\
    forth s (asc k) (P + length a) = o ++ forth s (asc (rm_k st)) (P + length code + Z.to_nat (rm_remove st)) /\
    (0 <= rm_remove st)%Z /\ rm_k st <= k /\ at_pos (rm_k st) (rm_current st) (P + length code) /\
    reached (rm_k st) (P + length code + Z.to_nat (rm_remove st)).
Proof.
  induction k as [|k IH]; intros Hk a rest current out Hc Hs Hp Hre.
  - cbn [rmap_loop]. exists (mk_rmap current 0 0), out, (blen a), rest, rest. split; [reflexivity|].
    split; [rewrite Hc; apply str_range_tail|]. split; [reflexivity|]. cbn [rm_k rm_remove rm_current asc firstn rev forth].
    split; [|split; [lia|split; [lia|split; [left; reflexivity|constructor]]]].
    rewrite Hs, Hc, app_length, Nat.add_0_r. f_equal.
    replace (P + (length a + length rest)) with (P + length a + length rest) by lia.
    rewrite <- skipn_skipn_add, Hs. rewrite skipn_app, skipn_all, Nat.sub_diag. reflexivity.
  - destruct Hp as [Hp|Hp]; [lia|]. cbn [rmap_loop].
    destruct (nth_error repls k) as [r|] eqn:En; [|apply nth_error_None in En; lia]. cbn [bind].
    destruct (asc_next k r En) as [Haf Hu]. unfold upright in Hu. unfold reached in Hre. rewrite (asc_S k r En) in Hre |- *. inversion Hre as [|? ? Hre1 Hre2]; subst.
    pose proof (start_range r) as Rs. pose proof (end_range r) as Rn.
    set (Q := P + length a) in *. unfold code_step. cbn [ci_rest ci_p ci_bound].
    rewrite (to_i32_small (rp_start_pos r - _)) by lia.
    rewrite step_chars_spec by lia. rewrite Z.sub_0_r.
    set (current := Z.of_nat Q) in *. set (code := a ++ rest) in *. set (m := Z.to_nat (rp_start_pos r - current)).
    assert (Hm : Nat.max Q (Z.to_nat (rp_start_pos r)) = Q + m) by (unfold m, current; lia).
    assert (Hc : code = a ++ rest) by reflexivity. assert (Hp : current = Z.of_nat Q) by reflexivity. clearbody code current.
    destruct (Nat.leb_spec m (length rest)) as [Hle|Hgt].
    + set (x := firstn m rest). set (y := skipn m rest).
      assert (Exy : rest = x ++ y) by (symmetry; apply firstn_skipn).
      assert (Lx : length x = m) by (unfold x; rewrite firstn_length; lia).
      assert (Ly : length y = length rest - m) by (unfold y; now rewrite skipn_length).
      assert (Ep : piece_of s Q (Q + m) = x).
      { unfold piece_of. replace (Q + m - Q) with m by lia. rewrite Hs. unfold x. rewrite firstn_app.
        replace (m - length rest) with 0 by lia. cbn [firstn]. now rewrite app_nil_r. }
      clearbody x y.
      assert (Er : str_range code (blen a) (blen a + blen x) = Some x) by (rewrite Hc, Exy; apply str_range_spec).
      rewrite Z.add_0_l. rewrite Er. cbn [bind ci_rest ci_p ci_bound].
      rewrite (to_i32_small (current + Z.of_nat m)) by lia. rewrite (to_i32_small (rp_end_pos r - _)) by lia.
      rewrite step_chars_spec by lia. rewrite Z.sub_0_r.
      set (m2 := Z.to_nat (rp_end_pos r - (current + Z.of_nat m))).
      assert (Hm2 : Nat.max (Q + m) (Z.to_nat (rp_end_pos r)) = Q + m + m2) by (unfold m2; lia).
      destruct (Nat.leb_spec m2 (length y)) as [Hle2|Hgt2].
      * set (x2 := firstn m2 y). set (y2 := skipn m2 y).
        assert (Exy2 : y = x2 ++ y2) by (symmetry; apply firstn_skipn).
        assert (Lx2 : length x2 = m2) by (unfold x2; rewrite firstn_length; lia).
        clearbody x2 y2.
        replace (blen a + blen x + blen x2) with (blen (a ++ x ++ x2)) by (rewrite !blen_app; lia).
        assert (Hre3 : reached k (P + length (a ++ x ++ x2))).
        { rewrite !app_length. eapply Forall_impl; [|exact Haf]. cbn. intros z Hz. unfold Q in *. lia. }
        destruct (IH ltac:(lia) (a ++ x ++ x2) y2 (to_i32 (current + Z.of_nat m + Z.of_nat m2)) (out ++ x ++ rp_text r))
          as (st & out' & sb & tail & o & E1 & E2 & E3 & E4 & E5 & E6 & E7 & E8).
        { rewrite Hc, Exy, Exy2, <- !app_assoc. reflexivity. }
        { rewrite !app_length, Lx, Lx2. replace (P + (length a + (m + m2))) with (Q + (m + m2)) by (unfold Q; lia).
          rewrite <- skipn_skipn_add, Hs, Exy, Exy2. rewrite <- !app_assoc, app_assoc.
          rewrite skipn_app. rewrite skipn_all2 by (rewrite app_length; lia).
          replace (m + m2 - length (x ++ x2)) with 0 by (rewrite app_length; lia). reflexivity. }
        { apply (at_sum k _ (Q + m)); [lia|exact Hre3|lia|]. rewrite !app_length. unfold Q. lia. }
        { exact Hre3. }
        rewrite ?Z.add_0_l. rewrite E1. exists st, out', sb, tail, (x ++ rp_text r ++ o). split; [reflexivity|]. split; [exact E2|].
        split; [rewrite E3, <- !app_assoc; reflexivity|]. split; [|split; [exact E5|split; [lia|split; [exact E7|exact E8]]]].
        cbn [forth]. rewrite Hm, Hm2, Ep. rewrite <- !app_assoc. f_equal. f_equal. rewrite <- E4. f_equal.
        rewrite !app_length. unfold Q. lia.
      * eexists _, _, _, [], (x ++ rp_text r). split; [reflexivity|].
        split; [rewrite <- (app_nil_r code) at 1; rewrite <- (app_nil_r code) at 3; apply str_range_tail|].
        split; [rewrite app_nil_r; reflexivity|]. cbn [rm_k rm_remove rm_current].
        assert (Lc : length code = length a + length rest) by (now rewrite Hc, app_length).
        assert (Hre3 : reached k (P + length code + Z.to_nat (Z.max (rp_end_pos r - (current + Z.of_nat m) - Z.of_nat (length y)) 0))).
        { eapply Forall_impl; [|exact Haf]. cbn. intros z Hz. unfold Q, m2 in *. lia. }
        split; [|split; [lia|split; [lia|split; [right; rewrite to_i32_small; unfold Q, m2 in *; lia|]]]].
        2: { match goal with |- reached _ ?x => match type of Hre3 with reached _ ?y => replace x with y by (unfold m2 in *; lia) end end. exact Hre3. }
        cbn [forth]. rewrite Hm, Hm2, Ep, <- app_assoc. f_equal. f_equal. f_equal. unfold m2, Q in *. lia.
    + eexists _, _, _, rest, rest. split; [reflexivity|].
      split; [rewrite Hc; apply str_range_tail|]. split; [reflexivity|]. cbn [rm_k rm_remove rm_current].
      assert (Lc : length code = length a + length rest) by (now rewrite Hc, app_length).
      split; [|split; [lia|split; [lia|split; [right; rewrite to_i32_small; unfold Q, m in *; lia|]]]].
      2: { unfold reached. rewrite (asc_S k r En). constructor; [unfold Q, m in *; lia|]. eapply Forall_impl; [|exact Haf]. cbn. intros z Hz. unfold Q, m in *. lia. }
      rewrite (asc_S k r En). cbn [forth]. rewrite Hm.
      replace (P + length code + Z.to_nat 0) with (Q + length rest) by (unfold Q; lia).
      replace (Nat.max (Q + length rest) (Z.to_nat (rp_start_pos r))) with (Q + m) by (unfold m in *; lia).
      assert (Hp2 : piece_of s Q (Q + m) = rest ++ piece_of s (Q + length rest) (Q + m)); [|rewrite Hp2, <- app_assoc; reflexivity].
      unfold piece_of. rewrite <- skipn_skipn_add, Hs.
      rewrite skipn_app, skipn_all, Nat.sub_diag. cbn [skipn app].
      replace (Q + m - Q) with (length rest + (Q + m - (Q + length rest))) by lia. apply firstn_app_2.
Qed.

Lemma mapfun_spec s P x w st : skipn P s = x ++ w -> rm_k st <= length repls -> (0 <= rm_remove st)%Z ->
  at_pos (rm_k st) (rm_current st) P -> reached (rm_k st) (P + Z.to_nat (rm_remove st)) ->
  exists st' o, replace_mapfun repls st x = Some (st', o) /\
    forth s (asc (rm_k st)) (P + Z.to_nat (rm_remove st)) =
      o ++ forth s (asc (rm_k st')) (P + length x + Z.to_nat (rm_remove st')) /\
    (0 <= rm_remove st')%Z /\ rm_k st' <= length repls /\ at_pos (rm_k st') (rm_current st') (P + length x) /\
    reached (rm_k st') (P + length x + Z.to_nat (rm_remove st')).
Proof.
  intros Hs Hk Hr Hp Hre. unfold replace_mapfun. destruct (Z.ltb_spec 0 (rm_remove st)) as [Hpos|Hz].
  - unfold code_step. cbn [ci_rest ci_p ci_bound]. rewrite step_chars_spec by lia. rewrite Z.sub_0_r.
    set (m := Z.to_nat (rm_remove st)). destruct (Nat.leb_spec m (length x)) as [Hle|Hgt].
    + set (a := firstn m x). set (y := skipn m x).
      assert (La : length a = m) by (unfold a; rewrite firstn_length; lia).
      change (0 + blen a) with (blen a).
      destruct (rmap_loop_spec x w s P (rm_k st) Hk a y (to_i32 (rm_current st + (0 + Z.of_nat m))) [])
        as (st' & out' & sb & tail & o & E1 & E2 & E3 & E4 & E5 & E6 & E7 & E8).
      { symmetry. apply firstn_skipn. }
      { rewrite La, <- skipn_skipn_add, Hs. rewrite skipn_app. replace (m - length x) with 0 by lia. reflexivity. }
      { rewrite La. destruct Hp as [->|Hp]; [left; reflexivity|]. rewrite Z.add_0_l. now apply (at_sum (rm_k st) _ P). }
      { rewrite La. exact Hre. }
      rewrite E1. cbn [bind]. rewrite E2. cbn [bind]. exists st', o. cbn [app] in E3. rewrite E3.
      split; [reflexivity|]. rewrite La in E4. split; [exact E4|]. split; [exact E5|]. split; [lia|]. split; [exact E7|exact E8].
    + eexists _, []. split; [reflexivity|]. cbn [rm_k rm_remove rm_current app].
      split; [f_equal; unfold m in *; lia|]. split; [unfold m in *; lia|]. split; [exact Hk|].
      assert (Hre' : reached (rm_k st) (P + length x + Z.to_nat (rm_remove st - Z.of_nat (length x)))).
      { match goal with |- reached _ ?q => replace q with (P + Z.to_nat (rm_remove st)) by (unfold m in *; lia) end. exact Hre. }
      split; [|match goal with |- reached _ ?q => match type of Hre' with reached _ ?q' => replace q with q' by lia end end; exact Hre'].
      destruct Hp as [->|Hp]; [left; reflexivity|]. rewrite Z.add_0_l. apply (at_sum (rm_k st) _ P); auto.
      eapply Forall_impl; [|exact Hre]. cbn. intros z Hz. unfold m in *. lia.
  - destruct (rmap_loop_spec x w s P (rm_k st) Hk [] x (rm_current st) [])
      as (st' & out' & sb & tail & o & E1 & E2 & E3 & E4 & E5 & E6 & E7 & E8); auto.
    { cbn [length]. now rewrite Nat.add_0_r. }
    { cbn [length]. now rewrite Nat.add_0_r. }
    { cbn [length]. replace (Z.to_nat (rm_remove st)) with 0 in Hre by lia. exact Hre. }
    cbn [blen] in E1. rewrite E1. cbn [bind]. rewrite E2. cbn [bind]. exists st', o. cbn [app] in E3. rewrite E3.
    split; [reflexivity|]. cbn [length] in E4. replace (P + Z.to_nat (rm_remove st)) with (P + 0) by lia.
    split; [exact E4|]. split; [exact E5|]. split; [lia|]. split; [exact E7|exact E8].
Qed.

Lemma run_pass s : forall xs P st, skipn P s = concat xs -> rm_k st <= length repls -> (0 <= rm_remove st)%Z ->
  at_pos (rm_k st) (rm_current st) P -> reached (rm_k st) (P + Z.to_nat (rm_remove st)) ->
  exists st' outs, run_fun (replace_mapfun repls) st xs = Some (st', outs) /\
    forth s (asc (rm_k st)) (P + Z.to_nat (rm_remove st)) =
      concat outs ++ forth s (asc (rm_k st')) (P + length (concat xs) + Z.to_nat (rm_remove st')) /\
    rm_k st' <= length repls.
Proof.
  induction xs as [|x xs IH]; intros P st Hs Hk Hr Hp Hre.
  - exists st, []. split; [reflexivity|]. cbn. rewrite Nat.add_0_r. auto.
  - cbn [concat] in Hs. destruct (mapfun_spec s P x (concat xs) st Hs Hk Hr Hp Hre) as (st1 & o & E1 & E2 & E3 & E4 & E5 & E6).
    destruct (IH (P + length x) st1) as (st' & outs & F1 & F2 & F3); auto.
    { rewrite <- skipn_skipn_add, Hs. rewrite skipn_app, skipn_all, Nat.sub_diag. reflexivity. }
    exists st', (o :: outs). cbn [run_fun]. rewrite E1. cbn [bind]. rewrite F1. cbn [bind]. split; [reflexivity|].
    split; [|exact F3]. cbn [concat]. rewrite E2, F2, <- app_assoc. rewrite app_length, Nat.add_assoc. reflexivity.
Qed.

Lemma forth_end s : forall rs q, length s <= q -> forth s rs q = flat_map rp_text rs.
Proof.
  induction rs as [|r rs IH]; intros q Hq; cbn [forth flat_map].
  - apply skipn_all2. exact Hq.
  - unfold piece_of. rewrite skipn_all2, firstn_nil by lia. cbn [app]. f_equal. apply IH. lia.
Qed.
End Pass.

Lemma add_code_ok_text m s : Forall node_ok m -> Forall node_ok (add_code_text m s) /\ slm_text (add_code_text m s) = slm_text m ++ s.
Proof.
  assert (G : Forall node_ok m -> Forall node_ok (add_code_text m s) /\
    flat_map text_node (add_code_text m s) = flat_map text_node m ++ s).
  { induction 1 as [|n m Hn Hm IH]; [cbn; rewrite app_nil_r; split; [repeat constructor|reflexivity]|].
    destruct m as [|n2 m].
    - destruct n; try contradiction; cbn [add_code_text flat_map text_node]; rewrite !app_nil_r;
        (split; [apply Forall_cons; [exact Hn || exact I|]; try apply Forall_cons; try exact I; try apply Forall_nil|reflexivity]).
    - assert (E : add_code_text (n :: n2 :: m) s = n :: add_code_text (n2 :: m) s) by (destruct n; reflexivity).
      rewrite E. destruct IH as [I1 I2]. split; [constructor; auto|]. cbn [flat_map] in *. rewrite I2, <- !app_assoc. reflexivity. }
  intro H. destruct (G H) as [G1 G2]. split; [exact G1|]. rewrite !slm_text_ok by auto. exact G2.
Qed.

(** The text of a ReplaceSource's list map, whatever the cutting. *)
Lemma replace_list_map_total repls lm : Forall node_ok lm -> exists lm', replace_list_map repls lm = Some lm' /\ Forall node_ok lm'.
Proof.
  intro Hm. unfold replace_list_map.
  pose proof (map_generated_code_spec (replace_mapfun repls) (mk_rmap 0 (length repls) 0) lm Hm) as M.
  destruct (run_total repls (map snd (list_pieces lm)) (mk_rmap 0 (length repls) 0)) as (st & outs & E1 & E3); [cbn; lia|].
  rewrite E1 in M. destruct M as (m' & -> & Ok & T & _). cbn [bind]. rewrite extra_code_spec by exact E3. cbn [bind].
  destruct (flat_map rp_text (asc repls (rm_k st))) as [|c e]; [eauto|]. cbn [slm_add is_some]. destruct (add_code_ok_text m' (c :: e) Ok) as [O1 O2]. eauto.
Qed.
Lemma replace_list_map_text repls lm : Forall upright repls -> StronglySorted (fun a b => ordered b a) repls -> Forall node_ok lm ->
  exists lm', replace_list_map repls lm = Some lm' /\ Forall node_ok lm' /\
    slm_text lm' = forth (slm_text lm) (rev repls) 0.
Proof.
  intros Hup Hord Hm. unfold replace_list_map.
  pose proof (map_generated_code_spec (replace_mapfun repls) (mk_rmap 0 (length repls) 0) lm Hm) as M.
  destruct (run_pass repls Hup Hord (slm_text lm) (map snd (list_pieces lm)) 0 (mk_rmap 0 (length repls) 0)) as (st & outs & E1 & E2 & E3).
  { cbn [skipn]. now rewrite pieces_text. }
  { cbn. lia. }
  { cbn. lia. }
  { right. reflexivity. }
  { apply Forall_forall. intros r _. cbn. lia. }
  rewrite E1 in M. destruct M as (m' & -> & Ok & T & _). cbn [bind]. rewrite extra_code_spec by exact E3. cbn [bind].
  cbn [rm_k rm_remove] in E2. rewrite Nat.add_0_l in E2. unfold asc at 1 in E2. rewrite firstn_all in E2. cbn [Z.to_nat] in E2.
  rewrite pieces_text in E2 by exact Hm. rewrite Nat.add_0_l in E2. rewrite (forth_end (slm_text lm) (asc repls (rm_k st))) in E2 by lia.
  destruct (flat_map rp_text (asc repls (rm_k st))) as [|c e].
  - exists m'. rewrite app_nil_r in E2. rewrite E2, T. auto.
  - cbn [slm_add is_some]. destruct (add_code_ok_text m' (c :: e) Ok) as [O1 O2]. eexists. split; [reflexivity|].
    split; [exact O1|]. now rewrite O2, E2, T.
Qed.

(** ** Non-overlapping edits *)
Fixpoint forthL (s : str) (rs : list repl) (cur L : nat) : str :=
  match rs with
  | [] => piece_of s cur L
  | r :: rs =>
      let a := Nat.max cur (Z.to_nat (rp_start_pos r)) in
      let b := Nat.max a (Z.to_nat (rp_end_pos r)) in
      piece_of s cur (Nat.min L a) ++ rp_text r ++ forthL s rs b L
  end.
Lemma piece_min {A} (s : list A) a b L : length s <= L -> piece_of s a (Nat.min L b) = piece_of s a b.
Proof.
  intro H. unfold piece_of. destruct (Nat.le_gt_cases b L); [now rewrite Nat.min_r by lia|].
  rewrite Nat.min_l by lia. rewrite !firstn_all2; auto; rewrite skipn_length; lia.
Qed.
Lemma forth_L s : forall rs cur, forth s rs cur = forthL s rs cur (length s).
Proof.
  induction rs as [|r rs IH]; intro cur; cbn [forth forthL].
  - unfold piece_of. rewrite firstn_all2; auto. rewrite skipn_length. lia.
  - rewrite piece_min by lia. now rewrite IH.
Qed.

Lemma forthL_snoc s r : upright r -> forall l cur L, Forall upright l -> Forall (fun x => ordered x r) l ->
  cur <= Z.to_nat (rp_start_pos r) ->
  forthL s (l ++ [r]) cur L =
  forthL s l cur (Nat.min L (Z.to_nat (rp_start_pos r))) ++ rp_text r ++ piece_of s (Z.to_nat (rp_end_pos r)) L.
Proof.
  intro Hr. unfold upright in Hr. induction l as [|x l IH]; intros cur L Hu Ho Hc.
  - cbn [app forthL]. rewrite Nat.max_r by lia. rewrite Nat.max_r by lia. rewrite (Nat.min_comm L). reflexivity || (f_equal; f_equal; lia).
  - inversion Hu as [|? ? U1 U2]; subst. inversion Ho as [|? ? O1 O2]; subst. unfold upright, ordered in *.
    cbn [app forthL]. rewrite IH by (auto; lia). rewrite <- !app_assoc. f_equal. f_equal. lia.
Qed.

Lemma forthL_splice s : forall rs L, Forall upright rs -> StronglySorted (fun a b => ordered b a) rs ->
  forthL s (rev rs) 0 L = splice rs s L.
Proof.
  induction rs as [|r rs IH]; intros L Hu Hs; cbn [rev splice].
  - cbn [forthL]. unfold piece_of. cbn [skipn]. now rewrite Nat.sub_0_r.
  - inversion Hu as [|? ? U1 U2]; subst. inversion Hs as [|? ? S1 S2]; subst.
    rewrite forthL_snoc; [| exact U1 | now apply Forall_rev | now apply Forall_rev | lia].
    unfold upright in U1. rewrite IH by auto. f_equal; [f_equal; lia|]. f_equal.
    unfold piece_of. destruct (Nat.le_gt_cases (Z.to_nat (rp_end_pos r)) L).
    + rewrite Nat.min_r by lia. reflexivity.
    + rewrite Nat.min_l by lia. replace (L - Z.to_nat (rp_end_pos r)) with 0 by lia. rewrite Nat.sub_diag. reflexivity.
Qed.

Lemma history_ordered h : Forall call_ok h -> Forall edit_ok (edits_of h) -> Forall forward (edits_of h) ->
  ForallOrdPairs apart (edits_of h) ->
  let rs := rs_repls (sort_replacements (run h)) in
  Forall upright rs /\ StronglySorted (fun a b => ordered b a) rs.
Proof.
  intros Hc Hok Hf Ha. cbn zeta. rewrite (run_sorted h Hc). set (es := edits_of h) in *.
  assert (Hok' : Forall (fun x => edit_ok (fst x) /\ forward (fst x)) (arranged es)).
  { rewrite <- (Forall_map fst (fun e => edit_ok e /\ forward e)). rewrite arranged_fst, <- arrange_perm.
    rewrite Forall_forall in *. auto. }
  assert (Ha' : ForallOrdPairs apart (map fst (arranged es))).
  { rewrite arranged_fst. eapply FOP_perm; eauto using apart_sym, arrange_perm. }
  assert (Hs' : StronglySorted (fun a b => key_le a b = true) (map fst (arranged es))) by (rewrite arranged_fst; apply key_le_sorted).
  assert (HP : forall x, edit_ok (fst x) -> rp_start_pos (to_repl x) = e_from (fst x) /\ rp_end_pos (to_repl x) = (e_to (fst x) + 1)%Z).
  { intros x Hx. destruct (rep_ok_to_repl x Hx) as (A & B & _). split; [exact A|exact B]. }
  split.
  - rewrite Forall_map. apply Forall_rev. eapply Forall_impl; [|exact Hok']. cbn. intros x [H1 H2]. unfold upright.
    destruct (HP x H1) as [-> ->]. exact H2.
  - rewrite map_rev. apply sorted_rev. clear -Hok' Ha' Hs' HP.
    induction (arranged es) as [|x l IH]; [constructor|]. cbn [map] in *.
    inversion Hok' as [|? ? [O1 O2] O3]; subst. inversion Ha' as [|? ? A1 A2]; subst. inversion Hs' as [|? ? S1 S2]; subst.
    constructor; [auto|]. rewrite Forall_map in *. rewrite Forall_forall in *. intros y Hy.
    specialize (O3 y Hy). specialize (A1 y Hy). specialize (S2 y Hy). destruct O3 as [O3 O4]. unfold ordered.
    destruct (HP x O1) as [_ ->]. destruct (HP y O3) as [-> _].
    unfold key_le, apart, before, forward, edit_ok, e_hi, e_lo in *. lia.
Qed.

Theorem replace_line_text h lm s : Forall call_ok h -> Forall edit_ok (edits_of h) -> Forall forward (edits_of h) ->
  ForallOrdPairs apart (edits_of h) -> Forall node_ok lm -> slm_text lm = s ->
  exists lm', replace_list_map (rs_repls (sort_replacements (run h))) lm = Some lm' /\ Forall node_ok lm' /\
    replace_text (rs_repls (sort_replacements (run h))) s = Some (slm_text lm').
Proof.
  intros H1 H2 H3 H4 Hm <-. destruct (history_ordered h H1 H2 H3 H4) as [U O]. cbn zeta in *.
  destruct (replace_list_map_text (rs_repls (sort_replacements (run h))) lm U O Hm) as (lm' & E & Ok & T).
  exists lm'. split; [exact E|]. split; [exact Ok|]. rewrite replace_text_spec, T, forth_L, forthL_splice by auto. reflexivity.
Qed.
