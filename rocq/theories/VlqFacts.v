(** VLQ round trip, and the agreement of the crate's decoder with the format. *)
From Verif Require Import Base Tactics ModelString StringFacts ModelVlq SpecMap.

Ltac Zify.zify_post_hook ::= Z.div_mod_to_equations.

Lemma N_lt64_cases (P : N -> Prop) :
  Forall P (map N.of_nat (seq 0 64)) -> forall d, (d < 64)%N -> P d.
Proof.
  rewrite Forall_forall. intros H d Hd. apply H. apply in_map_iff. exists (N.to_nat d).
  split; [lia|]. apply in_seq. lia.
Qed.

Lemma decode_encode64 d : (d < 64)%N -> decode64 (encode64 d) = Some d.
Proof. revert d. apply N_lt64_cases. vm_compute. repeat constructor. Qed.

Lemma encode64_alphabet d : (d < 64)%N -> In (encode64 d) alphabet.
Proof.
  revert d. apply N_lt64_cases. rewrite Forall_forall. intros d Hd.
  assert (H : forallb (fun d => existsb (N.eqb (encode64 d)) alphabet) (map N.of_nat (seq 0 64)) = true)
    by (vm_compute; reflexivity).
  rewrite forallb_forall in H. specialize (H d Hd). apply existsb_exists in H as (x & Hx & E).
  apply N.eqb_eq in E. now subst.
Qed.

Lemma alphabet_no_sep : ~ In COMMA alphabet /\ ~ In SEMI alphabet.
Proof. vm_compute. intuition congruence. Qed.

Lemma vlq_digits_alphabet f v c : In c (vlq_digits f v) -> In c alphabet.
Proof.
  revert v; induction f as [|f IH]; intros v; cbn [vlq_digits]; [intros []|].
  assert (v mod 32 < 32)%N by (apply N.mod_lt; lia).
  destruct (v / 32 =? 0)%N; intros [<-|H'].
  - apply encode64_alphabet. lia.
  - destruct H'.
  - apply encode64_alphabet. lia.
  - eauto.
Qed.

Lemma vlq_encode_alphabet z c : In c (vlq_encode z) -> In c alphabet.
Proof. apply vlq_digits_alphabet. Qed.

Lemma vlq_accum_digits f v r shift acc : (v < 2 ^ (5 * N.of_nat f))%N -> f <> 0 ->
  vlq_accum (vlq_digits f v ++ r) shift acc = Some ((acc + v * 2 ^ shift)%N, r).
Proof.
  revert v shift acc; induction f as [|f IH]; intros v shift acc Hv Hf; [congruence|].
  cbn [vlq_digits].
  assert (Hm : (v mod 32 < 32)%N) by (apply N.mod_lt; lia).
  assert (Hd : (v = 32 * (v / 32) + v mod 32)%N) by (apply N.div_mod; lia).
  destruct (N.eqb_spec (v / 32) 0) as [E|E].
  - cbn [app vlq_accum]. rewrite decode_encode64 by lia. cbn [bind].
    destruct (N.leb_spec 32 (v mod 32)); [lia|]. rewrite N.mod_mod by lia.
    repeat f_equal. lia.
  - cbn [app vlq_accum]. rewrite decode_encode64 by lia. cbn [bind].
    destruct (N.leb_spec 32 (v mod 32 + 32)); [|lia].
    assert (Hf' : f <> 0).
    { intros ->. simpl in Hv. change (2 ^ (5 * 1))%N with 32%N in Hv.
      apply E. now apply N.div_small. }
    rewrite IH; auto.
    + replace ((v mod 32 + 32) mod 32)%N with (v mod 32)%N.
      2:{ rewrite <- (N.mul_1_l 32) at 3. rewrite N.mod_add by lia. now rewrite N.mod_mod by lia. }
      rewrite N.pow_add_r. change (2 ^ 5)%N with 32%N. f_equal. f_equal.
      rewrite Hd at 3. ring.
    + apply N.div_lt_upper_bound; [lia|].
      replace (5 * N.of_nat (S f))%N with (5 + 5 * N.of_nat f)%N in Hv by lia.
      rewrite N.pow_add_r in Hv. exact Hv.
Qed.

Lemma size_nat_bound v : (v < 2 ^ N.of_nat (N.size_nat v))%N.
Proof.
  destruct v as [|p]; [reflexivity|]. change (N.size_nat (N.pos p)) with (Pos.size_nat p).
  induction p as [p IH|p IH|]; cbn [Pos.size_nat].
  - rewrite Nat2N.inj_succ, N.pow_succ_r'. lia.
  - rewrite Nat2N.inj_succ, N.pow_succ_r'. lia.
  - reflexivity.
Qed.

Lemma vlq_roundtrip z r : vlq_decode (vlq_encode z ++ r) = Some (z, r).
Proof.
  unfold vlq_decode, vlq_encode.
  set (v := if (z <? 0)%Z then (2 * Z.to_N (- z) + 1)%N else (2 * Z.to_N z)%N).
  rewrite vlq_accum_digits; [|eapply N.lt_le_trans; [apply size_nat_bound|]|discriminate].
  2:{ apply N.pow_le_mono_r; lia. }
  cbn [bind]. rewrite N.pow_0_r, N.mul_1_r, N.add_0_l. f_equal. f_equal.
  unfold v. destruct (Z.ltb_spec z 0).
  - rewrite N.odd_add, N.odd_mul. cbn.
    replace ((2 * Z.to_N (- z) + 1) / 2)%N with (Z.to_N (- z)) by lia. lia.
  - rewrite N.odd_mul. cbn. replace (2 * Z.to_N z / 2)%N with (Z.to_N z) by lia. lia.
Qed.

(** ** The independent reader *)
Lemma index_decode64 c :
  index_in c alphabet = option_map Z.of_N (decode64 c).
Proof.
  destruct (N.ltb_spec c 128) as [Hc|Hc].
  - assert (G : forallb (fun c => match index_in c alphabet, decode64 c with
                         | Some a, Some b => (a =? Z.of_N b)%Z
                         | None, None => true | _, _ => false end)
                  (map N.of_nat (seq 0 128)) = true) by (vm_compute; reflexivity).
    rewrite forallb_forall in G. specialize (G c).
    assert (Hin : In c (map N.of_nat (seq 0 128))).
    { apply in_map_iff. exists (N.to_nat c). split; [lia|]. apply in_seq. lia. }
    specialize (G Hin). destruct (index_in c alphabet), (decode64 c); simpl in *;
      try discriminate; auto. f_equal. lia.
  - assert (H1 : decode64 c = None) by (unfold decode64; repeat case_match; auto; lia).
    rewrite H1. cbn [option_map].
    assert (H2 : Forall (fun d => (d < 128)%N) alphabet) by (vm_compute; repeat constructor).
    revert H2. generalize alphabet. intros al H2.
    induction H2 as [|d l Hd _ IH]; [reflexivity|]. cbn [index_in].
    destruct (N.eqb_spec c d); [lia|]. now rewrite IH.
Qed.

Lemma decode64_lt c d : decode64 c = Some d -> (d < 64)%N.
Proof.
  unfold decode64. repeat (case_match; [intros [= <-]; lia|]). discriminate.
Qed.

Definition sgn (v : N) : Z := if N.odd v then (- Z.of_N (v / 2))%Z else Z.of_N (v / 2).
Lemma signed_sgn v : signed (Z.of_N v) = sgn v.
Proof.
  unfold signed, sgn. replace (Z.odd (Z.of_N v)) with (N.odd v).
  - destruct (N.odd v); rewrite N2Z.inj_div; reflexivity.
  - destruct v as [|[|p|]]; reflexivity.
Qed.

(** The crate's reader takes exactly the first number that the format defines. *)
Lemma numbers_accum s shift acc l :
  numbers s (Z.of_N acc) (Z.of_N (2 ^ shift)) = Some l ->
  (s = [] /\ l = [] /\ shift = 0%N) \/
  exists v r l', vlq_accum s shift acc = Some (v, r) /\ l = sgn v :: l' /\
                 numbers r 0 1 = Some l' /\ length r < length s.
Proof.
  revert shift acc; induction s as [|c s IH]; intros shift acc.
  - cbn [numbers]. destruct (Z.eqb_spec (Z.of_N (2 ^ shift)) 1) as [E|E]; [|discriminate].
    intros [= <-]. left. repeat split.
    destruct (N.eq_dec shift 0); auto. exfalso.
    assert (2 ^ 1 <= 2 ^ shift)%N by (apply N.pow_le_mono_r; lia).
    change (2 ^ 1)%N with 2%N in H. lia.
  - cbn [numbers vlq_accum]. rewrite index_decode64.
    destruct (decode64 c) as [d|] eqn:Ed; [|discriminate]. cbn [option_map bind].
    apply decode64_lt in Ed.
    destruct (Z.ltb_spec (Z.of_N d) 32) as [Hd|Hd].
    + intro H. unbind H. injection H as <-. right.
      destruct (N.leb_spec 32 d); [lia|].
      rewrite N.mod_small by lia.
      exists (acc + d * 2 ^ shift)%N, s, v. repeat split; auto.
      f_equal. rewrite <- signed_sgn. f_equal. lia.
    + intro H. right. destruct (N.leb_spec 32 d); [|lia].
      replace (d mod 32)%N with (d - 32)%N by lia.
      destruct (IH (shift + 5)%N (acc + (d - 32) * 2 ^ shift)%N) as [(_ & _ & E)|(v & r & l' & E1 & E2 & E3 & E4)].
      * rewrite <- H. f_equal.
        -- rewrite N2Z.inj_add, N2Z.inj_mul, N2Z.inj_sub by lia. reflexivity.
        -- rewrite N.pow_add_r, N2Z.inj_mul. reflexivity.
      * lia.
      * exists v, r, l'. repeat split; auto. simpl. lia.
Qed.

Lemma numbers_decode s l : numbers s 0 1 = Some l ->
  (s = [] /\ l = []) \/
  exists z r l', vlq_decode s = Some (z, r) /\ l = z :: l' /\ numbers r 0 1 = Some l' /\
                 length r < length s.
Proof.
  intro H. destruct (numbers_accum s 0 0 l H) as [(? & ? & _)|(v & r & l' & E1 & E2 & E3 & E4)].
  - auto.
  - right. exists (sgn v), r, l'. unfold vlq_decode. rewrite E1. auto.
Qed.

Lemma numbers_digits f v r shift acc : (v < 2 ^ (5 * N.of_nat f))%N -> f <> 0 ->
  numbers (vlq_digits f v ++ r) (Z.of_N acc) (Z.of_N (2 ^ shift)) =
  (let* l := numbers r 0 1 in Some (sgn (acc + v * 2 ^ shift) :: l)).
Proof.
  revert v shift acc; induction f as [|f IH]; intros v shift acc Hv Hf; [congruence|].
  cbn [vlq_digits].
  assert (Hm : (v mod 32 < 32)%N) by (apply N.mod_lt; lia).
  assert (Hd : (v = 32 * (v / 32) + v mod 32)%N) by (apply N.div_mod; lia).
  destruct (N.eqb_spec (v / 32) 0) as [E|E].
  - cbn [app numbers]. rewrite index_decode64, decode_encode64 by lia. cbn [option_map bind].
    destruct (Z.ltb_spec (Z.of_N (v mod 32)) 32); [|lia].
    replace (v mod 32)%N with v by lia.
    rewrite <- signed_sgn. rewrite N2Z.inj_add, N2Z.inj_mul. reflexivity.
  - cbn [app numbers]. rewrite index_decode64, decode_encode64 by lia. cbn [option_map bind].
    destruct (Z.ltb_spec (Z.of_N (v mod 32 + 32)) 32); [lia|].
    assert (Hf' : f <> 0).
    { intros ->. simpl in Hv. change (2 ^ (5 * 1))%N with 32%N in Hv.
      apply E. now apply N.div_small. }
    specialize (IH (v / 32)%N (shift + 5)%N (acc + (v mod 32) * 2 ^ shift)%N).
    rewrite N.pow_add_r in IH. change (2 ^ 5)%N with 32%N in IH.
    replace (Z.of_N (acc + v mod 32 * 2 ^ shift))
      with (Z.of_N acc + (Z.of_N (v mod 32 + 32) - 32) * Z.of_N (2 ^ shift))%Z in IH
      by (replace (Z.of_N (v mod 32 + 32) - 32)%Z with (Z.of_N (v mod 32)) by lia;
          rewrite N2Z.inj_add, N2Z.inj_mul; reflexivity).
    rewrite N2Z.inj_mul in IH. change (Z.of_N 32) with 32%Z in IH. rewrite IH; auto.
    + destruct (numbers r 0 1); auto. cbn [bind]. do 2 f_equal. f_equal.
      rewrite Hd at 3. ring.
    + apply N.div_lt_upper_bound; [lia|].
      replace (5 * N.of_nat (S f))%N with (5 + 5 * N.of_nat f)%N in Hv by lia.
      rewrite N.pow_add_r in Hv. exact Hv.
Qed.

Lemma numbers_encode z r :
  numbers (vlq_encode z ++ r) 0 1 = (let* l := numbers r 0 1 in Some (z :: l)).
Proof.
  unfold vlq_encode.
  set (v := if (z <? 0)%Z then (2 * Z.to_N (- z) + 1)%N else (2 * Z.to_N z)%N).
  pose proof (numbers_digits (S (N.size_nat v)) v r 0 0) as H.
  change (Z.of_N 0) with 0%Z in H. change (Z.of_N (2 ^ 0)) with 1%Z in H.
  rewrite H; [|eapply N.lt_le_trans; [apply size_nat_bound|]|discriminate].
  2:{ apply N.pow_le_mono_r; lia. }
  replace (sgn (0 + v * 2 ^ 0)) with z; auto.
  rewrite N.pow_0_r, N.mul_1_r, N.add_0_l. unfold sgn.
  unfold v. destruct (Z.ltb_spec z 0).
  - rewrite N.odd_add, N.odd_mul. cbn.
    replace ((2 * Z.to_N (- z) + 1) / 2)%N with (Z.to_N (- z)) by lia. lia.
  - rewrite N.odd_mul. cbn. replace (2 * Z.to_N z / 2)%N with (Z.to_N z) by lia. lia.
Qed.

Definition is_sep_char (c : char) : Prop := c = COMMA \/ c = SEMI.
Definition no_sep (s : str) : Prop := ~ In COMMA s /\ ~ In SEMI s.
Lemma no_sep_app a b : no_sep a -> no_sep b -> no_sep (a ++ b).
Proof. unfold no_sep. rewrite !in_app_iff. tauto. Qed.
Lemma no_sep_encode z : no_sep (vlq_encode z).
Proof.
  destruct alphabet_no_sep as [A B].
  split; intro H; apply vlq_encode_alphabet in H; auto.
Qed.
Lemma numbers_no_sep s acc w l : numbers s acc w = Some l -> no_sep s.
Proof.
  revert acc w l; induction s as [|c s IH]; intros acc w l H.
  - split; intros [].
  - cbn [numbers] in H. unbind H.
    assert (Hc : In c alphabet).
    { clear -E. revert v E. generalize alphabet. intros al; induction al as [|d a IHa]; intros w E; [discriminate|].
      cbn [index_in] in E. destruct (N.eqb_spec c d); [subst; left; auto|].
      destruct (index_in c a); [|discriminate]. right. eauto. }
    destruct alphabet_no_sep as [A B].
    assert (Hs : no_sep s).
    { destruct (v <? 32)%Z; [unbind H|]; eauto. }
    destruct Hs. split; intros [->|?]; auto.
Qed.

(** ** Fields *)
Lemma fields_of_fields sep s : fields_of sep s = fields sep s.
Proof. reflexivity. Qed.

Lemma cells_nil : cells [] = [[[]]].
Proof. reflexivity. Qed.
Lemma fields_of_no sep x : ~ In sep x -> fields_of sep x = [x].
Proof. intro H. rewrite fields_of_fields, fields_cut. now rewrite cut_none_iff. Qed.
Lemma fields_of_app sep x t : ~ In sep x -> fields_of sep (x ++ sep :: t) = x :: fields_of sep t.
Proof. intro H. rewrite !fields_of_fields, fields_cut. now rewrite cut_app. Qed.
Lemma fields_of_app_no sep x t h tl : ~ In sep x -> fields_of sep t = h :: tl ->
  fields_of sep (x ++ t) = (x ++ h) :: tl.
Proof.
  intros Hx Ht. induction x as [|c x IH]; [exact Ht|]. cbn [app fields_of].
  destruct (N.eqb_spec c sep); [subst; exfalso; apply Hx; left; auto|].
  rewrite IH; auto. intro; apply Hx; right; auto.
Qed.
Lemma cells_seg x : no_sep x -> cells x = [[x]].
Proof. intros [H1 H2]. unfold cells. rewrite fields_of_no by auto. simpl. now rewrite fields_of_no. Qed.
Lemma cells_semi x t : no_sep x -> cells (x ++ SEMI :: t) = [x] :: cells t.
Proof.
  intros [H1 H2]. unfold cells. rewrite fields_of_app by auto. simpl. now rewrite fields_of_no.
Qed.
Lemma cells_comma x t : no_sep x -> exists h tl,
  cells t = h :: tl /\ cells (x ++ COMMA :: t) = (x :: h) :: tl.
Proof.
  intros [H1 H2]. unfold cells.
  destruct (fields_of SEMI t) as [|h tl] eqn:E.
  { exfalso. apply (fields_nonempty SEMI t). exact E. }
  exists (fields_of COMMA h), (map (fields_of COMMA) tl). split; [reflexivity|].
  rewrite (fields_of_app_no SEMI x (COMMA :: t) (COMMA :: h) tl); auto.
  - simpl. f_equal. now rewrite fields_of_app.
  - cbn [fields_of]. rewrite E. reflexivity.
Qed.
