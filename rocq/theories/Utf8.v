(** UTF-8: the model searches and counts ASCII characters in a text, the code searches
    and counts bytes; both agree. *)
From Verif Require Import Base Tactics ModelString StringFacts.

(** UTF-8 encoding of a scalar value (RFC 3629). *)
Definition utf8_char (c : char) : list N :=
  (if c <? 128 then [c]
   else if c <? 2048 then [192 + c / 64; 128 + c mod 64]
   else if c <? 65536 then [224 + c / 4096; 128 + (c / 64) mod 64; 128 + c mod 64]
   else [240 + c / 262144; 128 + (c / 4096) mod 64; 128 + (c / 64) mod 64; 128 + c mod 64])%N.
Definition utf8 (s : str) : list N := flat_map utf8_char s.

(** as_bytes().iter().position(|&b| b == pat). *)
Fixpoint byte_position (pat : N) (l : list N) (off : nat) : option nat :=
  match l with
  | [] => None
  | b :: r => if N.eqb b pat then Some off else byte_position pat r (S off)
  end.
(** bytecount::count. *)
Definition byte_count (pat : N) (l : list N) : nat := length (filter (fun b => N.eqb b pat) l).

Lemma utf8_char_length c : length (utf8_char c) = len_utf8 c.
Proof. unfold utf8_char, len_utf8. repeat case_match; reflexivity. Qed.

Lemma utf8_length s : length (utf8 s) = blen s.
Proof.
  induction s as [|c s IH]; [reflexivity|].
  unfold utf8 in *. simpl. rewrite app_length, utf8_char_length, IH. reflexivity.
Qed.

Lemma utf8_char_cases c :
  (is_ascii c = true /\ utf8_char c = [c]) \/
  (is_ascii c = false /\ Forall (fun b => is_ascii b = false) (utf8_char c)).
Proof.
  unfold utf8_char, is_ascii. destruct (c <? 128)%N eqn:E; [left; auto|right]. split; auto.
  assert (H : forall a b, (128 <= a)%N -> (a + b <? 128)%N = false) by (intros; lia).
  repeat case_match; repeat constructor; apply H; lia.
Qed.

Lemma byte_position_app_no pat l r off :
  Forall (fun b => N.eqb b pat = false) l ->
  byte_position pat (l ++ r) off = byte_position pat r (off + length l).
Proof.
  revert off; induction l as [|b l IH]; intros off H; simpl.
  - f_equal. lia.
  - inv H. match goal with H : N.eqb _ _ = false |- _ => rewrite H end.
    rewrite IH by auto. f_equal. lia.
Qed.

Lemma ascii_neq pat b : is_ascii pat = true -> is_ascii b = false -> N.eqb b pat = false.
Proof. unfold is_ascii. intros. apply N.eqb_neq. intros ->. congruence. Qed.

Lemma byte_position_find pat s off : is_ascii pat = true ->
  byte_position pat (utf8 s) off = find_byte pat s off.
Proof.
  intro Hp. revert off; induction s as [|c s IH]; intro off; [reflexivity|].
  unfold utf8 in *. cbn [flat_map find_byte].
  destruct (utf8_char_cases c) as [[Hc ->]|[Hc HF]].
  - simpl. destruct (N.eqb c pat); auto. rewrite IH, len_utf8_ascii by auto. f_equal. lia.
  - rewrite byte_position_app_no.
    + rewrite (ascii_neq pat c) by auto. rewrite utf8_char_length. apply IH.
    + eapply Forall_impl; [|exact HF]. intros b Hb. now apply ascii_neq.
Qed.

Lemma byte_count_count pat s : is_ascii pat = true ->
  byte_count pat (utf8 s) = count_char pat s.
Proof.
  intro Hp. induction s as [|c s IH]; [reflexivity|].
  unfold utf8, byte_count in *. cbn [flat_map count_char]. rewrite filter_app, app_length, IH. f_equal.
  destruct (utf8_char_cases c) as [[Hc ->]|[Hc HF]].
  - simpl. destruct (N.eqb c pat); reflexivity.
  - rewrite (ascii_neq pat c) by auto.
    induction HF as [|b l Hb _ IHl]; [reflexivity|]. simpl. now rewrite (ascii_neq pat b).
Qed.
