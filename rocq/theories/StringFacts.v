(** Facts about texts, byte positions and the splitting iterator. *)
From Verif Require Import Base Tactics ModelString.
From Verif Require Export SpecLines.

Lemma len_utf8_pos c : 1 <= len_utf8 c.
Proof. unfold len_utf8; repeat case_match; lia. Qed.

Lemma len_utf8_ascii c : is_ascii c = true -> len_utf8 c = 1.
Proof. unfold is_ascii, len_utf8; now intros ->. Qed.

Lemma blen_app a b : blen (a ++ b) = blen a + blen b.
Proof. induction a; simpl; lia. Qed.

Lemma blen_length s : length s <= blen s.
Proof. induction s as [|c s]; simpl; [lia|]. pose proof (len_utf8_pos c); lia. Qed.

Lemma blen_zero s : blen s = 0 -> s = [].
Proof. destruct s as [|c s]; simpl; auto. pose proof (len_utf8_pos c); lia. Qed.

Lemma blen_ascii s : forallb is_ascii s = true -> blen s = length s.
Proof.
  induction s as [|c s]; simpl; auto. rewrite andb_true_iff. intros [H1 H2].
  rewrite len_utf8_ascii, IHs; auto.
Qed.

Lemma split_at_bytes_app a b : split_at_bytes (a ++ b) (blen a) = Some (a, b).
Proof.
  induction a as [|c a IH].
  - now destruct b.
  - cbn [app blen]. pose proof (len_utf8_pos c).
    destruct (len_utf8 c + blen a) eqn:E; [lia|]. rewrite <- E.
    replace (split_at_bytes (c :: a ++ b) (len_utf8 c + blen a)) with
      (if len_utf8 c + blen a <? len_utf8 c then None
       else match split_at_bytes (a ++ b) (len_utf8 c + blen a - len_utf8 c) with
            | Some (x, y) => Some (c :: x, y) | None => None end).
    2: { rewrite E. reflexivity. }
    rewrite (proj2 (Nat.ltb_ge _ _)) by lia.
    replace (len_utf8 c + blen a - len_utf8 c) with (blen a) by lia.
    now rewrite IH.
Qed.

Lemma split_at_bytes_sound s n a b :
  split_at_bytes s n = Some (a, b) -> s = a ++ b /\ n = blen a.
Proof.
  revert n a b; induction s as [|c s IH]; intros [|n] a b; cbn [split_at_bytes]; intro H.
  - inv H; auto.
  - discriminate.
  - inv H; auto.
  - destruct (S n <? len_utf8 c) eqn:E; [discriminate|].
    apply Nat.ltb_ge in E.
    destruct (split_at_bytes s (S n - len_utf8 c)) as [[x y]|] eqn:E2; [|discriminate].
    inv H. apply IH in E2 as [-> E2]. split; auto. cbn [blen]. lia.
Qed.

Lemma split_at_bytes_iff s n a b :
  split_at_bytes s n = Some (a, b) <-> s = a ++ b /\ n = blen a.
Proof.
  split; [apply split_at_bytes_sound|]. intros [-> ->]. apply split_at_bytes_app.
Qed.

Lemma ss_split_at_app a b : ss_split_at (a ++ b) (blen a) = Some (a, b).
Proof.
  unfold ss_split_at. rewrite blen_app, Nat.min_l by lia. apply split_at_bytes_app.
Qed.

(** ** First separator *)

(** Independent cut: the text up to and including the first [pat], and the rest. *)
Fixpoint cut (pat : char) (s : str) : option (str * str) :=
  match s with
  | [] => None
  | c :: r =>
      if N.eqb c pat then Some ([], r)
      else match cut pat r with Some (a, b) => Some (c :: a, b) | None => None end
  end.

Lemma cut_some pat s a b :
  cut pat s = Some (a, b) -> s = a ++ pat :: b /\ ~ In pat a.
Proof.
  revert a b; induction s as [|c s IH]; intros a b; simpl; [discriminate|].
  destruct (N.eqb_spec c pat) as [->|Hc].
  - intros [= <- <-]. auto.
  - destruct (cut pat s) as [[x y]|]; [|discriminate].
    intros [= <- <-]. destruct (IH _ _ eq_refl) as [-> Hn].
    split; auto. simpl. intros [?|?]; congruence.
Qed.

Lemma cut_none pat s : cut pat s = None -> ~ In pat s.
Proof.
  induction s as [|c s IH]; simpl; [tauto|].
  destruct (N.eqb_spec c pat); [discriminate|].
  destruct (cut pat s) as [[x y]|]; [discriminate|]. intros _ [?|?]; [congruence|]. now apply IH.
Qed.

Lemma cut_app pat a b : ~ In pat a -> cut pat (a ++ pat :: b) = Some (a, b).
Proof.
  induction a as [|c a IH]; simpl; intro H.
  - now rewrite N.eqb_refl.
  - destruct (N.eqb_spec c pat); [tauto|]. rewrite IH; tauto.
Qed.

Lemma cut_none_iff pat s : ~ In pat s -> cut pat s = None.
Proof.
  induction s as [|c s IH]; simpl; intro H; auto.
  destruct (N.eqb_spec c pat); [tauto|]. rewrite IH; tauto.
Qed.

Lemma find_byte_cut pat s off :
  find_byte pat s off =
  match cut pat s with Some (a, _) => Some (off + blen a) | None => None end.
Proof.
  revert off; induction s as [|c s IH]; intro off; simpl; auto.
  destruct (N.eqb c pat); simpl; [f_equal; lia|].
  rewrite IH. destruct (cut pat s) as [[x y]|]; simpl; auto. f_equal. lia.
Qed.

Lemma split_next_keep pat s : is_ascii pat = true ->
  split_next (mk_split true (Some s) pat true) =
  match cut pat s with
  | Some (a, b) => Some (mk_split true (Some b) pat true, Some (a ++ [pat]))
  | None => Some (mk_split false None pat true, Some s)
  end.
Proof.
  intro Hp. unfold split_next. simpl. rewrite find_byte_cut.
  destruct (cut pat s) as [[a b]|] eqn:E; auto.
  apply cut_some in E as [-> _]. simpl.
  replace (a ++ pat :: b) with ((a ++ [pat]) ++ b) by now rewrite <- app_assoc.
  replace (blen a + 1) with (blen (a ++ [pat])).
  2:{ rewrite blen_app. simpl. rewrite len_utf8_ascii by auto. lia. }
  now rewrite ss_split_at_app.
Qed.

Lemma split_next_drop pat s : is_ascii pat = true ->
  split_next (mk_split true (Some s) pat false) =
  match cut pat s with
  | Some (a, b) => Some (mk_split true (Some b) pat false, Some a)
  | None => Some (mk_split false None pat false, Some s)
  end.
Proof.
  intro Hp. unfold split_next. simpl. rewrite find_byte_cut.
  destruct (cut pat s) as [[a b]|] eqn:E; auto.
  apply cut_some in E as [-> _]. simpl. rewrite ss_split_at_app. simpl.
  rewrite len_utf8_ascii by auto. simpl. now destruct b.
Qed.

(** ** Pieces *)

Lemma pieces_cut pat s :
  pieces pat s =
  match cut pat s with Some (a, b) => (a ++ [pat]) :: pieces pat b | None => [s] end.
Proof.
  induction s as [|c s IH]; simpl; auto.
  destruct (N.eqb_spec c pat) as [->|Hc]; auto.
  rewrite IH. destruct (cut pat s) as [[a b]|]; auto.
Qed.

Lemma fields_cut pat s :
  fields pat s =
  match cut pat s with Some (a, b) => a :: fields pat b | None => [s] end.
Proof.
  induction s as [|c s IH]; simpl; auto.
  destruct (N.eqb_spec c pat) as [->|Hc]; auto.
  rewrite IH. destruct (cut pat s) as [[a b]|]; auto.
Qed.

Lemma cut_length pat s a b : cut pat s = Some (a, b) -> length b < length s.
Proof. intro H. apply cut_some in H as [-> _]. rewrite app_length. simpl. lia. Qed.

Lemma split_collect_S f it : split_collect (S f) it =
  (let* (it, o) := split_next it in
   match o with
   | None => Some []
   | Some x => let* l := split_collect f it in Some (x :: l)
   end).
Proof. reflexivity. Qed.

Lemma split_collect_keep pat fuel s : is_ascii pat = true -> length s + 2 <= fuel ->
  split_collect fuel (mk_split true (Some s) pat true) = Some (pieces pat s).
Proof.
  intro Hp. revert s. induction fuel as [|f IH]; intros s Hf; [lia|].
  rewrite split_collect_S, split_next_keep by auto. rewrite pieces_cut.
  destruct (cut pat s) as [[a b]|] eqn:E; cbn [bind].
  - rewrite IH; [reflexivity|]. pose proof (cut_length _ _ _ _ E). lia.
  - destruct f; [lia|]. reflexivity.
Qed.

Lemma split_collect_drop pat fuel s : is_ascii pat = true -> length s + 2 <= fuel ->
  split_collect fuel (mk_split true (Some s) pat false) = Some (fields pat s).
Proof.
  intro Hp. revert s. induction fuel as [|f IH]; intros s Hf; [lia|].
  rewrite split_collect_S, split_next_drop by auto. rewrite fields_cut.
  destruct (cut pat s) as [[a b]|] eqn:E; cbn [bind].
  - rewrite IH; [reflexivity|]. pose proof (cut_length _ _ _ _ E). lia.
  - destruct f; [lia|]. reflexivity.
Qed.

Lemma split_all_keep pat s : is_ascii pat = true ->
  split_all (ss_split_keep s pat) = Some (pieces pat s).
Proof. intro. unfold split_all. simpl. apply split_collect_keep; auto. Qed.

Lemma split_all_drop pat s : is_ascii pat = true ->
  split_all (ss_split s pat) = Some (fields pat s).
Proof. intro. unfold split_all. simpl. apply split_collect_drop; auto. Qed.

Lemma pieces_nonempty pat s : pieces pat s <> [].
Proof. rewrite pieces_cut. destruct (cut pat s) as [[? ?]|]; discriminate. Qed.
Lemma fields_nonempty pat s : fields pat s <> [].
Proof. rewrite fields_cut. destruct (cut pat s) as [[? ?]|]; discriminate. Qed.

Lemma pieces_concat pat s : concat (pieces pat s) = s.
Proof.
  induction s as [|c s IH]; simpl; auto.
  destruct (N.eqb c pat); simpl; [congruence|].
  destruct (pieces pat s); simpl in *; congruence.
Qed.

Lemma pieces_count pat s : length (pieces pat s) = S (count_char pat s).
Proof.
  induction s as [|c s IH]; simpl; auto.
  destruct (N.eqb c pat); simpl; [congruence|].
  destruct (pieces pat s); simpl in *; congruence.
Qed.
Lemma fields_count pat s : length (fields pat s) = S (count_char pat s).
Proof.
  induction s as [|c s IH]; simpl; auto.
  destruct (N.eqb c pat); simpl; [congruence|].
  destruct (fields pat s); simpl in *; congruence.
Qed.

Lemma pieces_shape pat s :
  exists body last, pieces pat s = body ++ [last] /\
    (forall x, In x body -> exists a, x = a ++ [pat] /\ ~ In pat a) /\ ~ In pat last.
Proof.
  remember (length s) as n eqn:Hn. revert s Hn.
  induction n as [n IH] using lt_wf_ind; intros s ->.
  rewrite pieces_cut. destruct (cut pat s) as [[a b]|] eqn:E.
  - destruct (IH (length b) (cut_length _ _ _ _ E) b eq_refl) as (body & last & -> & H1 & H2).
    exists ((a ++ [pat]) :: body), last. split; [reflexivity|]. split; auto.
    intros x [<-|Hx]; auto. exists a. split; auto. now apply cut_some in E as [_ ?].
  - exists [], s. split; [reflexivity|]. split; [intros x []|]. now apply cut_none.
Qed.

Lemma fields_shape pat s x : In x (fields pat s) -> ~ In pat x.
Proof.
  revert x. remember (length s) as n eqn:Hn. revert s Hn.
  induction n as [n IH] using lt_wf_ind; intros s -> x.
  rewrite fields_cut. destruct (cut pat s) as [[a b]|] eqn:E.
  - intros [<-|Hx]. + now apply cut_some in E as [_ ?].
    + eapply IH; [eapply cut_length; eauto|reflexivity|eauto].
  - intros [<-|[]]. now apply cut_none.
Qed.

Lemma join_cons sep x l : l <> [] -> join sep (x :: l) = x ++ sep :: join sep l.
Proof. destruct l; [congruence|reflexivity]. Qed.

Lemma fields_join pat s : join pat (fields pat s) = s.
Proof.
  induction s as [|c s IH]; [reflexivity|].
  cbn [fields]. pose proof (fields_nonempty pat s) as Hn.
  destruct (N.eqb_spec c pat) as [->|Hc].
  - rewrite join_cons by auto. now rewrite IH.
  - destruct (fields pat s) as [|x l]; [congruence|].
    destruct l; simpl in *; congruence.
Qed.

(** ** Character positions *)

Lemma char_step_spec s bp pos : (0 < pos)%Z ->
  char_step s bp pos =
  if (pos <=? Z.of_nat (length s))%Z
  then (0%Z, bp + blen (firstn (Z.to_nat pos) s))
  else ((pos - Z.of_nat (length s))%Z, 0).
Proof.
  revert bp pos; induction s as [|c s IH]; intros bp pos Hp; simpl char_step.
  - simpl length. destruct (Z.leb_spec pos (Z.of_nat 0)); [lia|]. f_equal; lia.
  - destruct (Z.eqb_spec (pos - 1) 0).
    + assert (pos = 1)%Z by lia. subst pos. simpl length.
      destruct (Z.leb_spec 1 (Z.of_nat (S (length s)))); [|lia].
      f_equal. change (Z.to_nat 1) with 1. cbn [firstn blen]. lia.
    + rewrite IH by lia. simpl length.
      destruct (Z.leb_spec (pos - 1) (Z.of_nat (length s)));
        destruct (Z.leb_spec pos (Z.of_nat (S (length s)))); try lia.
      * f_equal. replace (Z.to_nat pos) with (S (Z.to_nat (pos - 1))) by lia.
        cbn [firstn blen]. lia.
      * f_equal. lia.
Qed.

Lemma to_i32_small z : (-2147483648 <= z < 2147483648)%Z -> to_i32 z = z.
Proof. intro. unfold to_i32. rewrite Z.mod_small; lia. Qed.

Lemma firstn_blen_split n s :
  split_at_bytes s (blen (firstn n s)) = Some (firstn n s, skipn n s).
Proof. rewrite <- (firstn_skipn n s) at 1. apply split_at_bytes_app. Qed.

Lemma ss_firstn_blen_split n s :
  ss_split_at s (blen (firstn n s)) = Some (firstn n s, skipn n s).
Proof. rewrite <- (firstn_skipn n s) at 1. apply ss_split_at_app. Qed.

(** split_str without the single-byte flag, in characters. *)
Lemma split_str_chars s pos : (pos < 2147483648)%Z ->
  split_str s pos false =
  Some (if (pos <=? 0)%Z then SplitOk [] s true false
        else if (pos <=? Z.of_nat (length s))%Z
        then SplitOk (firstn (Z.to_nat pos) s) (skipn (Z.to_nat pos) s) false false
        else SplitErr (pos - Z.of_nat (length s)) s false).
Proof.
  intro Hb. unfold split_str. destruct (Z.leb_spec pos 0); auto.
  rewrite char_step_spec by lia.
  destruct (Z.leb_spec pos (Z.of_nat (length s))).
  - cbn. rewrite firstn_blen_split. cbn. repeat f_equal.
    apply Z.eqb_neq. intro E.
    assert (Hl : length (firstn (Z.to_nat pos) s) = Z.to_nat pos) by (rewrite firstn_length; lia).
    pose proof (blen_length (firstn (Z.to_nat pos) s)). lia.
  - cbv beta iota. destruct (Z.ltb_spec 0 (pos - Z.of_nat (length s))); [|lia].
    rewrite to_i32_small by lia. reflexivity.
Qed.

Lemma split_string_slice_chars s pos : (pos < 2147483648)%Z ->
  split_string_slice s pos false =
  Some (if (pos <=? 0)%Z then SplitOk [] s true false
        else if (pos <=? Z.of_nat (length s))%Z
        then SplitOk (firstn (Z.to_nat pos) s) (skipn (Z.to_nat pos) s) false false
        else SplitErr (pos - Z.of_nat (length s)) s false).
Proof.
  intro Hb. unfold split_string_slice. destruct (Z.leb_spec pos 0); auto.
  rewrite char_step_spec by lia.
  destruct (Z.leb_spec pos (Z.of_nat (length s))).
  - cbn. rewrite ss_firstn_blen_split. cbn. repeat f_equal.
    apply Z.eqb_neq. intro E.
    assert (Hl : length (firstn (Z.to_nat pos) s) = Z.to_nat pos) by (rewrite firstn_length; lia).
    pose proof (blen_length (firstn (Z.to_nat pos) s)). lia.
  - cbv beta iota. destruct (Z.ltb_spec 0 (pos - Z.of_nat (length s))); [|lia].
    rewrite to_i32_small by lia. reflexivity.
Qed.

(** split_str on the fast path, for ASCII text.  At pos = length it reports failure
    with 0 missing characters. *)
Lemma split_str_fast s pos : (pos < 2147483648)%Z -> forallb is_ascii s = true ->
  split_str s pos true =
  Some (if (pos <=? 0)%Z then SplitOk [] s true true
        else if (pos <? Z.of_nat (length s))%Z
        then SplitOk (firstn (Z.to_nat pos) s) (skipn (Z.to_nat pos) s) true true
        else SplitErr (pos - Z.of_nat (length s)) s true).
Proof.
  intros Hb Ha. unfold split_str. destruct (Z.leb_spec pos 0); auto.
  rewrite blen_ascii by auto. destruct (Z.ltb_spec pos (Z.of_nat (length s))).
  - replace (Z.to_nat pos) with (blen (firstn (Z.to_nat pos) s)) at 1.
    + rewrite firstn_blen_split. cbn. rewrite Z2Nat.id by lia. now rewrite Z.eqb_refl.
    + rewrite blen_ascii. * rewrite firstn_length. lia.
      * rewrite forallb_forall in *. intros x Hx. apply Ha.
        rewrite <- (firstn_skipn (Z.to_nat pos) s). apply in_or_app; auto.
  - rewrite to_i32_small by lia. reflexivity.
Qed.

Lemma split_string_slice_fast s pos : (pos < 2147483648)%Z -> forallb is_ascii s = true ->
  split_string_slice s pos true = split_str s pos true.
Proof.
  intros Hb Ha. unfold split_string_slice, split_str. destruct (Z.leb_spec pos 0); auto.
  rewrite blen_ascii by auto. destruct (Z.ltb_spec pos (Z.of_nat (length s))); auto.
  unfold ss_split_at. rewrite Nat.min_l; auto. rewrite blen_ascii by auto. lia.
Qed.

Lemma skipn_skipn_add {A} a b (l : list A) : skipn a (skipn b l) = skipn (b + a) l.
Proof.
  revert l; induction b as [|b IH]; intro l; [reflexivity|].
  destruct l; [now rewrite !skipn_nil|]. apply IH.
Qed.
