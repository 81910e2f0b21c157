(** Memory-level slices: every slice the library makes is inside its buffer and on
    character boundaries. *)
From Verif Require Import Base Tactics ModelString StringFacts.
From Verif Require Export SpecSlice.

Lemma m_view_iff x s :
  m_view x = Some s <->
  exists a c, sl_buf x = a ++ s ++ c /\ sl_off x = Z.of_nat (blen a) /\
              sl_len x = Z.of_nat (blen s).
Proof.
  destruct x as [buf off len]; unfold m_view; simpl. split.
  - destruct (Z.leb_spec 0 off); [|discriminate].
    destruct (Z.leb_spec 0 len); [|discriminate]. simpl.
    destruct (split_at_bytes buf (Z.to_nat off)) as [[a r]|] eqn:E1; [|discriminate].
    destruct (split_at_bytes r (Z.to_nat len)) as [[b c]|] eqn:E2; [|discriminate].
    intros [= <-]. apply split_at_bytes_sound in E1 as [-> E1].
    apply split_at_bytes_sound in E2 as [-> E2]. exists a, c. repeat split; lia.
  - intros (a & c & -> & -> & ->).
    destruct (Z.leb_spec 0 (Z.of_nat (blen a))); [|lia].
    destruct (Z.leb_spec 0 (Z.of_nat (blen s))); [|lia]. simpl.
    rewrite !Nat2Z.id, split_at_bytes_app, split_at_bytes_app. reflexivity.
Qed.

Lemma m_view_mk a s c :
  m_view (mk_slice (a ++ s ++ c) (Z.of_nat (blen a)) (Z.of_nat (blen s))) = Some s.
Proof. apply m_view_iff. exists a, c. auto. Qed.

Lemma m_view_from s : m_view (m_from s) = Some s.
Proof. unfold m_from. rewrite <- (app_nil_r s) at 1. apply (m_view_mk [] s []). Qed.

Lemma m_view_len x s : m_view x = Some s -> sl_len x = Z.of_nat (blen s).
Proof. intro H. apply m_view_iff in H as (? & ? & ? & ? & ?). auto. Qed.

(** split_at: both halves are good exactly when the text-level split succeeds. *)
Lemma m_split_at_view x s mid l r : m_view x = Some s ->
  ss_split_at s mid = Some (l, r) ->
  m_view (fst (m_split_at x (Z.of_nat mid))) = Some l /\
  m_view (snd (m_split_at x (Z.of_nat mid))) = Some r.
Proof.
  intros Hv Hs. apply m_view_iff in Hv as (a & c & Hb & Ho & Hl).
  apply split_at_bytes_sound in Hs as [-> Hm].
  unfold m_split_at. simpl.
  assert (Hmid : Z.min (Z.of_nat mid) (sl_len x) = Z.of_nat (blen l)).
  { rewrite Hl. rewrite blen_app in *. lia. }
  rewrite Hmid, Hb, Ho, Hl. split; apply m_view_iff; simpl.
  - exists a, (r ++ c). rewrite <- app_assoc. auto.
  - exists (a ++ l), c. rewrite !blen_app, <- !app_assoc. repeat split; lia.
Qed.

Lemma m_substr_view x l m r : m_view x = Some (l ++ m ++ r) ->
  exists y, m_substr x (Z.of_nat (blen l)) (Z.of_nat (blen l + blen m)) = Some y /\
            m_view y = Some m.
Proof.
  intro Hv. apply m_view_iff in Hv as (a & c & Hb & Ho & Hl).
  unfold m_substr. rewrite Hl, !blen_app.
  rewrite !Z.min_l by lia.
  destruct (Z.leb_spec (Z.of_nat (blen l)) (Z.of_nat (blen l + blen m))); [|lia].
  eexists; split; [reflexivity|]. apply m_view_iff. simpl.
  exists (a ++ l), (r ++ c). rewrite Hb, Ho, blen_app, <- !app_assoc. repeat split; lia.
Qed.

(** Moving the start backwards over text that precedes the slice in its buffer. *)
Lemma m_offset_back a b s c :
  m_view (m_offset (mk_slice (a ++ b ++ s ++ c) (Z.of_nat (blen (a ++ b))) (Z.of_nat (blen s)))
            (- Z.of_nat (blen b))) = Some (b ++ s).
Proof.
  apply m_view_iff. simpl. exists a, c. rewrite !blen_app, <- !app_assoc. repeat split; lia.
Qed.

(** The iterator over slices. [rest_at buf a s it]: the unread text is [s], preceded
    by [a] in the buffer. *)
Definition mslice (a s c : str) : slice :=
  mk_slice (a ++ s ++ c) (Z.of_nat (blen a)) (Z.of_nat (blen s)).

Lemma msplit_next_keep pat a s c : is_ascii pat = true ->
  msplit_next (mk_msplit true (Some (mslice a s c)) pat true) =
  match cut pat s with
  | Some (u, v) =>
      Some (mk_msplit true (Some (mslice (a ++ u ++ [pat]) v c)) pat true,
            Some (mslice a (u ++ [pat]) (v ++ c)))
  | None => Some (mk_msplit false None pat true, Some (mslice a s c))
  end.
Proof.
  intro Hp. unfold msplit_next. simpl. unfold mslice at 1. rewrite m_view_mk. simpl.
  rewrite find_byte_cut. destruct (cut pat s) as [[u v]|] eqn:E; auto.
  apply cut_some in E as [-> _]. cbn [bind].
  unfold m_split_at. simpl.
  assert (Hb : blen (u ++ pat :: v) = blen u + 1 + blen v).
  { rewrite blen_app. simpl. rewrite len_utf8_ascii by auto. lia. }
  assert (Hu : blen (u ++ [pat]) = blen u + 1).
  { rewrite blen_app. simpl. rewrite len_utf8_ascii by auto. lia. }
  replace (Z.min (Z.of_nat (0 + blen u) + 1) (Z.of_nat (blen (u ++ pat :: v))))%Z
    with (Z.of_nat (blen u + 1)) by lia.
  unfold mslice. rewrite <- !app_assoc. cbn [app]. do 2 f_equal.
  - f_equal. f_equal. f_equal; rewrite ?blen_app; cbn [blen]; rewrite ?len_utf8_ascii by auto; lia.
  - f_equal. f_equal. rewrite blen_app. cbn [blen]. rewrite len_utf8_ascii by auto. lia.
Qed.

Lemma msplit_next_drop pat a s c : is_ascii pat = true ->
  msplit_next (mk_msplit true (Some (mslice a s c)) pat false) =
  match cut pat s with
  | Some (u, v) =>
      Some (mk_msplit true (Some (mslice (a ++ u ++ [pat]) v c)) pat false,
            Some (mslice a u (pat :: v ++ c)))
  | None => Some (mk_msplit false None pat false, Some (mslice a s c))
  end.
Proof.
  intro Hp. unfold msplit_next. simpl. unfold mslice at 1. rewrite m_view_mk. simpl.
  rewrite find_byte_cut. destruct (cut pat s) as [[u v]|] eqn:E; auto.
  apply cut_some in E as [-> _]. cbn [bind].
  unfold m_split_at, m_offset. simpl.
  assert (Hb : blen (u ++ pat :: v) = blen u + 1 + blen v).
  { rewrite blen_app. simpl. rewrite len_utf8_ascii by auto. lia. }
  assert (Hu : blen (u ++ [pat]) = blen u + 1).
  { rewrite blen_app. simpl. rewrite len_utf8_ascii by auto. lia. }
  replace (Z.min (Z.of_nat (0 + blen u)) (Z.of_nat (blen (u ++ pat :: v))))%Z
    with (Z.of_nat (blen u)) by lia.
  unfold mslice. rewrite <- !app_assoc. cbn [app].
  match goal with
  | |- Some (mk_msplit _ (Some ?x) _ _, Some ?y) = Some (mk_msplit _ (Some ?x') _ _, Some ?y') =>
      replace x with x'; [replace y with y'; [reflexivity|]|]
  end; f_equal; rewrite ?blen_app; cbn [blen]; rewrite ?len_utf8_ascii by auto; lia.
Qed.

Lemma msplit_collect_S f it : msplit_collect (S f) it =
  (let* (it, o) := msplit_next it in
   match o with
   | None => Some []
   | Some x => let* l := msplit_collect f it in Some (x :: l)
   end).
Proof. reflexivity. Qed.

Lemma mslice_buf a s c : sl_buf (mslice a s c) = a ++ s ++ c.
Proof. reflexivity. Qed.
Lemma mslice_view a s c : m_view (mslice a s c) = Some s.
Proof. apply m_view_mk. Qed.

Lemma msplit_collect_spec pat keep fuel a s c : is_ascii pat = true -> length s + 2 <= fuel ->
  exists l, msplit_collect fuel (mk_msplit true (Some (mslice a s c)) pat keep) = Some l /\
    Forall2 (fun x t => sl_buf x = a ++ s ++ c /\ m_view x = Some t) l
      (if keep then pieces pat s else fields pat s).
Proof.
  intro Hp. revert a s. induction fuel as [|f IH]; intros a s Hf; [lia|].
  rewrite msplit_collect_S. destruct keep.
  - rewrite msplit_next_keep by auto. rewrite pieces_cut.
    destruct (cut pat s) as [[u v]|] eqn:E; cbn [bind].
    + pose proof (cut_length _ _ _ _ E). apply cut_some in E as [-> _].
      destruct (IH (a ++ u ++ [pat]) v) as (l & -> & HF); [lia|]. cbn [bind].
      eexists; split; [reflexivity|]. constructor.
      * rewrite mslice_view, mslice_buf. split; auto. now rewrite <- !app_assoc.
      * replace (a ++ (u ++ pat :: v) ++ c) with ((a ++ u ++ [pat]) ++ v ++ c); auto.
        rewrite <- !app_assoc. reflexivity.
    + destruct f; [lia|]. cbn. eexists; split; [reflexivity|]. constructor; [|constructor].
      rewrite mslice_view. auto.
  - rewrite msplit_next_drop by auto. rewrite fields_cut.
    destruct (cut pat s) as [[u v]|] eqn:E; cbn [bind].
    + pose proof (cut_length _ _ _ _ E). apply cut_some in E as [-> _].
      destruct (IH (a ++ u ++ [pat]) v) as (l & -> & HF); [lia|]. cbn [bind].
      eexists; split; [reflexivity|]. constructor.
      * rewrite mslice_view, mslice_buf. split; auto. now rewrite <- !app_assoc.
      * replace (a ++ (u ++ pat :: v) ++ c) with ((a ++ u ++ [pat]) ++ v ++ c); auto.
        rewrite <- !app_assoc. reflexivity.
    + destruct f; [lia|]. cbn. eexists; split; [reflexivity|]. constructor; [|constructor].
      rewrite mslice_view. auto.
Qed.
