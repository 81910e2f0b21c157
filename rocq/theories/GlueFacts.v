(** Facts about memory, views and blocks. *)
From Coq Require Import Permutation.
From Verif Require Import Base Tactics ModelString ModelVlq ModelSm ModelSlm ModelSources ModelTree ModelJs ModelJsApi Utf8 ModelGlue SpecGlue.
Ltac Zify.zify_post_hook ::= Z.to_euclidean_division_equations.

(** ** Bytes *)
Lemma nth_ext_error {A} : forall (a b : list A), (forall i, nth_error a i = nth_error b i) -> a = b.
Proof.
  induction a as [|x a IH]; intros [|y b] H; [reflexivity|now specialize (H 0)|now specialize (H 0)|].
  pose proof (H 0) as H0. injection H0 as ->. f_equal. apply IH. intro i. exact (H (S i)).
Qed.
Lemma nth_firstn {A} : forall n (l : list A) i, nth_error (firstn n l) i = if Nat.ltb i n then nth_error l i else None.
Proof.
  induction n as [|n IH]; intros [|x l] [|i]; cbn [firstn nth_error]; try reflexivity; [now destruct (Nat.ltb _ _)|].
  rewrite IH. reflexivity.
Qed.
Lemma nth_skipn {A} : forall p (l : list A) i, nth_error (skipn p l) i = nth_error l (p + i).
Proof. induction p as [|p IH]; intros [|x l] i; cbn [skipn plus]; [reflexivity|reflexivity|now destruct i|apply IH]. Qed.
Lemma nth_bytes b p n i : nth_error (bytes_at b p n) i = if Nat.ltb i n then nth_error b (p + i) else None.
Proof. unfold bytes_at. rewrite nth_firstn, nth_skipn. reflexivity. Qed.
Lemma bytes_length b p n : p + n <= length b -> length (bytes_at b p n) = n.
Proof. intro H. unfold bytes_at. rewrite firstn_length, skipn_length. lia. Qed.
Lemma bytes_nil b p : bytes_at b p 0 = [].
Proof. reflexivity. Qed.
Lemma nth_patch b p l i : p + length l <= length b ->
  nth_error (patch b p l) i = if Nat.ltb i p then nth_error b i else if Nat.ltb i (p + length l) then nth_error l (i - p) else nth_error b i.
Proof.
  intro H. unfold patch. assert (L : length (firstn p b) = p) by (rewrite firstn_length; lia).
  destruct (Nat.ltb_spec i p) as [H1|H1]; [rewrite nth_error_app1 by lia; rewrite nth_firstn; now rewrite (proj2 (Nat.ltb_lt i p)) by lia|].
  rewrite nth_error_app2 by lia. rewrite L. destruct (Nat.ltb_spec i (p + length l)) as [H2|H2]; [now rewrite nth_error_app1 by lia|].
  rewrite nth_error_app2 by lia. rewrite nth_skipn. f_equal. lia.
Qed.
Lemma patch_length b p l : p + length l <= length b -> length (patch b p l) = length b.
Proof. intro H. unfold patch. rewrite !app_length, firstn_length, skipn_length. lia. Qed.
Lemma patch_same b p l : p + length l <= length b -> bytes_at (patch b p l) p (length l) = l.
Proof.
  intro H. apply nth_ext_error. intro i. rewrite nth_bytes. destruct (Nat.ltb_spec i (length l)) as [H1|H1]; [|symmetry; now apply nth_error_None].
  rewrite nth_patch by exact H. rewrite (proj2 (Nat.ltb_ge (p + i) p)) by lia. rewrite (proj2 (Nat.ltb_lt (p + i) (p + length l))) by lia. f_equal. lia.
Qed.
Lemma patch_other b p l q n : p + length l <= length b -> apart (p, length l) (q, n) -> bytes_at (patch b p l) q n = bytes_at b q n.
Proof.
  intros H A. unfold apart in A. cbn [fst snd] in A. apply nth_ext_error. intro i. rewrite !nth_bytes. destruct (Nat.ltb_spec i n) as [H1|H1]; [|reflexivity].
  rewrite nth_patch by exact H. destruct (Nat.ltb_spec (q + i) p) as [H2|H2]; [reflexivity|]. destruct (Nat.ltb_spec (q + i) (p + length l)) as [H3|H3]; [lia|reflexivity].
Qed.
Lemma patch_nil b p : patch b p [] = b.
Proof. unfold patch. cbn [length app]. rewrite Nat.add_0_r. apply firstn_skipn. Qed.
Lemma bytes_app b more p n : p + n <= length b -> bytes_at (b ++ more) p n = bytes_at b p n.
Proof.
  intro H. apply nth_ext_error. intro i. rewrite !nth_bytes. destruct (Nat.ltb_spec i n) as [H1|H1]; [|reflexivity]. now rewrite nth_error_app1 by lia.
Qed.

(** ** Numbers *)
Lemma un32_le32 z : un32 (le32 z) = Some (Z.to_N (z mod 4294967296)).
Proof.
  unfold le32, un32. f_equal. assert (H : (Z.to_N (z mod 4294967296) < 4294967296)%N) by lia. generalize dependent (Z.to_N (z mod 4294967296)). intros n H. lia.
Qed.
Lemma le32_length z : length (le32 z) = 4.
Proof. reflexivity. Qed.
Lemma words_length l : length (flat_map le32 l) = length l * 4.
Proof. induction l as [|z l IH]; [reflexivity|]. cbn [flat_map length]. rewrite app_length, IH, le32_length. lia. Qed.
Lemma words_le32 l : words (flat_map le32 l) = map to_i32 l.
Proof.
  induction l as [|z l IH]; [reflexivity|]. cbn [flat_map map]. pose proof (un32_le32 z) as U. unfold le32 in U |- *. cbn [app words]. rewrite U. f_equal; [|exact IH].
  unfold to_i32. rewrite Z2N.id by (apply Z.mod_pos_bound; lia). rewrite Zplus_mod_idemp_l. reflexivity.
Qed.
Lemma to_i32_small z : (-2147483648 <= z < 2147483648)%Z -> to_i32 z = z.
Proof. intro H. unfold to_i32. rewrite Z.mod_small; lia. Qed.

(** ** UTF-8 *)
Lemma decode_char c r : (c < 1114112)%N -> decode (utf8_char c ++ r) = c :: decode r.
Proof.
  intro H. unfold utf8_char. destruct (N.ltb_spec c 128) as [H1|H1]; [cbn [app decode]; now rewrite (proj2 (N.ltb_lt c 128))|].
  destruct (N.ltb_spec c 2048) as [H2|H2].
  - cbn [app decode]. rewrite (proj2 (N.ltb_ge (192 + c / 64) 128)) by lia. rewrite (proj2 (N.ltb_lt (192 + c / 64) 224)) by lia. f_equal. lia.
  - destruct (N.ltb_spec c 65536) as [H3|H3].
    + cbn [app decode]. rewrite (proj2 (N.ltb_ge (224 + c / 4096) 128)) by lia. rewrite (proj2 (N.ltb_ge (224 + c / 4096) 224)) by lia. rewrite (proj2 (N.ltb_lt (224 + c / 4096) 240)) by lia. f_equal. lia.
    + cbn [app decode]. rewrite (proj2 (N.ltb_ge (240 + c / 262144) 128)) by lia. rewrite (proj2 (N.ltb_ge (240 + c / 262144) 224)) by lia. rewrite (proj2 (N.ltb_ge (240 + c / 262144) 240)) by lia. f_equal. lia.
Qed.
Lemma decode_utf8 v : scalars v -> decode (utf8 v) = v.
Proof. induction 1 as [|c v H _ IH]; [reflexivity|]. unfold utf8. cbn [flat_map]. rewrite decode_char by exact H. f_equal. exact IH. Qed.

(** ** Blocks *)
Lemma apart_sym a b : apart a b -> apart b a.
Proof. unfold apart. tauto. Qed.
Lemma pairs_perm l l' : Permutation l l' -> ForallOrdPairs apart l -> ForallOrdPairs apart l'.
Proof.
  induction 1 as [|x l l' P IH|x y l|l l2 l3 _ IH1 _ IH2]; intro H; [constructor| | |auto].
  - inversion H as [|? ? H1 H2]; subst. constructor; [eapply Permutation_Forall; eauto|auto].
  - inversion H as [|? ? H1 H2]; subst. inversion H2 as [|? ? H3 H4]; subst. inversion H1 as [|? ? H5 H6]; subst. constructor; [constructor; [now apply apart_sym|exact H3]|]. constructor; auto.
Qed.
Lemma take_perm b : forall l, In b l -> exists r, take_out b l = Some r /\ Permutation l (b :: r).
Proof.
  induction l as [|x l IH]; intro H; [destruct H|]. cbn [take_out]. unfold block_eqb. destruct b as [p n], x as [p' n']. cbn [fst snd].
  destruct (Nat.eqb_spec p p') as [->|Ne]; [destruct (Nat.eqb_spec n n') as [->|Ne]|]; cbn [andb]; [eexists; split; [reflexivity|reflexivity]| |];
    (destruct H as [E|H]; [congruence|]; destruct (IH H) as (r & E & P); rewrite E; cbn [bind]; eexists; split; [reflexivity|]; rewrite P; apply perm_swap).
Qed.
Lemma take_spec b : forall l r, take_out b l = Some r -> Permutation l (b :: r).
Proof.
  induction l as [|x l IH]; intros r E; [discriminate|]. cbn [take_out] in E. unfold block_eqb in E. destruct b as [p n], x as [p' n']. cbn [fst snd] in E.
  destruct (Nat.eqb_spec p p') as [->|Ne]; [destruct (Nat.eqb_spec n n') as [->|Ne]|]; cbn [andb] in E; [injection E as <-; reflexivity| |];
    (destruct (take_out _ l) as [r'|]; [|discriminate]; cbn [bind] in E; injection E as <-; rewrite (IH r' eq_refl); apply perm_swap).
Qed.

(** ** Sane states *)
Lemma sane_blocks s j r : sane s -> Permutation (gm_js s ++ gm_rust s) (j ++ r) -> sane (set_blocks s j r).
Proof.
  intros (H1 & H2 & H3 & H4 & H5) P. assert (P' : Permutation (blocks s) (blocks (set_blocks s j r))) by (apply perm_skip; exact P).
  split; [eapply pairs_perm; eauto|]. split; [eapply Permutation_Forall; eauto|]. auto.
Qed.
Lemma sane_fewer s b j r : sane s -> Permutation (gm_js s ++ gm_rust s) (b :: j ++ r) -> sane (set_blocks s j r).
Proof.
  intros (H1 & H2 & H3 & H4 & H5) P. assert (P' : Permutation (blocks s) (b :: blocks (set_blocks s j r))).
  { unfold blocks at 1. rewrite P. apply perm_swap. }
  split; [apply (pairs_perm _ _ P') in H1; now inversion H1|]. split; [|auto]. eapply Permutation_Forall in H2; [|exact P']. now inversion H2.
Qed.
Lemma sane_bytes s b : sane s -> length b = length (gm_bytes s) -> sane (set_bytes s b).
Proof. intros (H1 & H2 & H3 & H4 & H5) L. unfold sane, blocks in *. cbn [set_bytes gm_bytes gm_args gm_js gm_rust gv_arg] in *. rewrite L. auto. Qed.
Lemma sane_views s a b c : sane s -> sane (set_views s a b c (gv_arg s)).
Proof. intro H. exact H. Qed.
Lemma renew_now v b : renew v b = b.
Proof. unfold renew. destruct v as [g|]; [|reflexivity]. destruct (Nat.eqb_spec g b); congruence. Qed.
Lemma sane_grow s more : sane s -> (exists k, length more = 4 * k) -> sane (g_grow s more) /\ gm_bytes (g_grow s more) = gm_bytes s ++ more /\
  blocks (g_grow s more) = blocks s /\ gm_js (g_grow s more) = gm_js s /\ gm_rust (g_grow s more) = gm_rust s /\ gm_args (g_grow s more) = gm_args s.
Proof.
  intros (H1 & H2 & (k & H3) & H4 & H5) (k2 & L). destruct more as [|x more]; [cbn [g_grow]; rewrite app_nil_r; repeat split; eauto|].
  cbn [g_grow]. split; [|repeat split]. split; [exact H1|]. unfold blocks in *. cbn [gm_bytes gm_args gm_js gm_rust gv_arg] in *. rewrite app_length.
  split; [|split; [exists (k + k2); lia|auto]]. eapply Forall_impl; [|exact H2]. cbn beta. intros a [A1 A2]. lia.
Qed.

(** Bytes of the blocks that there were stay. *)
Lemma keeps_refl s : keeps s s.
Proof. intros b H. auto. Qed.
Lemma keeps_trans a b c : keeps a b -> keeps b c -> keeps a c.
Proof. intros H1 H2 x Hx. destruct (H1 x Hx) as [A1 A2]. destruct (H2 x A1) as [B1 B2]. split; [exact B1|congruence]. Qed.
Lemma malloc_spec al s n s' p : honest al -> sane s -> g_malloc al s n = (s', p) ->
  sane s' /\ keeps s s' /\ gm_js s' = opt_block p n ++ gm_js s /\ gm_rust s' = gm_rust s /\ gm_args s' = gm_args s /\ p + n <= length (gm_bytes s') /\
  (0 < n -> (exists k, p = 4 * k) /\ Forall (apart (p, n)) (blocks s)).
Proof.
  intros Ha Hs E. destruct (Ha s n Hs) as (A1 & A2 & A3). unfold g_malloc in E. destruct (al s n) as [p0 more] eqn:Eal. cbn [fst snd] in *. injection E as <- <-.
  destruct (sane_grow s more Hs A1) as (G1 & G2 & G3 & G4 & G5 & G6).
  assert (Ks : forall b, In b (blocks s) -> bytes_at (gm_bytes (g_grow s more)) (fst b) (snd b) = bytes_at (gm_bytes s) (fst b) (snd b)).
  { intros b Hb. rewrite G2. apply bytes_app. destruct Hs as (_ & H2 & _). rewrite Forall_forall in H2. apply (H2 b Hb). }
  destruct n as [|n].
  - split; [apply sane_blocks; [exact G1|reflexivity]|]. split; [intros b Hb; split; [|apply Ks, Hb]; unfold blocks in *; cbn [set_blocks gm_args gm_js gm_rust]; rewrite G4, G5, G6; exact Hb|].
    cbn [set_blocks gm_js gm_rust gm_args gm_bytes opt_block app]. rewrite G2, app_length. repeat split; auto; lia.
  - assert (Pos : 0 < S n) by lia. destruct (A3 Pos) as (B1 & B2). cbn [set_blocks gm_js gm_rust gm_args gm_bytes opt_block app].
    split; [|split; [|rewrite G2, app_length, G4; repeat split; auto]].
    + destruct G1 as (H1 & H2 & H3 & H4 & H5). rewrite G3 in H1, H2.
      assert (P : Permutation ((p0, S n) :: blocks s) (blocks (set_blocks (g_grow s more) ((p0, S n) :: gm_js (g_grow s more)) (gm_rust (g_grow s more))))).
      { unfold blocks. cbn [set_blocks gm_args gm_js gm_rust app]. rewrite G4, G5, G6. apply perm_swap. }
      split; [eapply pairs_perm; [exact P|]; constructor; assumption|]. split; [eapply Permutation_Forall; [exact P|]; constructor; [cbn [fst snd set_blocks gm_bytes]; rewrite G2, app_length; lia|exact H2]|]. auto.
    + intros b Hb. split; [|apply Ks, Hb]. unfold blocks in *. cbn [set_blocks gm_args gm_js gm_rust]. rewrite G4, G5, G6. destruct Hb as [Hb|Hb]; [now left|]. right. right. exact Hb.
Qed.

(** ** Passing *)
Lemma write_spec s p n (l : list N) : sane s -> n = length l -> p + n <= length (gm_bytes s) -> (0 < n -> forall b, In b (blocks s) -> b = (p, n) \/ apart (p, n) b) ->
  let s' := set_bytes s (patch (gm_bytes s) p l) in sane s' /\ bytes_at (gm_bytes s') p n = l /\
  (forall b, In b (blocks s) -> b <> (p, n) -> bytes_at (gm_bytes s') (fst b) (snd b) = bytes_at (gm_bytes s) (fst b) (snd b)).
Proof.
  intros Hs -> Hl Ha. cbn zeta. split; [apply sane_bytes; [exact Hs|now apply patch_length]|]. cbn [set_bytes gm_bytes]. split; [now apply patch_same|].
  intros [q m] Hb Nb. cbn [fst snd]. destruct l as [|x l].
  - rewrite patch_nil. reflexivity.
  - apply patch_other; [exact Hl|]. destruct (Ha ltac:(cbn; lia) _ Hb) as [E|A]; [congruence|exact A].
Qed.
Lemma apart_self p n : 0 < n -> ~ apart (p, n) (p, n).
Proof. unfold apart. cbn [fst snd]. lia. Qed.
Definition passed (s s' : glue) (p n : nat) : Prop :=
  sane s' /\ keeps s s' /\ gm_js s' = opt_block p n ++ gm_js s /\ gm_rust s' = gm_rust s.
Lemma store al s n s1 p (l : list N) : honest al -> sane s -> g_malloc al s n = (s1, p) -> n = length l ->
  forall s2, (gm_bytes s2 = gm_bytes s1 /\ gm_js s2 = gm_js s1 /\ gm_rust s2 = gm_rust s1 /\ gm_args s2 = gm_args s1 /\ gv_arg s2 = gv_arg s1) ->
  let s' := set_bytes s2 (patch (gm_bytes s2) p l) in passed s s' p n /\ bytes_at (gm_bytes s') p n = l.
Proof.
  intros Ha Hs E L s2 (V1 & V2 & V3 & V4 & V5). destruct (malloc_spec al s n s1 p Ha Hs E) as (M1 & M2 & M3 & M4 & M5 & M6 & M7).
  assert (B2 : blocks s2 = blocks s1) by (unfold blocks; now rewrite V2, V3, V4).
  assert (S2 : sane s2) by (destruct M1 as (H1 & H2 & H3 & H4 & H5); unfold sane; rewrite B2, V1, V4, V5; auto).
  assert (Dis : 0 < n -> forall b, In b (blocks s2) -> b = (p, n) \/ apart (p, n) b).
  { intros Pn b Hb. destruct (M7 Pn) as [_ F]. rewrite Forall_forall in F. rewrite B2 in Hb. unfold blocks in Hb, F. rewrite M3, M4, M5 in Hb.
    destruct n as [|n]; [lia|]. cbn [opt_block app] in Hb. destruct Hb as [Hb|[Hb|Hb]]; [right; apply F; now left|now left|right; apply F; now right]. }
  destruct (write_spec s2 p n l S2 L) as (W1 & W2 & W3); [rewrite V1; exact M6|exact Dis|]. cbn zeta in *. split; [|exact W2]. split; [exact W1|].
  split; [|cbn [set_bytes gm_js gm_rust]; rewrite V2, V3; auto].
  intros b Hb. destruct (M2 b Hb) as [K1 K2]. split; [unfold blocks in *; cbn [set_bytes gm_js gm_rust gm_args]; rewrite V2, V3, V4; exact K1|]. rewrite W3; [rewrite V1; exact K2|rewrite B2; exact K1|].
  intros ->. destruct (M2 _ Hb) as [_ _]. destruct n as [|n].
  - destruct Hs as (_ & H2 & _). rewrite Forall_forall in H2. destruct (H2 _ Hb) as [H2' _]. cbn in H2'. lia.
  - destruct (M7 ltac:(lia)) as [_ F]. rewrite Forall_forall in F. exact (apart_self p (S n) ltac:(lia) (F _ Hb)).
Qed.
Lemma pass_string_spec al s v : honest al -> sane s -> exists s' p, pass_string al s v = (s', Some (p, length (utf8 (from_js v)))) /\
  passed s s' p (length (utf8 (from_js v))) /\ arrives s' (PStr v) (SStr p (length (utf8 (from_js v)))).
Proof.
  intros Ha Hs. unfold pass_string. set (buf := utf8 (from_js v)). destruct (g_malloc al s (length buf)) as [s1 p] eqn:E.
  destruct (malloc_spec al s _ s1 p Ha Hs E) as (_ & _ & _ & _ & _ & M6 & _).
  unfold get_u8. rewrite renew_now. unfold view_set_u8. cbn [set_views gm_buffer gm_bytes]. rewrite Nat.eqb_refl. cbn [negb]. rewrite (proj2 (Nat.leb_le _ _)) by exact M6.
  eexists _, _. split; [reflexivity|]. destruct (store al s _ s1 p buf Ha Hs E eq_refl (set_views s1 (Some (gm_buffer s1)) (gv_u32 s1) (gv_i32 s1) (gv_arg s1)) ltac:(repeat split)) as [P1 P2].
  split; [exact P1|]. split; [exact P2|reflexivity].
Qed.
Lemma pass_array_spec al s l : honest al -> sane s -> exists s' p, pass_array al s l = (s', Some (p, length l)) /\
  passed s s' p (length l * 4) /\ arrives s' (PInts l) (SInts p (length l)).
Proof.
  intros Ha Hs. unfold pass_array. destruct (g_malloc al s (length l * 4)) as [s1 p] eqn:E.
  destruct (malloc_spec al s _ s1 p Ha Hs E) as (M1 & _ & _ & _ & _ & M6 & M7). destruct M1 as (_ & _ & (kb & Hkb) & _).
  unfold get_u32. rewrite renew_now. unfold view_set_u32. cbn [set_views gm_buffer gm_bytes]. rewrite Nat.eqb_refl. cbn [negb].
  assert (Le : p / 4 + length l <= length (gm_bytes s1) / 4).
  { rewrite Hkb in *. replace (4 * kb / 4) with kb by (rewrite Nat.mul_comm, Nat.div_mul; lia). destruct l as [|z l].
    - cbn [length] in *. pose proof (Nat.div_le_upper_bound p 4 kb ltac:(lia) ltac:(lia)). lia.
    - destruct (M7 ltac:(cbn; lia)) as ((k & ->) & _). rewrite (Nat.mul_comm 4 k), Nat.div_mul by lia. cbn [length] in *. lia. }
  rewrite (proj2 (Nat.leb_le _ _) Le). eexists _, _. split; [reflexivity|].
  assert (Q : patch (gm_bytes s1) (4 * (p / 4)) (flat_map le32 l) = patch (gm_bytes s1) p (flat_map le32 l) \/ l = []).
  { destruct l as [|z l]; [now right|left]. destruct (M7 ltac:(cbn; lia)) as ((k & ->) & _). now rewrite (Nat.mul_comm 4 k), Nat.div_mul, (Nat.mul_comm k 4) by lia. }
  assert (Q' : patch (gm_bytes s1) (4 * (p / 4)) (flat_map le32 l) = patch (gm_bytes s1) p (flat_map le32 l)).
  { destruct Q as [Q| ->]; [exact Q|]. cbn [flat_map]. now rewrite !patch_nil. }
  rewrite Q'. destruct (store al s _ s1 p (flat_map le32 l) Ha Hs E ltac:(now rewrite words_length) (set_views s1 (gv_u8 s1) (Some (gm_buffer s1)) (gv_i32 s1) (gv_arg s1)) ltac:(repeat split)) as [P1 P2].
  cbn zeta in P1, P2. cbn [set_views gm_bytes] in P1, P2 |- *. split; [exact P1|]. split; [|reflexivity]. rewrite Nat.mul_comm. rewrite P2. apply words_le32.
Qed.
