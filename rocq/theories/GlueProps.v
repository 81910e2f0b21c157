(** Calls and getters of the glue. *)
From Coq Require Import Permutation.
From Verif Require Import Base Tactics ModelString ModelVlq ModelSm ModelSlm ModelSources ModelTree ModelJs ModelJsApi Utf8 ModelGlue SpecGlue GlueFacts.

Definition int_block (x : slot) : list block := match x with SStr _ _ => [] | SInts p n => opt_block p (n * 4) end.

Lemma opt_in p n : n <> 0 -> In (p, n) (opt_block p n).
Proof. destruct n; [congruence|]. now left. Qed.
Lemma arrives_keeps s s' p x : keeps s s' -> incl (slot_block x) (blocks s) -> arrives s p x -> arrives s' p x.
Proof.
  intros K I A. destruct p as [v|l|b|], x as [a n|a n]; cbn [arrives slot_block] in *; try contradiction; destruct A as [A1 A2]; (split; [|exact A2]).
  - destruct (Nat.eq_dec n 0) as [->|Nn]; [exact A1|]. destruct (K (a, n) (I _ (opt_in a n Nn))) as [_ K2]. cbn [fst snd] in K2. now rewrite K2.
  - destruct (Nat.eq_dec n 0) as [->|Nn]; [exact A1|]. assert (Nn4 : n * 4 <> 0) by lia. destruct (K (a, n * 4) (I _ (opt_in a (n * 4) Nn4))) as [_ K2]. cbn [fst snd] in K2.
    rewrite (Nat.mul_comm 4 n) in *. now rewrite K2.
Qed.
Theorem pass_all_spec al ps : honest al -> Forall passable ps -> forall s, sane s -> exists s' slots, pass_all al s ps = (s', Some slots) /\ sane s' /\ keeps s s' /\
  Permutation (gm_js s') (flat_map slot_block slots ++ gm_js s) /\ Forall2 (arrives s') (data ps) slots.
Proof.
  intro Ha. induction 1 as [|p ps Hp Hps IH]; intros s Hs.
  - exists s, []. split; [reflexivity|]. split; [exact Hs|]. split; [apply keeps_refl|]. split; [reflexivity|constructor].
  - assert (Step : forall s1 x, sane s1 -> keeps s s1 -> gm_js s1 = slot_block x ++ gm_js s -> arrives s1 p x ->
      exists s' slots, (let '(s, o) := pass_all al s1 ps in (s, option_map (cons x) o)) = (s', Some slots) /\ sane s' /\ keeps s s' /\
        Permutation (gm_js s') (flat_map slot_block slots ++ gm_js s) /\ Forall2 (arrives s') (p :: data ps) slots).
    { intros s1 x S1 K1 J1 A1. destruct (IH s1 S1) as (s' & slots & E & S' & K' & P' & F'). rewrite E. exists s', (x :: slots). split; [reflexivity|]. split; [exact S'|].
      split; [eapply keeps_trans; eauto|]. split; [cbn [flat_map]; rewrite P', J1, !app_assoc; apply Permutation_app_tail, Permutation_app_comm|].
      constructor; [|exact F']. eapply arrives_keeps; [exact K'| |exact A1]. intros b Hb. right. apply in_or_app. left. rewrite J1. apply in_or_app. now left. }
    destruct p as [v|l|[|]|]; cbn [passable] in Hp; try contradiction.
    + cbn [pass_all data filter]. destruct (pass_string_spec al s v Ha Hs) as (s1 & a & E & (S1 & K1 & J1 & R1) & A1). rewrite E. exact (Step s1 (SStr a (length (utf8 (from_js v)))) S1 K1 J1 A1).
    + cbn [pass_all data filter]. destruct (pass_array_spec al s l Ha Hs) as (s1 & a & E & (S1 & K1 & J1 & R1) & A1). rewrite E. exact (Step s1 (SInts a (length l)) S1 K1 J1 A1).
    + cbn [pass_all data filter]. exact (IH s Hs).
Qed.
Lemma hand_over_spec : forall slots s J, sane s -> Permutation (gm_js s) (flat_map slot_block slots ++ J) ->
  exists s', hand_over s slots = Some s' /\ sane s' /\ Permutation (gm_js s') (flat_map int_block slots ++ J) /\ gm_bytes s' = gm_bytes s.
Proof.
  induction slots as [|x slots IH]; intros s J Hs P; [exists s; split; [reflexivity|split; [exact Hs|split; [exact P|reflexivity]]]|].
  destruct x as [p [|n]|p n]; cbn [flat_map slot_block opt_block int_block app] in P |- *.
  - cbn [hand_over]. exact (IH s J Hs P).
  - cbn [hand_over]. assert (Hin : In (p, S n) (gm_js s)) by (eapply Permutation_in; [symmetry; exact P|now left]). destruct (take_perm _ _ Hin) as (r & E & Pr). rewrite E. cbn [bind].
    destruct (IH (set_blocks s r ((p, S n) :: gm_rust s)) J) as (s' & E' & S' & P' & B').
    + apply sane_blocks; [exact Hs|]. rewrite Pr. cbn [app]. apply Permutation_middle.
    + cbn [set_blocks gm_js]. rewrite Pr in P. now apply Permutation_cons_inv in P.
    + exists s'. auto.
  - cbn [hand_over]. destruct (IH s (opt_block p (n * 4) ++ J) Hs) as (s' & E' & S' & P' & B'); [rewrite P, !app_assoc; apply Permutation_app_tail, Permutation_app_comm|].
    exists s'. split; [exact E'|]. split; [exact S'|]. split; [|exact B']. rewrite P', !app_assoc. apply Permutation_app_tail, Permutation_app_comm.
Qed.
Lemma free_spec s p n J : sane s -> Permutation (gm_js s) (opt_block p n ++ J) -> exists s', g_free s p n = Some s' /\ sane s' /\ Permutation (gm_js s') J /\ gm_bytes s' = gm_bytes s.
Proof.
  intros Hs P. unfold g_free. destruct n as [|n]; [exists s; auto|]. cbn [opt_block app] in P.
  assert (Hin : In (p, S n) (gm_js s)) by (eapply Permutation_in; [symmetry; exact P|now left]). destruct (take_perm _ _ Hin) as (r & E & Pr). rewrite E. cbn [bind].
  eexists. split; [reflexivity|]. split; [apply (sane_fewer s (p, S n)); [exact Hs|]; rewrite Pr; reflexivity|]. split; [|reflexivity]. cbn [set_blocks gm_js]. rewrite Pr in P. now apply Permutation_cons_inv in P.
Qed.
Lemma free_arrays_spec : forall slots s J, sane s -> Permutation (gm_js s) (flat_map int_block slots ++ J) ->
  exists s', free_arrays s slots = Some s' /\ sane s' /\ Permutation (gm_js s') J /\ gm_bytes s' = gm_bytes s.
Proof.
  induction slots as [|x slots IH]; intros s J Hs P; [exists s; auto|]. destruct x as [p n|p n]; cbn [free_arrays flat_map int_block app] in P |- *; [exact (IH s J Hs P)|].
  rewrite <- app_assoc in P. destruct (free_spec s p (n * 4) _ Hs P) as (s1 & E & S1 & P1 & B1). rewrite E. cbn [bind]. destruct (IH s1 J S1 P1) as (s' & E' & S' & P' & B').
  exists s'. split; [exact E'|]. split; [exact S'|]. split; [exact P'|congruence].
Qed.
Theorem call_spec al s ps : honest al -> sane s -> Forall passable ps -> exists s0 slots, sane s0 /\ Forall2 (arrives s0) (data ps) slots /\
  forall f, tame f -> exists s', glue_call al f s ps = (s', if snd (f s0 slots) then Threw else Returned) /\
    sane s' /\ Permutation (gm_js s') (gm_js s) /\ gm_bytes s' = gm_bytes (fst (f s0 slots)).
Proof.
  intros Ha Hs Hp. destruct (pass_all_spec al ps Ha Hp s Hs) as (s1 & slots & E & S1 & _ & P1 & A1). destruct (hand_over_spec slots s1 _ S1 P1) as (s0 & E0 & S0 & P0 & B0).
  exists s0, slots. split; [exact S0|]. split.
  { clear - A1 B0. induction A1 as [|q x qs xs H _ IH]; constructor; [|exact IH]. unfold arrives in *. now rewrite B0. }
  intros f Tf. unfold glue_call. rewrite E, E0. destruct (Tf s0 slots S0) as [T1 T2]. destruct (f s0 slots) as [s2 threw] eqn:Ef. cbn [fst snd] in *. rewrite <- T2 in P0.
  destruct (free_arrays_spec slots s2 _ T1 P0) as (s' & E' & S' & P' & B'). rewrite E'. exists s'. split; [destruct threw; reflexivity|]. auto.
Qed.

(** ** Results *)
Lemma bytes_split b p n m : bytes_at b p (n + m) = bytes_at b p n ++ bytes_at b (p + n) m.
Proof.
  apply nth_ext_error. intro i. rewrite nth_bytes. destruct (Nat.ltb_spec i n) as [H|H].
  - destruct (Nat.ltb_spec i (n + m)) as [_|H2]; [|lia]. destruct (Nat.ltb_spec i (length (bytes_at b p n))) as [L|L].
    + rewrite nth_error_app1 by exact L. rewrite nth_bytes. now rewrite (proj2 (Nat.ltb_lt i n) H).
    + assert (N : nth_error (bytes_at b p n) i = None) by now apply nth_error_None. pose proof N as N'. rewrite nth_bytes, (proj2 (Nat.ltb_lt i n) H) in N'. rewrite N'. symmetry.
      apply nth_error_None. rewrite app_length. apply nth_error_None in N'. unfold bytes_at in *. rewrite !firstn_length, !skipn_length in *. lia.
  - destruct (le_lt_dec (p + n) (length b)) as [Lb|Lb].
    + rewrite nth_error_app2; rewrite (bytes_length b p n Lb); [|exact H]. rewrite nth_bytes. replace (p + n + (i - n)) with (p + i) by lia.
      destruct (Nat.ltb_spec i (n + m)), (Nat.ltb_spec (i - n) m); try lia; reflexivity.
    + rewrite (proj2 (nth_error_None (bytes_at b p n ++ _) i)); [|rewrite app_length; unfold bytes_at; rewrite !firstn_length, !skipn_length; lia].
      destruct (Nat.ltb_spec i (n + m)); [|reflexivity]. apply nth_error_None. lia.
Qed.
Lemma two_words s p n : sane s -> bytes_at (gm_bytes s) (gm_args s) 8 = le32 (Z.of_nat p) ++ le32 (Z.of_nat n) -> (Z.of_nat p < 4294967296)%Z -> (Z.of_nat n < 4294967296)%Z ->
  view_get_u32 s (gm_buffer s) (gm_args s / 4) = Some p /\ view_get_u32 s (gm_buffer s) (gm_args s / 4 + 1) = Some n.
Proof.
  intros (_ & H2 & _ & (k & Hk) & _) E Lp Ln. change 8 with (4 + 4) in E. rewrite bytes_split in E.
  assert (L : length (bytes_at (gm_bytes s) (gm_args s) 4) = 4) by (apply bytes_length; inversion H2 as [|? ? [_ H] _]; cbn [fst snd] in H; lia).
  assert (E1 : bytes_at (gm_bytes s) (gm_args s) 4 = le32 (Z.of_nat p) /\ bytes_at (gm_bytes s) (gm_args s + 4) 4 = le32 (Z.of_nat n)).
  { apply (f_equal (firstn 4)) in E as F1. apply (f_equal (skipn 4)) in E as F2. rewrite <- L in F1 at 1. rewrite <- L in F2 at 1. rewrite firstn_app, firstn_all, Nat.sub_diag in F1.
    cbn [firstn] in F1. rewrite app_nil_r in F1. rewrite skipn_app, skipn_all, Nat.sub_diag in F2. cbn [skipn app] in F2. split; [exact F1|exact F2]. }
  destruct E1 as [F1 F2]. unfold view_get_u32. rewrite Nat.eqb_refl. cbn [negb].
  assert (D : gm_args s / 4 = k) by (rewrite Hk, Nat.mul_comm, Nat.div_mul; lia). rewrite D.
  replace (4 * k) with (gm_args s) by lia. replace (4 * (k + 1)) with (gm_args s + 4) by lia. rewrite F1, F2, !un32_le32. cbn [option_map].
  rewrite !Z.mod_small by lia. split; f_equal; lia.
Qed.
Lemma get_arg s : sane s -> exists s', global_argument_ptr s = (s', gm_args s) /\ sane s' /\ gm_args s' = gm_args s /\ gm_js s' = gm_js s /\ same_memory s s'.
Proof.
  intros Hs. pose proof Hs as (H1 & H2 & H3 & H4 & H5). unfold global_argument_ptr. destruct H5 as [->| ->]; eexists; (split; [reflexivity|]); [|split; [exact Hs|repeat split]].
  split; [|repeat split]. split; [exact H1|]. split; [exact H2|]. split; [exact H3|]. split; [exact H4|now right].
Qed.
Theorem get_string_spec f v s : sane s -> scalars v -> hands f s 1 (utf8 v) ->
  exists s', get_string f s = (s', Some (to_js v)) /\ sane s' /\ Permutation (gm_js s') (gm_js s).
Proof.
  intros Hs Hv Hf. unfold get_string. destruct (get_arg s Hs) as (s1 & E1 & S1 & A1 & J1 & B1). rewrite E1.
  destruct (Hf s1 S1 B1) as (s2 & p & n & E2 & S2 & A2 & L2 & W2 & Lp & Ln & In2 & _ & C2 & J2). rewrite E2. unfold get_u32. rewrite renew_now.
  destruct (two_words s2 p n S2 W2 Lp Ln) as [T1 T2]. rewrite A2 in T1, T2.
  change (view_get_u32 (set_views s2 (gv_u8 s2) (Some (gm_buffer s2)) (gv_i32 s2) (gv_arg s2))) with (view_get_u32 s2). rewrite T1, T2.
  unfold get_u8. rewrite renew_now. cbn [set_views gm_buffer gm_bytes]. rewrite Nat.eqb_refl. rewrite Nat.mul_1_r in *. rewrite C2, (decode_utf8 v Hv).
  edestruct free_spec as (s' & E' & S' & P' & B'); [| |rewrite E'; exists s'; split; [reflexivity|]; split; [exact S'|exact P']].
  - exact S2.
  - cbn [set_views gm_js]. rewrite J2. destruct n; reflexivity.
Qed.
Theorem get_ints_spec f l s : sane s -> Forall (fun z => -2147483648 <= z < 2147483648)%Z l -> hands f s 4 (flat_map le32 l) ->
  exists s' a, get_ints f s = (s', Some a) /\ sane s' /\ Permutation (gm_js s') (gm_js s) /\ forall s2, elements s2 a = l.
Proof.
  intros Hs Hl Hf. unfold get_ints. destruct (get_arg s Hs) as (s1 & E1 & S1 & A1 & J1 & B1). rewrite E1.
  destruct (Hf s1 S1 B1) as (s2 & p & n & E2 & S2 & A2 & L2 & W2 & Lp & Ln & In2 & (k & Ek) & C2 & J2). rewrite E2. unfold get_u32. rewrite renew_now.
  destruct (two_words s2 p n S2 W2 Lp Ln) as [T1 T2]. rewrite A2 in T1, T2.
  change (view_get_u32 (set_views s2 (gv_u8 s2) (Some (gm_buffer s2)) (gv_i32 s2) (gv_arg s2))) with (view_get_u32 s2). rewrite T1, T2.
  unfold get_array_i32, get_i32. rewrite renew_now. unfold array_slice. cbn [elements set_views gm_buffer gm_bytes]. rewrite Nat.eqb_refl.
  replace (4 * (p / 4)) with p by (rewrite Ek, Nat.div_mul; lia). rewrite (Nat.mul_comm 4 n), C2, words_le32.
  replace (map to_i32 l) with l by (clear - Hl; induction Hl as [|z l H _ IH]; [reflexivity|]; cbn [map]; rewrite to_i32_small by exact H; now rewrite <- IH).
  edestruct free_spec as (s' & E' & S' & P' & B'); [| |rewrite E'; exists s', (Copy l); split; [reflexivity|]; split; [exact S'|]; split; [exact P'|reflexivity]].
  - exact S2.
  - cbn [set_views gm_js]. rewrite J2. destruct (n * 4); reflexivity.
Qed.

Theorem history_spec al : honest al -> forall l s es, sane s -> all_go al s l es -> exists s' os, gdo_all al s l = (s', os) /\
  sane s' /\ Permutation (gm_js s') (gm_js s) /\ Forall2 as_expected es os.
Proof.
  intro Ha. induction l as [|x l IH]; intros s es Hs H; destruct es as [|e es]; cbn [all_go] in H; try contradiction; [exists s, []; repeat split; auto; apply Hs|].
  destruct H as [G H]. assert (St : exists s1 o, gdo al s x = (s1, o) /\ sane s1 /\ Permutation (gm_js s1) (gm_js s) /\ as_expected e o).
  { destruct x as [f ps|f|f], e as [|v|k]; cbn [goes] in G; try contradiction; cbn [gdo].
    - destruct G as [G1 G2]. destruct (call_spec al s ps Ha Hs G2) as (s0 & slots & _ & _ & K). destruct (K f G1) as (s1 & E & S1 & P1 & _). rewrite E. eexists _, _. split; [reflexivity|].
      split; [exact S1|]. split; [exact P1|]. cbn [as_expected]. destruct (snd (f s0 slots)); auto.
    - destruct G as [G1 G2]. destruct (get_string_spec f v s Hs G1 G2) as (s1 & E & S1 & P1). rewrite E. eexists _, _. split; [reflexivity|]. split; [exact S1|]. split; [exact P1|reflexivity].
    - destruct G as [G1 G2]. destruct (get_ints_spec f k s Hs G1 G2) as (s1 & a & E & S1 & P1 & El). rewrite E. eexists _, _. split; [reflexivity|]. split; [exact S1|]. split; [exact P1|]. cbn [as_expected]. eauto. }
  destruct St as (s1 & o & E & S1 & P1 & O1). rewrite E in H. cbn [fst] in H. destruct (IH s1 es S1 H) as (s' & os & E' & S' & P' & O'). cbn [gdo_all]. rewrite E, E'.
  exists s', (o :: os). split; [reflexivity|]. split; [exact S'|]. split; [etransitivity; eauto|]. constructor; auto.
Qed.

(** A parameter that cannot be passed: what was passed before it stays allocated. *)
Theorem leak_spec al f : honest al -> forall ps q rest s, sane s -> Forall passable ps -> ~ passable q ->
  exists s' slots, glue_call al f s (ps ++ q :: rest) = (s', Threw) /\ sane s' /\ Forall2 (arrives s') (data ps) slots /\ Permutation (gm_js s') (flat_map slot_block slots ++ gm_js s).
Proof.
  intros Ha ps q rest s Hs Hp Nq. destruct (pass_all_spec al ps Ha Hp s Hs) as (s' & slots & E & S' & _ & P' & A'). exists s', slots.
  assert (X : forall ps s s' slots, pass_all al s ps = (s', Some slots) -> pass_all al s (ps ++ q :: rest) = (s', None)).
  { clear - Nq. induction ps as [|p ps IH]; intros s s' slots E.
    - injection E as <- <-. cbn [app pass_all]. destruct q as [v|l|[|]|]; cbn [passable] in Nq; try tauto; reflexivity.
    - cbn [app pass_all] in E |- *. destruct p as [v|l|[|]|]; try discriminate.
      + destruct (pass_string al s v) as [s1 [[a n]|]]; [|discriminate]. destruct (pass_all al s1 ps) as [s2 [o|]] eqn:E2; [|discriminate]. injection E as <- _. now rewrite (IH _ _ _ E2).
      + destruct (pass_array al s l) as [s1 [[a n]|]]; [|discriminate]. destruct (pass_all al s1 ps) as [s2 [o|]] eqn:E2; [|discriminate]. injection E as <- _. now rewrite (IH _ _ _ E2).
      + eapply IH, E. }
  split; [unfold glue_call; now rewrite (X _ _ _ _ E)|]. split; [exact S'|]. split; [exact A'|exact P'].
Qed.
