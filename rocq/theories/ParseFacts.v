(** The crate's streaming parser agrees with the format. *)
From Verif Require Import Base Tactics ModelString StringFacts ModelVlq ModelSm SpecMap
  SortFacts VlqFacts MapFacts.
From Verif Require Export SpecSmall.

Lemma vlq_accum_app s t shift acc v r :
  vlq_accum s shift acc = Some (v, r) -> vlq_accum (s ++ t) shift acc = Some (v, r ++ t).
Proof.
  revert shift acc; induction s as [|c s IH]; intros shift acc H; [discriminate|].
  cbn [vlq_accum app] in *. unbind H. rewrite E. cbn [bind].
  destruct (32 <=? v0)%N; auto. injection H as <- <-. reflexivity.
Qed.
Lemma vlq_decode_app s t z r : vlq_decode s = Some (z, r) -> vlq_decode (s ++ t) = Some (z, r ++ t).
Proof.
  unfold vlq_decode. intro H. unbind H. destruct v as [v r']. injection H as <- <-.
  rewrite (vlq_accum_app _ t _ _ _ _ E). reflexivity.
Qed.

Definition sums_ps (p : parse_st) : sums :=
  mk_sums (Z.of_N (ps_col p)) (Z.of_N (ps_src p)) (Z.of_N (ps_oline p))
    (Z.of_N (ps_ocol p)) (Z.of_N (ps_name p)).
Definition raw_of (s : seg) : raw_mapping :=
  mk_raw (Z.to_N (sg_line s)) (Z.to_N (sg_col s))
    (match sg_orig s with
     | None => None
     | Some (a, b, c, n) => Some (Z.to_N a, Z.to_N b, Z.to_N c, option_map Z.to_N n)
     end).

Lemma read_relative_ok p s t z r : vlq_decode s = Some (z, r) -> u32 (Z.of_N p + z) ->
  exists q, read_relative p (s ++ t) = Some (q, r ++ t) /\ Z.of_N q = (Z.of_N p + z)%Z.
Proof.
  intros H U. unfold read_relative. rewrite (vlq_decode_app _ t _ _ H). cbn [bind].
  destruct U as [U1 U2]. apply Z.leb_le in U1, U2. rewrite U1, U2. cbn [andb].
  eexists; split; [reflexivity|]. apply Z.leb_le in U1. lia.
Qed.

(** [at_sep] after a whole segment, not inside it. *)
Lemma at_sep_end r t l : numbers r 0 1 = Some l -> at_sep t = true ->
  at_sep (r ++ t) = match l with [] => true | _ => false end.
Proof.
  intros H Ht. destruct (numbers_decode _ _ H) as [[-> ->]|(z & r' & l' & _ & -> & _ & Hl)]; auto.
  destruct r as [|c r]; [simpl in Hl; lia|]. apply numbers_no_sep in H as [H1 H2].
  cbn. unfold is_sep. destruct (N.eqb_spec c COMMA); [subst; exfalso; apply H1; left; auto|].
  destruct (N.eqb_spec c SEMI); [subst; exfalso; apply H2; left; auto|]. reflexivity.
Qed.

Lemma parse_segment_ok ps x t st' qs :
  x <> [] -> at_sep t = true ->
  decode_seg (Z.of_N (ps_line ps)) (sums_ps ps) x = Some (st', qs) ->
  Forall small qs ->
  exists ps' q, qs = [q] /\ parse_segment ps (x ++ t) = Some (ps', raw_of q, t) /\
    sums_ps ps' = st' /\ ps_line ps' = ps_line ps.
Proof.
  intros Hx Ht H Hs. unfold decode_seg in H. unbind H. rename v into l.
  destruct (numbers_decode _ _ E) as [[-> _]|(z0 & r0 & l0 & D0 & -> & E0 & _)]; [congruence|].
  unfold parse_segment.
  destruct (numbers_decode _ _ E0) as [[-> ->]|(z1 & r1 & l1 & D1 & -> & E1 & _)].
  { cbv beta iota zeta in H. injection H as <- <-. inv Hs. destruct H1 as [U _]. cbn in U.
    destruct (read_relative_ok (ps_col ps) x t z0 [] D0 U) as (q0 & -> & Q0). cbn [bind app].
    rewrite Ht. eexists _, _. split; [reflexivity|]. split; [|split].
    - unfold raw_of. cbn. repeat f_equal; lia.
    - unfold sums_ps. cbn. f_equal; lia.
    - reflexivity. }
  destruct (numbers_decode _ _ E1) as [[-> ->]|(z2 & r2 & l2 & D2 & -> & E2 & _)]; [discriminate|].
  destruct (numbers_decode _ _ E2) as [[-> ->]|(z3 & r3 & l3 & D3 & -> & E3 & _)]; [discriminate|].
  destruct (numbers_decode _ _ E3) as [[-> ->]|(z4 & r4 & l4 & D4 & -> & E4 & _)].
  - cbv beta iota zeta in H. injection H as <- <-. inv Hs. clear H2.
    destruct H1 as (U0 & U1 & U2 & U3 & _). cbn in U0, U1, U2, U3.
    destruct (read_relative_ok (ps_col ps) x t z0 _ D0 U0) as (q0 & -> & Q0). cbn [bind].
    rewrite (at_sep_end _ _ _ E0 Ht).
    destruct (read_relative_ok (ps_src ps) r0 t z1 _ D1 U1) as (q1 & -> & Q1). cbn [bind].
    destruct (read_relative_ok (ps_oline ps) r1 t z2 _ D2 U2) as (q2 & -> & Q2). cbn [bind].
    destruct (read_relative_ok (ps_ocol ps) r2 t z3 _ D3 U3) as (q3 & -> & Q3). cbn [bind].
    rewrite (at_sep_end _ _ _ E3 Ht).
    eexists _, _. split; [reflexivity|]. split; [|split].
    + unfold raw_of. cbn. repeat f_equal; lia.
    + unfold sums_ps. cbn. f_equal; lia.
    + reflexivity.
  - destruct (numbers_decode _ _ E4) as [[-> ->]|(z5 & r5 & l5 & D5 & -> & E5 & _)]; [|discriminate].
    cbv beta iota zeta in H. injection H as <- <-. inv Hs. clear H2.
    destruct H1 as (U0 & U1 & U2 & U3 & U4). cbn in U0, U1, U2, U3, U4.
    destruct (read_relative_ok (ps_col ps) x t z0 _ D0 U0) as (q0 & -> & Q0). cbn [bind].
    rewrite (at_sep_end _ _ _ E0 Ht).
    destruct (read_relative_ok (ps_src ps) r0 t z1 _ D1 U1) as (q1 & -> & Q1). cbn [bind].
    destruct (read_relative_ok (ps_oline ps) r1 t z2 _ D2 U2) as (q2 & -> & Q2). cbn [bind].
    destruct (read_relative_ok (ps_ocol ps) r2 t z3 _ D3 U3) as (q3 & -> & Q3). cbn [bind].
    rewrite (at_sep_end _ _ _ E3 Ht).
    destruct (read_relative_ok (ps_name ps) r3 t z4 _ D4 U4) as (q4 & -> & Q4). cbn [bind].
    eexists _, _. split; [reflexivity|]. split; [|split].
    + unfold raw_of. cbn. repeat f_equal; lia.
    + unfold sums_ps. cbn. f_equal; lia.
    + reflexivity.
Qed.

(** The decoder, one segment at a time. *)
Lemma decode_step line st x t :
  no_sep x -> at_sep t = true ->
  decode_lines line st (cells (x ++ t)) =
  (let* (st', a) := decode_seg line st x in
   let* b := decode_lines line st' (cells t) in Some (a ++ b)).
Proof.
  intros Hx Ht. destruct t as [|c t].
  - rewrite app_nil_r, cells_seg, cells_nil by auto.
    cbn [decode_lines decode_line]. destruct (decode_seg line st x) as [[st' a]|]; auto.
    cbn [bind]. rewrite decode_seg_nil. cbn [bind app]. now rewrite app_nil_r.
  - cbn in Ht. unfold is_sep in Ht. destruct (N.eqb_spec c COMMA) as [->|_].
    + destruct (cells_comma x t Hx) as (h & tl & C1 & ->).
      destruct (cells_comma [] t) as (h' & tl' & C1' & C2'); [split; intros []|].
      rewrite C1 in C1'. injection C1' as <- <-. cbn [app] in C2'. rewrite C2'.
      cbn [decode_lines decode_line]. destruct (decode_seg line st x) as [[st' a]|]; auto.
      cbn [bind]. rewrite decode_seg_nil. cbn [bind].
      destruct (decode_line line st' h) as [[st2 a2]|]; auto. cbn [bind app].
      destruct (decode_lines _ _ tl); auto. cbn [bind]. now rewrite app_assoc.
    + destruct (N.eqb_spec c SEMI) as [->|]; [|discriminate].
      rewrite cells_semi by auto.
      change (SEMI :: t) with ([] ++ SEMI :: t). rewrite cells_semi by (split; intros []).
      cbn [decode_lines decode_line]. destruct (decode_seg line st x) as [[st' a]|]; auto.
      cbn [bind]. rewrite decode_seg_nil. cbn [bind app].
      destruct (decode_lines _ _ _); auto. cbn [bind]. now rewrite app_nil_r.
Qed.

Lemma first_segment s : exists x t, s = x ++ t /\ no_sep x /\ at_sep t = true.
Proof.
  induction s as [|c s (x & t & -> & Hx & Ht)].
  - exists [], []. repeat split; auto.
  - destruct (is_sep c) eqn:Ec.
    + exists [], (c :: x ++ t). repeat split; auto.
    + exists (c :: x), t. split; [reflexivity|]. split; auto.
      unfold is_sep in Ec. destruct Hx as [H1 H2].
      split; intros [->|]; auto; discriminate.
Qed.

Lemma parse_decode fuel : forall ps s segs,
  length s <= fuel ->
  decode_lines (Z.of_N (ps_line ps)) (sums_ps ps) (cells s) = Some segs ->
  Forall small segs ->
  parse_loop fuel ps s = Some (map raw_of segs).
Proof.
  induction fuel as [|fuel IH]; intros ps s segs Hf H Hs.
  - destruct s; [|simpl in Hf; lia]. cbn in H. injection H as <-. reflexivity.
  - destruct s as [|c r]; [cbn in H; injection H as <-; reflexivity|].
    cbn [parse_loop]. simpl in Hf.
    destruct (N.eqb_spec c SEMI) as [->|Hc1].
    { change (SEMI :: r) with ([] ++ SEMI :: r) in H.
      rewrite cells_semi in H by (split; intros []). cbn [decode_lines decode_line] in H.
      rewrite decode_seg_nil in H. cbn [bind app] in H. unbind H. injection H as <-.
      apply IH; [lia| |auto]. unfold sums_ps. cbn.
      rewrite N2Z.inj_add. exact E. }
    destruct (N.eqb_spec c COMMA) as [->|Hc2].
    { apply IH; [lia| |auto].
      destruct (cells_comma [] r) as (h & tl & C1 & C2); [split; intros []|]. cbn [app] in C2.
      rewrite C2 in H. rewrite C1. cbn [decode_lines decode_line] in H |- *.
      rewrite decode_seg_nil in H. cbn [bind] in H. rewrite <- H.
      destruct (decode_line _ _ h) as [[? ?]|]; reflexivity. }
    destruct (first_segment (c :: r)) as (x & t & Est & Hx & Ht).
    rewrite Est in H |- *.
    rewrite decode_step in H by auto. unbind H. destruct v as [st' a]. unbind H. injection H as <-.
    apply Forall_app in Hs as [Ha Hb].
    assert (Hxn : x <> []).
    { intros ->. cbn [app] in Est. subst t. cbn in Ht. unfold is_sep in Ht.
      destruct (N.eqb_spec c COMMA), (N.eqb_spec c SEMI); try congruence; discriminate. }
    destruct (parse_segment_ok ps x t st' a Hxn Ht E Ha) as (ps' & q & -> & -> & <- & El).
    cbn [bind]. rewrite <- El in E0.
    rewrite (IH ps' t v); auto.
    assert (L : length (c :: r) = length (x ++ t)) by now rewrite Est.
    rewrite app_length in L. destruct x; [congruence|]. simpl in L. lia.
Qed.

Theorem parse_mappings_decode s segs :
  decode s = Some segs -> Forall small segs ->
  parse_mappings s = Some (isort raw_cmp (map raw_of segs)).
Proof.
  intros H Hs. unfold parse_mappings.
  rewrite (parse_decode (length s) (mk_ps 0 0 0 0 0 0) s segs); auto.
Qed.
