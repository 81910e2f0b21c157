(** When the targets of the chunks never decrease, empty chunks do no harm; edits keep
    that order. *)
From Verif Require Import Base Tactics ModelString StringFacts ModelVlq ModelSm ModelSlm ModelSources ModelTree SortFacts SpecText
  SpecMap SpecAttr SpecEdit SpecEffect TextFacts EditFacts MapFacts GenFacts NodeFacts LeafFacts ReplaceNode NodeTree IdxFacts EffectFacts.
From Verif Require Export SpecOrder.

(** ** What is read is the own target or that of an empty chunk *)
Lemma above_irrefl a : above a a = false.
Proof.
  destruct a as [[[s [l c]] n]|]; cbn [above]; [|reflexivity].
  rewrite !Z.ltb_irrefl, !Z.eqb_refl. cbn. destruct n; cbn; [apply Z.ltb_irrefl|reflexivity].
Qed.
Lemma above_asym a b : above a b = true -> above (drop_name b) (drop_name a) = false.
Proof.
  destruct a as [[[s [l c]] n]|], b as [[[s' [l' c']] n']|]; cbn [above drop_name]; try congruence; try reflexivity.
  destruct (Z.ltb_spec s' s), (Z.eqb_spec s' s), (Z.ltb_spec s s'), (Z.eqb_spec s s'); try lia; cbn [orb andb]; try congruence.
  destruct (Z.ltb_spec l' l), (Z.eqb_spec l' l), (Z.ltb_spec l l'), (Z.eqb_spec l l'); try lia; cbn [orb andb]; try congruence.
  destruct (Z.ltb_spec c' c), (Z.eqb_spec c' c), (Z.ltb_spec c c'), (Z.eqb_spec c c'); try lia; cbn [orb andb]; try congruence; reflexivity.
Qed.
Lemma drop_antisym a b : above (drop_name a) (drop_name b) = false -> above (drop_name b) (drop_name a) = false ->
  drop_name a = drop_name b.
Proof. intros H1 H2. apply same_target_eq. unfold same_target. now rewrite H1, H2. Qed.
Lemma greater_cases a b : greater a b = a /\ above a b = true \/ greater a b = b /\ above a b = false.
Proof. unfold greater. destruct (above a b) eqn:E; auto. Qed.

(** ** Texts in order *)


Lemma ink_agrees a : forall s p, (a <> None -> s <> [] -> drop_name (p_cur p) = drop_name a) ->
  Forall2 agrees (mark a s) (fst (ink a s p)) /\
  (s <> [] -> (p_cur (snd (ink a s p)) = p_cur p /\ p_last (snd (ink a s p)) = p_last p) \/
              p_cur (snd (ink a s p)) = p_last (snd (ink a s p)) /\
              (p_last (snd (ink a s p)) = None \/ p_last (snd (ink a s p)) = a)).
Proof.
  induction s as [|c s IH]; intros p H; [split; [constructor|congruence]|].
  cbn [ink mark map]. set (p' := if N.eqb c NL then _ else _).
  specialize (IH p'). destruct (ink a s p') as [m p''] eqn:Ei. cbn [fst snd] in *.
  assert (Hp : a <> None -> s <> [] -> drop_name (p_cur p') = drop_name a).
  { intros Ha Hs. unfold p'. destruct (N.eqb c NL); [destruct s; [congruence|reflexivity]|]. cbn [p_cur]. apply H; [auto|discriminate]. }
  destruct (IH Hp) as [F1 F2]. split.
  - constructor; [|exact F1]. split; [reflexivity|]. cbn [snd]. intro Ha. apply H; auto. discriminate.
  - intros _. destruct s as [|d s].
    + cbn [ink] in Ei. injection Ei as _ <-. unfold p'. destruct (N.eqb c NL); cbn; auto.
    + destruct F2 as [[F2 F3]|F2]; [congruence| |right; exact F2]. rewrite F2, F3. unfold p'.
      destruct (N.eqb c NL); cbn; auto.
Qed.

Definition pen_ok (p : pen) (rest : list leaf) : Prop :=
  above (drop_name (p_last p)) (drop_name (p_cur p)) = false /\
  Forall (fun y => below (p_cur p) (leaf_attr y)) rest.

Lemma write_agrees : forall l p, asc l -> pen_ok p l ->
  Forall2 agrees (flat_leaves l) (fst (write (map turn l) p)).
Proof.
  induction l as [|x l IH]; intros p HA [HL HC]; [constructor|].
  inversion HA as [|x0 l0 HX HA' Ex]; subst. inversion HC as [|x0 l0 CX CL Ex]; subst.
  cbn [map write]. unfold turn at 1. set (a := leaf_attr x) in *.
  assert (HL' : above (drop_name (p_last (aim a p))) (drop_name (p_cur (aim a p))) = false /\
                (a <> None -> leaf_text x <> [] -> drop_name (p_cur (aim a p)) = drop_name a) /\
                Forall (fun y => below (p_cur (aim a p)) (leaf_attr y)) l /\
                (p_last (aim a p) = a)).
  { unfold aim. destruct (same_target a (p_last p)) eqn:Es.
    - apply same_target_eq in Es. split; [exact HL|]. split; [|split; [exact CL|now symmetry]].
      intros Ha _. apply drop_antisym; [apply CX; auto|]. now rewrite Es.
    - cbn [p_last p_cur]. destruct (p_fresh p).
      + destruct (greater_cases (p_cur p) a) as [[-> Hg]|[-> Hg]].
        * split; [now apply above_asym|]. split; [|auto]. intros Ha _.
          apply drop_antisym; [apply CX; auto|now apply above_asym].
        * split; [apply above_irrefl|]. split; [auto|]. split; [exact HX|reflexivity].
      + split; [apply above_irrefl|]. split; [auto|]. split; [exact HX|reflexivity]. }
  destruct HL' as (L1 & L2 & L3 & L4).
  destruct (ink_agrees a (leaf_text x) (aim a p) L2) as [F1 F2].
  destruct (ink a (leaf_text x) (aim a p)) as [m1 p1] eqn:Ei. cbn [fst snd] in *.
  assert (P1 : pen_ok p1 l).
  { destruct (leaf_text x) as [|c s] eqn:Et.
    - cbn [ink] in Ei. injection Ei as _ <-. split; assumption.
    - destruct F2 as [[G1 G2]|[G1 G2]]; [discriminate| |].
      + split; [now rewrite G1, G2|]. eapply Forall_impl; [|exact L3]. intros y Hy. now rewrite G1.
      + split; [rewrite G1; apply above_irrefl|]. rewrite G1. destruct G2 as [-> | ->].
        * apply Forall_forall. intros y _ _. reflexivity.
        * exact HX. }
  specialize (IH p1 HA' P1). destruct (write (map turn l) p1) as [m2 p2]. cbn [fst] in *.
  unfold flat_leaves. cbn [flat_map]. apply Forall2_app; [|exact IH].
  destruct x as [[[s src] pos] name]. exact F1.
Qed.

Theorem effective_agrees n : asc (leaves n) -> Forall2 agrees (flat n) (effective (map turn (leaves n))).
Proof.
  intro H. apply write_agrees; [exact H|]. split; [reflexivity|]. apply Forall_forall. intros y _ _. reflexivity.
Qed.

(** ** Edits keep the order *)
Lemma FOP_app {A} (R : A -> A -> Prop) a b : ForallOrdPairs R (a ++ b) <->
  ForallOrdPairs R a /\ ForallOrdPairs R b /\ Forall (fun x => Forall (R x) b) a.
Proof.
  induction a as [|x a IH]; cbn [app].
  - split; [intro H; split; [constructor|split; [exact H|constructor]]|tauto].
  - split.
    + intro H. inversion H as [|x0 l0 H1 H2 Ex]; subst. apply Forall_app in H1 as [H1 H3]. apply IH in H2 as (H4 & H5 & H6).
      split; [constructor; auto|]. split; [exact H5|constructor; auto].
    + intros (H1 & H2 & H3). inversion H1 as [|x0 l0 H4 H5 Ex]; subst. inversion H3 as [|x0 l0 H6 H7 Ex]; subst.
      constructor; [apply Forall_app; auto|]. apply IH. auto.
Qed.

Lemma attr_with_text x s : leaf_attr (with_text x s) = leaf_attr x.
Proof. destruct x as [[[t src] pos] name]. reflexivity. Qed.
Lemma below_refl a : below a a.
Proof. intros _. apply above_irrefl. Qed.

Lemma split_asc l pos A B : split_leaves l pos = inl (A, B) -> A <> [] /\ B <> [] /\
  exists pre x post s1 s2, l = pre ++ x :: post /\ A = pre ++ [with_text x s1] /\ B = with_text x s2 :: post.
Proof.
  revert pos A B; induction l as [|x l IH]; intros pos A B E; cbn [split_leaves] in E; [discriminate|].
  destruct (_ <=? _)%Z.
  - injection E as E1 E2. subst A B. split; [discriminate|]. split; [discriminate|]. exists [], x, l. eexists _, _. repeat split.
  - destruct (split_leaves l _) as [[A' B']|] eqn:E'; [|discriminate]. injection E as E1 E2. subst A B.
    destruct (IH _ _ _ E') as (H1 & H2 & pre & y & post & s1 & s2 & -> & -> & ->).
    split; [discriminate|]. split; [exact H2|]. exists (x :: pre), y, post, s1, s2. repeat split.
Qed.

Lemma asc_split l pos A B S : split_leaves l pos = inl (A, B) -> asc (l ++ S) -> asc (A ++ B ++ S).
Proof.
  intros E H. destruct (split_asc l pos A B E) as (_ & _ & pre & x & post & s1 & s2 & -> & -> & ->).
  unfold asc in *. rewrite <- app_assoc in H |- *. cbn [app] in *.
  apply FOP_app in H as (H1 & H2 & H3). inversion H2 as [|x0 l0 H4 H5 Ex]; subst.
  apply FOP_app. split; [exact H1|]. split.
  - constructor.
    + constructor; [rewrite !attr_with_text; apply below_refl|]. eapply Forall_impl; [|exact H4]. intros y Hy. now rewrite attr_with_text.
    + constructor; [|exact H5]. eapply Forall_impl; [|exact H4]. intros y Hy. now rewrite attr_with_text.
  - eapply Forall_impl; [|exact H3]. intros y Hy. inversion Hy as [|x0 l0 Hy1 Hy2 Ex]; subst.
    constructor; [now rewrite attr_with_text|]. constructor; [now rewrite attr_with_text|exact Hy2].
Qed.

Lemma split_again l : forall pos pos' A B p, split_leaves l pos = inl (A, B) -> (pos' <= pos)%Z ->
  split_leaves A pos' <> inr p.
Proof.
  induction l as [|x l IH]; intros pos pos' A B p E Hp; cbn [split_leaves] in E; [discriminate|].
  destruct (Z.leb_spec pos (Z.of_nat (length (leaf_text x)))) as [Hx|Hx].
  - injection E as E1 E2. subst A B. cbn [split_leaves].
    assert (Hl : leaf_text (with_text x (firstn (Z.to_nat pos) (leaf_text x))) = firstn (Z.to_nat pos) (leaf_text x))
      by (destruct x as [[[s src] po] name]; reflexivity).
    rewrite Hl, firstn_length. rewrite (proj2 (Z.leb_le _ _)) by lia. discriminate.
  - destruct (split_leaves l _) as [[A' B']|] eqn:E'; [|discriminate]. injection E as E1 E2. subst A B.
    cbn [split_leaves]. destruct (Z.leb_spec pos' (Z.of_nat (length (leaf_text x)))); [discriminate|].
    destruct (split_leaves A' _) as [[A'' B'']|q] eqn:E2; [discriminate|]. exfalso.
    apply (IH _ (pos' - Z.of_nat (length (leaf_text x)))%Z _ _ q E'); [lia|exact E2].
Qed.

(** The node of a new text stands where the removed text stood. *)
Lemma asc_replacement r2 t x A S : is_node r2 -> leaves r2 <> [] -> replacement_to_sourcenode r2 t = Some x ->
  asc (A ++ leaves r2 ++ S) -> asc (A ++ leaves x ++ S).
Proof.
  intros Hn Hne E H. destruct (replacement_total r2 t Hn) as (src & pos & Ex & Hx). rewrite E in Ex. injection Ex as ->.
  rewrite leaves_sn_new. unfold asc in *. apply FOP_app in H as (H1 & H2 & H3). apply FOP_app in H2 as (_ & H4 & H5).
  assert (H3' : Forall (fun x => Forall (fun y => below (leaf_attr x) (leaf_attr y)) S) A).
  { eapply Forall_impl; [|exact H3]. intros y Hy. apply Forall_app in Hy. apply Hy. }
  destruct t as [|c t].
  - cbn [app]. apply FOP_app. auto.
  - set (P := fun a : option target => exists y, In y (leaves r2) /\ leaf_attr y = a).
    assert (HP : heads P (leaves r2)).
    { assert (G : forall l, (forall y, In y l -> In y (leaves r2)) -> heads P l).
      { induction l as [|y l IHl]; intro Hl; [exact I|]. cbn [heads]. split; [exists y; split; [apply Hl; now left|reflexivity]|].
        intros _. apply IHl. intros z Hz. apply Hl. now right. }
      apply G. auto. }
    destruct (Hx P HP Hne) as (a & (y & Iy & Ea) & Ed).
    apply FOP_app. split; [exact H1|]. split.
    + cbn [app]. constructor; [|exact H4]. cbn [leaf_attr]. rewrite Ed.
      rewrite Forall_forall in H5. specialize (H5 y Iy). eapply Forall_impl; [|exact H5]. intros z Hz Hnz.
      specialize (Hz Hnz). rewrite Ea in Hz. destruct a as [[[s p] n]|]; exact Hz.
    + apply Forall_forall. intros z Hz. rewrite Forall_forall in H3. specialize (H3 z Hz). apply Forall_app in H3 as [H3 H6].
      constructor; [|exact H6]. intro Hna. cbn [leaf_attr] in *. rewrite Ed in *. rewrite Forall_forall in H3.
      specialize (H3 y Iy). rewrite Ea in H3. destruct a as [[[s p] n]|]; [|now cbn in Hna]. apply H3. discriminate.
Qed.

Lemma replace_loop_asc rs : Forall (fun r => (rp_start_pos r <= rp_end_pos r)%Z) rs ->
  forall rem stack res, is_node rem -> asc (leaves rem ++ all_leaves stack) ->
  replace_node_loop rs (rem :: stack) = Some res -> asc (all_leaves res).
Proof.
  induction 1 as [|r rs Hr _ IH]; intros rem stack res Hn H E; cbn [replace_node_loop] in E.
  - injection E as <-. exact H.
  - assert (Ha : (rp_start_pos r < 2147483648)%Z) by apply to_i32_range.
    assert (Hb : (rp_end_pos r < 2147483648)%Z) by (unfold rp_end_pos; apply to_i32_range).
    destruct (split_node_leaves rem (rp_end_pos r) None None None Hb) as (o & Eo & Ho). rewrite Eo in E. cbn [bind] in E.
    destruct o as [l1 r1|p rem1].
    + destruct Ho as (S1 & Sh1 & Sh2). change (leaves_in None None None) with leaves in S1.
      pose proof (asc_split _ _ _ _ _ S1 H) as H1.
      destruct (split_node_leaves l1 (rp_start_pos r) None None None Ha) as (o & Eo2 & Ho). rewrite Eo2 in E. cbn [bind] in E.
      destruct o as [l2 r2|p' l1'].
      * destruct Ho as (S2 & Sh3 & Sh4). change (leaves_in None None None) with leaves in S2.
        pose proof (asc_split _ _ _ _ _ S2 H1) as H2. unb E as x E'.
        assert (N1 : is_node l1) by (eapply shape_node; eauto).
        assert (Hx := asc_replacement r2 (rp_text r) x (leaves l2) (leaves r1 ++ all_leaves stack)
                  (shape_node _ _ N1 Sh4) (proj1 (proj2 (split_asc _ _ _ _ S2))) E' H2).
        apply (IH l2 (x :: r1 :: stack) res); [eapply shape_node; eauto|exact Hx|exact E].
      * exfalso. destruct Ho as (S2 & _). exact (split_again _ _ _ _ _ _ S1 Hr S2).
    + destruct Ho as (S1 & L1 & Sh1). change (leaves_in None None None) with leaves in L1. rewrite <- L1 in H.
      destruct (split_node_leaves rem1 (rp_start_pos r) None None None Ha) as (o & Eo2 & Ho2). rewrite Eo2 in E. cbn [bind] in E.
      assert (N1 : is_node rem1) by (eapply shape_node; eauto).
      destruct o as [l2 r2|p' rem2].
      * destruct Ho2 as (S2 & Sh3 & Sh4). change (leaves_in None None None) with leaves in S2.
        pose proof (asc_split _ _ _ _ _ S2 H) as H2. unb E as x E'.
        assert (Hx := asc_replacement r2 (rp_text r) x (leaves l2) (all_leaves stack)
                  (shape_node _ _ N1 Sh4) (proj1 (proj2 (split_asc _ _ _ _ S2))) E' H2).
        apply (IH l2 (x :: stack) res); [eapply shape_node; eauto|exact Hx|exact E].
      * destruct Ho2 as (S2 & L2 & Sh2). change (leaves_in None None None) with leaves in L2.
        apply (IH rem2 (SmStr (rp_text r) :: stack) res); [eapply shape_node; eauto| |exact E].
        rewrite L2. unfold all_leaves. cbn [flat_map]. fold (all_leaves stack).
        unfold asc in *. apply FOP_app in H as (H1 & H2 & H3). apply FOP_app. split; [exact H1|]. split.
        -- cbn [app leaves leaves_in]. constructor; [|exact H2]. apply Forall_forall. intros y _ _. reflexivity.
        -- eapply Forall_impl; [|exact H3]. intros y Hy. cbn [app leaves leaves_in]. constructor; [|exact Hy].
           intro Hna. now cbn in Hna.
Qed.

Lemma replace_node_asc rs n n' : Forall (fun r => (rp_start_pos r <= rp_end_pos r)%Z) rs -> is_node n ->
  asc (leaves n) -> replace_node rs n = Some n' -> asc (leaves n').
Proof.
  intros Hr Hn H E. unfold replace_node in E. unb E as res E'. injection E as <-. unfold sn_new. rewrite leaves_root.
  cbn [add_chunk app]. apply (replace_loop_asc rs Hr n [] res Hn); [|exact E'].
  unfold all_leaves. cbn [flat_map]. now rewrite app_nil_r.
Qed.

(** ** Trees *)

Lemma rising_asc l : Forall nonempty l -> rising (flat_leaves l) -> asc l.
Proof.
  induction 1 as [|x l Hx Hl IH]; intro H; [constructor|]. unfold rising, flat_leaves in H. cbn [flat_map] in H.
  apply FOP_app in H as (H1 & H2 & H3). constructor; [|now apply IH].
  apply Forall_forall. intros y Hy.
  assert (Sx : exists c, In (c, leaf_attr x) (flat_leaf x)).
  { destruct x as [[[[|c s] src] pos] name]; [now elim Hx|]. exists c. now left. }
  assert (Sy : exists c, In (c, leaf_attr y) (flat_map flat_leaf l)).
  { rewrite Forall_forall in Hl. specialize (Hl y Hy). destruct y as [[[[|c s] src] pos] name]; [now elim Hl|].
    exists c. apply in_flat_map. eexists. split; [exact Hy|]. now left. }
  destruct Sx as (c1 & S1), Sy as (c2 & S2). rewrite Forall_forall in H3. specialize (H3 _ S1).
  rewrite Forall_forall in H3. exact (H3 _ S2).
Qed.

Theorem rising_in_order c m t M : chunks nonempty c m t -> attributed c m t M -> rising M -> orderly c m t.
Proof.
  intros Hc A R n E. apply attributed_flat in A as (n' & E' & F). rewrite E in E'. injection E' as <-.
  apply rising_asc; [now apply Hc|]. unfold flat in F. now rewrite F.
Qed.

Theorem in_order_replace c m h t : Forall call_ok h -> Forall edit_ok (edits_of h) -> Forall forward (edits_of h) ->
  usable t -> orderly c m t -> orderly c m (TReplace t (run h)).
Proof.
  intros Hh He Hf U H n' E'. destruct (node_total c m t U) as (n & E & In & _).
  unfold t_node in *. cbn [fold_tree] in E'. rewrite E in E'. cbn [bind node_alg a_replace] in E'.
  rewrite run_sorted in E' by auto.
  eapply replace_node_asc; [|exact In|apply H; exact E|exact E'].
  rewrite Forall_map.
  assert (G : Forall (fun e => edit_ok e /\ forward e) (map fst (rev (arranged (edits_of h))))).
  { rewrite map_rev, arranged_fst, <- Permutation_rev, <- arrange_perm. rewrite Forall_forall in *. auto. }
  rewrite Forall_map in G. eapply Forall_impl; [|exact G]. intros x [O F].
  destruct (rep_ok_to_repl x O) as (Es & Ee & _). rewrite Es, Ee. unfold forward in F. lia.
Qed.

Theorem in_order_emits c m t M : usable t -> orderly c m t -> attributed c m t M ->
  exists R, emits c m t R /\ Forall2 agrees M R.
Proof.
  intros U H A. destruct (node_total c m t U) as (n & E & _ & Ln). apply attributed_flat in A as (n' & E' & F).
  rewrite E in E'. injection E' as <-.
  destruct (emitted_effective n None None Ln) as (code & mp & es & Em & Ec & Er & Ea).
  exists (effective (map turn (leaves n))). split; [exists n, code, mp, es; auto|].
  rewrite <- F. apply effective_agrees. now apply H.
Qed.

(** ** In general: the own target, or the greater one of an empty chunk *)
Definition own_or_empty (L : list (option target * str)) (x y : char * option target) : Prop :=
  fst x = fst y /\ (snd y = snd x \/ In (snd y, []) L /\ above (snd y) (snd x) = true).

Definition known (L : list (option target * str)) (cur last : option target) : Prop :=
  cur = last \/ In (cur, []) L /\ above cur last = true.

Lemma ink_own L a : forall s p, known L (p_cur p) a -> p_last p = a -> s <> [] ->
  Forall2 (own_or_empty L) (mark a s) (fst (ink a s p)) /\
  (let p' := snd (ink a s p) in known L (p_cur p') (p_last p') /\ p_fresh p' = false).
Proof.
  induction s as [|c s IH]; intros p H HL Hs; [congruence|]. cbn [ink mark map].
  set (p' := if N.eqb c NL then _ else _).
  assert (F : own_or_empty L (c, a) (c, p_cur p)) by (split; [reflexivity|exact H]).
  destruct s as [|d s].
  - cbn [ink fst snd map]. split; [constructor; [exact F|constructor]|]. unfold p'. destruct (N.eqb c NL); cbn; split; auto.
    + now left.
    + now rewrite HL.
  - assert (Hp : known L (p_cur p') a /\ p_last p' = a).
    { unfold p'. destruct (N.eqb c NL); cbn; split; auto. now left. }
    destruct (IH p' (proj1 Hp) (proj2 Hp) ltac:(discriminate)) as [F1 F2].
    destruct (ink a (d :: s) p') as [m p'']. cbn [fst snd] in *. split; [|exact F2]. constructor; [exact F|exact F1].
Qed.

Lemma write_own L : forall l p, incl (map turn l) L -> known L (p_cur p) (p_last p) ->
  (p_fresh p = true -> In (p_cur p, []) L) ->
  Forall2 (own_or_empty L) (flat_leaves l) (fst (write (map turn l) p)).
Proof.
  induction l as [|x l IH]; intros p HI HK HF; [constructor|]. cbn [map write]. unfold turn at 1.
  set (a := leaf_attr x) in *.
  assert (HI' : incl (map turn l) L) by (intros y Hy; apply HI; now right).
  assert (K : known L (p_cur (aim a p)) a /\ p_last (aim a p) = a /\
              (p_fresh (aim a p) = true -> p_cur (aim a p) = a \/ In (p_cur (aim a p), []) L)).
  { unfold aim. destruct (same_target a (p_last p)) eqn:Es.
    - apply same_target_eq in Es. rewrite Es. auto.
    - cbn [p_cur p_last p_fresh]. destruct (p_fresh p).
      + destruct (greater_cases (p_cur p) a) as [[-> Hg]|[-> Hg]].
        * split; [right; auto|]. auto.
        * split; [now left|]. auto.
      + split; [now left|]. auto. }
  destruct K as (K1 & K2 & K3).
  assert (R : Forall2 (own_or_empty L) (mark a (leaf_text x)) (fst (ink a (leaf_text x) (aim a p))) /\
    (let p' := snd (ink a (leaf_text x) (aim a p)) in known L (p_cur p') (p_last p') /\ (p_fresh p' = true -> In (p_cur p', []) L))).
  { destruct (leaf_text x) as [|c s] eqn:Et.
    - cbn [ink fst snd mark map]. split; [constructor|]. rewrite K2. split; [exact K1|].
      intro Hf. destruct (K3 Hf) as [->|Hc]; [|exact Hc]. apply HI. left. unfold turn. now rewrite Et.
    - destruct (ink_own L a (c :: s) (aim a p) K1 K2 ltac:(discriminate)) as [F1 [F2 F3]].
      split; [exact F1|]. split; [exact F2|]. rewrite F3. discriminate. }
  destruct (ink a (leaf_text x) (aim a p)) as [m1 p1]. cbn [fst snd] in R. destruct R as (R1 & R2 & R3).
  specialize (IH p1 HI' R2 R3). destruct (write (map turn l) p1) as [m2 p2]. cbn [fst] in *.
  unfold flat_leaves. cbn [flat_map]. apply Forall2_app; [|exact IH]. destruct x as [[[s src] pos] name]. exact R1.
Qed.

Theorem effective_own n : Forall2 (own_or_empty (map turn (leaves n))) (flat n) (effective (map turn (leaves n))).
Proof. apply write_own; [apply incl_refl|now left|discriminate]. Qed.

(** ** Sources whose characters come in order *)
Lemma rising_app M1 M2 : rising M1 -> rising M2 ->
  (forall x y, In x M1 -> In y M2 -> below (snd x) (snd y)) -> rising (M1 ++ M2).
Proof.
  intros H1 H2 H. apply FOP_app. split; [exact H1|]. split; [exact H2|].
  apply Forall_forall. intros x Hx. apply Forall_forall. intros y Hy. auto.
Qed.
Lemma rising_mark a s : rising (mark a s).
Proof.
  induction s as [|c s IH]; [constructor|]. cbn [mark map]. constructor; [|exact IH].
  apply Forall_forall. intros y Hy. apply in_map_iff in Hy as (d & <- & _). apply below_refl.
Qed.

Lemma below_place name p q : ple p q -> below (Some (name, p, None)) (Some (name, q, None)).
Proof.
  intros H _. destruct p as [l c], q as [l' c']. unfold ple in H. cbn [drop_name above fst snd name_above] in *.
  rewrite Z.ltb_irrefl, Z.eqb_refl. cbn [orb andb].
  destruct (Z.ltb_spec l' l), (Z.eqb_spec l' l), (Z.ltb_spec c' c), (Z.eqb_spec c' c); cbn; try reflexivity; lia.
Qed.

Lemma fold_le (adv : place -> char -> place) : (forall p c, ple p (adv p c)) -> forall t p, ple p (fold_left adv t p).
Proof.
  intros H. induction t as [|c t IH]; intro p; cbn [fold_left]; [unfold ple; lia|].
  pose proof (H p c). pose proof (IH (adv p c)). unfold ple in *. lia.
Qed.

Lemma tokens_after adv name : (forall p c, ple p (adv p c)) -> forall ts p x, In x (mark_tokens adv name p ts) ->
  snd x = None \/ exists q, snd x = Some (name, q, None) /\ ple p q.
Proof.
  intros Hadv. induction ts as [|t ts IH]; intros p x Hx; [destruct Hx|]. cbn [mark_tokens] in Hx. apply in_app_or in Hx as [Hx|Hx].
  - apply in_map_iff in Hx as (c & <- & _). cbn [snd]. destruct (forallb is_ws t); [now left|]. right. exists p. split; [reflexivity|unfold ple; lia].
  - destruct (IH _ _ Hx) as [H|(q & H & Hq)]; [now left|]. right. exists q. split; [exact H|].
    pose proof (fold_le adv Hadv t p). unfold ple in *. lia.
Qed.
Lemma tokens_rising adv name : (forall p c, ple p (adv p c)) -> forall ts p, rising (mark_tokens adv name p ts).
Proof.
  intros Hadv. induction ts as [|t ts IH]; intro p; [constructor|]. cbn [mark_tokens]. apply rising_app; [apply rising_mark|apply IH|].
  intros x y Hx Hy. apply in_map_iff in Hx as (c & <- & _). cbn [snd].
  destruct (forallb is_ws t); [intros _; reflexivity|].
  destruct (tokens_after adv name Hadv _ _ _ Hy) as [->|(q & -> & Hq)]; [intro H; congruence|].
  apply below_place. pose proof (fold_le adv Hadv t p). unfold ple in *. lia.
Qed.
Lemma advance_bytes_le p c : ple p (advance_bytes p c).
Proof. unfold advance_bytes, ple. destruct (N.eqb c NL); cbn; lia. Qed.

Lemma lines_after name : forall s line x, In x (mark_lines name line s) -> exists l, snd x = Some (name, (l, 0%Z), None) /\ (line <= l)%Z.
Proof.
  induction s as [|c s IH]; intros line x Hx; [destruct Hx|]. destruct Hx as [<-|Hx]; [exists line; split; [reflexivity|lia]|].
  destruct (IH _ _ Hx) as (l & H & Hl). exists l. split; [exact H|]. destruct (N.eqb c NL); lia.
Qed.
Lemma lines_rising name : forall s line, rising (mark_lines name line s).
Proof.
  induction s as [|c s IH]; intro line; [constructor|]. cbn [mark_lines]. constructor; [|apply IH].
  apply Forall_forall. intros y Hy. destruct (lines_after _ _ _ _ Hy) as (l & E & Hl). cbn [snd]. rewrite E.
  apply below_place. unfold ple. cbn. destruct (N.eqb c NL); lia.
Qed.
Lemma rising_files M1 M2 : rising M1 -> rising M2 -> (forall s t, In s (files M1) -> In t (files M2) -> (s < t)%Z) ->
  rising (M1 ++ M2).
Proof.
  intros H1 H2 H. apply rising_app; auto. intros [c a] [d b] Hx Hy Hb. cbn [snd] in *.
  destruct a as [[[s [l k]] n]|]; [|reflexivity]. destruct b as [[[s' [l' k']] n']|]; [|congruence].
  assert (L : (s < s')%Z).
  { apply H; apply in_flat_map; eexists; (split; [eassumption|]); cbn; auto. }
  cbn [drop_name above]. rewrite (proj2 (Z.ltb_ge _ _)) by lia. rewrite (proj2 (Z.eqb_neq _ _)) by lia. reflexivity.
Qed.
