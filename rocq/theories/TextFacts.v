(** Proofs about the text of sources: concatenation, prefixing, editing, size. *)
From Verif Require Import Base Tactics ModelString StringFacts ModelVlq ModelSm ModelSlm
  ModelSources ModelTree SpecText SortFacts.

(** ** Induction on trees *)
Fixpoint tree_ind' (P : tree -> Prop)
    (HStr : forall s, P (TStr s)) (HRaw : forall v, P (TRaw v))
    (HOrig : forall v i n, P (TOriginal v i n)) (HL2L : forall v n o, P (TL2L v n o))
    (HPre : forall p t, P t -> P (TPrefix p t)) (HRep : forall t st, P t -> P (TReplace t st))
    (HCon : forall l, Forall P l -> P (TConcat l)) (HSms : forall x, P (TSms x)) (t : tree) : P t :=
  let rec := tree_ind' P HStr HRaw HOrig HL2L HPre HRep HCon HSms in
  match t with
  | TStr s => HStr s
  | TRaw v => HRaw v
  | TOriginal v i n => HOrig v i n
  | TL2L v n o => HL2L v n o
  | TPrefix p t => HPre p t (rec t)
  | TReplace t st => HRep t st (rec t)
  | TConcat l =>
      HCon l ((fix go (l : list tree) : Forall P l :=
                 match l with
                 | [] => Forall_nil P
                 | x :: r => Forall_cons x (rec x) (go r)
                 end) l)
  | TSms x => HSms x
  end.

(** The children of a concatenation, as a function of its own. *)
Definition child {A} (a : alg A) (x : tree) : option (str + A) :=
  match x with
  | TStr s => Some (inl s)
  | _ => let* v := fold_tree a x in Some (inr v)
  end.
Fixpoint children {A} (a : alg A) (l : list tree) : option (list (str + A)) :=
  match l with
  | [] => Some []
  | x :: r => let* y := child a x in let* ys := children a r in Some (y :: ys)
  end.
Lemma fold_concat {A} (a : alg A) l :
  fold_tree a (TConcat l) = let* xs := children a l in a_concat a xs.
Proof.
  cbn [fold_tree]. f_equal. induction l as [|x l IH]; [reflexivity|].
  cbn [children]. rewrite <- IH. reflexivity.
Qed.

(** ** Prefix *)
Lemma indent_app_nl p a b : ~ In NL a -> b <> [] ->
  indent p (a ++ NL :: b) = a ++ NL :: p ++ indent p b.
Proof.
  intros Ha Hb. induction a as [|c a IH].
  - destruct b; [congruence|]. reflexivity.
  - assert (Hc : N.eqb c NL = false) by (apply N.eqb_neq; intro; apply Ha; simpl; auto).
    change ((c :: a) ++ NL :: b) with (c :: (a ++ NL :: b)).
    cbn [indent]. rewrite Hc.
    destruct (a ++ NL :: b) eqn:E; [destruct a; discriminate|].
    rewrite IH by (intro; apply Ha; simpl; auto). reflexivity.
Qed.
Lemma indent_no_nl p a : ~ In NL a -> indent p a = a.
Proof.
  induction a as [|c a IH]; intro Ha; [reflexivity|].
  cbn [indent]. destruct a; [reflexivity|].
  replace (N.eqb c NL) with false by (symmetry; apply N.eqb_neq; intro; apply Ha; simpl; auto).
  rewrite IH; auto. intro; apply Ha; simpl; auto.
Qed.
Lemma indent_nl_end p a : ~ In NL a -> indent p (a ++ [NL]) = a ++ [NL].
Proof.
  induction a as [|c a IH]; intro Ha; [reflexivity|].
  change ((c :: a) ++ [NL]) with (c :: (a ++ [NL])). cbn [indent].
  replace (N.eqb c NL) with false by (symmetry; apply N.eqb_neq; intro; apply Ha; simpl; auto).
  rewrite IH by (intro; apply Ha; simpl; auto).
  destruct (a ++ [NL]); reflexivity.
Qed.

Lemma nl_ascii : is_ascii NL = true. Proof. reflexivity. Qed.

Lemma prefix_loop_S f it p : prefix_loop (S f) it p =
  (let* (it, o) := split_next it in
   match o with
   | None => Some []
   | Some line =>
       let extra := match sp_rest it with
         | Some rest => match rest with [] => [] | _ => p end | None => [] end in
       let* rest := prefix_loop f it p in Some (line ++ extra ++ rest)
   end).
Proof. reflexivity. Qed.

Lemma prefix_loop_spec p fuel s : length s + 2 <= fuel ->
  prefix_loop fuel (mk_split true (Some s) NL true) p = Some (indent p s).
Proof.
  revert s; induction fuel as [|f IH]; intros s Hf; [lia|].
  rewrite prefix_loop_S, split_next_keep by reflexivity.
  destruct (cut NL s) as [[a b]|] eqn:E; cbn [bind].
  - pose proof (cut_length _ _ _ _ E). apply cut_some in E as [-> Ha].
    cbn [sp_rest]. rewrite IH by lia. cbn [bind]. f_equal.
    destruct b as [|c b].
    + rewrite indent_nl_end by auto. now rewrite !app_nil_r.
    + rewrite indent_app_nl by (auto; discriminate). now rewrite <- app_assoc.
  - apply cut_none in E. destruct f; [lia|]. cbn. rewrite app_nil_r.
    now rewrite indent_no_nl.
Qed.

Lemma make_prefixed_string_spec s p front :
  make_prefixed_string s p front = Some ((if front then p else []) ++ indent p s).
Proof. unfold make_prefixed_string, ss_split_keep, split_new. now rewrite prefix_loop_spec by lia. Qed.

Lemma prefix_source_spec p s : prefix_source p s = Some (prefixed p s).
Proof. unfold prefix_source. now rewrite make_prefixed_string_spec. Qed.

(** ** Edits *)
Definition flag_ok (s : str) (f : bool) : Prop := f = true -> forallb is_ascii s = true.

Lemma forallb_firstn {A} (f : A -> bool) n l : forallb f l = true -> forallb f (firstn n l) = true.
Proof.
  rewrite !forallb_forall. intros H x Hx. apply H.
  rewrite <- (firstn_skipn n l). apply in_or_app; auto.
Qed.
Lemma forallb_skipn {A} (f : A -> bool) n l : forallb f l = true -> forallb f (skipn n l) = true.
Proof.
  rewrite !forallb_forall. intros H x Hx. apply H.
  rewrite <- (firstn_skipn n l). apply in_or_app; auto.
Qed.

Lemma split_str_or_all_spec s pos f : (pos < 2147483648)%Z -> flag_ok s f ->
  exists lf rf,
    split_str_or_all s pos f =
      Some (firstn (Z.to_nat pos) s, skipn (Z.to_nat pos) s, lf, rf) /\
    flag_ok (firstn (Z.to_nat pos) s) lf /\ flag_ok (skipn (Z.to_nat pos) s) rf.
Proof.
  intros Hp Hf. unfold split_str_or_all. destruct f.
  - specialize (Hf eq_refl). rewrite split_str_fast by auto. cbn [bind].
    destruct (Z.leb_spec pos 0).
    + replace (Z.to_nat pos) with 0 by lia. simpl. exists true, true.
      repeat split; auto; congruence.
    + destruct (Z.ltb_spec pos (Z.of_nat (length s))).
      * exists true, true. repeat split; intro; auto using forallb_firstn, forallb_skipn.
      * rewrite firstn_all2, skipn_all2 by lia. exists true, true. repeat split; intro; auto.
  - rewrite split_str_chars by auto. cbn [bind].
    destruct (Z.leb_spec pos 0).
    + replace (Z.to_nat pos) with 0 by lia. simpl. exists true, false.
      repeat split; auto; unfold flag_ok; congruence.
    + destruct (Z.leb_spec pos (Z.of_nat (length s))).
      * exists false, false. repeat split; unfold flag_ok; congruence.
      * rewrite firstn_all2, skipn_all2 by lia. exists false, true.
        repeat split; auto; unfold flag_ok; congruence.
Qed.

Lemma to_i32_range z : (-2147483648 <= to_i32 z < 2147483648)%Z.
Proof. unfold to_i32. pose proof (Z.mod_pos_bound (z + 2147483648) 4294967296). lia. Qed.

(** The exact result of the replacement loop on any list of replacements. *)
Fixpoint splice (rs : list repl) (s : str) (L : nat) : str :=
  match rs with
  | [] => firstn L s
  | r :: rest =>
      let E := Nat.min L (Z.to_nat (rp_end_pos r)) in
      let L' := Nat.min E (Z.to_nat (rp_start_pos r)) in
      splice rest s L' ++ rp_text r ++ piece_of s E L
  end.

Lemma firstn_min {A} (l : list A) a b : firstn a (firstn b l) = firstn (Nat.min a b) l.
Proof. apply firstn_firstn. Qed.

Lemma piece_firstn {A} (s : list A) E L n :
  E = Nat.min L n -> skipn n (firstn L s) = piece_of s E L.
Proof.
  intros ->. unfold piece_of. rewrite skipn_firstn_comm.
  destruct (Nat.le_gt_cases n L).
  - rewrite Nat.min_r by lia. reflexivity.
  - rewrite Nat.min_l by lia. replace (L - n) with 0 by lia. replace (L - L) with 0 by lia. reflexivity.
Qed.

Lemma replace_loop_spec rs s L f stack : flag_ok (firstn L s) f ->
  exists res, replace_loop rs ((firstn L s, f) :: stack) = Some res /\
    flat_map fst res = splice rs s L ++ flat_map fst stack.
Proof.
  revert L f stack; induction rs as [|r rs IH]; intros L f stack Hf.
  - eexists; split; [reflexivity|]. reflexivity.
  - cbn [replace_loop].
    destruct (split_str_or_all_spec (firstn L s) (rp_end_pos r) f) as (lf1 & rf1 & E1 & F1 & F2); auto.
    { pose proof (to_i32_range (to_i32 (Z.shiftr (rp_end r) 4) + 1)). unfold rp_end_pos. lia. }
    rewrite E1. cbn [bind].
    destruct (split_str_or_all_spec (firstn (Z.to_nat (rp_end_pos r)) (firstn L s)) (rp_start_pos r) lf1)
      as (lf2 & rf2 & E2 & F3 & F4); auto.
    { pose proof (to_i32_range (Z.shiftr (rp_start r) 4)). unfold rp_start_pos. lia. }
    rewrite E2. cbn [bind].
    rewrite !firstn_min in *.
    edestruct IH as (res & -> & Hres); [exact F3|].
    exists res; split; auto. rewrite Hres. cbn [splice flat_map fst].
    rewrite <- !app_assoc. f_equal.
    { f_equal. lia. }
    f_equal. f_equal. apply piece_firstn. lia.
Qed.

Lemma replace_text_spec rs s : replace_text rs s = Some (splice rs s (length s)).
Proof.
  unfold replace_text.
  destruct (replace_loop_spec rs s (length s) false []) as (res & E & H).
  { unfold flag_ok; congruence. }
  rewrite firstn_all in E. change (list char) with str in E. rewrite E. cbn [bind]. rewrite H. simpl. now rewrite app_nil_r.
Qed.
