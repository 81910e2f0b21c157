(** Chunks of sources with edits: their targets are among those of the source without its
    edits, and in the same order. *)
From Verif Require Import Base Tactics ModelString StringFacts ModelVlq ModelSm ModelSlm ModelSources ModelTree ModelWasm
  ModelJs ModelJsApi ModelJsResult SpecText SpecMap SpecAttr SpecEdit SpecEffect SortFacts TextFacts EditFacts NodeFacts LeafFacts ParseFacts MapFacts GenFacts SmsProps ReplaceNode NodeTree
  IdxFacts EffectFacts EffectOrder JsFacts Utf16Facts JsTextProps SpecResult ResultFacts ResultProps SpecJs ModelEnd SpecEnd EndFacts EndProps ContentFacts EndMap SpecEdited.

(** ** Targets of edited nodes *)
Definition toned (P : option target -> Prop) (l : list leaf) : Prop := Forall (fun x => P (drop_name (leaf_attr x))) l.
Lemma toned_app P a b : toned P (a ++ b) <-> toned P a /\ toned P b.
Proof. apply Forall_app. Qed.
Lemma toned_split P l pos A B : split_leaves l pos = inl (A, B) -> toned P l -> toned P A /\ toned P B.
Proof.
  intros E H. destruct (split_asc l pos A B E) as (_ & _ & pre & x & post & s1 & s2 & -> & -> & ->).
  apply toned_app in H as [H1 H2]. inversion H2 as [|x0 l0 H4 H5 Ex]; subst. split; [apply toned_app; split; [exact H1|]|]; (constructor; [now rewrite attr_with_text|]); auto.
Qed.
Lemma drop_twice a : drop_name (drop_name a) = drop_name a.
Proof. now destruct a as [[[s p] n]|]. Qed.
Lemma toned_replacement P r2 t x : is_node r2 -> leaves r2 <> [] -> replacement_to_sourcenode r2 t = Some x -> toned P (leaves r2) -> toned P (leaves x).
Proof.
  intros Hn Hne E H. destruct (replacement_total r2 t Hn) as (src & pos & Ex & Hx). rewrite E in Ex. injection Ex as ->. rewrite leaves_sn_new.
  destruct t as [|c t]; [constructor|]. constructor; [|constructor]. cbn [leaf_attr].
  destruct (Hx (fun a => P (drop_name a))) as (a & Pa & ->); [|exact Hne|now rewrite drop_twice].
  clear - H. induction H as [|z l Hz _ IH]; [exact I|]. split; auto.
Qed.
Lemma replace_loop_toned (P : option target -> Prop) rs : P None ->
  forall rem stack res, is_node rem -> toned P (leaves rem) -> toned P (all_leaves stack) ->
  replace_node_loop rs (rem :: stack) = Some res -> toned P (all_leaves res).
Proof.
  intro P0. induction rs as [|r rs IH]; intros rem stack res Hn H Hs E; cbn [replace_node_loop] in E.
  - injection E as <-. apply toned_app. auto.
  - assert (Ha : (rp_start_pos r < 2147483648)%Z) by apply to_i32_range.
    assert (Hb : (rp_end_pos r < 2147483648)%Z) by (unfold rp_end_pos; apply to_i32_range).
    destruct (split_node_leaves rem (rp_end_pos r) None None None Hb) as (o & Eo & Ho). rewrite Eo in E. cbn [bind] in E.
    destruct o as [l1 r1|p rem1].
    + destruct Ho as (S1 & Sh1 & Sh2). change (leaves_in None None None) with leaves in S1.
      destruct (toned_split P _ _ _ _ S1 H) as [H1 H2].
      destruct (split_node_leaves l1 (rp_start_pos r) None None None Ha) as (o & Eo2 & Ho). rewrite Eo2 in E. cbn [bind] in E.
      assert (N1 : is_node l1) by exact (shape_node _ _ Hn Sh1). assert (N2 : is_node r1) by exact (shape_node _ _ Hn Sh2).
      destruct o as [l2 r2|p' l1'].
      * destruct Ho as (S2 & Sh3 & Sh4). change (leaves_in None None None) with leaves in S2.
        destruct (toned_split P _ _ _ _ S2 H1) as [H3 H4]. unb E as x E'.
        assert (Hx := toned_replacement P r2 (rp_text r) x (shape_node _ _ N1 Sh4) (proj1 (proj2 (split_asc _ _ _ _ S2))) E' H4).
        apply (IH l2 (x :: r1 :: stack) res); [exact (shape_node _ _ N1 Sh3)|exact H3| |exact E].
        apply toned_app. split; [exact Hx|]. apply toned_app. auto.
      * destruct Ho as (S2 & L2 & Sh3). change (leaves_in None None None) with leaves in L2. unb E as x E'.
        assert (Hx := toned_replacement P r1 (rp_text r) x N2 (proj1 (proj2 (split_asc _ _ _ _ S1))) E' H2).
        apply (IH l1' (x :: r1 :: stack) res); [exact (shape_node _ _ N1 Sh3)|now rewrite L2| |exact E].
        apply toned_app. split; [exact Hx|]. apply toned_app. auto.
    + destruct Ho as (S1 & L1 & Sh1). change (leaves_in None None None) with leaves in L1. rewrite <- L1 in H.
      destruct (split_node_leaves rem1 (rp_start_pos r) None None None Ha) as (o & Eo2 & Ho2). rewrite Eo2 in E. cbn [bind] in E.
      assert (N1 : is_node rem1) by exact (shape_node _ _ Hn Sh1).
      destruct o as [l2 r2|p' rem2].
      * destruct Ho2 as (S2 & Sh3 & Sh4). change (leaves_in None None None) with leaves in S2.
        destruct (toned_split P _ _ _ _ S2 H) as [H3 H4]. unb E as x E'.
        assert (Hx := toned_replacement P r2 (rp_text r) x (shape_node _ _ N1 Sh4) (proj1 (proj2 (split_asc _ _ _ _ S2))) E' H4).
        apply (IH l2 (x :: stack) res); [exact (shape_node _ _ N1 Sh3)|exact H3|apply toned_app; auto|exact E].
      * destruct Ho2 as (S2 & L2 & Sh2). change (leaves_in None None None) with leaves in L2.
        apply (IH rem2 (SmStr (rp_text r) :: stack) res); [exact (shape_node _ _ N1 Sh2)|now rewrite L2| |exact E].
        constructor; [exact P0|exact Hs].
Qed.
Lemma replace_toned (P : option target -> Prop) rs n n' : P None -> is_node n -> toned P (leaves n) -> replace_node rs n = Some n' -> toned P (leaves n').
Proof.
  intros P0 Hn H E. unfold replace_node in E. unb E as res E'. injection E as <-. unfold sn_new. rewrite leaves_root.
  cbn [add_chunk app]. apply (replace_loop_toned P rs P0 n [] res Hn H); [constructor|exact E'].
Qed.

(** ** Chunks of trees *)
Section Leaves.
  Variables (c m : bool).
  Definition has_leaves (t : tree) (L : list leaf) : Prop :=
    match t with TStr s => L = [(s, None, None, None)] | _ => exists n, t_node c m t = Some n /\ leaves n = L end.
  Lemma has_node t L : (match t with TStr _ => False | _ => True end) -> has_leaves t L -> exists n, t_node c m t = Some n /\ leaves n = L.
  Proof. destruct t; auto. intros []. Qed.
  Lemma node_has t n : t_node c m t = Some n -> has_leaves t (leaves n).
  Proof. intro E. destruct t; try (exists n; auto). discriminate. Qed.
  Lemma leaves_concat ts Ls : Forall2 has_leaves ts Ls -> has_leaves (TConcat ts) (concat Ls).
  Proof.
    intro H.
    assert (G : exists ys, Forall2 (child_node c m) ts ys /\
      flat_map (fun y : str + smnode => match y with inl s => [(s, None, None, None)] | inr n => leaves n end) ys = concat Ls).
    { induction H as [|x L ts Ls Hx _ (ys & E & F)]; [exists []; auto|].
      assert (G : exists y, child_node c m x y /\ match y with inl s => [(s, None, None, None)] | inr n => leaves n end = L).
      { unfold has_leaves in Hx. destruct x; try (destruct Hx as (n & En & El); exists (inr n); split; [exists n; auto|exact El]).
        exists (inl s). split; [reflexivity|]. now subst. }
      destruct G as (y & Ey & Fy). exists (y :: ys). split; [constructor; auto|]. cbn [flat_map concat]. now rewrite Fy, F. }
    destruct G as (ys & E & F). eexists. split; [apply children_nodes; exact E|]. now rewrite concat_leaves.
  Qed.
  Lemma leaves_children ts L : has_leaves (TConcat ts) L -> exists Ls, Forall2 has_leaves ts Ls /\ concat Ls = L.
  Proof.
    intros (n & E & <-). unfold t_node in E. rewrite fold_concat in E. unb E as ys E0. cbn [node_alg a_concat] in E. injection E as <-.
    change (sn_new None None None _) with (concat_node ys). rewrite concat_leaves.
    revert ys E0. induction ts as [|x ts IH]; intros ys E; cbn [children] in E; [injection E as <-; exists []; auto|].
    unb E as y E1. unb E as r E2. injection E as <-. destruct (IH _ E2) as (Ls & A & B). eexists (_ :: Ls). cbn [flat_map concat]. rewrite B. split; [|reflexivity].
    constructor; [|exact A]. clear - E1. unfold child in E1. destruct x; try (unb E1 as n E2; injection E1 as <-; exists n; auto). injection E1 as <-. reflexivity.
  Qed.
  Lemma leaves_add ts Ls : Forall2 has_leaves ts Ls -> has_leaves (TConcat (fold_left concat_add ts [])) (concat Ls).
  Proof.
    intro H.
    assert (X : forall acc La, Forall2 has_leaves acc La -> exists Lb, Forall2 has_leaves (fold_left concat_add ts acc) Lb /\ concat Lb = concat La ++ concat Ls).
    { induction H as [|t L ts Ls Ht _ IH]; intros acc La Ha; cbn [fold_left].
      - exists La. cbn [concat]. rewrite app_nil_r. auto.
      - assert (Y : exists ks Lk, concat_add acc t = acc ++ ks /\ Forall2 has_leaves ks Lk /\ concat Lk = L).
        { destruct t; try (eexists [_], [L]; split; [reflexivity|]; split; [constructor; [exact Ht|constructor]|apply app_nil_r]).
          destruct (leaves_children _ _ Ht) as (Lk & F & C). exists children, Lk. auto. }
        destruct Y as (ks & Lk & -> & K1 & K2). destruct (IH (acc ++ ks) (La ++ Lk)) as (Lb & B1 & B2); [apply Forall2_app; auto|].
        exists Lb. split; [exact B1|]. rewrite B2, concat_app, K2. cbn [concat]. now rewrite app_assoc. }
    destruct (X [] [] (Forall2_nil _)) as (Lb & B1 & B2). cbn in B2. rewrite <- B2. now apply leaves_concat.
  Qed.
  Lemma usable_add ts : Forall usable_child ts -> usable (TConcat (fold_left concat_add ts [])).
  Proof.
    intro H. apply usable_concat. assert (X : forall acc, Forall usable_child acc -> Forall usable_child (fold_left concat_add ts acc)); [|now apply X].
    induction H as [|t ts Ht _ IH]; intros acc Ha; cbn [fold_left]; [exact Ha|]. apply IH.
    destruct t; try (apply Forall_app; split; [exact Ha|constructor; [exact Ht|constructor]]). apply Forall_app. split; [exact Ha|now apply usable_concat].
  Qed.
  Lemma idx_add P Q R ts : Forall (tree_idx P Q R) ts -> tree_idx P Q R (TConcat (fold_left concat_add ts [])).
  Proof.
    intro H. apply tree_idx_concat. assert (X : forall acc, Forall (tree_idx P Q R) acc -> Forall (tree_idx P Q R) (fold_left concat_add ts acc)); [|now apply X].
    induction H as [|t ts Ht _ IH]; intros acc Ha; cbn [fold_left]; [exact Ha|]. apply IH.
    destruct t; try (apply Forall_app; split; [exact Ha|constructor; [exact Ht|constructor]]). apply Forall_app. split; [exact Ha|now apply tree_idx_concat].
  Qed.
End Leaves.

(** The sources of the chunks of a node. *)
Lemma leaves_idx P Q R n : node_idx P Q R n -> forall src pos name, opt_all P src -> opt_all Q name ->
  Forall (fun x : leaf => let '(_, s, _, nm) := x in opt_all P s /\ opt_all Q nm) (leaves_in src pos name n).
Proof.
  induction n as [s|po sr nm ch ct IH] using smnode_ind'; intros H src pos name Hs Hn; cbn [leaves_in].
  - constructor; [auto|constructor].
  - apply node_idx_node in H as (H1 & H2 & _ & H3). apply Forall_flat_map. rewrite Forall_forall in *. intros x Hx. apply IH; auto.
Qed.
Definition source_in (P : Z -> Prop) (x : char * option target) : Prop := match snd x with Some (s, _, _) => P s | None => True end.
Lemma flat_sources P Q R n : node_idx P Q R n -> Forall (source_in P) (flat n).
Proof.
  intro H. unfold flat, flat_leaves. apply Forall_flat_map. eapply Forall_impl; [|apply (leaves_idx P Q R n H None None None); exact I].
  intros [[[s src] pos] nm] [Hs _]. unfold flat_leaf, mark. apply Forall_map. apply Forall_forall. intros c _. unfold source_in. cbn.
  destruct src as [z|]; [|exact I]. destruct pos as [[l k]|]; [exact Hs|exact I].
Qed.

(** ** Renaming edited texts *)
Lemma texts_map {A B} (f : A -> B) ps pos : map f (texts_at ps pos) = texts_at (map (fun p => (fst p, map f (snd p))) ps) pos.
Proof.
  unfold texts_at. induction ps as [|[k t] ps IH]; [reflexivity|]. cbn. rewrite map_app, IH. destruct (k =? pos); reflexivity.
Qed.
Lemma woven_map {A B} (f : A -> B) ps keep s : map f (woven ps keep s) = woven (map (fun p => (fst p, map f (snd p))) ps) keep (map f s).
Proof.
  unfold woven. rewrite map_app, texts_map, map_length. f_equal. generalize 0 as pos.
  induction s as [|c s IH]; intro pos; cbn [weave map]; [reflexivity|]. rewrite !map_app, texts_map, IH. destruct (keep pos); reflexivity.
Qed.
Lemma gplaces_map {A B} (f : A -> B) len es : map (fun p => (fst p, map f (snd p))) (gplaces len es) = gplaces len (map (fun p => (fst p, map f (snd p))) es).
Proof.
  induction es as [|e es IH]; [reflexivity|]. cbn [gplaces map fst snd]. rewrite IH. f_equal. f_equal. cbn [map fst]. rewrite map_map. reflexivity.
Qed.
Lemma edited_retarget F es ts M : retarget F (edited_marked es ts M) = edited_marked es (map F ts) (retarget F M).
Proof.
  unfold edited_marked, retarget. rewrite woven_map, gplaces_map, map_map, map_length. f_equal. f_equal.
  generalize (arrange key_le es). intro l. revert ts. induction l as [|e l IH]; intros [|t ts]; [reflexivity..|]. cbn [combine map fst snd]. rewrite IH. f_equal. f_equal.
  unfold mark. rewrite map_map. reflexivity.
Qed.
Lemma rename_drop f a : rename f (drop_name a) = drop_name (rename f a).
Proof. now destruct a as [[[s p] [n|]]|]. Qed.
Lemma attr_at_retarget f M i : attr_at (retarget (rename f) M) i = rename f (attr_at M i).
Proof. unfold attr_at, retarget. rewrite nth_error_map. destruct (nth_error M (Z.to_nat i)) as [[c a]|]; reflexivity. Qed.
Lemma new_target_rename f M e t : new_target M e t -> new_target (retarget (rename f) M) e (rename f t).
Proof.
  intros (H1 & H2 & H3). unfold new_target. rewrite !attr_at_retarget, <- !rename_drop. unfold retarget at 1 2. rewrite map_length.
  split; [intro H; now rewrite (H1 H)|]. split; [intro H; now rewrite (H2 H)|]. intro H. destruct (H3 H) as [->|[Ha ->]]; auto.
Qed.
Lemma edited_text es ts M (X : char -> Prop) : Forall (fun e => Forall X (e_text e)) es -> Forall X (text_of M) -> Forall X (text_of (edited_marked es ts M)).
Proof.
  intros He HM. unfold edited_marked, woven, text_of in *. rewrite map_app. rewrite Forall_map in HM.
  assert (T : forall pos, Forall X (map fst (texts_at (gplaces (length M) (map (fun p => (fst p, mark (snd p) (e_text (fst p)))) (combine (arrange key_le es) ts))) pos))).
  { intro pos. assert (A : Forall (fun e => Forall X (e_text e)) (arrange key_le es)) by (rewrite <- arrange_perm; exact He).
    clear - A. unfold texts_at. revert ts. induction A as [|e l H1 H2 IH]; intros ts; [constructor|]. destruct ts as [|t ts]; [constructor|].
    cbn [combine map gplaces flat_map]. rewrite map_app. apply Forall_app. split; [|apply IH]. cbn [fst snd]. destruct (_ =? pos); [|constructor]. unfold mark. rewrite map_map, map_id. exact H1. }
  apply Forall_app. split; [|apply T]. generalize 0 as pos. revert HM T. generalize (gplaces (length M) (map (fun p => (fst p, mark (snd p) (e_text (fst p)))) (combine (arrange key_le es) ts))).
  intros ps HM T. induction HM as [|x M Hx _ IH]; intro pos; cbn [weave]; [constructor|]. rewrite !map_app. apply Forall_app. split; [apply T|]. apply Forall_app.
  split; [|apply IH]. destruct (negb _); repeat constructor. exact Hx.
Qed.

(** ** Prefixes *)
Lemma prefixed_more_front p a M M' : prefixed_at p false M M' -> prefixed_at p true M (mark a p ++ M').
Proof.
  intro H. inversion H as [b Eb|a' Eb|b c a0 a' M1 M1' H1 Eb]; subst; [rewrite app_nil_r; apply prefixed_more|]. apply (prefixed_char p true c a0 a M1 M1' H1).
Qed.
Lemma prefixed_mark p a s : s <> [] -> forall b M M', prefixed_at p (ends_with NL s) M M' ->
  prefixed_at p b (mark a s ++ M) (mark a ((if b then p else []) ++ indent p s) ++ M').
Proof.
  induction s as [|c s IH]; intros Hs b M M' H; [now elim Hs|]. rewrite mark_app, <- app_assoc.
  destruct s as [|d s].
  - assert (Ei : indent p [c] = [c]) by (cbn [indent]; destruct (N.eqb c NL); reflexivity). rewrite Ei. destruct b; [exact (prefixed_char p true c a a M M' H)|exact (prefixed_char p false c a a M M' H)].
  - specialize (IH ltac:(discriminate) (N.eqb c NL) M M' H).
    change (indent p (c :: d :: s)) with (if N.eqb c NL then c :: p ++ indent p (d :: s) else c :: indent p (d :: s)).
    assert (K := fun b0 => prefixed_char p b0 c a a _ _ IH). destruct (N.eqb c NL), b; first [exact (K true)|exact (K false)].
Qed.
Lemma prefixed_leaves p l : forall b, prefixed_at p b (flat_leaves l) (flat_leaves (fst (pre_leaves p b l))).
Proof.
  induction l as [|[[[s src] pos] name] l IH]; intro b; [apply prefixed_end|]. cbn [pre_leaves leaf_text fst].
  specialize (IH (ends_with NL s)). destruct (pre_leaves p (ends_with NL s) l) as [l' st']. cbn [fst] in *.
  unfold flat_leaves in *. cbn [flat_map pre_leaf flat_leaf]. destruct s as [|c s].
  - cbn [indent ends_with] in *. rewrite app_nil_r. change (mark _ [] ++ ?x) with x. destruct b; [now apply prefixed_more_front|exact IH].
  - now apply prefixed_mark.
Qed.
Lemma prefixed_retarget F p b M M' : prefixed_at p b M M' -> prefixed_at p b (retarget F M) (retarget F M').
Proof.
  induction 1 as [b|a|b c a a' M M' H IH].
  - apply prefixed_end.
  - rewrite retarget_mark. apply prefixed_more.
  - rewrite retarget_app. assert (K := fun b0 => prefixed_char p b0 c (F a) (F a') _ _ IH). destruct b; [rewrite retarget_mark; exact (K true)|exact (K false)].
Qed.
Lemma prefixed_text p (X : char -> Prop) b M M' : prefixed_at p b M M' -> Forall X p -> Forall X (text_of M) -> Forall X (text_of M').
Proof.
  induction 1 as [b|a|b c a a' M M' H IH]; intros Hp HM; [constructor|now rewrite text_mark|]. rewrite text_app. cbn [text_of map fst] in HM |- *. inversion HM as [|? ? H1 H2]; subst.
  apply Forall_app. split; [destruct b; [now rewrite text_mark|constructor]|]. constructor; [exact H1|now apply IH].
Qed.
Lemma pre_attrs p l : forall b, map leaf_attr (fst (pre_leaves p b l)) = map leaf_attr l.
Proof.
  induction l as [|[[[s src] pos] name] l IH]; intro b; [reflexivity|]. cbn [pre_leaves leaf_text fst]. specialize (IH (ends_with NL s)).
  destruct (pre_leaves p (ends_with NL s) l) as [l' st']. cbn [fst map] in *. rewrite IH. reflexivity.
Qed.
Lemma in_mprefix p x M : In x M -> forall b, In x (mprefix p b M).
Proof.
  induction M as [|[c a] M IH]; intros H b; [destruct H|]. cbn [mprefix]. apply in_or_app. right. destruct H as [->|H]; [now left|right; now apply IH].
Qed.
Lemma mprefix_targets p M : forall b x, In x (mprefix p b M) -> exists y, In y M /\ snd y = snd x.
Proof.
  induction M as [|[c a] M IH]; intros b x H; [destruct H|]. cbn [mprefix] in H. apply in_app_or in H as [H|[<-|H]].
  - destruct b; [|destruct H]. apply in_map_iff in H as (d & <- & _). exists (c, a). split; [now left|reflexivity].
  - exists (c, a). split; [now left|reflexivity].
  - destruct (IH _ _ H) as (y & Hy & Ey). exists y. split; [now right|exact Ey].
Qed.
Lemma below_self a : below a a.
Proof.
  intros _. destruct a as [[[s [l c]] n]|]; [|reflexivity]. cbn [drop_name above name_above]. rewrite !Z.ltb_irrefl, !Z.eqb_refl. reflexivity.
Qed.
Lemma mprefix_rising p M : forall b, rising (mprefix p b M) <-> rising M.
Proof.
  induction M as [|[c a] M IH]; intro b; [split; constructor|]. cbn [mprefix]. split.
  - intro H. apply FOP_app in H as (_ & H & _). inversion H as [|? ? H1 H2]; subst. constructor; [|now apply (IH (N.eqb c NL))].
    rewrite Forall_forall in *. intros y Hy. apply H1. now apply in_mprefix.
  - intro H. inversion H as [|? ? H1 H2]; subst.
    assert (K : Forall (fun y => below a (snd y)) (mprefix p (N.eqb c NL) M)).
    { apply Forall_forall. intros y Hy. destruct (mprefix_targets _ _ _ _ Hy) as (z & Hz & Ez). rewrite <- Ez. rewrite Forall_forall in H1. exact (H1 z Hz). }
    assert (R : rising ((c, a) :: mprefix p (N.eqb c NL) M)) by (constructor; [exact K|now apply IH]).
    destruct b; [|exact R]. apply FOP_app. split; [apply rising_mark|]. split; [exact R|]. unfold mark. apply Forall_map. apply Forall_forall. intros d _. cbn [snd].
    constructor; [apply below_self|exact K].
Qed.
