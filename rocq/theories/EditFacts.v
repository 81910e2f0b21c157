(** ReplaceSource: the text after any history of edits equals the positional
    specification of SpecText.v. *)
From Verif Require Import Base Tactics ModelString StringFacts ModelVlq
  ModelSources ModelTree SpecText SortFacts TextFacts.
From Verif Require Export SpecRun.

(** ** Pieces (no assumption on the edits) *)
Lemma splice_pieces rs s L : L <= length s ->
  exists p0 l, splice rs s L = firstn p0 s ++ interleave s l /\
    map (fun x => fst (fst x)) l = rev (map rp_text rs) /\ in_order p0 l L.
Proof.
  revert L; induction rs as [|r rs IH]; intros L HL.
  - exists L, []. simpl. rewrite app_nil_r. auto.
  - cbn [splice]. set (E := Nat.min L _). set (L' := Nat.min E _).
    destruct (IH L') as (p0 & l & -> & Ht & Ho); [lia|].
    exists p0, (l ++ [(rp_text r, E, L)]). split; [|split].
    + unfold interleave. rewrite flat_map_app. simpl. now rewrite app_nil_r, <- app_assoc.
    + rewrite map_app, Ht. reflexivity.
    + clear IH Ht. assert (HL' : L' <= E) by lia. assert (HE : E <= L) by lia. clearbody L' E.
      revert p0 Ho. induction l as [|[[t a] b] l IHl]; simpl; intros p0 Ho.
      * lia.
      * destruct Ho as (? & ? & ?). auto.
Qed.

(** ** Weaving *)
Lemma weave_app {A} (ps : list (nat * list A)) k a b pos :
  weave ps k pos (a ++ b) = weave ps k pos a ++ weave ps k (pos + length a) b.
Proof.
  revert pos; induction a as [|c a IH]; intro pos; cbn [weave app length].
  - f_equal. lia.
  - rewrite IH, <- !app_assoc. do 4 f_equal. lia.
Qed.
Lemma weave_ext {A} (ps ps' : list (nat * list A)) k k' pos s :
  (forall j, pos <= j < pos + length s -> texts_at ps j = texts_at ps' j /\ k j = k' j) ->
  weave ps k pos s = weave ps' k' pos s.
Proof.
  revert pos; induction s as [|c s IH]; intros pos H; cbn [weave]; auto.
  destruct (H pos) as [-> ->]; [simpl; lia|]. do 2 f_equal. apply IH.
  intros j Hj. apply H. simpl; lia.
Qed.
Lemma weave_none {A} (ps : list (nat * list A)) k pos s :
  (forall j, pos <= j < pos + length s -> texts_at ps j = [] /\ k j = false) ->
  weave ps k pos s = [].
Proof.
  revert pos; induction s as [|c s IH]; intros pos H; cbn [weave]; auto.
  destruct (H pos) as [-> ->]; [simpl; lia|]. simpl. apply IH. intros; apply H; simpl; lia.
Qed.
Lemma weave_all {A} (ps : list (nat * list A)) k pos s :
  (forall j, pos <= j < pos + length s -> texts_at ps j = [] /\ k j = true) ->
  weave ps k pos s = s.
Proof.
  revert pos; induction s as [|c s IH]; intros pos H; cbn [weave]; auto.
  destruct (H pos) as [-> ->]; [simpl; lia|]. simpl. f_equal. apply IH. intros; apply H; simpl; lia.
Qed.

Lemma texts_at_app {A} (a b : list (nat * list A)) g : texts_at (a ++ b) g = texts_at a g ++ texts_at b g.
Proof. unfold texts_at. apply flat_map_app. Qed.
Lemma texts_at_none {A} (ps : list (nat * list A)) g : Forall (fun p => fst p <> g) ps -> texts_at ps g = [].
Proof.
  induction 1 as [|p ps H _ IH]; auto.
  change (texts_at (p :: ps) g) with ((if Nat.eqb (fst p) g then snd p else []) ++ texts_at ps g).
  rewrite (proj2 (Nat.eqb_neq _ _)) by auto. exact IH.
Qed.

Lemma place_app len o e :
  place len (o ++ [e]) = place (Nat.min (Z.to_nat (anchor e)) len) o.
Proof. unfold place. now rewrite fold_right_app. Qed.
Lemma places_app len o e :
  places len (o ++ [e]) =
  places (Nat.min (Z.to_nat (anchor e)) len) o ++ [(Nat.min (Z.to_nat (anchor e)) len, e_text e)].
Proof.
  induction o as [|x o IH]; [reflexivity|].
  change ((x :: o) ++ [e]) with (x :: (o ++ [e])). cbn [places].
  change (x :: o ++ [e]) with ((x :: o) ++ [e]). now rewrite place_app, IH.
Qed.
Lemma place_le len o : place len o <= len.
Proof. induction o; simpl; lia. Qed.
Lemma places_le len o : Forall (fun p => fst p <= len) (places len o).
Proof.
  induction o as [|x o IH]; cbn [places]; constructor; auto. apply (place_le len (x :: o)).
Qed.

(** A replacement record of the model that represents an edit. *)
Definition rep_ok (e : edit) (r : repl) : Prop :=
  rp_start_pos r = e_from e /\ rp_end_pos r = (e_to e + 1)%Z /\ rp_text r = e_text e.

Lemma skipn_firstn_piece {A} (s : list A) a b : a <= b -> skipn a (firstn b s) = piece_of s a b.
Proof. intros. apply piece_firstn. lia. Qed.

(** The replacement loop on texts of any kind of characters: edits as (start, end + 1,
    new text), last one first. *)
Fixpoint gsplice {A} (rs : list (Z * Z * list A)) (s : list A) (L : nat) : list A :=
  match rs with
  | [] => firstn L s
  | (a, b, t) :: rest =>
      let E := Nat.min L (Z.to_nat b) in
      let L' := Nat.min E (Z.to_nat a) in
      gsplice rest s L' ++ t ++ piece_of s E L
  end.
Definition as_triple (r : repl) : Z * Z * str := (rp_start_pos r, rp_end_pos r, rp_text r).
Lemma splice_gsplice rs s L : splice rs s L = gsplice (map as_triple rs) s L.
Proof. revert L; induction rs as [|r rs IH]; intro L; cbn [splice map as_triple gsplice]; [|rewrite IH]; reflexivity. Qed.

Lemma gplaces_app {A} len o (e : edit * list A) :
  gplaces len (o ++ [e]) =
  gplaces (Nat.min (Z.to_nat (anchor (fst e))) len) o ++ [(Nat.min (Z.to_nat (anchor (fst e))) len, snd e)].
Proof.
  induction o as [|x o IH]; [reflexivity|].
  change ((x :: o) ++ [e]) with (x :: (o ++ [e])). cbn [gplaces].
  change (x :: o ++ [e]) with ((x :: o) ++ [e]). rewrite map_app. cbn [map].
  now rewrite place_app, IH.
Qed.
Lemma gplaces_le {A} len (o : list (edit * list A)) : Forall (fun p => fst p <= len) (gplaces len o).
Proof.
  induction o as [|x o IH]; cbn [gplaces]; constructor; auto. apply (place_le len (map fst (x :: o))).
Qed.
Lemma places_gplaces len es : places len es = gplaces len (map (fun e => (e, e_text e)) es).
Proof.
  induction es as [|e es IH]; [reflexivity|].
  cbn [places map gplaces fst snd]. rewrite map_map. cbn [fst]. rewrite map_id, IH. reflexivity.
Qed.
Definition grep_ok {A} (e : edit * list A) (r : Z * Z * list A) : Prop :=
  fst (fst r) = e_from (fst e) /\ snd (fst r) = (e_to (fst e) + 1)%Z /\ snd r = snd e.
Definition gcovered {A} (o : list (edit * list A)) j := covered (map fst o) j.

(** Main lemma: [o] ascending, [rs] the same edits descending. *)
Lemma gsplice_woven {A} (o : list (edit * list A)) rs s L :
  L <= length s -> Forall2 grep_ok (rev o) rs ->
  StronglySorted (fun a b => (e_to (fst a) <= e_to (fst b))%Z) o ->
  gsplice rs s L = woven (gplaces L o) (fun j => negb (gcovered o j)) (firstn L s).
Proof.
  remember (rev o) as d eqn:Hd. revert o L Hd rs.
  induction d as [|e d IH]; intros o L Hd rs HL HF HS.
  - inv HF. assert (o = []) by (destruct o; auto; simpl in Hd; destruct (rev o); discriminate).
    subst o. unfold woven. cbn [gsplice gplaces]. rewrite app_nil_r.
    symmetry. apply weave_all. intros; split; reflexivity.
  - assert (Ho : o = rev d ++ [e]) by (rewrite <- (rev_involutive o), <- Hd; reflexivity).
    subst o. inversion HF as [|? r ? rs' Hr HF']; subst.
    destruct r as [[ra rb] rt]. destruct e as [e et]. destruct Hr as (Hs & He & Ht).
    cbn [fst snd] in Hs, He, Ht. subst rt. cbn [gsplice].
    set (E := Nat.min L (Z.to_nat rb)).
    set (L' := Nat.min E (Z.to_nat ra)).
    assert (HL' : Nat.min (Z.to_nat (anchor e)) L = L').
    { unfold L', E, anchor. rewrite Hs, He. lia. }
    assert (HSd : StronglySorted (fun a b => (e_to (fst a) <= e_to (fst b))%Z) (rev d) /\
                  Forall (fun x => (e_to (fst x) <= e_to e)%Z) (rev d)).
    { clear -HS. induction (rev d) as [|x l IHl]; simpl in *.
      - split; constructor.
      - inv HS. destruct (IHl H1) as [HA HB]. rewrite Forall_app in H2. destruct H2 as [HC HD].
        inv HD. split; constructor; auto. }
    destruct HSd as [HSd Hmax].
    rewrite (IH (rev d) L'); auto; [|now rewrite rev_involutive|lia].
    rewrite gplaces_app. cbn [fst snd]. rewrite HL'. unfold woven.
    assert (Hlen : forall n, n <= length s -> length (firstn n s) = n)
      by (intros; rewrite firstn_length; lia).
    rewrite !Hlen by lia.
    rewrite <- (firstn_skipn L' (firstn L s)), firstn_min, Nat.min_l by lia.
    rewrite weave_app, Hlen by lia. rewrite <- !app_assoc. f_equal.
    { apply weave_ext. rewrite Hlen by lia. intros j Hj. split.
      - rewrite texts_at_app. rewrite (texts_at_none [_] j); [now rewrite app_nil_r|].
        constructor; [simpl; lia|constructor].
      - f_equal. unfold gcovered, covered. rewrite map_app, existsb_app. simpl.
        replace (covers e j) with false; [now rewrite !orb_false_r|].
        symmetry. unfold covers. lia. }
    rewrite (skipn_firstn_piece s L' L) by lia.
    assert (Hp : piece_of s L' L = piece_of s L' E ++ piece_of s E L).
    { unfold piece_of. rewrite <- (firstn_skipn (E - L') (firstn (L - L') (skipn L' s))).
      rewrite firstn_min, Nat.min_l by lia. f_equal.
      rewrite skipn_firstn_comm, skipn_skipn_add. f_equal; [lia|]. f_equal. lia. }
    assert (HlenP : forall a b, a <= b -> b <= length s -> length (piece_of s a b) = b - a).
    { intros. unfold piece_of. rewrite firstn_length, skipn_length. lia. }
    assert (Hrest : Forall (fun p => fst p <= L') (gplaces L' (rev d))) by apply gplaces_le.
    assert (HLc : texts_at (gplaces L' (rev d) ++ [(L', et)]) L' =
                  texts_at (gplaces L' (rev d)) L' ++ et).
    { rewrite texts_at_app. f_equal. simpl. rewrite Nat.eqb_refl. now rewrite app_nil_r. }
    assert (Hafter : forall j, L' < j ->
              texts_at (gplaces L' (rev d) ++ [(L', et)]) j = []).
    { intros j Hj. apply texts_at_none. rewrite Forall_app. split.
      - eapply Forall_impl; [|apply Hrest]. intros p Hp'; simpl in Hp'; lia.
      - constructor; [simpl; lia|constructor]. }
    assert (Hcov : forall j, L' <= j < L ->
              negb (gcovered (rev d ++ [(e, et)]) j) = (E <=? j)).
    { intros j Hj. unfold gcovered, covered. rewrite map_app, existsb_app. simpl. rewrite orb_false_r.
      destruct (Nat.leb_spec E j) as [HE|HE].
      - assert (Hj2 : (e_to e < Z.of_nat j)%Z) by (unfold E in HE; lia).
        assert (H1 : covers e j = false) by (unfold covers; lia).
        assert (H2 : existsb (fun x => covers x j) (map fst (rev d)) = false).
        { apply not_true_is_false. intro Hx. apply existsb_exists in Hx as (x & Hin & Hx).
          apply in_map_iff in Hin as (y & <- & Hin).
          rewrite Forall_forall in Hmax. specialize (Hmax _ Hin). unfold covers in Hx. lia. }
        now rewrite H1, H2.
      - assert (H1 : covers e j = true) by (unfold covers, L', E in *; lia).
        now rewrite H1, orb_true_r. }
    (* the weave of the piece from L' on: texts at L', then the kept part *)
    assert (Hgen : forall a x, L' <= a -> a + length x = L ->
       (a = L' -> False) -> weave (gplaces L' (rev d) ++ [(L', et)])
          (fun j => negb (gcovered (rev d ++ [(e, et)]) j)) a x = skipn (E - a) x).
    { intros a x. revert a. induction x as [|c x IHx]; intros a Ha1 Ha2 Ha3.
      - now rewrite skipn_nil.
      - cbn [weave]. cbn [length] in Ha2. rewrite Hafter by lia. rewrite Hcov by lia.
        rewrite IHx by lia. destruct (Nat.leb_spec E a).
        + replace (E - a) with 0 by lia. replace (E - S a) with 0 by lia. reflexivity.
        + replace (E - a) with (S (E - S a)) by lia. reflexivity. }
    simpl Nat.add.
    destruct (Nat.eq_dec L' L) as [Heq|Hne].
    + (* nothing after L' *)
      rewrite Heq. replace (piece_of s L L) with (@nil A)
        by (unfold piece_of; now rewrite Nat.sub_diag).
      cbn [weave app]. rewrite <- Heq, HLc, Heq.
      replace (piece_of s E L) with (@nil A); [now rewrite app_nil_r|].
      unfold piece_of. replace (L - E) with 0 by lia. reflexivity.
    + rewrite (Hafter L) by lia. rewrite app_nil_r.
      assert (Hlp : length (piece_of s L' L) = L - L') by (apply HlenP; lia).
      assert (Htail : piece_of s E L = skipn (E - L') (piece_of s L' L)).
      { rewrite Hp. rewrite skipn_app. rewrite HlenP by lia.
        rewrite skipn_all2 by (rewrite HlenP by lia; lia).
        replace (E - L' - (E - L')) with 0 by lia. reflexivity. }
      rewrite Htail. clear Hp Htail.
      destruct (piece_of s L' L) as [|c x]; [simpl in Hlp; lia|]. cbn [length] in Hlp.
      cbn [weave]. rewrite HLc, <- app_assoc. f_equal. f_equal.
      rewrite Hcov by lia. rewrite (Hgen (S L')) by lia.
      destruct (Nat.leb_spec E L').
      * replace (E - L') with 0 by lia. replace (E - S L') with 0 by lia. reflexivity.
      * replace (E - L') with (S (E - S L')) by lia. reflexivity.
Qed.

Lemma splice_woven o rs s L :
  L <= length s -> Forall2 rep_ok (rev o) rs ->
  StronglySorted (fun a b => (e_to a <= e_to b)%Z) o ->
  splice rs s L = woven (places L o) (fun j => negb (covered o j)) (firstn L s).
Proof.
  intros HL HF HS. rewrite splice_gsplice, places_gplaces.
  rewrite (gsplice_woven (map (fun e => (e, e_text e)) o)); auto.
  - unfold gcovered. rewrite map_map. cbn [fst]. now rewrite map_id.
  - rewrite <- map_rev. clear HS. induction HF as [|e r l l' (H1 & H2 & H3) _ IH]; cbn [map]; constructor; auto.
    repeat split; auto.
  - clear HF. induction HS as [|x l H1 IH H2]; cbn [map]; constructor; auto.
    rewrite Forall_map. exact H2.
Qed.

(** ** Order: what the sorted list of replacements is *)

Definition rkey (r : repl) : Z * (Z * nat) := (rp_end r, (rp_start r, rp_idx r)).
Definition kcmp (a b : Z * (Z * nat)) : comparison :=
  cmp_then (Z.compare (fst a) (fst b))
    (cmp_then (Z.compare (fst (snd a)) (fst (snd b))) (Nat.compare (snd (snd a)) (snd (snd b)))).
Lemma good_nat : good Nat.compare.
Proof.
  split.
  - intros. apply Nat.compare_antisym.
  - intros. now apply Nat.compare_eq.
  - apply Nat.compare_refl.
  - intros x y z. rewrite !Nat.compare_lt_iff. lia.
Qed.
Lemma good_kcmp : good kcmp.
Proof.
  unfold kcmp.
  apply (good_lex fst snd Z.compare
           (fun x y => cmp_then (Z.compare (fst x) (fst y)) (Nat.compare (snd x) (snd y)))).
  - apply good_Z.
  - apply (good_lex fst snd Z.compare Nat.compare); auto using good_Z, good_nat.
    intros [] []; simpl; congruence.
  - intros [] []; simpl; congruence.
Qed.
Lemma repl_cmp_kcmp a b : repl_cmp a b = kcmp (rkey b) (rkey a).
Proof.
  unfold repl_cmp, kcmp, rkey; simpl.
  destruct (Z.eqb_spec (rp_end a) (rp_end b)) as [E|E]; simpl.
  - rewrite E, Z.compare_refl. simpl.
    destruct (Z.eqb_spec (rp_start a) (rp_start b)) as [E2|E2]; simpl.
    + now rewrite E2, Z.compare_refl.
    + destruct (Z.compare_spec (rp_start b) (rp_start a)); simpl; congruence.
  - destruct (Z.compare_spec (rp_end b) (rp_end a)); simpl; congruence.
Qed.
Lemma repl_cmp_sym a b : repl_cmp b a = CompOpp (repl_cmp a b).
Proof. rewrite !repl_cmp_kcmp. apply (good_sym _ good_kcmp). Qed.
Lemma repl_cmp_trans a b c : cle repl_cmp a b -> cle repl_cmp b c -> cle repl_cmp a c.
Proof.
  unfold cle. rewrite !repl_cmp_kcmp. intros H1 H2.
  apply (good_le _ good_kcmp (rkey c) (rkey b) (rkey a)); unfold cle; auto.
Qed.
Lemma repl_cmp_eq a b : repl_cmp a b = Eq -> rkey a = rkey b.
Proof. rewrite repl_cmp_kcmp. intro H. symmetry. now apply (good_eq _ good_kcmp). Qed.

(** Numbered edits and the records the model stores for them. *)
Definition numbered (n : nat) (es : list edit) : list (edit * nat) := combine es (seq n (length es)).
Definition to_repl (x : edit * nat) : repl :=
  mk_repl (e_lo (fst x)) (e_hi (fst x)) (e_text (fst x)) (snd x).

Lemma numbered_app n a b : numbered n (a ++ b) = numbered n a ++ numbered (n + length a) b.
Proof.
  unfold numbered. revert n; induction a as [|x a IH]; intro n; simpl.
  - f_equal. f_equal. lia.
  - f_equal. rewrite IH. do 3 f_equal. lia.
Qed.
Lemma numbered_length n es : length (numbered n es) = length es.
Proof. unfold numbered. rewrite combine_length, seq_length. lia. Qed.
Lemma numbered_fst n es : map fst (numbered n es) = es.
Proof. revert n; induction es as [|e es IH]; intro n; simpl; auto. f_equal. apply IH. Qed.
Lemma numbered_snd n es : map snd (numbered n es) = seq n (length es).
Proof. revert n; induction es as [|e es IH]; intro n; simpl; auto. f_equal. apply IH. Qed.

Definition hist_inv (es : list edit) (st : rstate) : Prop :=
  Permutation (map to_repl (numbered 0 es)) (rs_repls st) /\
  (rs_sorted st = true -> StronglySorted (cle repl_cmp) (rs_repls st)).

Lemma step_inv es st c : call_ok c -> hist_inv es st ->
  hist_inv (es ++ edit_of c) (step st c).
Proof.
  intros Hc [HP HS].
  assert (Hlen : length (rs_repls st) = length es).
  { rewrite <- (Permutation_length HP), map_length. apply numbered_length. }
  destruct c as [a b t o1 o2|p t o|]; simpl in *.
  - split; [|discriminate]. simpl. rewrite numbered_app, map_app. simpl.
    apply Permutation_app; auto. rewrite Hlen. unfold to_repl, e_lo, e_hi. simpl.
    rewrite !Z.shiftl_mul_pow2 by lia. change (2^4)%Z with 16%Z.
    rewrite !(Z.mul_comm 16). reflexivity.
  - split; [|discriminate]. simpl. rewrite numbered_app, map_app. simpl.
    apply Permutation_app; auto. rewrite Hlen. unfold to_repl, e_lo, e_hi. simpl.
    rewrite !Z.shiftl_mul_pow2 by lia. change (2^4)%Z with 16%Z.
    rewrite (to_i32_small (p - 1)) by lia.
    rewrite !(Z.mul_comm 16). reflexivity.
  - rewrite app_nil_r. unfold sort_replacements. destruct (rs_sorted st) eqn:E.
    + split; auto.
    + split; simpl.
      * rewrite <- isort_perm. auto.
      * intros _. apply isort_sorted; [apply repl_cmp_sym|apply repl_cmp_trans].
Qed.

Lemma run_inv_gen h es st : Forall call_ok h -> hist_inv es st ->
  hist_inv (es ++ edits_of h) (fold_left step h st).
Proof.
  revert es st; induction h as [|c h IH]; intros es st Hc Hi; simpl.
  - now rewrite app_nil_r.
  - inv Hc. rewrite app_assoc. apply IH; auto. now apply step_inv.
Qed.
Lemma run_inv h : Forall call_ok h -> hist_inv (edits_of h) (run h).
Proof.
  intro H. apply (run_inv_gen h []); auto. split; simpl; auto. constructor.
Qed.

(** [arrange] *)
Section ArrangeFacts.
  Context {A : Type} (le : A -> A -> bool).
  Lemma put_perm x l : Permutation (x :: l) (put le x l).
  Proof.
    induction l as [|y l IH]; simpl; auto. destruct (le y x); auto.
    rewrite perm_swap. now constructor.
  Qed.
  Lemma arrange_perm_gen l acc :
    Permutation (acc ++ l) (fold_left (fun acc x => put le x acc) l acc).
  Proof.
    revert acc; induction l as [|x l IH]; intro acc; simpl.
    - now rewrite app_nil_r.
    - rewrite <- IH. rewrite <- Permutation_middle. change (x :: acc ++ l) with ((x :: acc) ++ l).
      apply Permutation_app_tail. apply put_perm.
  Qed.
  Lemma arrange_perm l : Permutation l (arrange le l).
  Proof. apply (arrange_perm_gen l []). Qed.
End ArrangeFacts.

Lemma put_map {A B} (f : A -> B) (le : B -> B -> bool) x l :
  map f (put (fun a b => le (f a) (f b)) x l) = put le (f x) (map f l).
Proof. induction l as [|y l IH]; simpl; auto. destruct (le (f y) (f x)); simpl; congruence. Qed.
Lemma arrange_map {A B} (f : A -> B) (le : B -> B -> bool) l :
  map f (arrange (fun a b => le (f a) (f b)) l) = arrange le (map f l).
Proof.
  unfold arrange. change (@nil B) with (map f []). generalize (@nil A) as acc.
  induction l as [|x l IH]; intro acc; simpl; auto. rewrite IH. f_equal. apply put_map.
Qed.

(** The numbered edits in their final order. *)
Definition num_le (a b : edit * nat) : bool := key_le (fst a) (fst b).
Definition arranged (es : list edit) : list (edit * nat) := arrange num_le (numbered 0 es).
Lemma arranged_fst es : map fst (arranged es) = arrange key_le es.
Proof. unfold arranged, num_le. rewrite arrange_map. now rewrite numbered_fst. Qed.

Definition num_lt (a b : edit * nat) : Prop := kcmp (rkey (to_repl a)) (rkey (to_repl b)) = Lt.

Lemma num_le_lt a b : snd a < snd b -> num_le a b = true -> num_lt a b.
Proof.
  unfold num_le, key_le, num_lt, kcmp, rkey, to_repl. simpl. intros Hi H.
  destruct (Z.compare_spec (e_hi (fst a)) (e_hi (fst b))); simpl; try lia; auto.
  destruct (Z.compare_spec (e_lo (fst a)) (e_lo (fst b))); simpl; try lia; auto.
  now apply Nat.compare_lt_iff.
Qed.
Lemma num_nle_lt a b : num_le b a = false -> num_lt a b.
Proof.
  unfold num_le, key_le, num_lt, kcmp, rkey, to_repl. simpl. intros H.
  destruct (Z.compare_spec (e_hi (fst a)) (e_hi (fst b))); simpl; try lia; auto.
  destruct (Z.compare_spec (e_lo (fst a)) (e_lo (fst b))); simpl; try lia; auto.
Qed.
Lemma num_lt_trans a b c : num_lt a b -> num_lt b c -> num_lt a c.
Proof. apply (good_lt _ good_kcmp). Qed.

Lemma put_num_sorted x l : StronglySorted num_lt l -> Forall (fun y => snd y < snd x) l ->
  StronglySorted num_lt (put num_le x l).
Proof.
  induction l as [|y l IH]; intros HS HF; simpl.
  - repeat constructor.
  - inv HS. inv HF. destruct (num_le y x) eqn:E.
    + constructor; [auto|]. rewrite <- put_perm. constructor; [now apply num_le_lt|auto].
    + apply num_nle_lt in E. constructor; [constructor; auto|]. constructor; auto.
      match goal with H : Forall (num_lt y) l |- _ => eapply Forall_impl; [|exact H] end.
      intros z Hz. eapply num_lt_trans; eauto.
Qed.

Lemma arrange_num_sorted es n acc :
  StronglySorted num_lt acc -> Forall (fun y => snd y < n) acc ->
  StronglySorted num_lt (fold_left (fun acc x => put num_le x acc) (numbered n es) acc).
Proof.
  revert n acc; induction es as [|e es IH]; intros n acc HS HF; simpl; auto.
  apply IH.
  - apply put_num_sorted; auto.
  - rewrite <- put_perm. constructor; simpl; [lia|].
    eapply Forall_impl; [|exact HF]. simpl; lia.
Qed.
Lemma arranged_sorted es : StronglySorted num_lt (arranged es).
Proof. apply arrange_num_sorted; constructor. Qed.
Lemma arranged_perm es : Permutation (numbered 0 es) (arranged es).
Proof. apply arrange_perm. Qed.

Lemma sorted_rev {A} (R : A -> A -> Prop) l :
  StronglySorted R l -> StronglySorted (fun a b => R b a) (rev l).
Proof.
  induction 1 as [|x l H1 IH H2]; simpl; [constructor|].
  assert (Hx : Forall (fun y => R x y) (rev l)) by (rewrite Forall_forall in *; intros; apply H2; now apply in_rev).
  clear H1 H2. induction IH as [|y m H3 IH2 H4]; simpl.
  - repeat constructor.
  - inv Hx. constructor; [now apply IH2|]. rewrite Forall_app. split; auto.
Qed.
Lemma sorted_map {A B} (f : A -> B) (R : B -> B -> Prop) (Q : A -> A -> Prop) l :
  (forall a b, Q a b -> R (f a) (f b)) -> StronglySorted Q l -> StronglySorted R (map f l).
Proof.
  intro H. induction 1 as [|x l H1 IH H2]; simpl; constructor; auto.
  rewrite Forall_map. eapply Forall_impl; [|exact H2]. auto.
Qed.

Lemma NoDup_key es x y :
  In x (map to_repl (numbered 0 es)) -> In y (map to_repl (numbered 0 es)) ->
  repl_cmp x y = Eq -> x = y.
Proof.
  intros Hx Hy E. apply repl_cmp_eq in E.
  apply in_map_iff in Hx as (a & <- & Ha). apply in_map_iff in Hy as (b & <- & Hb).
  assert (snd a = snd b) by (unfold rkey, to_repl in E; simpl in E; congruence).
  assert (a = b); [|now subst].
  assert (HN : NoDup (map snd (numbered 0 es))) by (rewrite numbered_snd; apply seq_NoDup).
  clear E. induction (numbered 0 es) as [|z l IH]; simpl in *; [tauto|]. inv HN.
  destruct Ha as [->|Ha], Hb as [->|Hb]; auto.
  - exfalso. apply H2. rewrite H. now apply in_map.
  - exfalso. apply H2. rewrite <- H. now apply in_map.
Qed.

(** The list every read works on. *)
Lemma run_sorted h : Forall call_ok h ->
  rs_repls (sort_replacements (run h)) = map to_repl (rev (arranged (edits_of h))).
Proof.
  intro Hh. destruct (run_inv h Hh) as [HP HS].
  assert (HP' : Permutation (map to_repl (numbered 0 (edits_of h)))
                  (rs_repls (sort_replacements (run h))) /\
                StronglySorted (cle repl_cmp) (rs_repls (sort_replacements (run h)))).
  { unfold sort_replacements. destruct (rs_sorted (run h)); auto. simpl.
    split; [now rewrite <- isort_perm|].
    apply isort_sorted; [apply repl_cmp_sym|apply repl_cmp_trans]. }
  destruct HP' as [HP' HS']. symmetry.
  apply (sorted_perm_unique repl_cmp repl_cmp_sym); auto.
  - intros x y Hx Hy. apply (NoDup_key (edits_of h)).
    + eapply Permutation_in; [|exact Hx]. rewrite <- Permutation_rev. now rewrite <- arranged_perm.
    + eapply Permutation_in; [|exact Hy]. rewrite <- Permutation_rev. now rewrite <- arranged_perm.
  - eapply sorted_map; [|apply sorted_rev, arranged_sorted].
    intros a b H. unfold cle. rewrite repl_cmp_kcmp. unfold num_lt in H. congruence.
  - rewrite <- Permutation_rev, <- arranged_perm. auto.
Qed.

(** ** The text after a history *)
Lemma rep_ok_to_repl x : edit_ok (fst x) -> rep_ok (fst x) (to_repl x).
Proof.
  intros (H1 & H2 & H3 & H4). unfold rep_ok, to_repl, rp_start_pos, rp_end_pos, e_lo, e_hi. simpl.
  rewrite !Z.shiftr_div_pow2 by lia. change (2^4)%Z with 16%Z.
  replace ((16 * e_from (fst x) + e_subf (fst x)) / 16)%Z with (e_from (fst x))
    by (apply Z.div_unique with (e_subf (fst x)); lia).
  replace ((16 * e_to (fst x) + e_subt (fst x)) / 16)%Z with (e_to (fst x))
    by (apply Z.div_unique with (e_subt (fst x)); lia).
  rewrite !to_i32_small; repeat split; try lia; rewrite ?to_i32_small; lia.
Qed.

Lemma arrange_sorted_to es : Forall edit_ok es ->
  StronglySorted (fun a b => (e_to a <= e_to b)%Z) (arrange key_le es).
Proof.
  intro Hok. rewrite <- arranged_fst.
  assert (Hok' : Forall (fun x => edit_ok (fst x)) (arranged es)).
  { rewrite <- Forall_map. rewrite arranged_fst. now rewrite <- arrange_perm. }
  pose proof (arranged_sorted es) as HS.
  induction HS as [|x l H1 IH H2]; simpl; constructor; inv Hok'; auto.
  rewrite Forall_map. rewrite Forall_forall in *. intros y Hy.
  specialize (H2 _ Hy). specialize (H4 _ Hy).
  unfold num_lt, kcmp, rkey, to_repl in H2. simpl in H2.
  assert (e_hi (fst x) <= e_hi (fst y))%Z.
  { destruct (Z.compare_spec (e_hi (fst x)) (e_hi (fst y))); simpl in H2; try lia; discriminate. }
  unfold e_hi, edit_ok in *. lia.
Qed.

Lemma covered_perm a b j : Permutation a b -> covered a j = covered b j.
Proof.
  intro HP. unfold covered. apply eq_true_iff_eq. rewrite !existsb_exists.
  split; intros (x & Hx & H); exists x; split; auto; eapply Permutation_in; try exact Hx; auto.
  now symmetry.
Qed.

Lemma woven_ext {A} (ps ps' : list (nat * list A)) k k' s :
  (forall j, j <= length s -> texts_at ps j = texts_at ps' j) -> (forall j, k j = k' j) ->
  woven ps k s = woven ps' k' s.
Proof.
  intros H1 H2. unfold woven. f_equal.
  - apply weave_ext. intros j Hj. split; auto. apply H1; lia.
  - apply H1; lia.
Qed.

Lemma run_text h s : Forall call_ok h -> Forall edit_ok (edits_of h) ->
  replace_text (rs_repls (sort_replacements (run h))) s = Some (edited_any (edits_of h) s).
Proof.
  intros Hh Hok. rewrite run_sorted by auto. rewrite replace_text_spec. f_equal.
  set (es := edits_of h) in *.
  rewrite (splice_woven (arrange key_le es)); auto.
  - rewrite firstn_all. unfold edited_any. apply woven_ext; auto.
    intro j. f_equal. apply covered_perm. symmetry. apply arrange_perm.
  - rewrite <- arranged_fst, <- map_rev.
    assert (Hok' : Forall (fun x => edit_ok (fst x)) (rev (arranged es))).
    { rewrite <- Forall_map, map_rev, arranged_fst. rewrite <- Permutation_rev.
      now rewrite <- arrange_perm. }
    clear -Hok'. induction Hok'; simpl; constructor; auto using rep_ok_to_repl.
  - now apply arrange_sorted_to.
Qed.

(** Non-overlapping edits go to their own places. *)
Lemma FOP_perm {A} (R : A -> A -> Prop) l l' : (forall a b, R a b -> R b a) ->
  Permutation l l' -> ForallOrdPairs R l -> ForallOrdPairs R l'.
Proof.
  intros Hsym HP. induction HP; intro H; auto.
  - inv H. constructor; auto. now rewrite <- HP.
  - inv H. inv H3. inv H2. constructor; [constructor; auto|]. constructor; auto.
Qed.
Lemma apart_sym a b : apart a b -> apart b a.
Proof. unfold apart; tauto. Qed.

Lemma places_apart len o :
  ForallOrdPairs apart o -> Forall forward o -> Forall edit_ok o ->
  StronglySorted (fun a b => key_le a b = true) o ->
  places len o = map (own_place len) o.
Proof.
  intros HA HF HO HS. induction HS as [|x l H1 IH H2]; [reflexivity|].
  inv HA. inv HF. inv HO. cbn [places map]. f_equal; [|auto].
  unfold own_place. f_equal.
  assert (Hle : Forall (fun e => (e_from x <= anchor e)%Z) l).
  { rewrite Forall_forall in *. intros e He.
    specialize (H2 _ He). specialize (H3 _ He). specialize (H6 _ He). specialize (H8 _ He).
    unfold key_le, apart, before, forward, edit_ok, anchor, e_hi, e_lo in *.
    lia. }
  assert (Hx : anchor x = e_from x) by (unfold anchor, forward in *; lia).
  unfold place. cbn [fold_right]. rewrite Hx. unfold clamp.
  clear -Hle. induction Hle as [|e l He _ IHl]; cbn [fold_right]; lia.
Qed.

Lemma key_le_sorted es : StronglySorted (fun a b => key_le a b = true) (arrange key_le es).
Proof.
  rewrite <- arranged_fst. eapply sorted_map; [|apply arranged_sorted].
  intros a b H. unfold num_lt, kcmp, rkey, to_repl, key_le in *. simpl in *.
  destruct (Z.compare_spec (e_hi (fst a)) (e_hi (fst b))); simpl in *; try lia; try discriminate.
  destruct (Z.compare_spec (e_lo (fst a)) (e_lo (fst b))); simpl in *; try lia; try discriminate.
Qed.

Lemma edited_any_apart es s :
  ForallOrdPairs apart es -> Forall forward es -> Forall edit_ok es ->
  edited_any es s = edited es s.
Proof.
  intros HA HF HO. unfold edited_any, edited. f_equal.
  apply places_apart.
  - eapply FOP_perm; eauto using apart_sym, arrange_perm.
  - now rewrite <- arrange_perm.
  - now rewrite <- arrange_perm.
  - apply key_le_sorted.
Qed.
