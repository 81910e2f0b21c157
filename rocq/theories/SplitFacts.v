(** Edits of two parts. *)
From Coq Require Import Permutation.
From Verif Require Import Base Tactics SpecText SpecMap SpecAttr SpecEdit EditFacts SpecSplit.

Definition whole_sub (x : edit) : Prop := (0 <= e_subt x < 16)%Z.

Lemma arrange_snoc {A} (le : A -> A -> bool) l x : arrange le (l ++ [x]) = put le x (arrange le l).
Proof. unfold arrange. now rewrite fold_left_app. Qed.
Lemma put_front {A} (le : A -> A -> bool) x L R : Forall (fun y => le y x = false) R -> put le x (L ++ R) = put le x L ++ R.
Proof.
  intro H. induction L as [|y L IH]; cbn [app put].
  - destruct R as [|z R]; [reflexivity|]. cbn [put]. now rewrite (Forall_inv H).
  - destruct (le y x); cbn [app]; [now rewrite IH|reflexivity].
Qed.
Lemma put_behind {A} (le : A -> A -> bool) x L R : Forall (fun y => le y x = true) L -> put le x (L ++ R) = L ++ put le x R.
Proof. induction 1 as [|y L Hy _ IH]; cbn [app put]; [reflexivity|]. now rewrite Hy, IH. Qed.
Lemma key_less a b : (e_hi a < e_hi b)%Z -> key_le a b = true /\ key_le b a = false.
Proof.
  intro H. unfold key_le. replace (e_hi a <? e_hi b)%Z with true by (symmetry; now apply Z.ltb_lt). split; [reflexivity|].
  replace (e_hi b <? e_hi a)%Z with false by (symmetry; apply Z.ltb_ge; lia). replace (e_hi b =? e_hi a)%Z with false by (symmetry; apply Z.eqb_neq; lia). reflexivity.
Qed.
Lemma arrange_split k es : Forall whole_sub es ->
  arrange key_le es = arrange key_le (filter (in_first k) es) ++ arrange key_le (filter (fun x => negb (in_first k x)) es).
Proof.
  assert (F : forall P l, Forall P l -> Forall P (arrange key_le l)) by (intros P l H; eapply Permutation_Forall; [apply arrange_perm|exact H]).
  induction es as [|x es IH] using rev_ind; intro H; [reflexivity|]. apply Forall_app in H. destruct H as [H Hx].
  pose proof (Forall_inv Hx) as Hx0. rewrite arrange_snoc, IH by exact H. rewrite !filter_app. cbn [filter]. destruct (in_first k x) eqn:Ex; cbn [negb].
  - rewrite app_nil_r, arrange_snoc. apply put_front. apply F. apply Forall_forall. intros y Hy. apply filter_In in Hy. destruct Hy as [Hy Hk].
    pose proof (proj1 (Forall_forall _ _) H y Hy) as Hy0. apply key_less. unfold in_first in *. apply Z.ltb_lt in Ex. apply negb_true_iff, Z.ltb_ge in Hk.
    unfold whole_sub, e_hi in *. lia.
  - rewrite app_nil_r, arrange_snoc. apply put_behind. apply F. apply Forall_forall. intros y Hy. apply filter_In in Hy. destruct Hy as [Hy Hk].
    pose proof (proj1 (Forall_forall _ _) H y Hy) as Hy0. apply key_less. unfold in_first in *. apply Z.ltb_ge in Ex. apply Z.ltb_lt in Hk.
    unfold whole_sub, e_hi in *. lia.
Qed.
Lemma arrange_moved k es : arrange key_le (map (moved_back k) es) = map (moved_back k) (arrange key_le es).
Proof.
  rewrite <- arrange_map. f_equal. unfold arrange. generalize (@nil edit) as acc. induction es as [|x es IH]; intro acc; [reflexivity|]. cbn [fold_left]. rewrite IH. f_equal.
  induction acc as [|y acc IHa]; [reflexivity|]. cbn [put]. rewrite IHa.
  replace (key_le (moved_back k y) (moved_back k x)) with (key_le y x); [reflexivity|].
  unfold key_le, e_hi, e_lo, moved_back. cbn [e_to e_from e_subt e_subf].
  f_equal; [|f_equal]; apply eq_true_iff_eq; rewrite ?Z.ltb_lt, ?Z.eqb_eq, ?Z.leb_le; lia.
Qed.

Section Places.
  Context {A : Type}.
  Variables (k n : nat).
  Let behind (x : edit) : Prop := (Z.of_nat k <= anchor x)%Z.
  Let ahead (x : edit) : Prop := (anchor x <= Z.of_nat k)%Z.
  Lemma place_second : forall R, Forall behind R -> SpecText.place (k + n) R = k + SpecText.place n (map (moved_back (Z.of_nat k)) R).
  Proof.
    induction 1 as [|x R Hx _ IH]; [reflexivity|]. cbn [SpecText.place fold_right map]. fold (SpecText.place (k + n) R). fold (SpecText.place n (map (moved_back (Z.of_nat k)) R)). rewrite IH.
    unfold behind, anchor, moved_back in *. cbn [e_from e_to]. lia.
  Qed.
  Lemma place_fold m : forall L, k <= m -> Nat.min k (SpecText.place m L) = SpecText.place k L.
  Proof. induction L as [|x L IH]; intro H; [cbn; lia|]. cbn [SpecText.place fold_right]. fold (SpecText.place m L). fold (SpecText.place k L). rewrite <- IH by exact H. lia. Qed.
  Lemma place_first L R x : ahead x -> Forall behind R -> SpecText.place (k + n) (x :: L ++ R) = SpecText.place k (x :: L).
  Proof.
    intros Hx HR. change (x :: L ++ R) with ((x :: L) ++ R). unfold SpecText.place at 1. rewrite fold_right_app. fold (SpecText.place (k + n) R).
    rewrite place_second by exact HR. fold (SpecText.place (k + SpecText.place n (map (moved_back (Z.of_nat k)) R)) (x :: L)).
    rewrite <- (place_fold (k + SpecText.place n (map (moved_back (Z.of_nat k)) R)) (x :: L)) by lia. cbn [SpecText.place fold_right]. unfold ahead in Hx. lia.
  Qed.
  Lemma gplaces_second : forall R : list (edit * list A), Forall behind (map fst R) ->
    gplaces (k + n) R = map (fun p => (k + fst p, snd p)) (gplaces n (map (fun p => (moved_back (Z.of_nat k) (fst p), snd p)) R)).
  Proof.
    induction R as [|x R IH]; intro H; [reflexivity|]. cbn [gplaces map fst snd]. rewrite <- IH by (inversion H; assumption).
    f_equal. f_equal. change (fst x :: map fst R) with (map fst (x :: R)). rewrite place_second by exact H. cbn [map]. rewrite !map_map. reflexivity.
  Qed.
  Lemma gplaces_both : forall L R : list (edit * list A), Forall ahead (map fst L) -> Forall behind (map fst R) ->
    gplaces (k + n) (L ++ R) = gplaces k L ++ map (fun p => (k + fst p, snd p)) (gplaces n (map (fun p => (moved_back (Z.of_nat k) (fst p), snd p)) R)).
  Proof.
    induction L as [|x L IH]; intros R HL HR; [now apply gplaces_second|]. cbn [app gplaces map]. inversion HL as [|? ? H1 H2]; subst.
    rewrite IH by assumption. f_equal. f_equal. rewrite map_app. now apply place_first.
  Qed.
End Places.

Lemma texts_at_shift {A} k (ps : list (nat * list A)) g : texts_at (map (fun p => (k + fst p, snd p)) ps) (k + g) = texts_at ps g.
Proof.
  unfold texts_at. rewrite flat_map_concat_map, map_map, <- flat_map_concat_map. apply flat_map_ext. intros [q t]. cbn [fst snd].
  destruct (Nat.eqb_spec q g) as [->|H]; [now rewrite Nat.eqb_refl|]. replace (Nat.eqb (k + q) (k + g)) with false; [reflexivity|]. symmetry. apply Nat.eqb_neq. lia.
Qed.
Lemma weave_shift {A} k (ps : list (nat * list A)) keep keep' : (forall j, keep (k + j) = keep' j) -> forall s pos,
  weave (map (fun p => (k + fst p, snd p)) ps) keep (k + pos) s = weave ps keep' pos s.
Proof.
  intro H. induction s as [|c s IH]; intro pos; [reflexivity|]. cbn [weave]. rewrite texts_at_shift, H. f_equal. f_equal. replace (S (k + pos)) with (k + S pos) by lia. apply IH.
Qed.
Lemma woven_split {A} (P Q : list (nat * list A)) keep keep1 keep2 a b : Forall (fun p => fst p <= length a) P ->
  (forall j, j < length a -> keep j = keep1 j) -> (forall j, keep (length a + j) = keep2 j) ->
  woven (P ++ map (fun p => (length a + fst p, snd p)) Q) keep (a ++ b) = woven P keep1 a ++ woven Q keep2 b.
Proof.
  intros HP H1 H2. unfold woven. rewrite weave_app, app_length. cbn [Nat.add].
  assert (E1 : weave (P ++ map (fun p => (length a + fst p, snd p)) Q) keep 0 a = weave P keep1 0 a).
  { apply weave_ext. intros j Hj. split; [|apply H1; lia]. rewrite texts_at_app. rewrite (texts_at_none (map _ Q)); [apply app_nil_r|].
    apply Forall_forall. intros p Hp. apply in_map_iff in Hp. destruct Hp as (q & <- & _). cbn [fst]. lia. }
  rewrite E1, <- !app_assoc. f_equal.
  assert (Hnone : forall g, length a < g -> texts_at P g = []).
  { intros g Hg. apply texts_at_none. eapply Forall_impl; [|exact HP]. intros p Hp. cbn in Hp. lia. }
  destruct b as [|c b].
  - cbn [weave length app]. rewrite texts_at_app, texts_at_shift. f_equal. f_equal. lia.
  - set (Q' := map (fun p => (length a + fst p, snd p)) Q).
    assert (E2 : weave (P ++ Q') keep (length a) (c :: b) = texts_at P (length a) ++ weave Q' keep (length a) (c :: b)).
    { cbn [weave]. rewrite texts_at_app, <- !app_assoc. f_equal. f_equal. f_equal.
      apply weave_ext. intros j Hj. split; [|reflexivity]. rewrite texts_at_app, Hnone by lia. reflexivity. }
    rewrite E2, <- (weave_shift (length a) Q keep keep2 H2 (c :: b) 0), Nat.add_0_r, <- !app_assoc. fold Q'. f_equal. f_equal.
    rewrite texts_at_app, Hnone by (cbn [length]; lia). apply texts_at_shift.
Qed.

Lemma map_combine_fst {A B C} (f : A -> C) : forall (l : list A) (m : list B), map (fun p => (f (fst p), snd p)) (combine l m) = combine (map f l) m.
Proof. induction l as [|x l IH]; intros [|y m]; try reflexivity. cbn. now rewrite IH. Qed.
Lemma combine_app {A B} : forall (a a' : list A) (b b' : list B), length a = length b -> combine (a ++ a') (b ++ b') = combine a b ++ combine a' b'.
Proof. induction a as [|x a IH]; intros a' [|y b] b' H; try discriminate; [reflexivity|]. cbn in *. f_equal. apply IH. lia. Qed.
Lemma arrange_length k es : length (arrange key_le (firsts_of k es)) = length (firsts_of k es).
Proof. symmetry. apply Permutation_length, arrange_perm. Qed.

(** One statement for texts of any kind: [f] makes the new texts. *)
Lemma split_any {A B} (f : edit -> B -> list A) k es ts1 ts2 (a b : list A) :
  (forall x y, f (moved_back k x) y = f x y) ->
  k = Z.of_nat (length a) -> Forall whole_sub es -> Forall (crosses_not k) es -> length ts1 = length (firsts_of k es) ->
  woven (gplaces (length (a ++ b)) (map (fun p => (fst p, f (fst p) (snd p))) (combine (arrange key_le es) (ts1 ++ ts2)))) (fun j => negb (covered es j)) (a ++ b) =
  woven (gplaces (length a) (map (fun p => (fst p, f (fst p) (snd p))) (combine (arrange key_le (firsts_of k es)) ts1))) (fun j => negb (covered (firsts_of k es) j)) a ++
  woven (gplaces (length b) (map (fun p => (fst p, f (fst p) (snd p))) (combine (arrange key_le (seconds_of k es)) ts2))) (fun j => negb (covered (seconds_of k es) j)) b.
Proof.
  intros Hf Hk Hs Hc Hl. rewrite (arrange_split k es Hs). fold (firsts_of k es). rewrite combine_app by (rewrite arrange_length; now symmetry).
  rewrite map_app, app_length.
  assert (F : forall P l, Forall P l -> Forall P (arrange key_le l)) by (intros P l H; eapply Permutation_Forall; [apply arrange_perm|exact H]).
  assert (Fc : forall (P : edit -> Prop) l (m : list B), Forall P l -> Forall P (map fst (map (fun p => (fst p, f (fst p) (snd p))) (combine l m)))).
  { intros P l. clear. induction l as [|x l IH]; intros [|y m] H; try constructor; cbn; [exact (Forall_inv H)|]. apply IH. now inversion H. }
  rewrite gplaces_both.
  - unfold seconds_of. rewrite arrange_moved. rewrite <- map_combine_fst, !map_map. cbn [fst snd].
    replace (map (fun x : edit * B => (moved_back (Z.of_nat (length a)) (fst x), f (fst x) (snd x))) (combine (arrange key_le (filter (fun x => negb (in_first k x)) es)) ts2))
      with (map (fun x : edit * B => (moved_back k (fst x), f (moved_back k (fst x)) (snd x))) (combine (arrange key_le (filter (fun x => negb (in_first k x)) es)) ts2))
      by (apply map_ext; intros x; now rewrite Hf, Hk).
    apply woven_split; [apply gplaces_le| |].
    + intros j Hj. f_equal. unfold covered, firsts_of. apply eq_true_iff_eq. rewrite !existsb_exists. split; intros (x & I & C).
      * exists x. split; [|exact C]. apply filter_In. split; [exact I|]. pose proof (proj1 (Forall_forall _ _) Hc x I) as X. unfold covers, in_first, crosses_not in *.
        apply andb_true_iff in C. destruct C as [C1 C2]. apply Z.leb_le in C1, C2. apply Z.ltb_lt. lia.
      * apply filter_In in I. exists x. split; [apply I|exact C].
    + intro j. f_equal. unfold covered. apply eq_true_iff_eq. rewrite !existsb_exists. split; intros (x & I & C).
      * exists (moved_back k x). unfold covers in *. apply andb_true_iff in C. destruct C as [C1 C2]. apply Z.leb_le in C1, C2. split.
        -- apply in_map, filter_In. split; [exact I|]. unfold in_first. apply negb_true_iff, Z.ltb_ge. lia.
        -- unfold moved_back. cbn [e_from e_to]. apply andb_true_iff. split; apply Z.leb_le; lia.
      * apply in_map_iff in I. destruct I as (y & <- & I). apply filter_In in I. exists y. split; [apply I|]. unfold covers, moved_back in *. cbn [e_from e_to] in C.
        apply andb_true_iff in C. destruct C as [C1 C2]. apply Z.leb_le in C1, C2. apply andb_true_iff. split; apply Z.leb_le; lia.
  - apply Fc, F. apply Forall_forall. intros x I. apply filter_In in I. destruct I as [_ I]. unfold in_first in I. apply Z.ltb_lt in I. unfold anchor. lia.
  - apply Fc, F. apply Forall_forall. intros x I. apply filter_In in I. destruct I as [I1 I2]. pose proof (proj1 (Forall_forall _ _) Hc x I1) as X.
    unfold in_first in I2. apply negb_true_iff, Z.ltb_ge in I2. unfold crosses_not in X. unfold anchor. lia.
Qed.

Lemma combine_units : forall (l : list edit), map (fun p => (fst p, e_text (fst p))) (combine l (repeat tt (length l))) = map (fun e => (e, e_text e)) l.
Proof. induction l as [|x l IH]; [reflexivity|]. cbn. now rewrite IH. Qed.
Theorem edited_any_split k es (a b : str) : k = Z.of_nat (length a) -> Forall whole_sub es -> Forall (crosses_not k) es ->
  edited_any es (a ++ b) = edited_any (firsts_of k es) a ++ edited_any (seconds_of k es) b.
Proof.
  intros Hk Hs Hc. unfold edited_any. rewrite !places_gplaces.
  assert (L : forall l : list edit, length (arrange key_le l) = length l) by (intro l; symmetry; apply Permutation_length, arrange_perm).
  assert (N : length es = length (firsts_of k es) + length (seconds_of k es)).
  { unfold firsts_of, seconds_of. rewrite map_length. clear. induction es as [|x es IH]; [reflexivity|]. cbn [filter]. destruct (in_first k x); cbn [negb length]; lia. }
  rewrite <- !combine_units, !L, N, repeat_app.
  apply (split_any (fun x (_ : unit) => e_text x)); auto. apply repeat_length.
Qed.
Theorem edited_marked_split k es ts1 ts2 (a b : marked) : k = Z.of_nat (length a) -> Forall whole_sub es -> Forall (crosses_not k) es ->
  length ts1 = length (firsts_of k es) ->
  edited_marked es (ts1 ++ ts2) (a ++ b) = edited_marked (firsts_of k es) ts1 a ++ edited_marked (seconds_of k es) ts2 b.
Proof. intros. unfold edited_marked. now apply (split_any (fun x t => mark t (e_text x))). Qed.
