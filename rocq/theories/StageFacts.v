(** One more edit on an edited text. *)
From Coq Require Import Permutation.
From Verif Require Import Base Tactics SpecText SpecMap SpecAttr SpecEdit EditFacts TextFacts SpecSplit SplitFacts SpecStages.

Section Weave.
  Context {A : Type}.
  Implicit Types ps : list (nat * list A).
  Definition wov ps (keep : nat -> bool) pos (s : list A) : list A := weave ps keep pos s ++ texts_at ps (pos + length s).
  Lemma texts_at_app ps qs g : texts_at (ps ++ qs) g = texts_at ps g ++ texts_at qs g.
  Proof. unfold texts_at. now rewrite flat_map_app. Qed.
  Lemma texts_at_none ps g : Forall (fun p => fst p <> g) ps -> texts_at ps g = [].
  Proof.
    induction 1 as [|p ps H _ IH]; [reflexivity|]. unfold texts_at in *. cbn [flat_map]. rewrite IH, app_nil_r. now rewrite (proj2 (Nat.eqb_neq _ _) H).
  Qed.
  Lemma weave_app' ps keep a : forall pos b, weave ps keep pos (a ++ b) = weave ps keep pos a ++ weave ps keep (pos + length a) b.
  Proof.
    induction a as [|c a IH]; intros pos b; cbn [app weave length]; [now rewrite Nat.add_0_r|]. rewrite IH, <- !app_assoc. do 3 f_equal. f_equal. lia.
  Qed.
  Lemma wov_app ps keep pos a b : wov ps keep pos (a ++ b) = weave ps keep pos a ++ wov ps keep (pos + length a) b.
  Proof. unfold wov. rewrite weave_app', <- app_assoc, app_length, Nat.add_assoc. reflexivity. Qed.
  Lemma weave_same ps qs keep keep' s : forall pos, (forall j, pos <= j < pos + length s -> texts_at ps j = texts_at qs j /\ keep j = keep' j) ->
    weave ps keep pos s = weave qs keep' pos s.
  Proof.
    induction s as [|c s IH]; intros pos H; [reflexivity|]. cbn [weave length] in *. destruct (H pos ltac:(lia)) as [-> ->]. do 2 f_equal. apply IH. intros j Hj. apply H. lia.
  Qed.
  Lemma wov_same ps qs keep keep' s pos : (forall j, pos <= j <= pos + length s -> texts_at ps j = texts_at qs j) -> (forall j, pos <= j < pos + length s -> keep j = keep' j) ->
    wov ps keep pos s = wov qs keep' pos s.
  Proof.
    intros H H'. unfold wov. rewrite (H (pos + length s)) by lia. f_equal. apply weave_same. intros j Hj. split; [apply H; lia|now apply H'].
  Qed.
  Lemma wov_first P Q keep pos s : Forall (fun p => fst p <= pos) P -> wov (P ++ Q) keep pos s = texts_at P pos ++ wov Q keep pos s.
  Proof.
    intro H. assert (L : forall j, pos < j -> texts_at (P ++ Q) j = texts_at Q j).
    { intros j Hj. rewrite texts_at_app, (texts_at_none P j); [reflexivity|]. eapply Forall_impl; [|exact H]. cbn. lia. }
    unfold wov. destruct s as [|c s]; cbn [weave length].
    - rewrite Nat.add_0_r. cbn [app]. apply texts_at_app.
    - rewrite texts_at_app, <- !app_assoc. do 3 f_equal. rewrite (L (pos + S (length s))) by lia. f_equal. apply weave_same. intros j Hj. split; [apply L; lia|reflexivity].
  Qed.
  Lemma weave_plain ps keep (b : bool) s : forall pos, (forall j, pos <= j < pos + length s -> texts_at ps j = [] /\ keep j = b) -> weave ps keep pos s = if b then s else [].
  Proof.
    induction s as [|c s IH]; intros pos H; cbn [weave length] in *; [now destruct b|]. destruct (H pos ltac:(lia)) as [-> E]. rewrite E.
    rewrite IH by (intros j Hj; apply H; lia). now destruct b.
  Qed.
  Lemma woven_three P (t : list A) Q keep kb (a b c : list A) :
    Forall (fun p => fst p <= length a) P -> Forall (fun p => length a + length b <= fst p) Q ->
    (forall j, length a <= j < length a + length b -> keep j = kb) ->
    (forall M, M = [] /\ t = [] \/ M = [(length a, t)] ->
    woven (P ++ M ++ Q) keep (a ++ b ++ c) = woven P keep a ++ t ++ (if kb then b else []) ++ wov Q keep (length a + length b) c).
  Proof.
    intros HP HQ Hk M HM. change (woven (P ++ M ++ Q) keep (a ++ b ++ c)) with (wov (P ++ M ++ Q) keep 0 (a ++ b ++ c)). rewrite wov_app. cbn [Nat.add].
    assert (HM' : Forall (fun p => fst p = length a) M) by (destruct HM as [[-> _]| ->]; repeat constructor).
    unfold woven. rewrite <- app_assoc. f_equal.
    - apply weave_same. intros j Hj. split; [|reflexivity]. rewrite !texts_at_app, (texts_at_none M), (texts_at_none Q), !app_nil_r; [reflexivity| |].
      + eapply Forall_impl; [|exact HQ]. cbn. lia.
      + eapply Forall_impl; [|exact HM']. cbn. lia.
    - rewrite (wov_first P) by exact HP. f_equal. rewrite (wov_first M) by (eapply Forall_impl; [|exact HM']; cbn; lia). f_equal.
      + destruct HM as [[-> ->]| ->]; [reflexivity|]. unfold texts_at. cbn [flat_map fst snd]. now rewrite Nat.eqb_refl, app_nil_r.
      + rewrite wov_app. f_equal. apply weave_plain. intros j Hj. split; [|now apply Hk]. apply texts_at_none. eapply Forall_impl; [|exact HQ]. cbn. lia.
  Qed.
End Weave.

(** Both kinds of edited texts. *)
Definition gedited {A} (f : str -> list A) (es : list edit) (s : list A) : list A :=
  woven (gplaces (length s) (map (fun e => (e, f (e_text e))) (arrange key_le es))) (fun j => negb (covered es j)) s.
Lemma gplaces_text n l : gplaces n (map (fun e => (e, e_text e)) l) = places n l.
Proof. induction l as [|e l IH]; [reflexivity|]. cbn [map gplaces places fst snd]. rewrite IH. f_equal. f_equal. rewrite map_map. cbn [fst]. now rewrite map_id. Qed.
Lemma gedited_text es s : gedited (fun t => t) es s = edited_any es s.
Proof. unfold gedited, edited_any. now rewrite gplaces_text. Qed.
Lemma gedited_kept es M : gedited (mark None) es M = kept_marked es M.
Proof.
  unfold gedited, kept_marked, edited_marked. f_equal. f_equal. assert (L : length es = length (arrange key_le es)) by apply Permutation_length, arrange_perm.
  revert L. generalize (arrange key_le es) as l. induction es as [|x es IH]; intros [|y l] L; try discriminate; [reflexivity|]. cbn [map combine fst snd]. f_equal. apply IH. injection L; auto.
Qed.
Lemma gplaces_rest {A} n a (L R : list (edit * list A)) : a <= n -> Forall (fun x => anchor x <= Z.of_nat a)%Z (map fst L) -> Forall (fun x => Z.of_nat a <= anchor x)%Z (map fst R) ->
  gplaces n (L ++ R) = gplaces a L ++ gplaces n R.
Proof.
  intros Ha HL HR. replace n with (a + (n - a)) by lia. rewrite (gplaces_both a (n - a) L R HL HR). f_equal. symmetry. exact (gplaces_both a (n - a) [] R (Forall_nil _) HR).
Qed.
Lemma gplaces_ge {A} n a (R : list (edit * list A)) : a <= n -> Forall (fun x => Z.of_nat a <= anchor x)%Z (map fst R) -> Forall (fun p => a <= fst p) (gplaces n R).
Proof.
  intros Ha. induction R as [|x R IH]; intro H; [constructor|]. cbn [gplaces map]. constructor; [|apply IH; now inversion H]. cbn [fst].
  clear IH. change (fst x :: map fst R) with (map fst (x :: R)) in *. revert H. generalize (map fst (x :: R)) as l.
  induction 1 as [|y l Hy _ IH]; [exact Ha|]. change (SpecText.place n (y :: l)) with (Nat.min (Z.to_nat (anchor y)) (SpecText.place n l)). lia.
Qed.

(** Exchanging a part in the middle. *)
Lemma gedited_mid {A} (f : str -> list A) u (P B Z : list A) : e_from u = Z.of_nat (length P) -> e_to u = (Z.of_nat (length P) + Z.of_nat (length B) - 1)%Z ->
  gedited f [u] (P ++ B ++ Z) = P ++ f (e_text u) ++ Z.
Proof.
  intros H1 H2. unfold gedited. cbn [arrange fold_left put map gplaces fst snd].
  replace (SpecText.place (length (P ++ B ++ Z)) [u]) with (length P).
  - change [(length P, f (e_text u))] with ([] ++ [(length P, f (e_text u))] ++ @nil (nat * list A)).
    assert (C : forall j, covered [u] j = covers u j) by (intro j; apply orb_false_r).
    rewrite (woven_three [] (f (e_text u)) [] _ false); [|constructor|constructor| |now right].
    + cbn [app]. f_equal.
      * unfold woven. cbn [texts_at flat_map]. rewrite app_nil_r. apply (weave_plain [] _ true). intros j Hj. split; [reflexivity|]. rewrite C. unfold covers.
        apply negb_true_iff, andb_false_iff. rewrite !Z.leb_gt. lia.
      * f_equal. unfold wov. cbn [texts_at flat_map]. rewrite app_nil_r. apply (weave_plain [] _ true). intros j Hj. split; [reflexivity|]. rewrite C. unfold covers.
        apply negb_true_iff, andb_false_iff. rewrite !Z.leb_gt. lia.
    + intros j Hj. rewrite C. unfold covers. apply negb_false_iff, andb_true_iff. rewrite !Z.leb_le. lia.
  - cbn [SpecText.place fold_right]. unfold anchor. rewrite !app_length. lia.
Qed.

Definition fracs (x : edit) : Prop := (0 <= e_subf x < 16 /\ 0 <= e_subt x < 16)%Z.
Section Stage.
  Context {A : Type} (f : str -> list A).
  Variables (es : list edit) (r : edit) (s : list A).
  Hypothesis Hes : Forall fracs es.
  Hypothesis Hr : fracs r.
  Hypothesis Hap : Forall (apart r) es.
  Hypothesis Hfw : Forall forward es.
  Hypothesis Hin : (0 <= e_from r <= e_to r + 1 /\ e_to r < Z.of_nat (length s))%Z.
  Lemma key_first x : In x es -> key_le x r = true -> (e_to x < e_from r /\ anchor x <= e_from r)%Z.
  Proof.
    intros I K. pose proof (proj1 (Forall_forall _ _) Hes x I) as X. pose proof (proj1 (Forall_forall _ _) Hap x I) as P. pose proof (proj1 (Forall_forall _ _) Hfw x I) as W.
    unfold key_le in K. apply orb_true_iff in K. rewrite andb_true_iff, Z.ltb_lt, Z.eqb_eq, Z.leb_le in K. unfold fracs, apart, before, forward, anchor, e_hi, e_lo in *. lia.
  Qed.
  Lemma key_second x : In x es -> key_le x r = false -> (e_to r < e_from x /\ e_to r < anchor x)%Z.
  Proof.
    intros I K. pose proof (proj1 (Forall_forall _ _) Hes x I) as X. pose proof (proj1 (Forall_forall _ _) Hap x I) as P. pose proof (proj1 (Forall_forall _ _) Hfw x I) as W.
    unfold key_le in K. apply orb_false_iff in K. rewrite andb_false_iff, Z.ltb_ge, Z.eqb_neq, Z.leb_gt in K. unfold fracs, apart, before, forward, anchor, e_hi, e_lo in *. lia.
  Qed.
  Let a := Z.to_nat (e_from r).
  Let b := Z.to_nat (e_to r + 1 - e_from r).
  Let E1 := earlier_of es r.
  Let E2 := filter (fun x => negb (key_le x r)) es.
  Lemma key_trans x y z : key_le x y = true -> key_le y z = true -> key_le x z = true.
  Proof.
    unfold key_le. rewrite !orb_true_iff, !andb_true_iff, !Z.ltb_lt, !Z.eqb_eq, !Z.leb_le. lia.
  Qed.
  Lemma arrange_key l : arrange key_le l = arrange key_le (filter (fun x => key_le x r) l) ++ arrange key_le (filter (fun x => negb (key_le x r)) l).
  Proof.
    assert (F : forall P l, Forall P l -> Forall P (arrange key_le l)) by (intros P l0 H; eapply Permutation_Forall; [apply arrange_perm|exact H]).
    induction l as [|x l IH] using rev_ind; [reflexivity|]. rewrite arrange_snoc, IH, !filter_app. cbn [filter]. destruct (key_le x r) eqn:Ex; cbn [negb]; rewrite app_nil_r, arrange_snoc.
    - apply put_front, F. apply Forall_forall. intros y Hy. apply filter_In in Hy. destruct Hy as [_ Hy]. apply negb_true_iff in Hy.
      destruct (key_le y x) eqn:Eyx; [|reflexivity]. rewrite (key_trans y x r Eyx Ex) in Hy. discriminate.
    - apply put_behind, F. apply Forall_forall. intros y Hy. apply filter_In in Hy. destruct Hy as [_ Hy].
      clear - Ex Hy. unfold key_le in *. apply orb_true_iff in Hy. apply orb_false_iff in Ex. apply orb_true_iff. rewrite andb_true_iff, Z.ltb_lt, Z.eqb_eq, Z.leb_le in *.
      rewrite andb_false_iff, Z.ltb_ge, Z.eqb_neq, Z.leb_gt in Ex. lia.
  Qed.
  Lemma arrange_with : arrange key_le (es ++ [r]) = arrange key_le E1 ++ [r] ++ arrange key_le E2.
  Proof.
    assert (F : forall P l, Forall P l -> Forall P (arrange key_le l)) by (intros P l0 H; eapply Permutation_Forall; [apply arrange_perm|exact H]).
    rewrite arrange_snoc, (arrange_key es). fold E2. fold (earlier_of es r). fold E1. rewrite put_behind.
    - f_equal. assert (H : Forall (fun y => key_le y r = false) (arrange key_le E2)).
      { apply F. apply Forall_forall. intros y Hy. apply filter_In in Hy. now apply negb_true_iff. }
      destruct (arrange key_le E2) as [|y l]; [reflexivity|]. cbn [put]. now rewrite (Forall_inv H).
    - apply F. apply Forall_forall. intros y Hy. now apply filter_In in Hy.
  Qed.
  Let pl n l := gplaces n (map (fun e => (e, f (e_text e))) l).
  Lemma fst_pl l : map fst (map (fun e => (e, f (e_text e))) l) = l.
  Proof. rewrite map_map. cbn [fst]. apply map_id. Qed.
  Lemma firsts_anchor : Forall (fun x => anchor x <= Z.of_nat a)%Z (arrange key_le E1).
  Proof.
    eapply Permutation_Forall; [apply arrange_perm|]. apply Forall_forall. intros x I. apply filter_In in I. destruct I as [I K]. pose proof (key_first x I K). unfold a. lia.
  Qed.
  Lemma seconds_anchor : Forall (fun x => Z.of_nat (a + b) <= anchor x)%Z (arrange key_le E2).
  Proof.
    eapply Permutation_Forall; [apply arrange_perm|]. apply Forall_forall. intros x I. apply filter_In in I. destruct I as [I K]. apply negb_true_iff in K. pose proof (key_second x I K). unfold a, b. lia.
  Qed.
  Lemma stage_sizes : length (firstn a s) = a /\ length (firstn b (skipn a s)) = b /\ a + b <= length s /\ s = firstn a s ++ firstn b (skipn a s) ++ skipn b (skipn a s).
  Proof.
    assert (L : a + b <= length s) by (unfold a, b; lia). split; [apply firstn_length_le; lia|]. split; [apply firstn_length_le; rewrite skipn_length; lia|]. split; [exact L|].
    now rewrite !firstn_skipn.
  Qed.
  Lemma places_stage (M : list edit) : (M = [] \/ M = [r]) ->
    pl (length s) (arrange key_le E1 ++ M ++ arrange key_le E2) = pl a (arrange key_le E1) ++ map (fun e => (a, f (e_text e))) M ++ pl (length s) (arrange key_le E2).
  Proof.
    intro HM. destruct stage_sizes as (_ & _ & L & _). unfold pl. rewrite map_app. rewrite (gplaces_rest (length s) a); [|lia|rewrite fst_pl; exact firsts_anchor|].
    - f_equal. destruct HM as [-> | ->]; [reflexivity|]. cbn [app map gplaces fst snd]. f_equal. f_equal. rewrite fst_pl.
      change (SpecText.place (length s) (r :: arrange key_le E2)) with (Nat.min (Z.to_nat (anchor r)) (SpecText.place (length s) (arrange key_le E2))).
      assert (G : a <= SpecText.place (length s) (arrange key_le E2)).
      { generalize seconds_anchor. generalize (arrange key_le E2) as l. induction 1 as [|y l Hy _ IH]; [cbn [SpecText.place fold_right]; lia|].
        change (SpecText.place (length s) (y :: l)) with (Nat.min (Z.to_nat (anchor y)) (SpecText.place (length s) l)). lia. }
      unfold anchor, a in *. lia.
    - rewrite fst_pl. apply Forall_app. split; [|eapply Forall_impl; [|exact seconds_anchor]; cbn; lia].
      destruct HM as [-> | ->]; repeat constructor. unfold anchor, a. lia.
  Qed.
  Let front := gedited f E1 (firstn a s).
  Let rest := wov (pl (length s) (arrange key_le E2)) (fun j => negb (covered es j)) (a + b) (skipn b (skipn a s)).
  Lemma keep_front g : (forall j, j < a -> g j = covered es j) -> woven (pl a (arrange key_le E1)) (fun j => negb (g j)) (firstn a s) = front.
  Proof.
    intro H. destruct stage_sizes as (L & _). unfold front, gedited, woven. rewrite L. f_equal. apply weave_same. intros j Hj. split; [reflexivity|]. f_equal. rewrite H by lia.
    unfold covered, E1, earlier_of. apply eq_true_iff_eq. rewrite !existsb_exists. split; intros (x & I & C).
    - exists x. split; [|exact C]. apply filter_In. split; [exact I|]. destruct (key_le x r) eqn:K; [reflexivity|]. pose proof (key_second x I K). unfold covers in C. apply andb_true_iff in C. rewrite !Z.leb_le in C. unfold a in *. lia.
    - apply filter_In in I. exists x. split; [apply I|exact C].
  Qed.
  Lemma stage_one : gedited f es s = front ++ firstn b (skipn a s) ++ rest.
  Proof.
    destruct stage_sizes as (L1 & L2 & L3 & E). unfold gedited. rewrite (arrange_key es). fold E2. fold (earlier_of es r). fold E1. fold (pl (length s) (arrange key_le E1 ++ arrange key_le E2)).
    pose proof (places_stage [] (or_introl eq_refl)) as P. cbn [app map] in P. rewrite P. etransitivity; [apply (f_equal (woven _ _) E)|].
    change (pl a (arrange key_le E1) ++ pl (length s) (arrange key_le E2)) with (pl a (arrange key_le E1) ++ [] ++ pl (length s) (arrange key_le E2)).
    rewrite (woven_three _ [] _ _ true); [|rewrite L1; apply gplaces_le| | |left; split; reflexivity].
    - rewrite (keep_front (covered es)) by reflexivity. rewrite L1, L2. reflexivity.
    - rewrite L1, L2. apply gplaces_ge; [exact L3|]. rewrite fst_pl. exact seconds_anchor.
    - rewrite L1, L2. intros j Hj. apply negb_true_iff. unfold covered. apply not_true_iff_false. rewrite existsb_exists. intros (x & I & C).
      unfold covers in C. apply andb_true_iff in C. rewrite !Z.leb_le in C. destruct (key_le x r) eqn:K; [pose proof (key_first x I K)|pose proof (key_second x I K)]; unfold a, b in *; lia.
  Qed.
  Lemma stage_all : gedited f (es ++ [r]) s = front ++ f (e_text r) ++ rest.
  Proof.
    destruct stage_sizes as (L1 & L2 & L3 & E). unfold gedited. rewrite arrange_with. fold (pl (length s) (arrange key_le E1 ++ [r] ++ arrange key_le E2)).
    rewrite (places_stage [r] (or_intror eq_refl)). etransitivity; [apply (f_equal (woven _ _) E)|]. cbn [map].
    assert (C0 : forall j, covered (es ++ [r]) j = covered es j || covers r j) by (intro j; unfold covered; rewrite existsb_app; cbn [existsb]; now rewrite orb_false_r).
    rewrite (woven_three _ (f (e_text r)) _ _ false); [|rewrite L1; apply gplaces_le| | |right; now rewrite L1].
    - rewrite (keep_front (covered (es ++ [r]))).
      + cbn [app]. rewrite L1, L2. do 2 f_equal. unfold rest. apply wov_same; [reflexivity|]. intros j Hj. f_equal. rewrite C0. replace (covers r j) with false; [apply orb_false_r|].
        symmetry. unfold covers. apply andb_false_iff. rewrite !Z.leb_gt. unfold a, b in *. lia.
      + intros j Hj. rewrite C0. replace (covers r j) with false; [apply orb_false_r|]. symmetry. unfold covers. apply andb_false_iff. rewrite !Z.leb_gt. unfold a, b in *. lia.
    - rewrite L1, L2. apply gplaces_ge; [exact L3|]. rewrite fst_pl. exact seconds_anchor.
    - rewrite L1, L2. intros j Hj. apply negb_false_iff. rewrite C0. apply orb_true_iff. right. unfold covers. apply andb_true_iff. rewrite !Z.leb_le. unfold a, b in *. lia.
  Qed.
  Theorem stage_two : gedited f [at_pos (length front) r] (gedited f es s) = gedited f (es ++ [r]) s.
  Proof.
    rewrite stage_all, stage_one. destruct stage_sizes as (L1 & L2 & L3 & _). apply (gedited_mid f (at_pos (length front) r)); unfold at_pos; cbn [e_from e_to]; [reflexivity|]. rewrite L2. unfold b. lia.
  Qed.
  Theorem stage_back u : e_from u = Z.of_nat (length front) -> e_to u = (Z.of_nat (length front) + Z.of_nat (length (f (e_text r))) - 1)%Z -> f (e_text u) = firstn b (skipn a s) ->
    gedited f [u] (gedited f (es ++ [r]) s) = gedited f es s.
  Proof. intros H1 H2 H3. rewrite stage_all, stage_one, <- H3. now apply gedited_mid. Qed.
End Stage.
