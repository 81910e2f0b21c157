(** Histories of a generator: adding, querying, serializing, applying another map. *)
From Verif Require Import Base Tactics ModelString StringFacts ModelVlq ModelSm SpecMap
  SortFacts VlqFacts MapFacts ParseFacts.
From Verif Require Export SpecGen.

(** * The mapping list *)
Definition last_ok (ml : mapping_list) : Prop :=
  match ml_last ml with
  | None => ml_list ml = []
  | Some x => In x (ml_list ml) /\ forall y, In y (ml_list ml) -> cle mapping_cmp y x
  end.

Lemma cle_refl x : cle mapping_cmp x x.
Proof. unfold cle. rewrite (good_refl _ good_mapping). discriminate. Qed.

Lemma sorted_snoc l x : msorted l -> (forall y, In y l -> cle mapping_cmp y x) -> msorted (l ++ [x]).
Proof.
  induction 1 as [|y l Hs IH Hy]; intro H; simpl; [repeat constructor|].
  constructor; [apply IH; intros; apply H; now right|].
  apply Forall_app. split; auto. repeat constructor. apply H. now left.
Qed.

Lemma ml_add_ok ml m : ml_ok ml -> last_ok ml -> ml_ok (ml_add ml m) /\ last_ok (ml_add ml m).
Proof.
  unfold ml_ok, last_ok, ml_add. intros Hs Hl. destruct (ml_last ml) as [x|].
  - destruct Hl as [Hin Hmax]. destruct (mapping_cmp m x) eqn:E; cbn.
    + apply mapping_eq in E. subst m. split.
      * intro Ht. apply sorted_snoc; auto.
      * split; [apply in_or_app; now left|].
        intros y Hy. apply in_app_iff in Hy as [Hy|[<-|[]]]; auto using cle_refl.
    + split; [discriminate|]. split; [apply in_or_app; now left|].
      intros y Hy. apply in_app_iff in Hy as [Hy|[<-|[]]]; auto.
      unfold cle. congruence.
    + assert (Hx : cle mapping_cmp x m).
      { unfold cle. rewrite (mapping_sym m x), E. discriminate. }
      split.
      * intro Ht. apply sorted_snoc; auto. intros; eapply mapping_trans; eauto.
      * split; [apply in_or_app; right; now left|].
        intros y Hy. apply in_app_iff in Hy as [Hy|[<-|[]]]; [|apply cle_refl].
        eapply mapping_trans; eauto.
  - cbn. rewrite Hl. cbn. split; [intros _; repeat constructor|].
    split; [now left|]. intros y [<-|[]]. apply cle_refl.
Qed.
Lemma ml_add_list ml m : ml_list (ml_add ml m) = ml_list ml ++ [m].
Proof. unfold ml_add. destruct (ml_last ml) as [x|]; [destruct (mapping_cmp m x)|]; reflexivity. Qed.

Lemma ml_sort_ok ml : ml_ok ml -> ml_ok (ml_sort ml).
Proof. intros H _. now apply ml_sort_sorted. Qed.
Lemma ml_sort_last ml : last_ok ml -> last_ok (ml_sort ml).
Proof.
  unfold last_ok. unfold ml_sort. destruct (ml_sorted ml); auto. cbn.
  pose proof (isort_perm mapping_cmp (ml_list ml)) as P.
  destruct (ml_last ml) as [x|].
  - intros [H1 H2]. split; [eapply Permutation_in; eauto|].
    intros y Hy. apply H2. eapply Permutation_in; [symmetry; exact P|auto].
  - intros ->. reflexivity.
Qed.

(** * Histories *)

(** * Queries *)
Lemma pos_cmp_N a b : pos_cmp a b = Gt <->
  (fst b < fst a)%N \/ (fst a = fst b /\ (snd b < snd a)%N).
Proof.
  unfold pos_cmp. destruct (N.compare_spec (fst a) (fst b)); cbn.
  - rewrite N.compare_gt_iff. intuition lia.
  - split; [discriminate|lia].
  - intuition lia.
Qed.
Lemma pos_cmp_Eq a b : pos_cmp a b = Eq <-> a = b.
Proof. split; [apply (good_eq _ good_pos)|intros ->; apply (good_refl _ good_pos)]. Qed.

Lemma mapping_cle_gen a b : cle mapping_cmp a b -> pos_cmp (m_gen a) (m_gen b) <> Gt.
Proof. unfold cle, mapping_cmp. destruct (pos_cmp _ _); cbn; congruence. Qed.

Section Search.
  Context {A : Type} (f : A -> comparison) (l : list A).
  (** [Gt] is upward closed. *)
  Hypothesis mono : forall i j x y, i <= j -> nth_error l i = Some x -> nth_error l j = Some y ->
    f x = Gt -> f y = Gt.

  Lemma bs_loop_spec fuel : forall base size,
    size <= fuel -> 1 <= size -> base + size <= length l ->
    (base = 0 \/ exists x, nth_error l base = Some x /\ f x <> Gt) ->
    (forall j x, base + size <= j -> nth_error l j = Some x -> f x = Gt) ->
    let b := bs_loop fuel f l base size in
    b < length l /\ (b = 0 \/ exists x, nth_error l b = Some x /\ f x <> Gt) /\
    (forall j x, b < j -> nth_error l j = Some x -> f x = Gt).
  Proof.
    induction fuel as [|fuel IH]; intros base size Hf H1 Hb Hlo Hhi; [lia|].
    cbn [bs_loop]. destruct (Nat.leb_spec size 1).
    - cbn zeta. split; [lia|]. split; auto. intros j x Hj. apply Hhi. lia.
    - set (half := size / 2).
      assert (Hh : 1 <= half /\ half < size).
      { unfold half. split; [apply Nat.div_le_lower_bound; lia|apply Nat.div_lt; lia]. }
      destruct (nth_error l (base + half)) as [x|] eqn:E.
      2:{ apply nth_error_None in E. lia. }
      destruct (f x) eqn:Ex.
      + apply IH; try lia; [right; exists x; split; auto; congruence|].
        intros j y Hj. apply Hhi. lia.
      + apply IH; try lia; [right; exists x; split; auto; congruence|].
        intros j y Hj. apply Hhi. lia.
      + apply IH; try lia; auto.
        intros j y Hj Ey. eapply (mono (base + half) j); eauto. 
        assert (size - half >= half).
        { unfold half. pose proof (Nat.div_mod size 2). lia. }
        lia.
  Qed.
End Search.

(** The query returns the last mapping of the sorted list at or before the position, if
    it is on the right line. *)
Lemma split_by_pos l p : msorted l ->
  exists a b, l = a ++ b /\ Forall (fun m => pos_cmp (m_gen m) p <> Gt) a /\
              Forall (fun m => pos_cmp (m_gen m) p = Gt) b.
Proof.
  induction 1 as [|x l Hs (a & b & -> & Ha & Hb) Hx]; [exists [], []; auto|].
  destruct (pos_cmp (m_gen x) p) eqn:E.
  - exists (x :: a), b. repeat split; auto. constructor; auto; congruence.
  - exists (x :: a), b. repeat split; auto. constructor; auto; congruence.
  - exists [], (x :: a ++ b). repeat split; auto. constructor; auto.
    eapply Forall_impl; [|exact Hx]. intros y Hy. apply mapping_cle_gen in Hy.
    apply pos_cmp_N in E. rewrite pos_cmp_N in Hy |- *. lia.
Qed.

Lemma list_eq_nil_dec {A} (l : list A) : l = [] \/ l <> [].
Proof. destruct l; [left|right]; congruence. Qed.
Lemma search_nonempty {A} (f : A -> comparison) l : l <> [] ->
  binary_search_by f l =
  let base := bs_loop (length l) f l 0 (length l) in
  match nth_error l base with
  | None => NotFound base
  | Some x => match f x with Eq => Found base | Lt => NotFound (base + 1) | Gt => NotFound base end
  end.
Proof. destruct l; [congruence|reflexivity]. Qed.

Lemma search_spec l p a b : l = a ++ b ->
  Forall (fun m => pos_cmp (m_gen m) p <> Gt) a ->
  Forall (fun m => pos_cmp (m_gen m) p = Gt) b ->
  match binary_search_by (fun m => pos_cmp (m_gen m) p) l with
  | Found i => S i = length a
  | NotFound i => i = length a
  end.
Proof.
  intros -> Ha Hb. set (f := fun m => pos_cmp (m_gen m) p). set (l := a ++ b).
  assert (Hlo : forall i x, nth_error l i = Some x -> f x <> Gt -> i < length a).
  { intros i x Hi Hx. destruct (Nat.ltb_spec i (length a)); auto. exfalso.
    unfold l in Hi. rewrite nth_error_app2 in Hi by lia. apply nth_error_In in Hi.
    rewrite Forall_forall in Hb. apply Hx. apply Hb. exact Hi. }
  assert (Hhi : forall i x, nth_error l i = Some x -> f x = Gt -> length a <= i).
  { intros i x Hi Hx. destruct (Nat.ltb_spec i (length a)); auto. exfalso.
    unfold l in Hi. rewrite nth_error_app1 in Hi by lia. apply nth_error_In in Hi.
    rewrite Forall_forall in Ha. apply (Ha x); auto. }
  destruct (list_eq_nil_dec l) as [El|El].
  { unfold l in *. apply app_eq_nil in El as [-> ->]. reflexivity. }
  rewrite search_nonempty by exact El.
  destruct (bs_loop_spec f l) with (fuel := length l) (base := 0) (size := length l) as (H1 & H2 & H3).
  - intros i j x y Hij Hi Hj Hx. specialize (Hhi i x Hi Hx).
    unfold l in Hj. rewrite nth_error_app2 in Hj by lia. apply nth_error_In in Hj.
    rewrite Forall_forall in Hb. apply Hb. exact Hj.
  - lia.
  - destruct l; [congruence|]. simpl. lia.
  - lia.
  - now left.
  - intros j x Hj Ej. assert (nth_error l j <> None) by congruence.
    apply nth_error_Some in H. lia.
  - cbn zeta in *. set (i := bs_loop (length l) f l 0 (length l)) in *.
    destruct (nth_error l i) as [x|] eqn:Ei.
    2:{ apply nth_error_None in Ei. lia. }
    assert (Hle : f x <> Gt -> length a = S i).
    { intro Hx. specialize (Hlo i x Ei Hx).
      destruct (Nat.eq_dec (length a) (S i)); auto. exfalso.
      destruct (nth_error l (S i)) as [y|] eqn:Ey.
      - specialize (H3 (S i) y (Nat.lt_succ_diag_r i) Ey). specialize (Hhi _ _ Ey H3). lia.
      - apply nth_error_None in Ey. unfold l in Ey. rewrite app_length in Ey. lia. }
    destruct (f x) eqn:Ex.
    + symmetry. apply Hle. congruence.
    + rewrite Nat.add_1_r. symmetry. apply Hle. congruence.
    + destruct H2 as [H2|(x' & Ei' & Hx')]; [|congruence].
      rewrite H2 in *. specialize (Hhi _ _ Ei Ex). lia.
Qed.

Lemma original_position_sorted g line column :
  ml_ok (g_mappings g) ->
  let l := ml_list (ml_sort (g_mappings g)) in
  exists a b, l = a ++ b /\
    Forall (fun m => pos_cmp (m_gen m) (line, column) <> Gt) a /\
    Forall (fun m => pos_cmp (m_gen m) (line, column) = Gt) b /\
    original_position_for g line column =
    Some (gen_set_mappings g (ml_sort (g_mappings g)),
          match rev a with
          | [] => empty_mapping
          | m :: _ => if (fst (m_gen m) =? line)%N then m else empty_mapping
          end).
Proof.
  intros Hok l. destruct (split_by_pos l (line, column)) as (a & b & El & Ha & Hb).
  { now apply ml_sort_sorted. }
  exists a, b. repeat split; auto. unfold original_position_for.
  cbn [g_mappings gen_set_mappings]. fold l.
  pose proof (search_spec l (line, column) a b El Ha Hb) as Hs.
  assert (Hpick : forall i, S i = length a -> exists m r, rev a = m :: r /\ nth_error l i = Some m).
  { intros i Hi. destruct (rev a) as [|m r] eqn:Er.
    - apply (f_equal (@length _)) in Er. rewrite rev_length in Er. simpl in Er. lia.
    - exists m, r. split; auto. rewrite El.
      apply (f_equal (@rev _)) in Er. rewrite rev_involutive in Er. simpl in Er.
      rewrite Er in Hi |- *. rewrite app_length, rev_length in Hi. simpl in Hi.
      rewrite <- app_assoc, nth_error_app2 by (rewrite rev_length; lia).
      rewrite rev_length. replace (i - length r) with 0 by lia. reflexivity. }
  destruct (binary_search_by _ l) as [i|[|i]].
  - destruct (Hpick i Hs) as (m & r & -> & ->). cbn [bind].
    destruct (fst (m_gen m) =? line)%N; reflexivity.
  - destruct a; [|simpl in Hs; lia]. reflexivity.
  - destruct (Hpick i Hs) as (m & r & -> & ->). cbn [bind].
    destruct (fst (m_gen m) =? line)%N; reflexivity.
Qed.

(** [find_entry] on a list sorted by generated position. *)
Lemma find_entry_app l1 l2 line col :
  find_entry (l1 ++ l2) line col = fold_left (better line col) l2 (find_entry l1 line col).
Proof. apply fold_left_app. Qed.

Lemma better_skip line col b (e : place * option target) :
  (fst (fst e) <> line \/ col < snd (fst e))%Z -> better line col b e = b.
Proof.
  unfold better. intro H.
  destruct (Z.eqb_spec (fst (fst e)) line); cbn [andb]; [|reflexivity].
  destruct (Z.leb_spec (snd (fst e)) col); [lia|reflexivity].
Qed.
Lemma fold_better_skip line col b l :
  Forall (fun e : place * option target => fst (fst e) <> line \/ (col < snd (fst e))%Z) l ->
  fold_left (better line col) l b = b.
Proof.
  induction l as [|e l IH]; intro H; [reflexivity|]. inv H. simpl. rewrite better_skip; auto.
Qed.
Lemma find_entry_in l line col (e : place * option target) : find_entry l line col = Some e ->
  In e l /\ fst (fst e) = line /\ (snd (fst e) <= col)%Z.
Proof.
  unfold find_entry. rewrite <- fold_left_rev_right. rewrite (in_rev l). revert e.
  induction (rev l) as [|x r IH]; simpl; intro e; [discriminate|].
  unfold better at 1. destruct (Z.eqb_spec (fst (fst x)) line); cbn; [|intros; split; [right|]; now apply IH].
  destruct (Z.leb_spec (snd (fst x)) col); [|intros; split; [right|]; now apply IH].
  destruct (fold_right _ None r) as [b|].
  - destruct (snd (fst b) <=? snd (fst x))%Z.
    + intros [= <-]. auto.
    + intros [= <-]. destruct (IH b eq_refl) as (? & ? & ?). auto.
  - intros [= <-]. auto.
Qed.

Lemma find_entry_sorted a b line col :
  msorted (a ++ b) ->
  Forall (fun m => pos_cmp (m_gen m) (line, col) <> Gt) a ->
  Forall (fun m => pos_cmp (m_gen m) (line, col) = Gt) b ->
  find_entry (map view (a ++ b)) (Z.of_N line) (Z.of_N col) =
  match rev a with
  | [] => None
  | m :: _ => if (fst (m_gen m) =? line)%N then Some (view m) else None
  end.
Proof.
  intros Hs Ha Hb. rewrite map_app, find_entry_app, fold_better_skip.
  2:{ rewrite Forall_map. eapply Forall_impl; [|exact Hb]. intros m Hm.
      apply pos_cmp_N in Hm. cbn in Hm |- *. lia. }
  destruct (rev a) as [|m r] eqn:Er.
  { apply (f_equal (@rev _)) in Er. rewrite rev_involutive in Er. rewrite Er. reflexivity. }
  apply (f_equal (@rev _)) in Er. rewrite rev_involutive in Er. simpl in Er. rewrite Er in *.
  rewrite map_app, find_entry_app. cbn [map fold_left].
  assert (Hr : forall x, In x (rev r) -> pos_cmp (m_gen x) (m_gen m) <> Gt).
  { intros x Hx. apply mapping_cle_gen. rewrite <- app_assoc in Hs.
    clear -Hs Hx. induction (rev r) as [|y q IH]; [destruct Hx|].
    simpl in Hs. apply StronglySorted_inv in Hs as [Hs Hy]. destruct Hx as [->|Hx].
    - rewrite Forall_forall in Hy. apply Hy. apply in_or_app. right. now left.
    - auto. }
  apply Forall_app in Ha as [_ Ham]. inv Ham. rewrite pos_cmp_N in H1. cbn in H1.
  destruct (N.eqb_spec (fst (m_gen m)) line) as [El|El].
  - unfold better. cbn [view fst snd].
    destruct (Z.eqb_spec (Z.of_N (fst (m_gen m))) (Z.of_N line)); [|lia].
    destruct (Z.leb_spec (Z.of_N (snd (m_gen m))) (Z.of_N col)); [|lia]. cbn [andb].
    destruct (find_entry _ _ _) as [e1|] eqn:Ee; auto.
    apply find_entry_in in Ee as (Hin & Hl & Hc). apply in_map_iff in Hin as (x & <- & Hx).
    specialize (Hr x Hx). rewrite pos_cmp_N in Hr. cbn in Hl, Hc |- *.
    destruct (Z.leb_spec (Z.of_N (snd (m_gen x))) (Z.of_N (snd (m_gen m)))); auto. lia.
  - rewrite better_skip by (cbn; lia).
    destruct (find_entry _ _ _) as [e|] eqn:Ee; auto.
    apply find_entry_in in Ee as (Hin & Hl & Hc). apply in_map_iff in Hin as (x & <- & Hx).
    specialize (Hr x Hx). rewrite pos_cmp_N in Hr. cbn in Hl, Hc. lia.
Qed.

Lemma original_position_entry g line column :
  ml_ok (g_mappings g) ->
  let l := isort mapping_cmp (ml_list (g_mappings g)) in
  let g' := gen_set_mappings g (ml_sort (g_mappings g)) in
  (exists m, original_position_for g line column = Some (g', m) /\ In m l /\
             find_entry (map view l) (Z.of_N line) (Z.of_N column) = Some (view m)) \/
  (original_position_for g line column = Some (g', empty_mapping) /\
   find_entry (map view l) (Z.of_N line) (Z.of_N column) = None).
Proof.
  intros Hok l g'. unfold l. rewrite <- ml_sort_isort by auto.
  pose proof (ml_sort_sorted _ Hok) as Hs.
  destruct (original_position_sorted g line column Hok) as (a & b & El & Ha & Hb & ->).
  rewrite El in *. fold g'. rewrite (find_entry_sorted a b line column) by auto.
  destruct (rev a) as [|m r] eqn:Er; [right; auto|].
  destruct (fst (m_gen m) =? line)%N; [left|right; auto].
  exists m. repeat split; auto. apply in_or_app. left. apply in_rev. rewrite Er. now left.
Qed.

(** * Preservation *)
Definition gen_wf1 (g : generator) : Prop := gen_wf g /\ last_ok (g_mappings g).

Lemma gen_wf_sort g : gen_wf g -> gen_wf (gen_set_mappings g (ml_sort (g_mappings g))).
Proof.
  intros (A & B & C & D). repeat split; auto; try apply A; try apply B.
  - cbn. eapply Permutation_Forall; [apply ml_sort_perm|]. exact C.
  - cbn. now apply ml_sort_ok.
Qed.

Lemma gen_new_wf1 f r s : gen_wf1 (gen_new f r s).
Proof.
  repeat split; try apply tbl_ok_nil; try constructor.
Qed.

Definition opt_src (g : generator) (o : option Z) : generator :=
  match o with Some s => gen_add_source g s | None => g end.
Definition opt_nam (g : generator) (o : option Z) : generator :=
  match o with Some s => gen_add_name g s | None => g end.

Lemma gen_add_mapping_eq g m : g_skip g = true \/ valid m ->
  gen_add_mapping g m =
  Some (gen_set_mappings (opt_nam (opt_src g (m_src m)) (m_name m))
          (ml_add (g_mappings g) m)).
Proof.
  intro H. unfold gen_add_mapping. unfold valid in H.
  assert (E : g_skip g || validate_mapping m = true) by (destruct H as [->| ->]; auto using orb_true_r).
  rewrite E. destruct (m_src m), (m_name m); reflexivity.
Qed.

Lemma mapping_ok_mono g g' m :
  (forall s, In s (map fst (g_sources g)) -> In s (map fst (g_sources g'))) ->
  (forall s, In s (map fst (g_names g)) -> In s (map fst (g_names g'))) ->
  mapping_ok g m -> mapping_ok g' m.
Proof. intros H1 H2 (A & B & C). repeat split; auto. Qed.

Lemma gen_add_wf1 g m g' : gen_wf1 g -> valid m -> gen_add_mapping g m = Some g' ->
  gen_wf1 g' /\ ml_list (g_mappings g') = ml_list (g_mappings g) ++ [m] /\
  g_contents g' = g_contents g /\ g_skip g' = g_skip g /\ g_file g' = g_file g /\ g_root g' = g_root g.
Proof.
  intros ((A & B & C & D) & L) V H. rewrite gen_add_mapping_eq in H by auto. injection H as <-.
  destruct (ml_add_ok (g_mappings g) m D L) as [D' L'].
  split; [split; [split; [|split; [|split]]|]|]; auto.
  - destruct (m_src m), (m_name m); cbn; auto using tbl_ok_add.
  - destruct (m_src m), (m_name m); cbn; auto using tbl_ok_add.
  - cbn [g_mappings gen_set_mappings]. rewrite ml_add_list. apply Forall_app. split.
    + eapply Forall_impl; [|exact C]. intros x. apply mapping_ok_mono;
      destruct (m_src m), (m_name m); cbn; auto; intros y Hy; apply al_or_insert_keys; auto.
    + repeat constructor; auto.
      * intros s Hs. rewrite Hs. destruct (m_name m); cbn; apply al_or_insert_keys; auto.
      * intros n Hn. rewrite Hn. destruct (m_src m); cbn; apply al_or_insert_keys; auto.
  - cbn [g_mappings gen_set_mappings]. rewrite ml_add_list.
    destruct (m_src m), (m_name m); repeat split; reflexivity.
Qed.

(** Applying another generator. *)
Lemma apply_loop_spec inner file l inner' l' :
  gen_wf inner -> apply_loop inner file l = Some (inner', l') -> Forall valid l ->
  Forall valid l' /\ length l' = length l.
Proof.
  revert inner inner' l'; induction l as [|m l IH]; intros inner inner' l' Hw H Hv.
  - cbn in H. injection H as _ <-. auto.
  - cbn [apply_loop] in H. unbind H. destruct v as [in1 m1]. unbind H. destruct v as [in2 r].
    injection H as _ <-. inv Hv.
    assert (Hm : valid m1 /\ gen_wf in1).
    { destruct (m_orig m) as [[ol oc]|] eqn:Eo; [|injection E as <- <-; auto].
      destruct (optZ_eqb (m_src m) file); [|injection E as <- <-; auto].
      unbind E. destruct v as [in3 o]. destruct Hw as (W1 & W2 & W3 & W4).
      destruct (original_position_entry inner ol oc W4) as [(m' & Em & Hin & _)|[Em _]];
        rewrite Em in E1; injection E1 as <- <-.
      - assert (Hv' : valid m').
        { assert (Hin' : In m' (ml_list (g_mappings inner))).
          { eapply Permutation_in; [symmetry; apply isort_perm|exact Hin]. }
          rewrite Forall_forall in W3. now apply W3. }
        destruct (m_src m') eqn:Es; injection E as <- <-.
        + split; [|apply gen_wf_sort; repeat split; auto; apply W1 || apply W2].
          apply valid_cases in Hv' as [_ [(Hn & _)|(s & ol' & oc' & _ & -> & Hp)]]; [congruence|].
          apply valid_cases in H1 as [Hg _].
          unfold valid, validate_mapping. cbn. apply N.ltb_lt in Hp, Hg. rewrite Hp, Hg. reflexivity.
        + split; auto. apply gen_wf_sort; repeat split; auto; apply W1 || apply W2.
      - cbn in E. injection E as <- <-. split; auto.
        apply gen_wf_sort; repeat split; auto; apply W1 || apply W2. }
    destruct Hm as [Hm1 Hm2]. destruct (IH _ _ _ Hm2 E0 H2) as [F L]. cbn. auto.
Qed.

Lemma fold_add_source ss : forall g, tbl_ok (g_sources g) ->
  let g' := fold_left gen_add_source ss g in
  tbl_ok (g_sources g') /\ (forall x, In x (map fst (g_sources g')) <-> In x (map fst (g_sources g)) \/ In x ss) /\
  g_names g' = g_names g /\ g_mappings g' = g_mappings g /\ g_contents g' = g_contents g.
Proof.
  induction ss as [|s ss IH]; intros g H; cbn [fold_left]; [simpl; intuition|].
  destruct (IH (gen_add_source g s)) as (A & B & C & D & E); [now apply tbl_ok_add|].
  cbn zeta in *. repeat split; try apply A; auto.
  - intro Hx. apply B in Hx. cbn in Hx. rewrite al_or_insert_keys in Hx. simpl. intuition.
  - intro Hx. apply B. cbn. rewrite al_or_insert_keys. simpl in Hx. intuition.
Qed.
Lemma fold_add_name ss : forall g, tbl_ok (g_names g) ->
  let g' := fold_left gen_add_name ss g in
  tbl_ok (g_names g') /\ (forall x, In x (map fst (g_names g')) <-> In x (map fst (g_names g)) \/ In x ss) /\
  g_sources g' = g_sources g /\ g_mappings g' = g_mappings g /\ g_contents g' = g_contents g.
Proof.
  induction ss as [|s ss IH]; intros g H; cbn [fold_left]; [simpl; intuition|].
  destruct (IH (gen_add_name g s)) as (A & B & C & D & E); [now apply tbl_ok_add|].
  cbn zeta in *. repeat split; try apply A; auto.
  - intro Hx. apply B in Hx. cbn in Hx. rewrite al_or_insert_keys in Hx. simpl. intuition.
  - intro Hx. apply B. cbn. rewrite al_or_insert_keys. simpl in Hx. intuition.
Qed.

Lemma fold_contents cs : forall g,
  let g' := fold_left (fun g '(s, c) => gen_set_source_content g s (Some c)) cs g in
  g_sources g' = g_sources g /\ g_names g' = g_names g /\ g_mappings g' = g_mappings g.
Proof.
  induction cs as [|[s c] cs IH]; intro g; cbn [fold_left]; [auto|].
  destruct (IH (gen_set_source_content g s (Some c))) as (A & B & C). auto.
Qed.

Lemma apply_wf g inner file g' inner' :
  gen_wf g -> gen_wf inner -> apply_source_map_generator g inner file = Some (g', inner') ->
  gen_wf g' /\ ml_sorted (g_mappings g') = false /\
  length (ml_list (g_mappings g')) = length (ml_list (g_mappings g)).
Proof.
  intros (A & B & C & D) Wi H. unfold apply_source_map_generator in H. unbind H.
  unbind H. destruct v0 as [in1 l].
  apply apply_loop_spec in E0 as [Hv Hlen]; auto.
  2:{ cbn. eapply Forall_impl; [|exact C]. intros m Hm. apply Hm. }
  set (ss := flat_map (fun m => opt_list (m_src m)) l).
  set (ns := flat_map (fun m => opt_list (m_name m)) l).
  set (g0 := gen_set_mappings g (mk_ml l (ml_sorted (ml_set_unsorted (g_mappings g))) (ml_last (ml_set_unsorted (g_mappings g))))).
  set (g1 := match l with [] => g0 | _ => gen_set_sources g0 [] end).
  assert (Hg1 : tbl_ok (g_sources g1)) by (unfold g1; destruct l; [exact A|apply tbl_ok_nil]).
  destruct (fold_add_source ss g1 Hg1) as (S1 & S2 & S3 & S4 & S5).
  set (g2 := fold_left gen_add_source ss g1) in *.
  destruct (fold_add_name ns (gen_set_names g2 []) tbl_ok_nil) as (N1 & N2 & N3 & N4 & N5).
  set (g3 := fold_left gen_add_name ns (gen_set_names g2 [])) in *.
  destruct (fold_contents (g_contents in1) g3) as (K1 & K2 & K3).
  set (g4 := fold_left _ (g_contents in1) g3) in *.
  assert (Eg : g' = g4) by (injection H as <- _; reflexivity). rewrite Eg. clear H Eg g'.
  assert (Em : g_mappings g4 = mk_ml l false None).
  { rewrite K3, N4. cbn. rewrite S4. unfold g1. destruct l; reflexivity. }
  split; [split; [|split; [|split]]|].
  - rewrite K1, N3. exact S1.
  - rewrite K2. exact N1.
  - rewrite Em. cbn. rewrite Forall_forall in *. intros m Hm. split; [auto|]. split.
    + intros s Hs. rewrite K1, N3. apply S2. right. apply in_flat_map. exists m. rewrite Hs. split; auto. now left.
    + intros n Hn. rewrite K2. apply N2. right. apply in_flat_map. exists m. rewrite Hn. split; auto. now left.
  - rewrite Em. discriminate.
  - rewrite Em. cbn. split; auto.
Qed.

Lemma content_wf g s c : gen_wf1 g -> gen_wf1 (gen_set_source_content g s c).
Proof. destruct c; intros (H & L); split; auto. Qed.
Lemma content_wf0 g s c : gen_wf g -> gen_wf (gen_set_source_content g s c).
Proof. destruct c; auto. Qed.

Lemma gstep_wf1 g o g' : gen_wf1 g -> plain o -> op_ok o -> gstep g o = Some g' ->
  gen_wf1 g' /\ Permutation (ml_list (g_mappings g')) (ml_list (g_mappings g) ++ added [o]).
Proof.
  intros H P O E. destruct o as [m|ln c| |s c|inner f]; cbn [gstep added flat_map] in *; [..|destruct P].
  - destruct (gen_add_wf1 g m g' H O E) as (W & -> & _). auto.
  - unbind E. destruct v as [g1 m]. injection E as <-. rewrite app_nil_r.
    destruct H as (Hw & L). destruct (original_position_entry g ln c) as [(m' & Em & _)|[Em _]]; [apply Hw| |];
    rewrite Em in E0; injection E0 as <- <-; (split; [split; [now apply gen_wf_sort|now apply ml_sort_last]|]);
    cbn; symmetry; apply ml_sort_perm.
  - unbind E. destruct v as [g1 m]. injection E as <-. rewrite app_nil_r.
    destruct H as (Hw & L). destruct (to_source_map_spec g Hw) as (g2 & m2 & Em & -> & _).
    rewrite Em in E0; injection E0 as <- <-. split; [split; [now apply gen_wf_sort|now apply ml_sort_last]|].
    cbn; symmetry; apply ml_sort_perm.
  - injection E as <-. rewrite app_nil_r. split; [now apply content_wf|]. destruct c; auto.
Qed.

Lemma grun_wf1 h : forall g g', gen_wf1 g -> Forall plain h -> Forall op_ok h -> grun g h = Some g' ->
  gen_wf1 g' /\ Permutation (ml_list (g_mappings g')) (ml_list (g_mappings g) ++ added h).
Proof.
  induction h as [|o h IH]; intros g g' H P O E; cbn [grun] in E.
  - injection E as <-. cbn. rewrite app_nil_r. auto.
  - unbind E. inv P. inv O. destruct (gstep_wf1 _ _ _ H H2 H4 E0) as [W1 P1].
    destruct (IH _ _ W1 H3 H5 E) as [W2 P2]. split; auto.
    rewrite P2, P1, <- app_assoc. apply Permutation_app_head.
    unfold added. cbn [flat_map]. now rewrite app_nil_r.
Qed.

Lemma gstep_wf g o g' : gen_wf g -> (match o with OAdd _ => False | _ => True end) -> op_ok o ->
  gstep g o = Some g' -> gen_wf g'.
Proof.
  intros H P O E. destruct o as [m|ln c| |s c|inner f]; cbn [gstep] in *; [destruct P|..].
  - unbind E. destruct v as [g1 m]. injection E as <-.
    destruct (original_position_entry g ln c) as [(m' & Em & _)|[Em _]]; [apply H| |];
    rewrite Em in E0; injection E0 as <- <-; now apply gen_wf_sort.
  - unbind E. destruct v as [g1 m]. injection E as <-.
    destruct (to_source_map_spec g H) as (g2 & m2 & Em & -> & _).
    rewrite Em in E0; injection E0 as <- <-. now apply gen_wf_sort.
  - injection E as <-. now apply content_wf0.
  - unbind E. destruct v as [g1 i1]. injection E as <-. eapply apply_wf; [exact H|exact O|exact E0].
Qed.

Lemma grun_wf h : forall applied g g',
  (applied = false -> gen_wf1 g) -> gen_wf g ->
  orderly applied h -> Forall op_ok h -> grun g h = Some g' -> gen_wf g'.
Proof.
  induction h as [|o h IH]; intros applied g g' W1 W P O E; cbn [grun] in E.
  - injection E as <-. auto.
  - unbind E. inv O.
    destruct applied.
    + assert (Hn : match o with OAdd _ => False | _ => True end /\ orderly true h).
      { destruct o; cbn in P; intuition discriminate. }
      destruct Hn. apply (IH true v g'); auto; [discriminate|exact (gstep_wf g _ v W H H1 E0)].
    + destruct o as [m|ln c| |s c|inner f]; cbn [orderly] in P.
      1:{ destruct P as [_ P]. destruct (gstep_wf1 g (OAdd m) v (W1 eq_refl) I H1 E0) as [W' _].
          apply (IH false v g'); auto. apply W'. }
      4:{ apply (IH true v g'); auto; [discriminate|exact (gstep_wf g (OApply inner f) v W I H1 E0)]. }
      all: match type of E0 with gstep _ ?o = _ =>
             destruct (gstep_wf1 g o v (W1 eq_refl) I H1 E0) as [W' _] end;
           apply (IH false v g'); auto; apply W'.
Qed.
