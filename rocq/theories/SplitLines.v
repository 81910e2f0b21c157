(** Edits done in the parts: line maps. *)
From Coq Require Import Permutation.
From Verif Require Import Base Tactics ModelString StringFacts ModelVlq ModelSm ModelSlm ModelSources ModelTree ModelWasm
  ModelJs ModelJsApi SpecText SpecMap SpecAttr SpecEdit SpecEffect SpecLineEdit SpecList SpecRun SortFacts TextFacts EditFacts NodeFacts LeafFacts
  IdxFacts SpecResult ModelJsResult ResultProps SpecJs ModelEnd SpecEnd EndFacts MadeFacts EndProps EndMap SpecEdited EditedFacts EditedBuild EditedEnd
  SpecLineEdited LineEditedFacts LineEditedEnd SpecSplit SplitFacts SplitTree SplitEnd.

Lemma weave_map_in {A B} (g : A -> B) ps keep : forall s pos, map g (weave ps keep pos s) = weave (map (fun p => (fst p, map g (snd p))) ps) keep pos (map g s).
Proof.
  assert (T : forall q (ps : list (nat * list A)), map g (texts_at ps q) = texts_at (map (fun p => (fst p, map g (snd p))) ps) q).
  { intro q. induction ps0 as [|p ps0 IH]; [reflexivity|]. change (texts_at (p :: ps0) q) with ((if Nat.eqb (fst p) q then snd p else []) ++ texts_at ps0 q).
    rewrite map_app, IH. cbn [map]. change (texts_at ((fst p, map g (snd p)) :: map (fun p => (fst p, map g (snd p))) ps0) q) with
      ((if Nat.eqb (fst p) q then map g (snd p) else []) ++ texts_at (map (fun p => (fst p, map g (snd p))) ps0) q). destruct (Nat.eqb (fst p) q); reflexivity. }
  induction s as [|c s IH]; intro pos; [reflexivity|]. cbn [weave map]. rewrite !map_app, T, IH. destruct (keep pos); reflexivity.
Qed.
Lemma woven_map_in {A B} (g : A -> B) ps keep s : map g (woven ps keep s) = woven (map (fun p => (fst p, map g (snd p))) ps) keep (map g s).
Proof.
  unfold woven. rewrite map_app, weave_map_in, map_length. f_equal.
  pose proof (weave_map_in g ps (fun _ => false)) as H. induction ps as [|p ps IH]; [reflexivity|].
  change (texts_at (p :: ps) (length s)) with ((if Nat.eqb (fst p) (length s) then snd p else []) ++ texts_at ps (length s)).
  rewrite map_app. cbn [map]. change (texts_at ((fst p, map g (snd p)) :: map (fun p => (fst p, map g (snd p))) ps) (length s)) with
    ((if Nat.eqb (fst p) (length s) then map g (snd p) else []) ++ texts_at (map (fun p => (fst p, map g (snd p))) ps) (length s)).
  rewrite IH by (intros s0 pos; apply weave_map_in). destruct (Nat.eqb (fst p) (length s)); reflexivity.
Qed.

Definition blanks (len : nat) (e : edit) : nat * list (char * option (option target)) := (clamp len (e_from e), map (fun c => (c, None)) (e_text e)).
Definition known_marks (M : marked) : list (char * option (option target)) := map (fun x => (fst x, Some (snd x))) M.
Lemma kept_lines_woven es M : kept_lines es M = woven (map (blanks (length M)) (arrange key_le es)) (fun j => negb (covered es j)) (known_marks M).
Proof.
  unfold kept_lines, traced. rewrite woven_map_in. f_equal.
  - rewrite map_map. unfold text_of. rewrite map_length. apply map_ext. intro e. unfold blanks. cbn [fst snd]. now rewrite map_map.
  - unfold text_of, known_marks. rewrite map_length.
    assert (G : forall M0 pre, M = pre ++ M0 -> map (fun o : char * (nat + edit) => (fst o, match snd o with inl i => Some (attr_at M (Z.of_nat i)) | inr _ => None end))
      (combine (map fst M0) (map inl (seq (length pre) (length M0)))) = map (fun x => (fst x, Some (snd x))) M0).
    { induction M0 as [|[c a] M0 IH]; intros pre E; [reflexivity|]. cbn [map length seq combine fst snd]. f_equal.
      - f_equal. f_equal. unfold attr_at. rewrite Nat2Z.id, E, nth_error_app2, Nat.sub_diag by lia. reflexivity.
      - specialize (IH (pre ++ [(c, a)])). rewrite app_length in IH. cbn [length] in IH. rewrite Nat.add_1_r in IH. apply IH. now rewrite <- app_assoc. }
    exact (G M [] eq_refl).
Qed.
Lemma kept_lines_nil M : kept_lines [] M = known_marks M.
Proof. rewrite kept_lines_woven. unfold woven. cbn [arrange fold_left map texts_at flat_map]. rewrite app_nil_r. apply weave_all. intros j _. split; reflexivity. Qed.
Lemma kept_lines_split k es A B : k = Z.of_nat (length A) -> Forall whole_sub es -> Forall forward es -> Forall (crosses_not k) es ->
  kept_lines es (A ++ B) = kept_lines (firsts_of k es) A ++ kept_lines (seconds_of k es) B.
Proof.
  intros Hk Hs Hf Hc. rewrite !kept_lines_woven, (arrange_split k es Hs), map_app. fold (firsts_of k es).
  assert (F : forall P l, Forall P l -> Forall P (arrange key_le l)) by (intros P l H; eapply Permutation_Forall; [apply arrange_perm|exact H]).
  assert (E1 : map (blanks (length (A ++ B))) (arrange key_le (firsts_of k es)) = map (blanks (length A)) (arrange key_le (firsts_of k es))).
  { apply map_ext_in. intros e I. assert (G : Forall (fun e => (e_from e <= k)%Z) (arrange key_le (firsts_of k es))).
    { apply F, Forall_forall. intros x Ix. apply filter_In in Ix. destruct Ix as [I1 I2]. pose proof (proj1 (Forall_forall _ _) Hf x I1) as Fx.
      unfold in_first in I2. apply Z.ltb_lt in I2. unfold forward in Fx. lia. }
    pose proof (proj1 (Forall_forall _ _) G e I) as Ge. cbn in Ge. unfold blanks, clamp. rewrite app_length. f_equal. lia. }
  assert (E2 : map (blanks (length (A ++ B))) (arrange key_le (filter (fun x => negb (in_first k x)) es)) =
    map (fun p => (length (known_marks A) + fst p, snd p)) (map (blanks (length B)) (arrange key_le (seconds_of k es)))).
  { unfold seconds_of. rewrite arrange_moved, !map_map. apply map_ext_in. intros e I.
    assert (G : Forall (fun e => (k <= e_from e)%Z) (arrange key_le (filter (fun x => negb (in_first k x)) es))).
    { apply F, Forall_forall. intros x Ix. apply filter_In in Ix. destruct Ix as [I1 I2]. pose proof (proj1 (Forall_forall _ _) Hc x I1) as Cx.
      unfold in_first in I2. apply negb_true_iff, Z.ltb_ge in I2. unfold crosses_not in Cx. lia. }
    pose proof (proj1 (Forall_forall _ _) G e I) as Ge. cbn in Ge. unfold blanks, clamp, moved_back, known_marks. cbn [fst snd e_from e_text]. rewrite app_length, map_length. f_equal. lia. }
  rewrite E1, E2. unfold known_marks at 2. rewrite map_app. fold (known_marks A). fold (known_marks B).
  assert (LA : length (known_marks A) = length A) by apply map_length.
  apply woven_split.
  - apply Forall_forall. intros p I. apply in_map_iff in I. destruct I as (e & <- & _). unfold blanks, clamp. cbn [fst]. rewrite LA. lia.
  - rewrite LA. intros j Hj. f_equal. unfold covered, firsts_of. apply eq_true_iff_eq. rewrite !existsb_exists. split; intros (x & I & C).
    + exists x. split; [|exact C]. apply filter_In. split; [exact I|]. pose proof (proj1 (Forall_forall _ _) Hc x I) as X. unfold covers, in_first, crosses_not in *.
      apply andb_true_iff in C. destruct C as [C1 C2]. apply Z.leb_le in C1, C2. apply Z.ltb_lt. lia.
    + apply filter_In in I. exists x. split; [apply I|exact C].
  - rewrite LA. intro j. f_equal. unfold covered. apply eq_true_iff_eq. rewrite !existsb_exists. split; intros (x & I & C).
    + exists (moved_back k x). unfold covers in *. apply andb_true_iff in C. destruct C as [C1 C2]. apply Z.leb_le in C1, C2. split.
      * apply in_map, filter_In. split; [exact I|]. unfold in_first. apply negb_true_iff, Z.ltb_ge. lia.
      * unfold moved_back. cbn [e_from e_to]. apply andb_true_iff. split; apply Z.leb_le; lia.
    + apply in_map_iff in I. destruct I as (y & <- & I). apply filter_In in I. exists y. split; [apply I|]. unfold covers, moved_back in *. cbn [e_from e_to] in C.
      apply andb_true_iff in C. destruct C as [C1 C2]. apply Z.leb_le in C1, C2. apply andb_true_iff. split; apply Z.leb_le; lia.
Qed.

(** ** Readings *)
Lemma line_reading_editless nu md e M : line_reading nu md e M -> editless e -> line_marks nu md e = Some M.
Proof.
  induction 1 as [e M E|e h M M' R IH N1 N2|p e M R IH| |e l M N R IH R' IH']; intro X.
  - exact E.
  - destruct X.
  - cbn [line_marks]. now rewrite (IH X).
  - reflexivity.
  - destruct X as [X1 X2]. cbn [line_marks]. rewrite (IH X1). cbn [bind]. specialize (IH' X2). cbn [line_marks] in IH'. now rewrite IH'.
Qed.
(** [exact]: no newlines in the new texts, no PrefixSources in the part. *)
Definition newline_free (es : list edit) : Prop := Forall (fun x => ~ In NL (e_text x)) es.
Lemma kept_self (R : option target -> option target -> Prop) M : (forall a, R a a) -> Forall2 (kept_as R) (known_marks M) M.
Proof. intro H. induction M as [|x M IH]; constructor; [split; [reflexivity|apply H]|exact IH]. Qed.
Lemma line_part nu md es x y M N : expr_edited es x y -> editless x -> line_marks nu md x = Some M -> line_reading nu md y N ->
  Forall2 (kept_as near) (kept_lines es M) N /\ (newline_free es -> unwrapped x -> Forall2 (kept_as eq) (kept_lines es M) N).
Proof.
  intros [h e|e] X EM R.
  - inversion R as [? ? Z|? ? M0 M' R0 N1 N2| | |]; subst; [discriminate|]. rewrite (line_reading_editless nu md e M0 R0 X) in EM. injection EM as ->.
    split; [|intros Hn Hu; specialize (N2 Hu Hn)].
    + unfold kept_lines. clear N2 R. induction N1 as [|o r l l' [H1 H2] _ IH]; [constructor|]. cbn [map]. constructor; [|exact IH].
      split; [exact H1|]. cbn [snd]. destruct (snd o); [exact H2|exact Logic.I].
    + unfold kept_lines. clear N1 R. induction N2 as [|o r l l' [H1 H2] _ IH]; [constructor|]. cbn [map]. constructor; [|exact IH].
      split; [exact H1|]. cbn [snd]. destruct (snd o); [symmetry; exact H2|exact Logic.I].
  - rewrite (line_reading_editless nu md e N R X) in EM. injection EM as ->. rewrite kept_lines_nil. split; [apply kept_self; intro a; now left|intros _ _; now apply kept_self].
Qed.
Lemma line_cons_inv nu md x l M : line_reading nu md (XConcat (x :: l)) M -> exists A B, M = A ++ B /\ line_reading nu md x A /\ line_reading nu md (XConcat l) B.
Proof.
  intro R. inversion R as [? ? E| | | |? ? A B RA RB]; subst; [|eauto]. cbn [line_marks] in E. unb E as A EA. unb E as B EB. injection E as <-.
  exists A, B. split; [reflexivity|]. split; now apply line_exact.
Qed.
Lemma firsts_forall (P : edit -> Prop) k es : Forall P es -> Forall P (firsts_of k es).
Proof. intro H. apply Forall_forall. intros x I. apply filter_In in I. exact (proj1 (Forall_forall _ _) H x (proj1 I)). Qed.
Lemma seconds_forall (P : edit -> Prop) k es : (forall x, P x -> P (moved_back k x)) -> Forall P es -> Forall P (seconds_of k es).
Proof.
  intros G H. apply Forall_forall. intros x I. apply in_map_iff in I. destruct I as (y & <- & I). apply filter_In in I.
  exact (G y (proj1 (Forall_forall _ _) H y (proj1 I))).
Qed.
Lemma parts_lines nu md ks es xs ys : parts_edited expr_edited ks es xs ys -> forall Ms N, ks = map (@length _) Ms -> Forall2 (fun x M => line_marks nu md x = Some M) xs Ms ->
  Forall editless xs -> Forall whole_sub es -> Forall forward es -> line_reading nu md (XConcat ys) N ->
  Forall2 (kept_as near) (kept_lines es (concat Ms)) N /\ (newline_free es -> Forall unwrapped xs -> Forall2 (kept_as eq) (kept_lines es (concat Ms)) N).
Proof.
  assert (E0 : forall N, line_reading nu md (XConcat []) N -> N = []) by (intros N R; inversion R as [? ? E| | | |]; subst; [now injection E|reflexivity]).
  induction 1 as [k es x y Hx|k ks es x xs y ys Hc Hx _ IH]; intros Ms N Ek F X S Fw R; inversion F as [|? M ? Ms' F1 F2]; subst; apply line_cons_inv in R; destruct R as (A & B & -> & RA & RB).
  - inversion F2; subst. rewrite (E0 B RB), app_nil_r. cbn [concat]. rewrite app_nil_r. destruct (line_part nu md es x y M A Hx (Forall_inv X) F1 RA) as [P1 P2].
    split; [exact P1|]. intros Hn Hu. exact (P2 Hn (Forall_inv Hu)).
  - injection Ek as -> Ek. cbn [concat]. rewrite (kept_lines_split _ es M (concat Ms') eq_refl S Fw Hc). inversion X as [|? ? X1 X2]; subst.
    destruct (line_part nu md _ x y M A Hx X1 F1 RA) as [P1 P2].
    destruct (IH Ms' B eq_refl F2 X2 (seconds_sub _ _ S) ltac:(apply seconds_forall; [intros z; unfold forward, moved_back; cbn [e_from e_to]; lia|exact Fw]) RB) as [Q1 Q2].
    split; [now apply Forall2_app|]. intros Hn Hu. inversion Hu as [|? ? U1 U2]; subst. apply Forall2_app; [apply P2; [now apply firsts_forall|exact U1]|].
    apply Q2; [apply seconds_forall; [auto|exact Hn]|exact U2].
Qed.
Lemma parts_line_marks nu md xs Ms : Forall2 (fun x M => line_marks nu md x = Some M) xs Ms -> line_marks nu md (XConcat xs) = Some (concat Ms).
Proof. induction 1 as [|x M xs Ms E _ IH]; [reflexivity|]. cbn [line_marks] in *. rewrite E. cbn [bind]. rewrite IH. reflexivity. Qed.
Lemma kept_text R es M N : Forall2 (kept_as R) (kept_lines es M) N -> text_of N = map fst (kept_lines es M).
Proof. induction 1 as [|x y l l' [H _] _ IH]; [reflexivity|]. unfold text_of in *. cbn [map]. now rewrite IH, H. Qed.
Lemma line_editless nu md e : forall M, line_marks nu md e = Some M -> editless e.
Proof.
  induction e as [s|v|v n|v n o|p e IH|e h IH|l IH|v n m o i] using jexpr_ind'; intros M E; try exact I; [|discriminate|].
  - cbn [line_marks] in E. unb E as A EA. exact (IH A EA).
  - cbn [editless]. revert M E. induction IH as [|x l Hx _ IHl]; intros M E; [exact I|]. cbn [line_marks] in E. unb E as A EA. unb E as B EB. split; [exact (Hx A EA)|exact (IHl B EB)].
Qed.
Lemma line_parts_editless nu md xs Ms : Forall2 (fun x M => line_marks nu md x = Some M) xs Ms -> Forall editless xs.
Proof. induction 1 as [|x M xs Ms E _ IH]; constructor; [exact (line_editless nu md x M E)|exact IH]. Qed.

Theorem bundle_lines nu c0 c0' xs ys Ms h md c1 c1' t t' : numbering nu -> reached_cache c0 -> reached_cache c0' ->
  Forall2 (fun x M => line_marks nu md x = Some M) xs Ms -> line_edit_expr md (XEdit (XConcat xs) h) -> line_edit_expr md (XConcat ys) ->
  parts_edited expr_edited (map (@length _) Ms) (jedits h) xs ys ->
  build c0 (XEdit (XConcat xs) h) = (c1, t) -> build c0' (XConcat ys) = (c1', t') ->
  exists o o' M M' Ls Ls' ms ms' es es', js_source_and_map false md t = Some (ResMap o) /\ js_source_and_map false md t' = Some (ResMap o') /\
    let K := kept_lines (jedits h) (concat Ms) in
    let T := map fst K in
    Forall2 (kept_as near) K M /\ Forall2 (kept_as near) K M' /\
    (Forall (fun x => ~ In NL (e_text x)) (jedits h) -> Forall unwrapped xs -> Forall2 (kept_as eq) K M /\ Forall2 (kept_as eq) K M') /\
    reads_as nu Ls [] ms = Some es /\ annotate_bytes es T = carried None M /\
    reads_as nu Ls' [] ms' = Some es' /\ annotate_bytes es' T = carried None M' /\
    forall l l', Forall quiet l -> Forall quiet l' ->
      let a q := snd (rstep (fst (rrun (c1, o) l)) q) in
      let a' q := snd (rstep (fst (rrun (c1', o') l')) q) in
      (~ starts_with BOM T -> a RSource = AText T /\ a' RSource = AText T) /\
      a (RGet FSources) = AVal (VArr (map Some Ls)) /\ a' (RGet FSources) = AVal (VArr (map Some Ls')) /\
      a (RGet FMappings) = AVal (VStr ms) /\ a' (RGet FMappings) = AVal (VStr ms').
Proof.
  intros Hnu H0 H0' HM X X' HP B B'.
  destruct (end_line_edits nu c0 _ md c1 t Hnu H0 X ltac:(discriminate) B) as (o & M & Ls & Ks & ms & es & J & Rd & _ & _ & RE & A & Q).
  destruct (end_line_edits nu c0' _ md c1' t' Hnu H0' X' ltac:(discriminate) B') as (o' & M' & Ls' & Ks' & ms' & es' & J' & Rd' & _ & _ & RE' & A' & Q').
  assert (Xe : Forall editless xs) by exact (line_parts_editless nu md xs Ms HM).
  assert (Fw : Forall forward (jedits h)) by apply X.
  destruct (parts_lines nu md _ _ _ _ HP Ms M' eq_refl HM Xe (jedits_sub h) Fw Rd') as [N1 N2].
  assert (Xc : editless (XConcat xs)) by (clear - Xe; cbn [editless]; induction Xe as [|x l Hx _ IH]; [exact Logic.I|split; assumption]).
  destruct (line_part nu md (jedits h) (XConcat xs) _ (concat Ms) M (expr_replaced h _) Xc (parts_line_marks _ _ _ _ HM) Rd) as [P1 P2].
  pose proof (kept_text _ _ _ _ P1) as T1. pose proof (kept_text _ _ _ _ N1) as T2.
  exists o, o', M, M', Ls, Ls', ms, ms', es, es'. split; [exact J|]. split; [exact J'|]. intros K T. split; [exact P1|]. split; [exact N1|].
  split. { intros Hn Hu. split; [apply P2; [exact Hn|]|now apply N2]. clear - Hu. cbn [unwrapped]. induction Hu as [|x l Hx _ IH]; [exact Logic.I|split; assumption]. }
  split; [exact RE|]. split; [unfold T, K; rewrite <- T1; exact A|]. split; [exact RE'|]. split; [unfold T, K; rewrite <- T2; exact A'|].
  intros l l' Hl Hl' a a'. destruct (Q l Hl) as (Q1 & Q2 & Q3 & _). destruct (Q' l' Hl') as (Q1' & Q2' & Q3' & _).
  rewrite T1 in Q1. rewrite T2 in Q1'. split; [auto|]. split; [exact Q2|]. split; [exact Q2'|]. split; [exact Q3|exact Q3'].
Qed.
