(** Edits done in the parts: maps. *)
From Coq Require Import Permutation.
From Verif Require Import Base Tactics ModelString StringFacts ModelVlq ModelSm ModelSlm ModelSources ModelTree ModelWasm
  ModelJs ModelJsApi SpecText SpecMap SpecAttr SpecEdit SpecEffect SpecList SpecRun SortFacts TextFacts EditFacts NodeFacts LeafFacts
  IdxFacts SpecResult ModelJsResult ResultProps SpecJs ModelEnd SpecEnd EndFacts MadeFacts EndProps EndMap SpecEdited EditedFacts EditedBuild EditedEnd
  SpecSplit SplitFacts SplitTree.

Lemma jedits_sub h : Forall whole_sub (jedits h).
Proof.
  unfold jedits. apply Forall_forall. intros x I. apply in_flat_map in I. destruct I as (c & _ & I).
  assert (G : forall a b t, whole_sub (jedit a b t)) by (intros a b t; unfold whole_sub, jedit; cbn [e_subt]; apply Z.mod_pos_bound; lia).
  destruct c; cbn [jedit_of] in I; [destruct I as [<-|[]]|destruct I as [<-|[]]|destruct I]; apply G.
Qed.
Lemma seconds_sub k es : Forall whole_sub es -> Forall whole_sub (seconds_of k es).
Proof.
  intro H. apply Forall_forall. intros x I. apply in_map_iff in I. destruct I as (y & <- & I). apply filter_In in I.
  exact (proj1 (Forall_forall _ _) H y (proj1 I)).
Qed.
Lemma seconds_count k es : length es = length (firsts_of k es) + length (seconds_of k es).
Proof. unfold firsts_of, seconds_of. rewrite map_length. induction es as [|x es IH]; [reflexivity|]. cbn [filter]. destruct (in_first k x); cbn [negb length]; lia. Qed.
Lemma nones es : map (fun _ : edit => @None target) es = repeat None (length es).
Proof. induction es as [|x es IH]; [reflexivity|]. cbn. now rewrite IH. Qed.
Lemma kept_split k es (A B : marked) : k = Z.of_nat (length A) -> Forall whole_sub es -> Forall (crosses_not k) es ->
  kept_marked es (A ++ B) = kept_marked (firsts_of k es) A ++ kept_marked (seconds_of k es) B.
Proof.
  intros Hk Hs Hc. unfold kept_marked. rewrite !nones, (seconds_count k es), repeat_app. apply edited_marked_split; auto. apply repeat_length.
Qed.
Lemma kept_nil M : kept_marked [] M = M.
Proof. unfold kept_marked, edited_marked, woven. cbn [arrange fold_left gplaces texts_at flat_map combine map]. rewrite app_nil_r. apply weave_all. intros j _. split; reflexivity. Qed.

(** ** Forgetting the attributions of new texts *)
Section Rel.
  Context {A : Type}.
  Variable R : A -> A -> Prop.
  Lemma texts_rel (ps qs : list (nat * list A)) g : Forall2 (fun p q => fst p = fst q /\ Forall2 R (snd p) (snd q)) ps qs -> Forall2 R (texts_at ps g) (texts_at qs g).
  Proof.
    induction 1 as [|p q ps qs [H1 H2] _ IH]; [constructor|]. change (texts_at (p :: ps) g) with ((if Nat.eqb (fst p) g then snd p else []) ++ texts_at ps g).
    change (texts_at (q :: qs) g) with ((if Nat.eqb (fst q) g then snd q else []) ++ texts_at qs g). rewrite H1. apply Forall2_app; [|exact IH].
    destruct (Nat.eqb (fst q) g); [exact H2|constructor].
  Qed.
  Lemma woven_rel (ps qs : list (nat * list A)) keep s : (forall x, R x x) -> Forall2 (fun p q => fst p = fst q /\ Forall2 R (snd p) (snd q)) ps qs ->
    Forall2 R (woven ps keep s) (woven qs keep s).
  Proof.
    intros Hr H. unfold woven. apply Forall2_app; [|now apply texts_rel]. generalize 0 as pos. induction s as [|c s IH]; intro pos; [constructor|]. cbn [weave].
    apply Forall2_app; [now apply texts_rel|]. apply Forall2_app; [|apply IH]. destruct (keep pos); repeat constructor. apply Hr.
  Qed.
End Rel.
Definition blanked (x y : char * option target) : Prop := fst x = fst y /\ (snd y = None \/ snd x = snd y).
Lemma mark_blanked t s : Forall2 blanked (mark t s) (mark None s).
Proof. induction s as [|c s IH]; [constructor|]. constructor; [split; [reflexivity|now left]|exact IH]. Qed.
Lemma edited_blanked es ts M : length ts = length es -> Forall2 blanked (edited_marked es ts M) (kept_marked es M).
Proof.
  intro H. unfold kept_marked, edited_marked. apply woven_rel; [intros x; split; [reflexivity|now right]|].
  rewrite nones. assert (L : length ts = length (arrange key_le es)) by (rewrite H; apply Permutation_length, arrange_perm).
  rewrite <- H. clear H. revert L. generalize (arrange key_le es) as l. clear es. induction ts as [|t ts IH]; intros [|x l] L; try discriminate; [constructor|].
  cbn [length repeat combine map gplaces fst snd]. constructor; [|apply IH; injection L; auto]. cbn [fst snd]. split; [|apply mark_blanked].
  f_equal. f_equal. rewrite !map_map. cbn [fst]. clear IH. injection L as L. revert l L. induction ts as [|t0 ts IH]; intros [|y l] L; try discriminate; [reflexivity|]. cbn. f_equal. apply IH. injection L; auto.
Qed.
Lemma blanked_agrees X Y Z : Forall2 blanked X Y -> Forall2 agrees X Z -> Forall2 agrees Y Z.
Proof.
  intro H. revert Z. induction H as [|x y X Y [H1 H2] _ IH]; intros Z HZ; inversion HZ as [|? z ? Z' [G1 G2] G3]; subst; constructor; [|now apply IH].
  split; [congruence|]. intro N. destruct H2 as [H2|H2]; [contradiction|]. rewrite <- H2 in *. now apply G2.
Qed.
Lemma blanked_text X Y : Forall2 blanked X Y -> text_of X = text_of Y.
Proof. induction 1 as [|x y X Y [H _] _ IH]; [reflexivity|]. unfold text_of in *. cbn [map]. now rewrite H, IH. Qed.

(** ** What is known of the readings *)
Fixpoint editless (e : jexpr) : Prop :=
  match e with
  | XEdit _ _ => False
  | XPrefix _ e => editless e
  | XConcat l => (fix all l := match l with [] => True | x :: r => editless x /\ all r end) l
  | _ => True
  end.
Lemma marks_editless nu e : forall M, marks nu e = Some M -> editless e.
Proof.
  induction e as [s|v|v n|v n o|p e IH|e h IH|l IH|v n m o i] using jexpr_ind'; intros M E; try exact I; [|discriminate|].
  - cbn [marks] in E. unb E as A EA. exact (IH A EA).
  - cbn [editless]. revert M E. induction IH as [|x l Hx _ IHl]; intros M E; [exact I|]. cbn [marks] in E. unb E as A EA. unb E as B EB. split; [exact (Hx A EA)|exact (IHl B EB)].
Qed.
Lemma parts_editless nu xs Ms : Forall2 (fun x M => marks nu x = Some M) xs Ms -> Forall editless xs.
Proof. induction 1 as [|x M xs Ms E _ IH]; constructor; [exact (marks_editless nu x M E)|exact IH]. Qed.
Lemma reading_editless nu e M : reading nu e M -> editless e -> marks nu e = Some M.
Proof.
  induction 1 as [e M E|e h M ts R IH L N|p e M M' N R IH P| |e l M N R IH R' IH']; intro X.
  - exact E.
  - destruct X.
  - specialize (IH X). congruence.
  - reflexivity.
  - destruct X as [X1 X2]. cbn [marks]. rewrite (IH X1). cbn [bind]. specialize (IH' X2). cbn [marks] in IH'. now rewrite IH'.
Qed.
Lemma reading_part nu es x y M N : expr_edited es x y -> editless x -> marks nu x = Some M -> reading nu y N -> Forall2 blanked N (kept_marked es M).
Proof.
  intros [h e|e] X EM R.
  - inversion R as [? ? Z|? ? M0 ts R0 L N0| | |]; subst; [discriminate|]. rewrite (reading_editless nu e M0 R0 X) in EM. injection EM as ->. now apply edited_blanked.
  - rewrite (reading_editless nu e N R X) in EM. injection EM as ->. rewrite kept_nil. clear. induction M as [|c M IH]; constructor; [split; [reflexivity|now right]|exact IH].
Qed.
Lemma reading_cons_inv nu x l M : reading nu (XConcat (x :: l)) M -> exists A B, M = A ++ B /\ reading nu x A /\ reading nu (XConcat l) B.
Proof.
  intro R. inversion R as [? ? E| | | |? ? A B RA RB]; subst; [|eauto]. cbn [marks] in E. unb E as A EA. unb E as B EB. injection E as <-.
  exists A, B. split; [reflexivity|]. split; now apply reading_exact.
Qed.
Lemma parts_reading nu ks es xs ys : parts_edited expr_edited ks es xs ys -> forall Ms N, ks = map (@length _) Ms -> Forall2 (fun x M => marks nu x = Some M) xs Ms ->
  Forall editless xs -> Forall whole_sub es -> reading nu (XConcat ys) N -> Forall2 blanked N (kept_marked es (concat Ms)).
Proof.
  assert (E0 : forall N, reading nu (XConcat []) N -> N = []) by (intros N R; inversion R as [? ? E| | | |]; subst; [now injection E|reflexivity]).
  induction 1 as [k es x y Hx|k ks es x xs y ys Hc Hx _ IH]; intros Ms N Ek F X S R; inversion F as [|? M ? Ms' F1 F2]; subst; apply reading_cons_inv in R; destruct R as (A & B & -> & RA & RB).
  - inversion F2; subst. rewrite (E0 B RB), app_nil_r. cbn [concat]. rewrite app_nil_r. eapply reading_part; eauto. exact (Forall_inv X).
  - injection Ek as -> Ek. cbn [concat]. rewrite (kept_split _ es M (concat Ms') eq_refl S Hc). inversion X as [|? ? X1 X2]; subst.
    apply Forall2_app; [eapply reading_part; eauto|]. apply IH; auto. now apply seconds_sub.
Qed.
Lemma parts_marks nu xs Ms : Forall2 (fun x M => marks nu x = Some M) xs Ms -> marks nu (XConcat xs) = Some (concat Ms).
Proof. induction 1 as [|x M xs Ms E _ IH]; [reflexivity|]. cbn [marks] in *. rewrite E. cbn [bind]. rewrite IH. reflexivity. Qed.

Theorem bundle_map nu c0 c0' xs ys Ms h md md' c1 c1' t t' : numbering nu -> reached_cache c0 -> reached_cache c0' ->
  Forall2 (fun x M => marks nu x = Some M) xs Ms -> edit_expr (XEdit (XConcat xs) h) -> edit_expr (XConcat ys) ->
  parts_edited expr_edited (map (@length _) Ms) (jedits h) xs ys ->
  build c0 (XEdit (XConcat xs) h) = (c1, t) -> build c0' (XConcat ys) = (c1', t') ->
  in_order c1 (XEdit (XConcat xs) h) -> in_order c1' (XConcat ys) ->
  exists o o' Ls Ln Ls' Ln' ms ms' es es', js_source_and_map true md t = Some (ResMap o) /\ js_source_and_map true md' t' = Some (ResMap o') /\
    let K := kept_marked (jedits h) (concat Ms) in
    reads_as nu Ls Ln ms = Some es /\ reads_as nu Ls' Ln' ms' = Some es' /\
    Forall2 agrees K (annotate es (text_of K)) /\ Forall2 agrees K (annotate es' (text_of K)) /\
    forall l l', Forall quiet l -> Forall quiet l' ->
      let a q := snd (rstep (fst (rrun (c1, o) l)) q) in
      let a' q := snd (rstep (fst (rrun (c1', o') l')) q) in
      (~ starts_with BOM (text_of K) -> a RSource = AText (text_of K) /\ a' RSource = AText (text_of K)) /\
      a (RGet FSources) = AVal (VArr (map Some Ls)) /\ a' (RGet FSources) = AVal (VArr (map Some Ls')) /\
      a (RGet FNames) = AVal (VArr (map Some Ln)) /\ a' (RGet FNames) = AVal (VArr (map Some Ln')) /\
      a (RGet FMappings) = AVal (VStr ms) /\ a' (RGet FMappings) = AVal (VStr ms').
Proof.
  intros Hnu H0 H0' HM X X' HP B B' I I'.
  destruct (edited_end nu c0 _ md c1 t Hnu H0 X ltac:(discriminate) B) as (o & M & E & Ls & Ln & Ks & ms & es & J & Rd & _ & _ & _ & _ & _ & RE & _ & A & _ & _ & Q).
  destruct (edited_end nu c0' _ md' c1' t' Hnu H0' X' ltac:(discriminate) B') as (o' & M' & E' & Ls' & Ln' & Ks' & ms' & es' & J' & Rd' & _ & _ & _ & _ & _ & RE' & _ & A' & _ & _ & Q').
  assert (Xe : Forall editless xs) by exact (parts_editless nu xs Ms HM).
  pose proof (parts_reading nu _ _ _ _ HP Ms M' eq_refl HM Xe (jedits_sub h) Rd') as Bl'.
  assert (Bl : Forall2 blanked M (kept_marked (jedits h) (concat Ms))).
  { eapply (reading_part nu (jedits h) (XConcat xs)); [constructor| |now apply parts_marks|exact Rd].
    clear - Xe. cbn [editless]. induction Xe as [|x l Hx _ IH]; [exact Logic.I|split; assumption]. }
  exists o, o', Ls, Ln, Ls', Ln', ms, ms', es, es'. split; [exact J|]. split; [exact J'|]. intro K. split; [exact RE|]. split; [exact RE'|].
  assert (T : text_of M = text_of K) by now apply blanked_text. assert (T' : text_of M' = text_of K) by now apply blanked_text.
  specialize (A I). specialize (A' I'). rewrite T in A. rewrite T' in A'.
  split; [now apply (blanked_agrees M)|]. split; [now apply (blanked_agrees M')|].
  intros l l' Hl Hl' a a'. destruct (Q l Hl) as (Q1 & Q2 & Q3 & Q4 & _). destruct (Q' l' Hl') as (Q1' & Q2' & Q3' & Q4' & _).
  rewrite T in Q1. rewrite T' in Q1'. split; [auto|]. split; [exact Q2|]. split; [exact Q2'|]. split; [exact Q3|]. split; [exact Q3'|]. split; [exact Q4|exact Q4'].
Qed.
