(** A map by lines next to a map by columns: proofs. *)
From Verif Require Import Base Tactics ModelString StringFacts ModelVlq ModelSm ModelSlm ModelSources ModelTree ModelWasm
  ModelJs ModelJsApi SpecText SpecMap SpecAttr SpecList TextFacts MapFacts NodeFacts LeafFacts GenFacts LoadFacts SpecResult ModelJsResult ResultProps SpecJs ModelEnd SpecEnd EndFacts EndProps EndMap LineEnd MadeFacts SpecCoarse PropertiesEnd.

Lemma coarse_same a s : (forall l p n, a = Some (l, p, n) -> exists k, p = (k, 0%Z) /\ n = None) -> Forall2 coarser (mark a s) (mark a s).
Proof.
  intro H. induction s as [|c s IH]; constructor; [|exact IH]. split; [reflexivity|]. cbn. destruct a as [[[z [l k]] n]|]; [|exact I].
  destruct (H _ _ _ eq_refl) as (k' & E & ->). now injection E as -> ->.
Qed.
Lemma coarse_none b s : Forall2 coarser (mark None s) (mark b s).
Proof. induction s as [|c s IH]; constructor; [|exact IH]. now split. Qed.
Lemma coarse_lines n s : forall l, Forall2 coarser (mark_lines n l s) (mark_lines n l s).
Proof. induction s as [|c s IH]; intro l; cbn [mark_lines]; constructor; [|apply IH]. now split. Qed.

(** ** Tokens *)
Definition in_line (t : str) : Prop := exists x c, t = x ++ [c] /\ ~ In NL x.
Lemma tokens_in_line s : Forall in_line (tokens s).
Proof.
  induction s as [|c s IH]; cbn [tokens]; [constructor|].
  assert (O : Forall in_line [[c]]) by (constructor; [exists [], c; split; [reflexivity|intros []]|constructor]).
  destruct (tokens s) as [|[|d t] ts]; [exact O|exact O|]. destruct (closes c d) eqn:K.
  - constructor; [inversion O; assumption|exact IH].
  - inversion IH as [|a b H1 H2]; subst. constructor; [|exact H2]. destruct H1 as (x & z & -> & N). exists (c :: x), z. split; [reflexivity|].
    intros [->|I]; [|tauto]. discriminate K.
Qed.
Lemma fold_line x : ~ In NL x -> forall p, fst (fold_left advance x p) = fst p.
Proof.
  induction x as [|c x IH]; intros N p; [reflexivity|]. cbn [fold_left]. rewrite IH by (intro; apply N; now right). unfold advance.
  rewrite (proj2 (N.eqb_neq c NL)) by (intros ->; apply N; now left). reflexivity.
Qed.
Lemma coarse_tokens n ts : Forall in_line ts -> forall p, Forall2 coarser (mark_tokens advance n p ts) (mark_lines n (fst p) (concat ts)).
Proof.
  intro F. induction F as [|t ts (x & c & -> & N) F IH]; intro p; cbn [mark_tokens concat]; [constructor|].
  assert (E : mark_lines n (fst p) ((x ++ [c]) ++ concat ts) =
              mark (Some (n, (fst p, 0%Z), None)) (x ++ [c]) ++ mark_lines n (fst (fold_left advance (x ++ [c]) p)) (concat ts)).
  { rewrite fold_left_app. cbn [fold_left]. unfold advance at 1. rewrite <- (fold_line x N p).
    destruct (N.eqb_spec c NL) as [->|D].
    - rewrite (mark_lines_nl _ _ _ _ N). reflexivity.
    - set (l := fst (fold_left advance x p)). clearbody l. rewrite <- app_assoc. clear -N D. induction x as [|d x IH]; cbn [app mark_lines mark map].
      + rewrite (proj2 (N.eqb_neq c NL) D). reflexivity.
      + rewrite (proj2 (N.eqb_neq d NL)) by (intros ->; apply N; now left). f_equal. apply IH. intro; apply N; now right. }
  rewrite E. apply Forall2_app; [|apply IH]. destruct (forallb is_ws (x ++ [c])); [apply coarse_none|]. clear.
  induction (x ++ [c]) as [|d s IH]; constructor; [|exact IH]. split; [reflexivity|]. now destruct p.
Qed.

(** ** Prefixes *)
Lemma coarse_mark a b p c d : coarser (c, a) (d, b) -> Forall2 coarser (mark a p) (mark b p).
Proof. intros [_ H]. induction p as [|x p IH]; constructor; [|exact IH]. split; [reflexivity|exact H]. Qed.
Lemma coarse_prefix p M L : Forall2 coarser M L -> forall b, Forall2 coarser (mprefix p b M) (mprefix p b L).
Proof.
  intro F. induction F as [|[c a] [d b] M L H F IH]; intro st; cbn [mprefix]; [constructor|]. apply Forall2_app.
  - destruct st; [|constructor]. exact (coarse_mark _ _ _ _ _ H).
  - constructor; [exact H|]. destruct H as [E _]. cbn in E. subst d. apply IH.
Qed.
Lemma coarse_carried M L : Forall2 coarser M L -> forall a, Forall2 coarser M (carried a L).
Proof.
  intro F. induction F as [|[c a] [d b] M L [E H] F IH]; intro x; cbn [carried]; [constructor|]. constructor; [|apply IH]. split; [exact E|].
  cbn [snd] in *. destruct a as [[[s [l k]] n]|]; [|exact I]. now rewrite H.
Qed.

(** ** Maps *)
Fixpoint in_rows (f : Z -> option (Z * Z)) (p : place) (L : marked) : Prop :=
  match L with
  | [] => True
  | (c, a) :: r => (forall s l, f (fst p - 1)%Z = Some (s, l) -> a = Some (s, (l, 0%Z), None)) /\ in_rows f (advance p c) r
  end.
Lemma in_rows_app f A B : forall p, in_rows f p A -> in_rows f (fold_left advance (text_of A) p) B -> in_rows f p (A ++ B).
Proof. induction A as [|[c a] A IH]; intros p HA HB; [exact HB|]. destruct HA as [H1 H2]. split; [exact H1|]. apply IH; assumption. Qed.
Lemma in_rows_line f a x : forall p, ~ In NL x -> (forall s l, f (fst p - 1)%Z = Some (s, l) -> a = Some (s, (l, 0%Z), None)) -> in_rows f p (mark a x).
Proof.
  induction x as [|c x IH]; intros p N H; [exact I|]. split; [exact H|]. apply IH; [intro; apply N; now right|]. unfold advance.
  rewrite (proj2 (N.eqb_neq c NL)) by (intros ->; apply N; now left). exact H.
Qed.
Inductive rows : list str -> Prop :=
| rows_last x : ~ In NL x -> rows [x]
| rows_next x ls : ~ In NL x -> rows ls -> rows ((x ++ [NL]) :: ls).
Lemma rows_cut s : rows (cut_lines s).
Proof.
  induction s as [|c s IH]; cbn [cut_lines]; [constructor; intros []|]. destruct (N.eqb_spec c NL) as [->|D].
  - apply (rows_next []); [intros []|exact IH].
  - inversion IH as [x N E|x ls N R E].
    + constructor. intros [->|I]; tauto.
    + apply (rows_next (c :: x)); [|exact R]. intros [->|I]; tauto.
Qed.
Lemma cut_concat s : concat (cut_lines s) = s.
Proof.
  induction s as [|c s IH]; [reflexivity|]. cbn [cut_lines]. destruct (N.eqb c NL); [cbn [concat app]; now rewrite IH|].
  destruct (cut_lines s) as [|x l]; cbn [concat app] in *; now rewrite <- IH.
Qed.
Lemma text_mark_id a s : text_of (mark a s) = s.
Proof. induction s as [|c s IH]; [reflexivity|]. cbn. f_equal. exact IH. Qed.
Lemma attribute_text ss segs ls : forall k prev, text_of (attribute ss segs k prev ls) = concat ls.
Proof.
  induction ls as [|x ls IH]; intros k prev; [reflexivity|]. cbn [attribute concat].
  destruct (first_on ss segs k) as [[s l]|]; [|destruct prev as [[s l]|]; [destruct (blank x)|]];
    unfold text_of; rewrite map_app; change (text_of (mark ?a x)) with (map fst (mark a x)); f_equal; try apply IH; apply text_mark_id.
Qed.
Lemma attribute_rows ss segs ls : rows ls -> forall k prev, in_rows (first_on ss segs) (k + 1, 0)%Z (attribute ss segs k prev ls).
Proof.
  intro R. assert (G : forall x k a ls', in_rows (first_on ss segs) (k + 1, 0)%Z (mark a x) ->
    in_rows (first_on ss segs) (fold_left advance x (k + 1, 0)%Z) ls' -> in_rows (first_on ss segs) (k + 1, 0)%Z (mark a x ++ ls')).
  { intros x k a ls' H1 H2. apply in_rows_app; [exact H1|]. now rewrite text_mark_id. }
  assert (S : forall x k a, ~ In NL x -> (forall s l, first_on ss segs k = Some (s, l) -> a = Some (s, (l, 0%Z), None)) ->
    in_rows (first_on ss segs) (k + 1, 0)%Z (mark a x) /\ in_rows (first_on ss segs) (k + 1, 0)%Z (mark a (x ++ [NL]))).
  { intros x k a N H. assert (H' : forall s l, first_on ss segs (fst (k + 1, 0)%Z - 1)%Z = Some (s, l) -> a = Some (s, (l, 0%Z), None)).
    { cbn [fst]. replace (k + 1 - 1)%Z with k by lia. exact H. }
    split; [now apply in_rows_line|]. unfold mark. rewrite map_app. apply in_rows_app; [now apply in_rows_line|].
    split; [|exact I]. change (map (fun c : char => (c, a)) x) with (mark a x). rewrite text_mark_id, (fold_line x N). exact H'. }
  induction R as [x N|x ls N R IH]; intros k prev.
  - cbn [attribute]. destruct (first_on ss segs k) as [[s l]|] eqn:E; [|destruct prev as [[s l]|]; [destruct (blank x)|]]; apply G; try exact I; apply S; try exact N; intros s0 l0 E0; congruence.
  - cbn [attribute]. assert (F : fold_left advance (x ++ [NL]) (k + 1, 0)%Z = (k + 1 + 1, 0)%Z).
    { rewrite fold_left_app. cbn [fold_left]. unfold advance at 1. rewrite N.eqb_refl, (fold_line x N). reflexivity. }
    destruct (first_on ss segs k) as [[s l]|] eqn:E; [|destruct prev as [[s l]|]; [destruct (blank (x ++ [NL]))|]]; apply G; try (rewrite F; apply IH); apply S; try exact N; intros s0 l0 E0; congruence.
Qed.
Lemma coarse_rows es f : (forall p s l c n, lookup es (fst p) (snd p) = Some (s, (l, c), n) -> f (fst p - 1)%Z = Some (s, l)) ->
  forall L p, in_rows f p L -> Forall2 coarser (annotate_from es p (text_of L)) L.
Proof.
  intro H. induction L as [|[c a] L IH]; intros p R; [constructor|]. destruct R as [R1 R2]. constructor; [|apply IH, R2]. split; [reflexivity|].
  cbn [snd]. destruct (lookup es (fst p) (snd p)) as [[[s [l k]] n]|] eqn:E; [|exact I]. apply R1. exact (H _ _ _ _ _ E).
Qed.
Lemma first_says ss ns segs es : all_some (map (resolve ss ns) segs) = Some es -> one_line_each es ->
  forall p s l c n, lookup es (fst p) (snd p) = Some (s, (l, c), n) -> first_on ss segs (fst p - 1) = Some (s, l).
Proof.
  intros A O p s l c n E. apply all_some_rel in A. unfold lookup in E. destruct (find_entry es (fst p) (snd p)) as [[q t]|] eqn:F; [|discriminate]. subst t.
  apply find_entry_in in F as (I & Q & _). cbn [fst] in Q.
  assert (B : forall sg, In sg segs -> exists y, resolve ss ns sg = Some y /\ In y es).
  { clear -A. induction A as [|x y segs es H A IH]; intros sg Hs; [destruct Hs|]. destruct Hs as [<-|Hs]; [exists y; split; [exact H|now left]|]. destruct (IH _ Hs) as (z & Z1 & Z2). exists z. split; [exact Z1|now right]. }
  assert (C : exists sg, In sg segs /\ resolve ss ns sg = Some (q, Some (s, (l, c), n))).
  { clear -A I. induction A as [|x y segs es H A IH]; [destruct I|]. destruct I as [->|I]; [exists x; split; [now left|exact H]|].
    destruct (IH I) as (sg & S1 & S2). exists sg. split; [now right|exact S2]. }
  destruct C as (sg & S1 & S2). unfold first_on.
  match goal with |- context [find ?g segs] => destruct (find g segs) as [sf|] eqn:K end.
  - apply find_some in K as [K1 K2]. apply andb_prop in K2 as [K2 K3]. apply Z.eqb_eq in K2. destruct (B _ K1) as (y & Y1 & Y2).
    unfold resolve in Y1. destruct (sg_orig sf) as [[[[si ol] oc] ni]|] eqn:W; [|discriminate].
    destruct (entry ss si) as [src|]; cbn [bind] in Y1; [|discriminate].
    match type of Y1 with bind ?x _ = _ => destruct x as [nm|]; cbn [bind] in Y1; [|discriminate] end. injection Y1 as <-.
    destruct (O _ _ _ _ _ _ _ _ _ _ Y2 I) as [-> ->]; [cbn [fst]; lia|]. reflexivity.
  - exfalso. pose proof (find_none _ _ K _ S1) as Z. cbn beta in Z. unfold resolve in S2. destruct (sg_orig sg) as [[[[si ol] oc] ni]|] eqn:W; [|discriminate].
    destruct (entry ss si) as [src|]; cbn [bind] in S2; [|discriminate].
    match type of S2 with bind ?x _ = _ => destruct x as [nm|]; cbn [bind] in S2; [|discriminate] end. injection S2 as <- _ _ _ _. cbn [fst] in Q.
    rewrite andb_true_r in Z. apply Z.eqb_neq in Z. lia.
Qed.

(** ** Expressions *)
Lemma coarse_marks nu md e : by_lines nu md e -> forall M L, marks nu e = Some M -> line_marks nu md e = Some L -> Forall2 coarser M L.
Proof.
  induction e as [s|v|v n|v n o|p e IH|e h IH|l IH|v n m o i] using jexpr_ind'; intros B M L EM EL; cbn [marks line_marks by_lines] in *.
  - injection EM as <-. injection EL as <-. apply coarse_none.
  - injection EM as <-. injection EL as <-. apply coarse_none.
  - injection EM as <-. injection EL as <-. rewrite <- (tokens_concat v) at 2. apply (coarse_tokens (nu n) _ (tokens_in_line v) (1, 0)%Z).
  - injection EM as <-. injection EL as <-. apply coarse_lines.
  - destruct (marks nu e) as [M0|]; [|discriminate]. destruct (line_marks nu md e) as [L0|]; [|discriminate]. injection EM as <-. injection EL as <-.
    apply coarse_prefix. now apply IH.
  - discriminate.
  - revert M L EM EL. induction IH as [|x l Hx _ IH]; intros M L EM EL; [injection EM as <-; injection EL as <-; constructor|]. destruct B as [B1 B2].
    destruct (marks nu x) as [M0|]; [|discriminate]. destruct (line_marks nu md x) as [L0|]; [|discriminate]. cbn [bind] in EM, EL.
    match type of EM with bind ?y _ = _ => destruct y as [M1|] eqn:YM; [|discriminate] end.
    match type of EL with bind ?y _ = _ => destruct y as [L1|] eqn:YL; [|discriminate] end. injection EM as <-. injection EL as <-.
    apply Forall2_app; [now apply Hx|]. now apply IH.
  - destruct B as (-> & -> & O). unfold map_says, reads_as, read_map in *. unfold line_says in EL. destruct (decode (jm_mappings m)) as [segs|]; [|discriminate].
    cbn [bind] in *. destruct (all_some _) as [es|] eqn:A; [|discriminate]. cbn [bind] in EM. injection EM as <-. injection EL as <-.
    specialize (O _ eq_refl). assert (T : text_of (attribute (map nu (jm_sources m)) segs 0 None (cut_lines v)) = v) by (rewrite attribute_text; apply cut_concat).
    rewrite <- T at 1. apply (coarse_rows es _ (first_says _ _ _ _ A O)). apply (attribute_rows _ _ _ (rows_cut v) 0%Z).
Qed.

Lemma Forall2_text M L : Forall2 coarser M L -> text_of M = text_of L.
Proof. intro F. induction F as [|x y M L [E _] F IH]; [reflexivity|]. unfold text_of in *. cbn [map]. now rewrite E, IH. Qed.
Lemma coarse_end nu c0 e md md' c1 t : numbering nu -> reached_cache c0 -> exact_expr e -> line_expr md' e -> by_lines nu md' e -> (forall v, e <> XRaw v) -> build c0 e = (c1, t) ->
  exists o o' T Ls Ln Ls' ms ms' es es', js_source_and_map true md t = Some (ResMap o) /\ js_source_and_map false md' t = Some (ResMap o') /\
    reads_as nu Ls Ln ms = Some es /\ reads_as nu Ls' [] ms' = Some es' /\
    Forall2 coarser (annotate es T) (annotate_bytes es' T) /\
    forall l l', Forall quiet l -> Forall quiet l' ->
      let a q := snd (rstep (fst (rrun (c1, o) l)) q) in
      let a' q := snd (rstep (fst (rrun (c1, o') l')) q) in
      (~ starts_with BOM T -> a RSource = AText T /\ a' RSource = AText T) /\
      a (RGet FSources) = AVal (VArr (map Some Ls)) /\ a' (RGet FSources) = AVal (VArr (map Some Ls')) /\
      a (RGet FNames) = AVal (VArr (map Some Ln)) /\ a' (RGet FNames) = AVal VUndef /\
      a (RGet FMappings) = AVal (VStr ms) /\ a' (RGet FMappings) = AVal (VStr ms').
Proof.
  intros Nu C0 X X' B R E.
  destruct (C52_map nu c0 e md c1 t Nu C0 X R E) as (o & M & Ls & Ln & ms & es & S & EM & _ & _ & _ & _ & RA & AM & Q).
  destruct (C52_lines nu c0 e md' c1 t Nu C0 X' R E) as (o' & L & Ls' & ms' & es' & S' & EL & _ & RA' & AL & _ & Q').
  pose proof (coarse_marks nu md' e B M L EM EL) as F. pose proof (Forall2_text _ _ F) as T.
  exists o, o', (text_of M), Ls, Ln, Ls', ms, ms', es, es'. split; [exact S|]. split; [exact S'|]. split; [exact RA|]. split; [exact RA'|]. split.
  - rewrite AM, T, AL. now apply coarse_carried.
  - intros l l' Hl Hl'. cbv zeta. destruct (Q l Hl) as (Q1 & Q2 & Q3 & Q4 & _). destruct (Q' l' Hl') as (P1 & P2 & P3 & P4 & _).
    split; [intro W; split; [now apply Q1|rewrite T; apply P1; now rewrite <- T]|]. repeat split; assumption.
Qed.
