(** Results of columns: false that are made sources again: proofs. *)
From Verif Require Import Base Tactics ModelString StringFacts ModelVlq ModelSm ModelSlm ModelSources ModelTree ModelWasm
  ModelJs ModelJsApi SpecText SpecMap SpecAttr SpecLeast SpecList SortFacts TextFacts MapFacts NodeFacts LeafFacts ParseFacts GenFacts LoadFacts SmsProps NodeTree LeastFacts
  IdxFacts JsFacts Utf16Facts JsTextProps SpecResult ModelJsResult ResultFacts ResultProps SpecJs ModelEnd SpecEnd EndFacts MadeFacts EndProps ContentFacts EndMap LineEnd LeastEnd SpecAgain AgainProps SpecEdited EditedEnd.

(** ** The sources of the characters *)
Lemma firsts_mem a b : firsts a = firsts b -> forall z : Z, In z a <-> In z b.
Proof. intros E z. now rewrite <- (firsts_in a), <- (firsts_in b), E. Qed.
Lemma firsts_both a a' b b' : firsts a = firsts a' -> firsts b = firsts b' -> firsts (a ++ b) = firsts (a' ++ b').
Proof.
  intros E F. rewrite !firsts_app, E, F. f_equal. apply filter_ext. intro y. f_equal. pose proof (firsts_mem _ _ E y) as M.
  destruct (existsb (Z.eqb y) a) eqn:X, (existsb (Z.eqb y) a') eqn:Y; try reflexivity; exfalso.
  - apply existsb_exists in X as (z & Hz & Ez). apply Z.eqb_eq in Ez. subst z. apply M in Hz. rewrite (proj2 (existsb_exists _ _)) in Y; [discriminate|]. exists y. split; [exact Hz|apply Z.eqb_refl].
  - apply existsb_exists in Y as (z & Hz & Ez). apply Z.eqb_eq in Ez. subst z. apply M in Hz. rewrite (proj2 (existsb_exists _ _)) in X; [discriminate|]. exists y. split; [exact Hz|apply Z.eqb_refl].
Qed.
Lemma firsts_known z a b : In z a -> firsts (a ++ z :: b) = firsts (a ++ b).
Proof.
  intro H. change (a ++ z :: b) with (a ++ [z] ++ b). rewrite app_assoc. apply firsts_both; [|reflexivity]. rewrite firsts_app. cbn [firsts filter].
  rewrite (proj2 (existsb_exists _ _)); [cbn [negb]; apply app_nil_r|]. exists z. split; [exact H|apply Z.eqb_refl].
Qed.
Lemma srcs_app A B : srcs_of (A ++ B) = srcs_of A ++ srcs_of B.
Proof. apply flat_map_app. Qed.
Lemma srcs_cons c a M : srcs_of ((c, a) :: M) = (match a with Some (s, _, _) => [s] | None => [] end) ++ srcs_of M.
Proof. unfold srcs_of. cbn [flat_map snd]. destruct a as [[[s p] n]|]; reflexivity. Qed.
Lemma srcs_mark c a p : firsts (srcs_of (mark a p ++ [(c, a)])) = firsts (srcs_of [(c, a)]).
Proof.
  induction p as [|d p IH]; [reflexivity|]. cbn [mark map app]. change (map (fun c0 : char => (c0, a)) p) with (mark a p). rewrite srcs_cons. destruct a as [[[s q] n]|]; [|exact IH].
  rewrite (firsts_both [s] [s] _ _ eq_refl IH). rewrite srcs_cons. cbn. now rewrite Z.eqb_refl.
Qed.
Lemma srcs_prefix p M : forall b, firsts (srcs_of (mprefix p b M)) = firsts (srcs_of M).
Proof.
  induction M as [|[c a] M IH]; intro b; [reflexivity|]. cbn [mprefix]. change ((c, a) :: mprefix p (N.eqb c NL) M) with ([(c, a)] ++ mprefix p (N.eqb c NL) M).
  rewrite app_assoc, srcs_app. change ((c, a) :: M) with ([(c, a)] ++ M). rewrite (srcs_app [(c, a)]). apply firsts_both; [|apply IH]. destruct b; [apply srcs_mark|reflexivity].
Qed.
Lemma srcs_carried M : forall a pre, (forall s p n, a = Some (s, p, n) -> In s pre) -> firsts (pre ++ srcs_of (carried a M)) = firsts (pre ++ srcs_of M).
Proof.
  induction M as [|[c t] M IH]; intros a pre H; [reflexivity|]. cbn [carried]. rewrite !srcs_cons.
  assert (K : forall s q n pre', t = Some (s, q, n) \/ t = None /\ a = Some (s, q, n) -> In s pre' -> forall s0 p0 n0, (if N.eqb c NL then None else Some (s, q, n)) = Some (s0, p0, n0) -> In s0 pre').
  { intros s q n pre' _ Hi s0 p0 n0 E. destruct (N.eqb c NL); [discriminate|]. injection E as <- <- <-. exact Hi. }
  destruct t as [[[s q] n]|].
  - change ([s] ++ srcs_of (carried (if N.eqb c NL then None else Some (s, q, n)) M)) with ([s] ++ srcs_of (carried (if N.eqb c NL then None else Some (s, q, n)) M)).
    rewrite !app_assoc. apply IH. apply (K s q n); [now left|]. apply in_or_app. right. now left.
  - destruct a as [[[s q] n]|]; cbn [app].
    + rewrite firsts_known by eauto. apply IH. apply (K s q n); [right; now split|]. eauto.
    + apply IH. destruct (N.eqb c NL); discriminate.
Qed.
Lemma used_srcs g M : map fst (used g M) = srcs_of M.
Proof. induction M as [|[c a] M IH]; [reflexivity|]. rewrite srcs_cons. unfold used in *. cbn [flat_map snd]. rewrite map_app, IH. destruct a as [[[s p] n]|]; reflexivity. Qed.
Lemma line_uses_srcs nu md e : forall M, line_marks nu md e = Some M -> firsts (map fst (line_uses nu md e)) = firsts (srcs_of M).
Proof.
  assert (N0 : forall v, srcs_of (mark None v) = []) by (induction v as [|c v IH]; [reflexivity|exact IH]).
  induction e as [s|v|v n|v n o|p e IH|e h IH|l IH|v n m o i] using jexpr_ind'; intros M E; cbn [line_marks line_uses] in *.
  - injection E as <-. now rewrite N0.
  - injection E as <-. now rewrite N0.
  - injection E as <-. now rewrite used_srcs.
  - injection E as <-. now rewrite used_srcs.
  - unb E as N EN. injection E as <-. unfold mprefixed. rewrite srcs_prefix. auto.
  - discriminate.
  - revert M E. induction IH as [|x l Hx _ IHl]; intros M E; [injection E as <-; reflexivity|]. unb E as N1 E1. unb E as N2 E2. injection E as <-.
    cbn [flat_map]. rewrite map_app, srcs_app. apply firsts_both; auto.
  - destruct md; [rewrite E|injection E as <-]; now rewrite used_srcs.
Qed.

(** ** Emitted maps are sound *)
Lemma no_names (ss : list Z) ms es : read_map ss [] ms = Some es -> Forall (fun x => match snd x with Some (_, _, Some _) => False | _ => True end) es.
Proof.
  unfold read_map. intro E. unb E as segs D. clear D. revert es E. induction segs as [|s segs IH]; intros es E; cbn [map all_some] in E; [injection E as <-; constructor|].
  unb E as x Ex. unb E as r Er. injection E as <-. constructor; [|eauto]. unfold resolve in Ex. destruct (sg_orig s) as [[[[a b] c] n]|]; [|injection Ex as <-; exact I].
  unb Ex as u Eu. unb Ex as w Ew. injection Ex as <-. cbn [snd]. destruct n as [n|]; [|injection Ew as <-; exact I]. unb Ew as w' Ew'. apply entry_bound in Ew'. cbn [length] in Ew'. lia.
Qed.
Lemma unnamed_annotate es s : forall p, Forall (fun x : place * option target => match snd x with Some (_, _, Some _) => False | _ => True end) es -> names_of (annotate_from es p s) = [].
Proof.
  intros p F. assert (G : Forall (fun x => match snd x with Some (_, _, Some _) => False | _ => True end) (annotate_from es p s)).
  { apply Forall_forall. intros [c [t|]] H; [|exact I]. apply annotate_from_in in H as (q & H). rewrite Forall_forall in F. exact (F _ H). }
  unfold names_of. induction G as [|[c a] M Hx _ IH]; [reflexivity|]. cbn [flat_map snd] in *. destruct a as [[[z q] [n|]]|]; [destruct Hx| |]; exact IH.
Qed.
Lemma read_sound nu Ls Ln ms es K : NoDup Ls -> NoDup Ln -> reads_as nu Ls Ln ms = Some es ->
  (forall segs, decode ms = Some segs -> tidy_segs segs) -> sound_map (mk_jmap Ls K Ln ms).
Proof.
  intros N N' R Sm. unfold reads_as in R. pose proof R as R'. unfold read_map in R'. unb R' as segs E. split; [exact N|]. split; [exact N'|]. cbn [jm_sources jm_names jm_mappings].
  split; [apply ascii_plain; eapply decoded_low; eauto|]. exists segs. split; [exact E|]. destruct (Sm segs E) as [S1 S2]. split; [exact S1|]. split.
  - apply Forall_forall. intros s Hs. destruct (all_some_in _ _ _ R' s Hs) as (y & Es & _). unfold resolve in Es. unfold in_range. destruct (sg_orig s) as [[[[i b] d] n]|]; [|exact I].
    unb Es as u Eu. unb Es as w Ew. apply entry_bound in Eu. rewrite map_length in Eu. split; [lia|]. destruct n as [n|]; [|exact I]. unb Ew as w' Ew'. apply entry_bound in Ew'. rewrite map_length in Ew'. lia.
  - intros s s' H H' Hl Hc. f_equal. eauto.
Qed.
Lemma read_tidy nu Ls Ln ms es : reads_as nu Ls Ln ms = Some es -> NoDup (map fst es) -> (forall segs, decode ms = Some segs -> Forall small_seg segs) -> forall segs, decode ms = Some segs -> tidy_segs segs.
Proof.
  intros R N H segs E. split; [now apply H|]. unfold reads_as, read_map in R. rewrite E in R. cbn [bind] in R. eapply resolves_apart; eauto.
Qed.

(** ** Once more *)
Lemma ascii_start s : forallb is_ascii s = true -> ~ starts_with BOM s.
Proof. intros H (r & ->). cbn in H. discriminate. Qed.
Lemma carried_length M : forall a, length (carried a M) = length M.
Proof. induction M as [|[c t] M IH]; intro a; [reflexivity|]. cbn [carried length]. now rewrite IH. Qed.
Section AgainLines.
  Context {nu : jstr -> Z} {e : jexpr} {md : bool} {M : marked} (Hn : numbering nu) (X : line_expr md e) (NR : forall v, e <> XRaw v)
    (EM : line_marks nu md e = Some M) (As : forallb is_ascii (text_of M) = true) (Sz : (N.of_nat (length M) < 2147483648)%N).
  Theorem lines_again c0 c1 t : reached_cache c0 -> build c0 e = (c1, t) ->
    exists o m es, js_source_and_map false md t = Some (ResMap o) /\ displays_as VUndef c1 o (text_of M) m /\ jm_names m = [] /\
      map nu (jm_sources m) = firsts (srcs_of M) /\ map_says nu m = Some es /\ annotate es (text_of M) = carried None M /\
      ((forall segs, decode (jm_mappings m) = Some segs -> Forall small_seg segs) -> sound_map m /\
       forall name orig, exact_expr (XSms (text_of M) name m orig None) /\ marks nu (XSms (text_of M) name m orig None) = Some (carried None M) /\
         forall c0' md' c1' t', reached_cache c0' -> build c0' (XSms (text_of M) name m orig None) = (c1', t') ->
           exists o' m', js_source_and_map true md' t' = Some (ResMap o') /\ displays c1' o' (text_of M) m' /\
             jm_sources m' = jm_sources m /\ jm_contents m' = jm_contents m /\ jm_names m' = [] /\ map_says nu m' = Some (least (carried None M))).
  Proof.
    intros R B. assert (Xc : line_child md e) by (destruct e; auto; destruct X). pose proof (line_plain nu md e Xc M EM) as Pl. pose proof (ascii_start _ As) as NB.
    destruct (end_lines nu c0 e md c1 t Hn R X NR B) as (o & M' & Ls & ms & es & J & EM' & A1 & Rd & An & Ds & Q). rewrite EM in EM'. injection EM' as <-.
    rewrite (line_uses_srcs nu md e M EM) in A1. rewrite SlmFacts.annotate_bytes_ascii in An by exact As.
    set (K := flat_map (fun s => match first_use (line_uses nu md e) (nu s) with Some k => [k] | None => [] end) Ls) in *.
    assert (LK : length K <= length Ls).
    { unfold K. clear. induction Ls as [|s Ls IH]; [apply le_n|]. cbn [flat_map length]. rewrite app_length. destruct (first_use _ (nu s)); cbn [length]; lia. }
    set (m := mk_jmap Ls K [] ms). pose proof (nodup_of _ _ _ A1) as Nd. exists o, m, es. split; [exact J|].
    split; [intros l Hl; destruct (Q l Hl) as (Q1 & Q2 & Q3 & Q4 & Q5); auto|]. split; [reflexivity|]. split; [exact A1|]. split; [exact Rd|]. split; [exact An|]. intro Sm.
    pose proof (read_sound nu Ls [] ms es K Nd (NoDup_nil _) Rd (read_tidy _ _ _ _ _ Rd Ds Sm)) as So. fold m in So. split; [exact So|]. intros name orig.
    assert (X' : exact_expr (XSms (text_of M) name m orig None)) by (split; [exact Pl|split; [exact So|exact I]]). split; [exact X'|].
    assert (EM' : marks nu (XSms (text_of M) name m orig None) = Some (carried None M)).
    { cbn [marks]. unfold map_says. cbn [m jm_sources jm_names jm_mappings]. rewrite Rd. cbn [bind]. now rewrite An. }
    split; [exact EM'|]. intros c0' md' c1' t' R' B'.
    assert (Tx : text_of (carried None M) = text_of M) by apply SlmFacts.text_carried.
    destruct (made_again Hn X' ltac:(discriminate) EM' ltac:(now rewrite Tx) ltac:(now rewrite carried_length) c0' md' c1' t' R' B') as (o' & m' & J' & D' & S' & C' & W' & _ & _).
    rewrite Tx in D'. exists o', m'. split; [exact J'|]. split; [exact D'|].
    assert (Hinj : forall a b, map nu a = map nu b -> a = b).
    { induction a as [|x a IH]; intros [|y b] E; try discriminate; [reflexivity|]. injection E as E1 E2. f_equal; [now apply Hn|auto]. }
    assert (Es : jm_sources m' = jm_sources m).
    { apply Hinj. rewrite S'. cbn [m jm_sources]. rewrite A1. exact (srcs_carried M None [] ltac:(discriminate)). }
    split; [exact Es|]. split; [|split; [|exact W']].
    - rewrite C', Es. unfold contents_of. cbn [contents_given m jm_sources jm_contents]. rewrite app_nil_r. now apply zip_contents.
    - destruct (end_least nu c0' (XSms (text_of M) name m orig None) md' c1' t' Hn R' X' ltac:(discriminate) B') as (o2 & M2 & Ls2 & Ln2 & ms2 & segs2 & J2 & EM2 & _ & N2 & _ & _ & _ & Q2).
      rewrite EM' in EM2. injection EM2 as <-. rewrite J' in J2. injection J2 as <-. destruct (Q2 [] (Forall_nil _)) as (_ & _ & F2 & _). destruct (D' [] (Forall_nil _)) as (_ & _ & F1 & _).
      rewrite F1 in F2. rewrite <- An in N2. unfold annotate in N2. rewrite (unnamed_annotate es _ _ (no_names _ _ _ Rd)) in N2. destruct Ln2; [|discriminate]. injection F2 as F2. destruct (jm_names m'); [reflexivity|discriminate].
  Qed.
End AgainLines.

(** ** Edited sources *)
Theorem edited_again nu e c0 md c1 t : numbering nu -> edit_expr e -> (forall v, e <> XRaw v) -> reached_cache c0 -> build c0 e = (c1, t) ->
  exists o M m es, js_source_and_map true md t = Some (ResMap o) /\ reading nu e M /\
    (~ starts_with BOM (text_of M) -> displays_as (VArr (map Some (jm_names m))) c1 o (text_of M) m) /\ map_says nu m = Some es /\
    ((forall segs, decode (jm_mappings m) = Some segs -> tidy_segs segs) -> sound_map m /\
     forall name orig, exact_expr (XSms (text_of M) name m orig None) /\ marks nu (XSms (text_of M) name m orig None) = Some (annotate es (text_of M)) /\
       (~ starts_with BOM (text_of M) -> (N.of_nat (length M) < 2147483648)%N ->
        forall c0' md' c1' t', reached_cache c0' -> build c0' (XSms (text_of M) name m orig None) = (c1', t') ->
          exists o' m', js_source_and_map true md' t' = Some (ResMap o') /\ displays c1' o' (text_of M) m' /\
            exists es', map_says nu m' = Some es' /\ annotate es' (text_of M) = annotate es (text_of M))).
Proof.
  intros Hn X NR R B.
  assert (Hm : made c1 e t) by now apply (build_made e c0 c1 t (reached_ok _ R) B).
  destruct (made_edited_full nu e md c1 t Hn ltac:(eapply reached_build; eauto) X NR Hm) as (o & M & E & Ls & Ln & Ks & ms & es & J & Rg & Pl & _ & N1 & N2 & _ & _ & Rd & _ & _ & _ & _ & Q).
  set (m := mk_jmap Ls (flat_map (fun k => match k with Some k => [k] | None => [] end) Ks) Ln ms). exists o, M, m, es. split; [exact J|]. split; [exact Rg|].
  split; [intros NB l Hl; destruct (Q l Hl) as (Q1 & Q2 & Q3 & Q4 & Q5); auto|]. split; [exact Rd|]. intro Ti.
  pose proof (read_sound nu Ls Ln ms es (jm_contents m) N1 N2 Rd Ti) as So. change (mk_jmap Ls (jm_contents m) Ln ms) with m in So. split; [exact So|]. intros name orig.
  assert (X' : exact_expr (XSms (text_of M) name m orig None)) by (split; [exact Pl|split; [exact So|exact I]]). split; [exact X'|].
  assert (EM' : marks nu (XSms (text_of M) name m orig None) = Some (annotate es (text_of M))).
  { cbn [marks]. unfold map_says. cbn [m jm_sources jm_names jm_mappings]. now rewrite Rd. }
  split; [exact EM'|]. intros NB Sz c0' md' c1' t' R' B'.
  assert (Tx : text_of (annotate es (text_of M)) = text_of M) by apply annotate_text.
  assert (Ln' : length (annotate es (text_of M)) = length M) by (rewrite <- (map_length fst (annotate es (text_of M))), <- (map_length fst M); fold (text_of (annotate es (text_of M))); now rewrite Tx).
  destruct (made_again Hn X' ltac:(discriminate) EM' ltac:(now rewrite Tx) ltac:(now rewrite Ln') c0' md' c1' t' R' B') as (o' & m' & J' & D' & _ & _ & W' & _ & _).
  rewrite Tx in D'. exists o', m'. split; [exact J'|]. split; [exact D'|]. eexists. split; [exact W'|]. destruct (least_says (annotate es (text_of M))) as (L1 & _). now rewrite Tx in L1.
Qed.
