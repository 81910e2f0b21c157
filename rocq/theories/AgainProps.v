(** Results that are made sources again: proofs. *)
From Verif Require Import Base Tactics ModelString StringFacts ModelVlq ModelSm ModelSlm ModelSources ModelTree ModelWasm
  ModelJs ModelJsApi SpecText SpecMap SpecAttr SpecLeast SortFacts TextFacts MapFacts NodeFacts LeafFacts ParseFacts GenFacts LoadFacts SmsProps NodeTree LeastFacts
  IdxFacts JsFacts Utf16Facts JsTextProps SpecResult ModelJsResult ResultFacts ResultProps SpecJs ModelEnd SpecEnd EndFacts MadeFacts EndProps ContentFacts EndMap LineEnd LeastEnd SpecAgain.

(** ** A string that can be decoded is in ASCII *)
Notation low := (fun c => c < 128)%N.
Lemma alphabet_low : Forall low alphabet.
Proof. apply Forall_forall. intros c H. apply N.ltb_lt. revert c H. apply forallb_forall. vm_compute. reflexivity. Qed.
Lemma index_low c l z : Forall low l -> index_in c l = Some z -> low c.
Proof.
  intro F. revert z. induction F as [|d l Hd _ IH]; intros z E; cbn [index_in] in E; [discriminate|]. destruct (N.eqb_spec c d) as [->|]; [exact Hd|].
  destruct (index_in c l); [eauto|discriminate].
Qed.
Lemma numbers_low s : forall acc w l, SpecMap.numbers s acc w = Some l -> Forall low s.
Proof.
  induction s as [|c s IH]; intros acc w l E; cbn [SpecMap.numbers] in E; [constructor|]. unb E as d Ed. constructor; [exact (index_low _ _ _ alphabet_low Ed)|].
  destruct (d <? 32)%Z; [unb E as l' E'; eauto|eauto].
Qed.
Lemma seg_low n st x r : decode_seg n st x = Some r -> Forall low x.
Proof. unfold decode_seg. intro E. unb E as l El. eapply numbers_low; eauto. Qed.
Lemma line_low n l : forall st r, decode_line n st l = Some r -> Forall (Forall low) l.
Proof.
  induction l as [|x l IH]; intros st r E; cbn [decode_line] in E; [constructor|]. unb E as [st1 a] E1. unb E as [st2 b] E2. constructor; [eapply seg_low; eauto|eauto].
Qed.
Lemma lines_low l : forall n st r, decode_lines n st l = Some r -> Forall (Forall (Forall low)) l.
Proof.
  induction l as [|x l IH]; intros n st r E; cbn [decode_lines] in E; [constructor|]. unb E as [st1 a] E1. unb E as b E2. constructor; [eapply line_low; eauto|eauto].
Qed.
Lemma fields_low sep s : low sep -> Forall (Forall low) (fields_of sep s) -> Forall low s.
Proof.
  intro Hs. induction s as [|c s IH]; intro F; [constructor|]. cbn [fields_of] in F. destruct (N.eqb_spec c sep) as [->|].
  - inversion F; subst. constructor; auto.
  - destruct (fields_of sep s) as [|x l] eqn:E; inversion F as [|? ? F1 F2]; subst; inversion F1; subst; constructor; auto.
Qed.
Lemma Forall_map_inv {A B} (f : A -> B) (P : B -> Prop) l : Forall P (map f l) -> Forall (fun x => P (f x)) l.
Proof. intro H. apply Forall_forall. intros x Hx. rewrite Forall_forall in H. apply H. now apply in_map. Qed.
Lemma decoded_low s segs : decode s = Some segs -> Forall low s.
Proof.
  unfold decode, cells. intro E. apply lines_low in E. apply (fields_low SEMI); [reflexivity|]. apply Forall_map_inv in E. eapply Forall_impl; [|exact E].
  intros x. apply fields_low. reflexivity.
Qed.

(** ** Sizes *)
Definition fits_place (p : place) : Prop := (1 <= fst p <= 4294967296 /\ 0 <= snd p < 4294967296)%Z.
Definition fits_mark (x : char * option target) : Prop := match snd x with Some (_, p, _) => fits_place p | None => True end.
Lemma fits_mark_all a s : (forall t, a = Some t -> fits_place (snd (fst t))) -> Forall fits_mark (mark a s).
Proof. intro H. unfold mark. apply Forall_forall. intros [c b] Hx. apply in_map_iff in Hx as (d & E & _). injection E as _ <-. unfold fits_mark. cbn [snd]. destruct a as [[[s0 p] n]|]; [exact (H _ eq_refl)|exact I]. Qed.
Lemma fits_prefix p M : Forall fits_mark M -> forall b, Forall fits_mark (mprefix p b M).
Proof.
  induction 1 as [|[c a] M Hx _ IH]; intro b; cbn [mprefix]; [constructor|]. apply Forall_app. split; [|constructor; auto].
  destruct b; [|constructor]. apply fits_mark_all. intros [[s q] n] ->. exact Hx.
Qed.
Lemma length_prefix p M : forall b, length M <= length (mprefix p b M).
Proof. induction M as [|[c a] M IH]; intro b; [apply le_n|]. cbn [mprefix]. rewrite app_length. cbn [length]. specialize (IH (N.eqb c NL)). lia. Qed.
(** A place that [n] characters lead to from the start. *)
Definition near (n : nat) (p : place) : Prop := (1 <= fst p <= 1 + Z.of_nat n /\ 0 <= snd p <= Z.of_nat n)%Z.
Lemma near_advance n p c : near n p -> near (S n) (advance p c).
Proof. unfold near, advance. destruct (N.eqb c NL); cbn [fst snd]; lia. Qed.
Lemma near_fold t : forall n p, near n p -> near (n + length t) (fold_left advance t p).
Proof.
  induction t as [|c t IH]; intros n p H; cbn [fold_left length]; [now rewrite Nat.add_0_r|]. replace (n + S (length t)) with (S n + length t) by lia. now apply IH, near_advance.
Qed.
Lemma near_fits n p : (N.of_nat n < 2147483648)%N -> near n p -> fits_place p.
Proof. unfold near, fits_place. lia. Qed.
Lemma fits_tokens nm ts : forall n p, near n p -> (N.of_nat (n + length (concat ts)) < 2147483648)%N -> Forall fits_mark (mark_tokens advance nm p ts).
Proof.
  induction ts as [|t ts IH]; intros n p H L; cbn [mark_tokens]; [constructor|]. cbn [concat] in L. rewrite app_length in L. apply Forall_app. split.
  - apply fits_mark_all. intros u E. destruct (forallb is_ws t); [discriminate|]. injection E as <-. cbn [fst snd]. apply (near_fits n); [lia|exact H].
  - apply (IH (n + length t)); [now apply near_fold|]. rewrite <- Nat.add_assoc. exact L.
Qed.
Lemma fits_lines nm s : forall n l, (1 <= l <= 1 + Z.of_nat n)%Z -> (N.of_nat (n + length s) < 2147483648)%N -> Forall fits_mark (mark_lines nm l s).
Proof.
  induction s as [|c s IH]; intros n l H L; cbn [mark_lines]; [constructor|]. cbn [length] in L. constructor; [unfold fits_mark, fits_place; cbn; lia|].
  apply (IH (S n)); [destruct (N.eqb c NL); lia|lia].
Qed.
Definition fits_entry (x : place * option target) : Prop := match snd x with Some (_, p, _) => fits_place p | None => True end.
Lemma fits_annotate es s : forall p, Forall fits_entry es -> Forall fits_mark (annotate_from es p s).
Proof.
  intros p F. apply Forall_forall. intros [c [t|]] H; [|exact I]. apply annotate_from_in in H as (q & H). rewrite Forall_forall in F. exact (F _ H).
Qed.
Lemma map_fits nu m es : sound_map m -> map_says nu m = Some es -> Forall fits_entry es.
Proof.
  intros (_ & _ & _ & segs & D & Sm & _) E. unfold map_says, reads_as, read_map in E. rewrite D in E. cbn [bind] in E.
  revert es E. clear D. induction Sm as [|s segs Hs _ IH]; intros es E; cbn [map all_some] in E; [injection E as <-; constructor|].
  unb E as x Ex. unb E as r Er. injection E as <-. constructor; [|eauto]. unfold resolve in Ex. destruct Hs as [_ Hs]. destruct (sg_orig s) as [[[[a b] c] n]|]; [|injection Ex as <-; exact I].
  unb Ex as u Eu. unb Ex as w Ew. injection Ex as <-. unfold fits_entry, fits_place. cbn [fst snd]. lia.
Qed.
Lemma marks_fit nu e : exact_child e -> forall M, marks nu e = Some M -> (N.of_nat (length M) < 2147483648)%N -> Forall fits_mark M.
Proof.
  induction e as [s|v|v n|v n o|p e IH|e h IH|l IH|v n m o i] using jexpr_ind'; intros X M E L; cbn [marks] in E.
  - injection E as <-. apply fits_mark_all. discriminate.
  - injection E as <-. apply fits_mark_all. discriminate.
  - injection E as <-. apply (fits_tokens _ _ 0); [unfold near; cbn; lia|]. cbn [Nat.add]. rewrite <- (tokens_text advance (nu n) (tokens v) (1, 0)%Z). unfold text_of. now rewrite map_length.
  - injection E as <-. apply (fits_lines _ _ 0); [lia|]. cbn [Nat.add]. rewrite <- (lines_text (nu n) v 1). unfold text_of. now rewrite map_length.
  - unb E as N EN. injection E as <-. destruct X as [X1 X2]. apply fits_prefix. apply IH; [destruct e; auto; destruct X2|exact EN|]. pose proof (length_prefix p N true). unfold mprefixed in L. lia.
  - destruct X.
  - apply exact_concat in X. revert M E L. induction IH as [|x l Hx _ IHl]; intros M E L; [injection E as <-; constructor|].
    inversion X as [|? ? X1 X2]; subst. unb E as N1 E1. unb E as N2 E2. injection E as <-. rewrite app_length in L. apply Forall_app. split; [apply Hx; auto; lia|apply IHl; auto; lia].
  - destruct X as (_ & S1 & S2). destruct i as [im|]; unb E as es Ee.
    + unb E as ei Ei. injection E as <-. pose proof (fits_annotate es v (1, 0)%Z (map_fits _ _ _ S1 Ee)) as F. fold (annotate es v) in F. pose proof (map_fits _ _ _ S2 Ei) as Fi.
      apply Forall_forall. intros x Hx. apply in_map_iff in Hx as ([c a] & <- & Hc). rewrite Forall_forall in F. specialize (F _ Hc). unfold fits_mark in *. cbn [fst snd] in *.
      destruct a as [[[s [ol oc]] nn]|]; [|exact I]. cbn [through]. destruct (s =? nu n)%Z; [|exact F].
      destruct (lookup ei ol oc) as [[[s' p'] n']|] eqn:El; [|exact F]. unfold lookup in El. destruct (find_entry ei ol oc) as [[q t]|] eqn:Ef; [|discriminate]. subst t.
      apply find_entry_in in Ef as (Ef & _). rewrite Forall_forall in Fi. exact (Fi _ Ef).
    + injection E as <-. apply fits_annotate. eapply map_fits; eauto.
Qed.

(** ** Emitted maps are sound *)
Lemma changes_in M : forall n p cur q a, near n p -> In (q, a) (changes p cur M) -> near (n + length M) q /\ exists c, In (c, a) M.
Proof.
  induction M as [|[c b] M IH]; intros n p cur q a H K; cbn [changes length] in *; [destruct K|]. apply in_app_or in K as [K|K].
  - destruct (same_target b cur); [destruct K|]. destruct K as [K|[]]. injection K as <- <-. split; [|exists c; now left]. unfold near in *. lia.
  - destruct (IH (S n) _ _ _ _ (near_advance _ _ c H) K) as (A & d & B). split; [|exists d; now right]. replace (n + S (length M)) with (S n + length M) by lia. exact A.
Qed.
Lemma nodup_of (nu : jstr -> Z) L l : map nu L = firsts l -> NoDup L.
Proof. intro E. apply (NoDup_map_inv nu). rewrite E. apply firsts_nodup. Qed.
Lemma firsts_length l : length (firsts l) <= length l.
Proof. apply NoDup_incl_length; [apply firsts_nodup|]. intros x H. now apply firsts_in. Qed.
Lemma srcs_length M : length (srcs_of M) <= length M.
Proof. induction M as [|[c a] M IH]; [apply le_n|]. unfold srcs_of in *. cbn [flat_map snd]. rewrite app_length. cbn [length]. destruct a as [[[s p] n]|]; cbn [length]; lia. Qed.
Lemma names_length M : length (names_of M) <= length M.
Proof. induction M as [|[c a] M IH]; [apply le_n|]. unfold names_of in *. cbn [flat_map snd]. rewrite app_length. cbn [length]. destruct a as [[[s p] [n|]]|]; cbn [length]; lia. Qed.
Lemma all_some_in {A B} (f : A -> option B) l : forall r, all_some (map f l) = Some r -> forall x, In x l -> exists y, f x = Some y /\ In y r.
Proof.
  induction l as [|a l IH]; intros r E x H; [destruct H|]. cbn [map all_some] in E. unb E as y Ey. unb E as r' Er. injection E as <-.
  destruct H as [->|H]; [exists y; split; [exact Ey|now left]|]. destruct (IH _ Er _ H) as (z & Ez & Hz). exists z. split; [exact Ez|now right].
Qed.
(** Entries with different places come from segments with different places. *)
Lemma resolves_apart ss ns segs : forall es, all_some (map (resolve ss ns) segs) = Some es -> NoDup (map fst es) ->
  forall s s', In s segs -> In s' segs -> sg_line s = sg_line s' -> sg_col s = sg_col s' -> s = s'.
Proof.
  induction segs as [|x segs IH]; intros es E N s s' H H' Hl Hc; [destruct H|]. cbn [map all_some] in E. unb E as y Ey. unb E as r Er. injection E as <-.
  cbn [map] in N. inversion N as [|? ? N1 N2]; subst. pose proof (SlmFacts.resolve_place _ _ _ _ Ey) as Py.
  assert (K : forall z, In z segs -> sg_line z = sg_line x -> sg_col z = sg_col x -> False).
  { intros z Hz Z1 Z2. destruct (all_some_in _ _ _ Er z Hz) as (w & Ew & Hw). apply N1. apply in_map_iff. exists w. split; [|exact Hw]. rewrite (SlmFacts.resolve_place _ _ _ _ Ew), Py, Z1, Z2. reflexivity. }
  destruct H as [->|H], H' as [->|H']; [reflexivity| | |eapply IH; eauto]; exfalso; [eapply (K s'); eauto|eapply (K s); eauto].
Qed.
Lemma emitted_sound nu M Ls Ln ms segs K : map nu Ls = firsts (srcs_of M) -> map nu Ln = firsts (names_of M) ->
  reads_as nu Ls Ln ms = Some (least M) -> decode ms = Some segs -> Forall fits_mark M -> (N.of_nat (length M) < 2147483648)%N ->
  sound_map (mk_jmap Ls K Ln ms).
Proof.
  intros A1 A2 R D F L. split; [exact (nodup_of _ _ _ A1)|]. split; [exact (nodup_of _ _ _ A2)|]. cbn [jm_sources jm_names jm_mappings].
  split; [apply ascii_plain; eapply decoded_low; eauto|]. exists segs. split; [exact D|]. unfold reads_as, read_map in R. rewrite D in R. cbn [bind] in R.
  assert (L1 : length Ls <= length M) by (rewrite <- (map_length nu), A1; etransitivity; [apply firsts_length|apply srcs_length]).
  assert (L2 : length Ln <= length M) by (rewrite <- (map_length nu), A2; etransitivity; [apply firsts_length|apply names_length]).
  assert (X : forall s, In s segs -> small_seg s /\ in_range (length Ls) (length Ln) s).
  { intros s Hs. destruct (all_some_in _ _ _ R s Hs) as ([q a] & Es & Hy). destruct (changes_in M 0 (1, 0)%Z None q a) as ((_ & Q) & c & Hc); [unfold near; cbn; lia|exact Hy|].
    pose proof (SlmFacts.resolve_place _ _ _ _ Es) as P. cbn [fst] in P. subst q. cbn [fst snd Nat.add] in Q. rewrite Forall_forall in F. specialize (F _ Hc). unfold fits_mark in F. cbn [snd] in F.
    unfold resolve in Es. unfold small_seg, in_range. destruct (sg_orig s) as [[[[i b] d] n]|]; [|split; [split; [lia|exact I]|exact I]].
    unb Es as u Eu. unb Es as w Ew. injection Es as <-. unfold fits_place in F. cbn [fst snd] in F. apply entry_bound in Eu. rewrite map_length in Eu.
    destruct n as [n|]; [|repeat split; try lia]. unb Ew as w' Ew'. apply entry_bound in Ew'. rewrite map_length in Ew'. repeat split; lia. }
  split; [apply Forall_forall; intros s Hs; now apply X|]. split; [apply Forall_forall; intros s Hs; now apply X|].
  intros s s' H H' Hl Hc. f_equal. eapply (resolves_apart (map nu Ls) (map nu Ln)); eauto. apply least_places.
Qed.

(** ** The contents *)
Lemma zip_first s k : forall Ls K, first_content (zip Ls K) s = Some k -> In s Ls.
Proof. induction Ls as [|x Ls IH]; intros [|y K] E; cbn [zip first_content] in E; try discriminate. destruct (list_eq_dec N.eq_dec s x) as [->|]; [now left|right; eauto]. Qed.
Lemma zip_contents Ls : NoDup Ls -> forall K, length K <= length Ls ->
  flat_map (fun s => match first_content (zip Ls K) s with Some k => [k] | None => [] end) Ls = K.
Proof.
  induction 1 as [|x Ls N _ IH]; intros [|y K] L; cbn [length] in L; try lia; [reflexivity| |].
  - cbn [zip]. clear. induction (x :: Ls) as [|z l IHl]; [reflexivity|exact IHl].
  - cbn [zip flat_map first_content]. destruct (list_eq_dec N.eq_dec x x) as [_|C]; [|congruence]. cbn [app]. f_equal. etransitivity; [|exact (IH K ltac:(lia))].
    rewrite !flat_map_concat_map. f_equal. apply map_ext_in. intros s Hs. destruct (list_eq_dec N.eq_dec s x) as [->|]; [contradiction|reflexivity].
Qed.
Lemma contents_length e Ls : length (contents_of e Ls) <= length Ls.
Proof. unfold contents_of. induction Ls as [|s Ls IH]; [apply le_n|]. cbn [flat_map]. rewrite app_length. cbn [length]. destruct (first_content _ s); cbn [length]; lia. Qed.

(** ** Once more *)
Section Again.
  Context {nu : jstr -> Z} {e : jexpr} {M : marked} (Hn : numbering nu) (X : exact_expr e) (NR : forall v, e <> XRaw v)
    (EM : marks nu e = Some M) (NB : ~ starts_with BOM (text_of M)) (Sz : (N.of_nat (length M) < 2147483648)%N).
  Lemma exact_is_child : exact_child e.
  Proof. destruct e; auto. destruct X. Qed.
  Theorem made_again c0 md c1 t : reached_cache c0 -> build c0 e = (c1, t) ->
    exists o m, js_source_and_map true md t = Some (ResMap o) /\ displays c1 o (text_of M) m /\
      map nu (jm_sources m) = firsts (srcs_of M) /\ jm_contents m = contents_of e (jm_sources m) /\
      map_says nu m = Some (least M) /\ sound_map m /\
      forall name orig, exact_expr (XSms (text_of M) name m orig None) /\ marks nu (XSms (text_of M) name m orig None) = Some M /\
        forall c0' md' c1' t', reached_cache c0' -> build c0' (XSms (text_of M) name m orig None) = (c1', t') ->
          exists o', js_source_and_map true md' t' = Some (ResMap o') /\ displays c1' o' (text_of M) m.
  Proof.
    intros R B. pose proof (marks_plain nu e exact_is_child M EM) as Pl. pose proof (marks_fit nu e exact_is_child M EM Sz) as Fm.
    destruct (end_least nu c0 e md c1 t Hn R X NR B) as (o & M' & Ls & Ln & ms & segs & J & EM' & A1 & A2 & Rd & D & S & Q). rewrite EM in EM'. injection EM' as <-.
    set (m := mk_jmap Ls (contents_of e Ls) Ln ms). pose proof (emitted_sound nu M Ls Ln ms segs (contents_of e Ls) A1 A2 Rd D Fm Sz) as So. fold m in So.
    exists o, m. split; [exact J|]. split; [intros l Hl; destruct (Q l Hl) as (Q1 & Q2 & Q3 & Q4 & Q5); rewrite (plain_out _ Pl NB) in Q1; auto|].
    split; [exact A1|]. split; [reflexivity|]. split; [exact Rd|]. split; [exact So|]. intros name orig.
    assert (X' : exact_expr (XSms (text_of M) name m orig None)) by (split; [exact Pl|split; [exact So|exact I]]). split; [exact X'|].
    assert (EM' : marks nu (XSms (text_of M) name m orig None) = Some M).
    { cbn [marks]. unfold map_says. cbn [m jm_sources jm_names jm_mappings]. rewrite Rd. cbn [bind]. f_equal. apply least_says. }
    split; [exact EM'|]. intros c0' md' c1' t' R' B'.
    destruct (end_least nu c0' (XSms (text_of M) name m orig None) md' c1' t' Hn R' X' ltac:(discriminate) B') as (o' & M' & Ls' & Ln' & ms' & segs' & J' & EM2 & A1' & A2' & Rd' & D' & S' & Q').
    rewrite EM' in EM2. injection EM2 as <-. exists o'. split; [exact J'|].
    assert (Hinj : forall a b, map nu a = map nu b -> a = b).
    { induction a as [|x a IH]; intros [|y b] E; try discriminate; [reflexivity|]. injection E as E1 E2. f_equal; [now apply Hn|auto]. }
    assert (Ls = Ls') by (apply Hinj; congruence). subst Ls'. assert (Ln = Ln') by (apply Hinj; congruence). subst Ln'.
    assert (Hms : ms' = ms).
    { unfold reads_as in Rd, Rd'. eapply (spelled_unique (map nu Ls) (map nu Ln)); eauto; rewrite ?A1, ?A2; apply firsts_nodup. }
    rewrite Hms in Q'. intros l Hl. destruct (Q' l Hl) as (Q1 & Q2 & Q3 & Q4 & Q5). rewrite (plain_out _ Pl NB) in Q1. split; [exact Q1|]. split; [exact Q2|]. split; [exact Q3|]. split; [exact Q4|].
    rewrite Q5. f_equal. f_equal. unfold contents_of at 1. cbn [contents_given m jm_sources jm_contents]. rewrite app_nil_r. apply zip_contents; [exact (nodup_of _ _ _ A1)|apply contents_length].
  Qed.
End Again.

(** ** In place of the source it came from *)
Scheme swaps_mut := Induction for swaps Sort Prop with swaps_all_mut := Induction for swaps_all Sort Prop.
Combined Scheme swaps_both from swaps_mut, swaps_all_mut.
Lemma marks_concat nu l : marks nu (XConcat l) = (fix go l := match l with [] => Some [] | x :: r => let* M := marks nu x in let* N := go r in Some (M ++ N) end) l.
Proof. reflexivity. Qed.
Lemma swaps_marks nu e e' : marks nu e' = marks nu e -> (forall x x', swaps e e' x x' -> marks nu x' = marks nu x) /\
  (forall l l', swaps_all e e' l l' -> marks nu (XConcat l') = marks nu (XConcat l)).
Proof.
  intro H. apply swaps_both; auto.
  - intros p x x' _ IH. cbn [marks]. now rewrite IH.
  - intros x x' l l' _ IHx _ IHl. rewrite !marks_concat in *. rewrite IHx. destruct (marks nu x); [cbn [bind]|reflexivity]. now rewrite IHl.
Qed.
Lemma swaps_exact e e' : exact_expr e' -> (forall s, e' <> XStr s) -> (forall x x', swaps e e' x x' -> (exact_child x -> exact_child x') /\ ((forall s, x' <> XStr s) \/ x' = x)) /\
  (forall l l', swaps_all e e' l l' -> Forall exact_child l -> Forall exact_child l').
Proof.
  intros X N. apply swaps_both; auto.
  - split; [intros _; destruct e'; auto; destruct X|now left].
  - intros p x x' _ [IH Nx]. split; [|left; discriminate]. cbn [exact_child exact_expr]. intros [P E]. split; [exact P|]. destruct Nx as [Nx| ->]; [|exact E].
    assert (C : exact_child x') by (apply IH; destruct x; auto; destruct E). destruct x'; auto. destruct (Nx s); reflexivity.
  - intros l l' _ IH. split; [|left; discriminate]. intro E. apply (proj2 (exact_concat l')). apply IH. now apply exact_concat.
  - intros x x' l l' _ [IHx _] _ IHl F. inversion F; subst. constructor; auto.
Qed.
Lemma first_content_app a b s : first_content (a ++ b) s = match first_content a s with Some k => Some k | None => first_content b s end.
Proof. induction a as [|[x k] a IH]; [reflexivity|]. cbn [app first_content]. destruct (list_eq_dec N.eq_dec s x); auto. Qed.
Lemma swaps_contents e e' : (forall s, first_content (contents_given e') s = first_content (contents_given e) s) ->
  (forall x x', swaps e e' x x' -> forall s, first_content (contents_given x') s = first_content (contents_given x) s) /\
  (forall l l', swaps_all e e' l l' -> forall s, first_content (flat_map contents_given l') s = first_content (flat_map contents_given l) s).
Proof.
  intro H. apply swaps_both; auto.
  intros x x' l l' _ IHx _ IHl s. cbn [flat_map]. now rewrite !first_content_app, IHx, IHl.
Qed.
Lemma first_none l s : ~ In s (map fst l) -> first_content l s = None.
Proof. induction l as [|[x k] l IH]; intro H; [reflexivity|]. cbn [first_content map fst] in *. destruct (list_eq_dec N.eq_dec s x) as [->|]; [destruct H; now left|]. apply IH. intro K. apply H. now right. Qed.
Lemma zip_complete C : forall Ls, NoDup Ls -> length (flat_map (fun s => match first_content C s with Some k => [k] | None => [] end) Ls) = length Ls ->
  forall s, In s Ls -> first_content (zip Ls (flat_map (fun s => match first_content C s with Some k => [k] | None => [] end) Ls)) s = first_content C s.
Proof.
  assert (B : forall Ls, length (flat_map (fun s => match first_content C s with Some k => [k] | None => [] end) Ls) <= length Ls).
  { induction Ls as [|x Ls IH]; [apply le_n|]. cbn [flat_map length]. rewrite app_length. destruct (first_content C x); cbn [length]; lia. }
  induction 1 as [|x Ls N _ IH]; intros L s H; [destruct H|]. cbn [flat_map length] in *. rewrite app_length in L. specialize (B Ls).
  destruct (first_content C x) as [k|] eqn:Ex; [|cbn [length] in L; lia]. cbn [length] in L. cbn [app zip first_content]. destruct (list_eq_dec N.eq_dec s x) as [->|D]; [congruence|].
  apply IH; [lia|]. destruct H as [->|H]; [congruence|exact H].
Qed.
Section Inside.
  Context {nu : jstr -> Z} {e : jexpr} {M : marked} {v : jstr} {m : jmap} (Hn : numbering nu) (EM : marks nu e = Some M).
  Theorem made_inside name orig x x' c0 md c1 t c0' md' c1' t' : marks nu (XSms v name m orig None) = Some M -> exact_expr (XSms v name m orig None) ->
    NoDup (jm_sources m) -> jm_contents m = contents_of e (jm_sources m) ->
    exact_expr x -> (forall u, x <> XRaw u) -> (forall u, e <> XRaw u) -> swaps e (XSms v name m orig None) x x' ->
    reached_cache c0 -> build c0 x = (c1, t) -> reached_cache c0' -> build c0' x' = (c1', t') ->
    exists o o' u m1 m2, js_source_and_map true md t = Some (ResMap o) /\ displays c1 o u m1 /\ js_source_and_map true md' t' = Some (ResMap o') /\ displays c1' o' u m2 /\
      jm_sources m2 = jm_sources m1 /\ jm_names m2 = jm_names m1 /\ jm_mappings m2 = jm_mappings m1 /\
      (length (jm_contents m) = length (jm_sources m) -> (forall s, In s (map fst (contents_given e)) -> In s (jm_sources m)) -> m2 = m1).
  Proof.
    intros EM' X' Nd Kc X NR NRe Sw R B R' B'. set (e' := XSms v name m orig None) in *.
    assert (Xx : exact_expr x').
    { destruct (proj1 (swaps_exact e e' X' ltac:(discriminate)) _ _ Sw) as [C Nx]. destruct Nx as [Nx| ->]; [|exact X]. assert (C' : exact_child x') by (apply C; destruct x; auto; destruct X).
      destruct x'; auto. destruct (Nx s); reflexivity. }
    assert (NR' : forall u, x' <> XRaw u).
    { intros u E. inversion Sw; subst; try discriminate. exact (NR u eq_refl). }
    destruct (end_least nu c0 x md c1 t Hn R X NR B) as (o & Mx & Ls & Ln & ms & segs & J & EMx & A1 & A2 & Rd & D & S & Q).
    destruct (end_least nu c0' x' md' c1' t' Hn R' Xx NR' B') as (o' & Mx' & Ls' & Ln' & ms' & segs' & J' & EMx' & A1' & A2' & Rd' & D' & S' & Q').
    rewrite (proj1 (swaps_marks nu e e' ltac:(congruence)) _ _ Sw), EMx in EMx'. injection EMx' as <-.
    assert (Hinj : forall a b, map nu a = map nu b -> a = b).
    { induction a as [|y a IH]; intros [|z b] E; try discriminate; [reflexivity|]. injection E as E1 E2. f_equal; [now apply Hn|auto]. }
    assert (Ls' = Ls) by (apply Hinj; congruence). subst Ls'. assert (Ln' = Ln) by (apply Hinj; congruence). subst Ln'.
    assert (Hms : ms' = ms).
    { unfold reads_as in Rd, Rd'. eapply (spelled_unique (map nu Ls) (map nu Ln)); eauto; rewrite ?A1, ?A2; apply firsts_nodup. }
    rewrite Hms in Q'. exists o, o', (to_js (text_of Mx)), (mk_jmap Ls (contents_of x Ls) Ln ms), (mk_jmap Ls (contents_of x' Ls) Ln ms).
    split; [exact J|]. split; [intros l Hl; exact (Q l Hl)|]. split; [exact J'|]. split; [intros l Hl; exact (Q' l Hl)|]. split; [reflexivity|]. split; [reflexivity|]. split; [reflexivity|].
    intros L In_. f_equal. unfold contents_of. rewrite !flat_map_concat_map. f_equal. apply map_ext. intro s.
    assert (Hc : forall u, first_content (contents_given e') u = first_content (contents_given e) u); [|now rewrite (proj1 (swaps_contents e e' Hc) _ _ Sw s)].
    intro u. subst e'. cbn [contents_given]. rewrite app_nil_r. destruct (in_dec (list_eq_dec N.eq_dec) u (jm_sources m)) as [H|H].
    - rewrite Kc in *. apply (zip_complete (contents_given e) (jm_sources m) Nd L u H).
    - rewrite (first_none (contents_given e) u); [|intro K; apply H, In_, K]. destruct (first_content (zip _ _) u) eqn:E; [|reflexivity]. apply zip_first in E. contradiction.
  Qed.
End Inside.
