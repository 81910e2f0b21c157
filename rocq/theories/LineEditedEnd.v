(** From the arguments of the constructors and the edits to the line maps of sourceAndMap({columns: false}). *)
From Verif Require Import Base Tactics ModelString StringFacts ModelVlq ModelSm ModelSlm ModelSources ModelTree ModelWasm
  ModelJs ModelJsApi SpecText SpecMap SpecAttr SpecEdit SpecEffect SpecLineEdit SpecList SortFacts TextFacts EditFacts NodeFacts LeafFacts ParseFacts MapFacts LoadFacts GenFacts SmsProps NodeTree
  SlmFacts SlmMap SlmRead SlmReplace SlmTree SlmProps SlmEdits
  IdxFacts JsFacts Utf16Facts JsTextProps SpecResult ModelJsResult ResultFacts ResultProps SpecJs ModelEnd SpecEnd EndFacts MadeFacts EndProps ContentFacts EndMap LineEnd
  SpecEdited EditedFacts EditedBuild SpecLineEdited LineEditedFacts SlmWhole SlmLines.

(** ** Renaming *)
Lemma next_rename f a : SpecLineEdit.next_line (rename f a) = rename f (SpecLineEdit.next_line a).
Proof. destruct a as [[[s [l c]] n]|]; reflexivity. Qed.
Lemma near_rename f a t : near a t -> near (rename f a) (rename f t).
Proof. intros [->| ->]; [now left|right; symmetry; apply next_rename]. Qed.
Lemma retarget_length F M : length (retarget F M) = length M.
Proof. apply map_length. Qed.
Lemma line_near_rename f (S S' : Prop) M o r : (S' -> S) -> line_near S M o r -> line_near S' (retarget (rename f) M) o (fst r, rename f (snd r)).
Proof.
  intros HS [H1 H2]. split; [exact H1|]. cbn [snd]. destruct (snd o) as [i|e]; rewrite ?attr_at_retarget, ?retarget_length; [now apply near_rename|].
  destruct H2 as (H2 & H3 & H4). split; [|split].
  - intros A B. apply near_rename. auto.
  - intro A. now rewrite H3.
  - intro A. apply near_rename. auto.
Qed.
Lemma line_kept_rename f (S S' : Prop) M o r : (S' -> S) -> line_kept S M o r -> line_kept S' (retarget (rename f) M) o (fst r, rename f (snd r)).
Proof.
  intros HS [H1 H2]. split; [exact H1|]. cbn [snd]. destruct (snd o) as [i|e]; [now rewrite attr_at_retarget, H2|].
  unfold new_line_target in *. rewrite !attr_at_retarget, retarget_length, text_retarget. destruct H2 as (H2 & H3 & H4). split; [|split].
  - intros A B. now rewrite H2 by auto.
  - intro A. now rewrite H3.
  - intro A. destruct (H4 A) as [->|[B ->]]; [now left|right]. split; [exact B|symmetry; apply next_rename].
Qed.
Lemma all_rename (X Y : char * (nat + edit) -> char * option target -> Prop) f l M :
  (forall o r, X o r -> Y o (fst r, rename f (snd r))) -> Forall2 X l M -> Forall2 Y l (retarget (rename f) M).
Proof. intro H. induction 1 as [|o r l M H1 _ IH]; constructor; auto. Qed.

(** ** Texts *)
Lemma traced_chars es s (X : char -> Prop) : Forall (fun e => Forall X (e_text e)) es -> Forall X s -> Forall X (map fst (traced es s)).
Proof.
  intros He Hs. unfold traced, woven. rewrite map_app. set (ps := map _ (arrange key_le es)).
  assert (T : forall pos, Forall X (map fst (texts_at ps pos))).
  { intro pos. assert (A : Forall (fun e => Forall X (e_text e)) (arrange key_le es)) by (rewrite <- arrange_perm; exact He). unfold ps. clear - A. unfold texts_at.
    induction A as [|e l H1 H2 IH]; [constructor|]. cbn [map flat_map]. rewrite map_app. apply Forall_app. split; [|exact IH]. cbn [fst snd]. destruct (_ =? pos); [|constructor].
    rewrite map_map. cbn [fst]. now rewrite map_id. }
  assert (C : Forall (fun x => X (fst x)) (combine s (map (@inl nat edit) (seq 0 (length s))))).
  { apply Forall_forall. intros [c o] H. apply in_combine_l in H. rewrite Forall_forall in Hs. cbn. auto. }
  apply Forall_app. split; [|apply T]. clear - T C. generalize 0 at 1. induction C as [|x l Hx _ IH]; intro pos; cbn [weave]; [constructor|].
  rewrite !map_app. apply Forall_app. split; [apply T|]. apply Forall_app. split; [|apply IH]. destruct (negb _); repeat constructor. exact Hx.
Qed.
Lemma near_text S M l M' : Forall2 (line_near S M) l M' -> text_of M' = map fst l.
Proof. induction 1 as [|o r l M' [H _] _ IH]; [reflexivity|]. cbn. unfold text_of in IH. now rewrite IH, H. Qed.

Lemma one_unsplit i o v : Forall unsplit (one_source i o v).
Proof. repeat constructor. Qed.
Lemma one_starts i o v : v <> [] -> starts_so (one_source i o v).
Proof. exact (fun H => H). Qed.

Section Lines.
  Variables (nu : jstr -> Z) (Hnu : numbering nu) (c1 : cache) (Hc1 : cache_ok c1) (md : bool).
  Variable G : list (jstr * option jstr).
  Notation ren := (retarget (rename (rho nu c1))).
  Definition given_pair (src orig : option Z) : Prop :=
    exists i s, src = Some i /\ known c1 i s /\
      match orig with Some j => exists k, at_ c1 j k /\ In (s, Some k) G | None => In (s, None) G end.
  Definition cm_given (y : str + slm) : Prop := match y with inl _ => True | inr l => Forall (paired_as given_pair) l end.
  Definition cm_starts (y : str + slm) : Prop := match y with inl s => s <> [] | inr l => starts_so l end.
  Definition egoods (op ex : Prop) (ts : list tree) (M : marked) : Prop :=
    exists ys, Forall2 (child_map false md) ts ys /\ Forall cm_ok ys /\ Forall cm_given ys /\ M = ren (flat_map cm_marks ys) /\
      (op -> match ys with y :: _ => cm_starts y | [] => False end) /\ (ex -> Forall cm_unsplit ys).
  Definition egood (op ex : Prop) (t : tree) := egoods op ex (parts t).

  Lemma egoods_app (op op' ex ex' exs : Prop) a b M M' : (exs -> ex /\ ex') -> egoods op ex a M -> egoods op' ex' b M' -> egoods op exs (a ++ b) (M ++ M').
  Proof.
    intros Hx (ys & A1 & A2 & A3 & A4 & A5 & A6) (zs & B1 & B2 & B3 & B4 & B5 & B6). exists (ys ++ zs). rewrite !flat_map_app, retarget_app, <- A4, <- B4.
    split; [now apply Forall2_app|]. split; [now apply Forall_app|]. split; [now apply Forall_app|]. split; [reflexivity|]. split.
    - intro H. specialize (A5 H). destruct ys; [destruct A5|exact A5].
    - intro H. destruct (Hx H). apply Forall_app. auto.
  Qed.
  Lemma egoods_weaken (op op' ex ex' : Prop) ts M : (op' -> op) -> (ex' -> ex) -> egoods op ex ts M -> egoods op' ex' ts M.
  Proof. intros H1 H2 (ys & A1 & A2 & A3 & A4 & A5 & A6). exists ys. split; [exact A1|]. split; [exact A2|]. split; [exact A3|]. split; [exact A4|]. split; [intro H; now apply A5, H1|intro H; now apply A6, H2]. Qed.
  Lemma egood_one (op ex : Prop) t lm : (match t with TStr _ | TConcat _ => False | _ => True end) -> t_list_map false md t = Some lm -> Forall node_ok lm ->
    Forall (paired_as given_pair) lm -> (op -> starts_so lm) -> (ex -> Forall unsplit lm) -> egood op ex t (ren (list_marks lm)).
  Proof.
    intros Ht E O N F H. assert (D : egoods op ex [t] (ren (list_marks lm))).
    { exists [inr lm]. cbn [flat_map cm_marks]. rewrite !app_nil_r. split; [constructor; [|constructor]; unfold child_map; destruct t; try destruct Ht; eauto|].
      split; [constructor; [exact O|constructor]|]. split; [constructor; [exact N|constructor]|]. split; [reflexivity|]. split; [exact F|]. intro Hx. constructor; [exact (H Hx)|constructor]. }
    destruct t; try exact D. destruct Ht.
  Qed.
  Lemma egood_list (op ex : Prop) t M : (match t with TStr _ => False | _ => True end) -> egood op ex t M ->
    exists lm, t_list_map false md t = Some lm /\ Forall node_ok lm /\ Forall (paired_as given_pair) lm /\ M = ren (list_marks lm) /\ (op -> starts_so lm) /\ (ex -> Forall unsplit lm).
  Proof.
    intros Ht H. assert (D : match t with TConcat _ => False | _ => True end -> egoods op ex [t] M ->
      exists lm, t_list_map false md t = Some lm /\ Forall node_ok lm /\ Forall (paired_as given_pair) lm /\ M = ren (list_marks lm) /\ (op -> starts_so lm) /\ (ex -> Forall unsplit lm)).
    { intros Hc (ys & A1 & A2 & A3 & A4 & A5 & A6). inversion A1 as [|? y ? ys' C1 C2]; subst. inversion C2; subst. inversion A2; inversion A3; subst.
      assert (C : exists lm, y = inr lm /\ t_list_map false md t = Some lm) by (unfold child_map in C1; destruct t; try destruct Ht; exact C1).
      destruct C as (lm & -> & E). cbn [flat_map cm_marks] in *. rewrite !app_nil_r in *. exists lm. split; [exact E|]. split; [auto|]. split; [auto|]. split; [reflexivity|]. split; [exact A5|].
      intro Hex. specialize (A6 Hex). now inversion A6. }
    destruct t; try (apply D; [exact I|exact H]). destruct H as (ys & A1 & A2 & A3 & A4 & A5 & A6). cbn [parts] in A1.
    destruct (concat_list_map_spec ys [] A2 (Forall_nil _)) as (m' & E & O & _ & Mk).
    exists m'. rewrite (children_maps _ _ _ _ A1). split; [exact E|]. split; [exact O|].
    split; [eapply concat_paired; [exact E| |constructor]; eapply Forall_impl; [|exact A3]; intros [s|l0] Hl; exact Hl|].
    cbn in Mk. rewrite Mk, <- flat_map_concat_map. split; [exact A4|]. split.
    - intro H. specialize (A5 H). destruct ys as [|y ys]; [destruct A5|]. cbn [concat_list_map] in E. destruct y as [s|l0]; cbn [slm_add is_some bind] in E.
      + eapply concat_starts; [exact E|]. exact A5.
      + eapply concat_starts; [exact E|]. exact A5.
    - intro H. eapply concat_unsplit; [exact (A6 H)|constructor|exact E].
  Qed.

  Lemma one_given i s j k v : known c1 i s -> at_ c1 j k -> In (s, Some k) G -> Forall (paired_as given_pair) (one_source i (Some j) v).
  Proof. intros K A I0. constructor; [|constructor]. cbn. exists i, s. split; [reflexivity|]. split; [exact K|]. eauto. Qed.
  Lemma paired_nth : forall ss ks js kj i a, Forall2 (known c1) ss js -> Forall2 (at_ c1) ks kj -> nth_error ss i = Some a ->
    exists s, known c1 a s /\ match nth_error ks i with Some j => exists k, at_ c1 j k /\ In (s, Some k) (paired js kj) | None => In (s, None) (paired js kj) end.
  Proof.
    intros ss ks js kj i a H. revert ks kj i. induction H as [|b s ss js K _ IH]; intros ks kj i Hk E; [destruct i; discriminate|].
    destruct i as [|i]; cbn [nth_error] in E.
    - injection E as ->. exists s. split; [exact K|]. destruct Hk as [|j k ks kj A _]; cbn [nth_error paired]; [now left|]. exists k. split; [exact A|now left].
    - destruct Hk as [|j k ks kj A Hk].
      + destruct (IH [] [] i (Forall2_nil _) E) as (s' & K' & F). exists s'. split; [exact K'|]. cbn [nth_error paired]. right. destruct i; exact F.
      + destruct (IH ks kj i Hk E) as (s' & K' & F). exists s'. split; [exact K'|]. cbn [nth_error paired].
        destruct (nth_error ks i); [destruct F as (k' & A' & F); exists k'; split; [exact A'|now right]|now right].
  Qed.
  Lemma read_given v m d segs lm : passed c1 m d -> sound_map m -> decode (jm_mappings m) = Some segs -> Forall SpecList.fits segs -> incl (paired (jm_sources m) (jm_contents m)) G ->
    slm_from_string v (sc_sources d) (sc_contents d) (sc_mappings d) = Some lm -> Forall (paired_as given_pair) lm /\ Forall unsplit lm /\ (v <> [] -> starts_so lm).
  Proof.
    intros (P1 & P2 & P3 & P4) (Nd & Nn & Pl & segs' & Ed' & Sm & Rg & _) Ed Fi IG R. rewrite Ed in Ed'. injection Ed' as <-. rewrite plain_in in P4 by exact Pl. rewrite <- P4 in Ed.
    split; [|split; [eapply read_unsplit; [eapply decode_numbers; exact Ed|exact R]|intro H; eapply read_starts; eauto]].
    eapply read_paired; [exact Ed|exact Fi| |exact R]. apply Forall_forall. intros s Hs Hn. rewrite Forall_forall in Sm, Rg. specialize (Sm s Hs). specialize (Rg s Hs).
    unfold small_seg, in_range, seg_source, SlmRead.named in *. destruct (sg_orig s) as [[[[a b] c] o]|] eqn:Es.
    2:{ discriminate. }
    unfold entry. destruct Sm as [_ (Sa & _)]. destruct Rg as [Ra _]. destruct (Z.ltb_spec a 0); [lia|].
    destruct (nth_error (sc_sources d) (Z.to_nat a)) as [i|] eqn:En; [|apply nth_error_None in En; rewrite (Forall2_len _ _ _ P1) in En; lia].
    destruct (paired_nth _ _ _ _ _ _ P1 P2 En) as (s' & K & F). exists i, s'. split; [reflexivity|]. split; [exact K|].
    destruct (nth_error (sc_contents d) (Z.to_nat a)); [destruct F as (k & A & F); exists k; split; [exact A|now apply IG]|now apply IG].
  Qed.

  Lemma edit_list t h lm : Forall call_ok h -> Forall edit_ok (edits_of h) -> Forall forward (edits_of h) -> ForallOrdPairs apart (edits_of h) ->
    t_list_map false md t = Some lm -> Forall node_ok lm -> Forall (paired_as given_pair) lm ->
    exists lm', t_list_map false md (TReplace t (run h)) = Some lm' /\ Forall node_ok lm' /\ Forall (paired_as given_pair) lm' /\
      Forall2 (line_near (starts_with_text lm) (list_marks lm)) (traced (edits_of h) (slm_text lm)) (list_marks lm') /\
      (Forall (fun e => ~ In NL (e_text e)) (edits_of h) -> Forall unsplit lm ->
       Forall2 (line_kept (starts_with_text lm) (list_marks lm)) (traced (edits_of h) (slm_text lm)) (list_marks lm')).
  Proof.
    intros H1 H2 H3 H4 E O Pr. destruct (replace_near false md t h lm H1 H2 H3 H4 E O) as (M' & (lm' & E' & O' & Em) & Nr).
    exists lm'. split; [exact E'|]. split; [exact O'|]. split; [|split].
    - unfold t_list_map in E, E'. cbn [fold_tree] in E'. rewrite E in E'. cbn [bind list_map_alg a_replace] in E'. eapply replace_paired; [exact Pr|exact E'].
    - now rewrite Em.
    - intros H5 Hu. destruct (replace_lines false md t h lm H1 H2 H3 H4 H5 E O (unsplit_simple _ Hu)) as (M2 & (lm2 & E2 & O2 & Em2) & K).
      rewrite E' in E2. injection E2 as <-. now rewrite Em2.
  Qed.

  Theorem made_line_edits e : line_edit_child md e -> incl (line_given md e) G -> forall t, made c1 e t ->
    exists M, line_reading nu md e M /\ plain (text_of M) /\ egood (opens e) (unwrapped e) (import t) M.
  Proof.
    induction e as [s|v|v n|v n o|p e IH|e h IH|l IH|v n m o i] using jexpr_ind'; intros X IG t Hm.
    - rewrite Hm. exists (mark None s). split; [now constructor|]. split; [now rewrite text_mark|].
      cbn [import]. rewrite plain_in by apply X. exists [inl s]. cbn [flat_map cm_marks app]. rewrite app_nil_r, retarget_mark.
      split; [repeat constructor|]. split; [repeat constructor|]. split; [repeat constructor|]. split; [reflexivity|]. split; [exact (fun H => H)|]. intros _. repeat constructor.
    - rewrite Hm. exists (mark None v). split; [now constructor|]. split; [now rewrite text_mark|].
      cbn [import]. rewrite plain_in by apply X. replace (mark None v) with (ren (list_marks [LCode v])) by (unfold list_marks; cbn [flat_map node_marks]; rewrite app_nil_r; now rewrite retarget_mark).
      apply egood_one; [exact I|reflexivity|repeat constructor|repeat constructor|exact (fun H => H)|]. intros _. repeat constructor.
    - destruct Hm as (vi & ni & -> & A & K). eexists. split; [constructor; reflexivity|]. split; [now rewrite lines_text|].
      cbn [import]. rewrite plain_in by exact X.
      destruct (one_good nu c1 Hc1 v _ _ _ _ _ K A eq_refl) as (Q1 & Q2 & Q3 & Q4). rewrite <- Q3.
      apply egood_one; [exact I|reflexivity|exact Q1| |exact (fun H => H)|intros _; apply one_unsplit]. eapply one_given; [exact K|exact A|]. apply IG. now left.
    - destruct Hm as (ni & oi & -> & K & A). eexists. split; [constructor; reflexivity|]. split; [now rewrite lines_text|].
      cbn [import]. rewrite plain_in by exact X.
      destruct (one_good nu c1 Hc1 v _ _ _ _ _ K A eq_refl) as (Q1 & Q2 & Q3 & Q4). rewrite <- Q3.
      apply egood_one; [exact I|reflexivity|exact Q1| |exact (fun H => H)|intros _; apply one_unsplit]. eapply one_given; [exact K|exact A|]. apply IG. now left.
    - destruct Hm as (t2 & -> & Hm). destruct X as (X1 & X2 & X3 & X4 & X5 & X6).
      assert (Xc : line_edit_child md e) by (destruct e; auto; destruct X6). cbn [line_given] in IG.
      destruct (IH Xc IG t2 Hm) as (M & R & Pl & D).
      assert (NS : match import t2 with TStr _ => False | _ => True end) by (apply (made_tree c1 e t2 Hm); intros s ->; destruct X6).
      destruct (egood_list _ _ _ _ NS D) as (lm & Elm & Ok & Pr & EM & _ & _).
      destruct (wparts_list md _ _ _ NS (made_whole nu Hnu c1 Hc1 md e Xc X3 t2 Hm) X4) as (lm0 & E0 & [Gd Td] & T & _). rewrite Elm in E0. injection E0 as <-.
      pose proof Gd as (_ & _ & G3).
      assert (Mn : list_marks lm <> []) by (intro Z; apply X5; transitivity (slm_text lm); [symmetry; exact T|]; rewrite <- (text_list_marks lm Ok), Z; reflexivity).
      assert (Y : line_attributed false md (TPrefix p (import t2)) (mprefixed p (list_marks lm))).
      { apply prefix_lines; auto; [exists lm; auto|]. intros lm2 E2. rewrite Elm in E2. injection E2 as <-. split; [exact G3|]. now apply tidy_pieces. }
      destruct Y as (lm' & E' & O' & M'). exists (mprefixed p M). split; [now apply line_prefix|]. split; [now apply mprefix_plain|].
      rewrite EM, mprefixed_ren, <- M'. cbn [import]. rewrite plain_in by exact X1. apply egood_one; [exact I|exact E'|exact O'| |intros []|intros []].
      unfold t_list_map in Elm, E'. cbn [fold_tree] in E'. rewrite Elm in E'. cbn [bind list_map_alg a_prefix] in E'. unfold prefix_list_map in E'. unb E' as [st0 m0] E3. injection E' as <-.
      eapply map_code_paired; [exact Pr|exact E3].
    - destruct Hm as (t2 & -> & Hm). destruct X as (X1 & X2 & X3 & X4 & X5).
      assert (Xc : line_edit_child md e) by (destruct e; auto; destruct X1).
      destruct (IH Xc IG t2 Hm) as (M & R & Pl & D).
      assert (NS : match import t2 with TStr _ => False | _ => True end) by (apply (made_tree c1 e t2 Hm); intros s ->; destruct X1).
      destruct (egood_list _ _ _ _ NS D) as (lm & Elm & Ok & Pr & EM & St & Un).
      destruct (import_edits h X2) as (Y1 & Y2 & Y3). destruct (plain_edits h X3) as [Z1 Z2]. rewrite Z1 in Y1.
      assert (Y4 : Forall forward (edits_of (map import_call h))) by (now rewrite Y1).
      assert (Y5 : ForallOrdPairs apart (edits_of (map import_call h))) by (now rewrite Y1).
      destruct (edit_list (import t2) (map import_call h) lm Y2 Y3 Y4 Y5 Elm Ok Pr) as (lm' & E' & Ok' & Pr' & Nr & Kp). rewrite Y1 in Nr, Kp.
      assert (Tx : slm_text lm = text_of M) by (rewrite EM, text_retarget; symmetry; now apply text_list_marks). rewrite Tx in Nr, Kp.
      assert (Nr' : Forall2 (line_near (opens e) M) (traced (jedits h) (text_of M)) (ren (list_marks lm'))).
      { eapply all_rename; [|exact Nr]. intros x r H. rewrite EM. eapply line_near_rename; [|exact H]. intro H0. apply starts_pieces; auto. }
      exists (ren (list_marks lm')). split; [|split].
      + eapply line_edit; [exact R|exact Nr'|]. intros Hx Hn. eapply all_rename; [|exact (Kp Hn (Un Hx))]. intros x r H. rewrite EM. eapply line_kept_rename; [|exact H].
        intro H0. apply starts_pieces; auto.
      + rewrite (near_text _ _ _ _ Nr'). apply traced_chars; [exact Z2|exact Pl].
      + cbn [import opens]. rewrite js_run_run. apply egood_one; [exact I|exact E'|exact Ok'|exact Pr'|intros []|intros []].
    - apply line_edit_concat in X. apply made_concat in Hm as (ts & -> & Hm).
      assert (Y : exists M, line_reading nu md (XConcat l) M /\ plain (text_of M) /\
        egoods (opens (XConcat l)) (unwrapped (XConcat l)) (flat_map parts (map import ts)) M).
      { revert ts Hm. induction IH as [|x l Hx _ IHl]; intros ts Hm; inversion Hm as [|? t3 ? ts3 M1 M2']; subst.
        - exists []. split; [apply line_nil|]. split; [constructor|].
          exists []. split; [constructor|]. split; [constructor|]. split; [constructor|]. split; [reflexivity|]. split; [intros []|]. intros _. constructor.
        - inversion X as [|? ? X1 X2]; subst.
          cbn [line_given flat_map] in IG. apply incl_app_inv in IG as [IG1 IG2].
          destruct (Hx X1 IG1 t3 M1) as (M & RM & PM & GM). destruct (IHl X2 IG2 ts3 M2') as (M2 & RM2 & PM2 & GM2). exists (M ++ M2).
          split; [now apply line_cons|]. split; [rewrite text_app; now apply Forall_app|]. cbn [map flat_map].
          eapply egoods_app; [|exact GM|exact GM2]. exact (fun H => H). }
      destruct Y as (M & RM & PM & GM).
      exists M. split; [exact RM|]. split; [exact PM|]. change (egoods (opens (XConcat l)) (unwrapped (XConcat l)) (fold_left concat_add (map import ts) []) M).
      assert (Ef : fold_left concat_add (map import ts) [] = flat_map parts (map import ts)).
      { rewrite <- (app_nil_l (flat_map parts (map import ts))). generalize (@nil tree). clear. induction (map import ts) as [|t l IH]; intro acc; cbn [fold_left flat_map]; [now rewrite app_nil_r|].
        now rewrite IH, concat_parts, <- app_assoc. }
      rewrite Ef. exact GM.
    - destruct X as (Xv & Xm). destruct Hm as (vi & ni & d & oo & ii & -> & A & K & Pm & _ & _).
      cbn [import]. rewrite plain_in by exact Xv. set (x := match ii with Some _ => _ | None => _ end).
      assert (Hx : sms_value x = v /\ sms_value_idx x = vi /\ sms_name x = ni /\ sms_map x = mk_cell (Some d) None)
        by (unfold x; destruct ii, oo as [[? ?]|]; repeat split).
      destruct Hx as (Xa & Xb & Xd & Xe). clearbody x. cbn [line_given] in IG. cbn [opens]. destruct md eqn:Emd.
      + destruct (Xm eq_refl) as [Xs Xf]. pose proof Pm as Pm'. destruct Pm' as (P1 & P2 & P3 & P4).
        destruct (read_good nu Hnu c1 Hc1 v m _ _ _ P1 P2 P4 Xs Xf) as (lm & R & O & Nm & L & _).
        assert (Ed : exists segs, decode (jm_mappings m) = Some segs) by (destruct Xs as (_ & _ & _ & segs & Ed & _); eauto). destruct Ed as (segs & Ed).
        destruct (read_given v m d segs lm Pm Xs Ed (Xf segs Ed) IG R) as (Gv & Us & Ss).
        exists (ren (list_marks lm)). split; [constructor; exact L|].
        split; [apply (line_plain nu true (XSms v n m o i)); [split; [exact Xv|intros _; auto]|exact L]|].
        apply egood_one; [exact I| |exact O|exact Gv|exact Ss|intros _; exact Us].
        rewrite Emd. unfold t_list_map. cbn [fold_tree list_map_alg a_sms]. unfold sms_list_map. rewrite Xe, Xa. cbn [negb]. unfold cell_get_data. cbn [ce_data bind]. rewrite R. reflexivity.
      + exists (mark_lines (nu n) 1 v). split; [constructor; reflexivity|]. split; [now rewrite lines_text|].
        destruct (one_good nu c1 Hc1 v _ _ _ _ _ K A eq_refl) as (Q1 & Q2 & Q3 & Q4). rewrite <- Q3.
        apply egood_one; [exact I| |exact Q1| |exact (fun H => H)|intros _; apply one_unsplit].
        * rewrite Emd. unfold t_list_map. cbn [fold_tree list_map_alg a_sms]. unfold sms_list_map. cbn [negb]. rewrite Xa, Xb, Xd. reflexivity.
        * eapply one_given; [exact K|exact A|]. apply IG. now left.
  Qed.
End Lines.

(** ** Sources and contents *)
Lemma shown_app A B : sources_shown (A ++ B) = sources_shown A ++ sources_shown B.
Proof. apply flat_map_app. Qed.
Lemma shown_mark a s : sources_shown (mark a s) = match a with Some (z, _, _) => map (fun _ => z) s | None => [] end.
Proof. unfold sources_shown, mark. induction s as [|c s IH]; [destruct a as [[[? ?] ?]|]; reflexivity|]. cbn [map flat_map snd]. rewrite IH. destruct a as [[[? ?] ?]|]; reflexivity. Qed.
Lemma shown_lines z s : forall l, sources_shown (mark_lines z l s) = map (fun _ => z) s.
Proof. induction s as [|c s IH]; intro l; [reflexivity|]. cbn. f_equal. apply IH. Qed.
Lemma shown_rename f M : sources_shown (retarget (rename f) M) = map f (sources_shown M).
Proof.
  induction M as [|[c t] M IH]; [reflexivity|]. unfold sources_shown in *. cbn [retarget map flat_map snd] in *. rewrite map_app. f_equal; [|exact IH].
  destruct t as [[[? ?] ?]|]; reflexivity.
Qed.
Lemma lused_shown c1 G lm : Forall node_ok lm -> Forall (paired_as (given_pair c1 G)) lm -> map fst (lused lm) = sources_shown (list_marks lm).
Proof.
  intro O. induction O as [|n lm On _ IH]; intro Hp; [reflexivity|]. inversion Hp as [|? ? H1 H2]; subst. unfold lused, list_marks. cbn [flat_map]. rewrite map_app, shown_app.
  f_equal; [|now apply IH]. destruct n as [?|s|p|p|?|?]; try contradiction; cbn [node_used node_marks]; [now rewrite shown_mark| |].
  - destruct H1 as (i & s & E & _). unfold source_of. rewrite E, shown_lines, map_map. reflexivity.
  - destruct H1 as (i & s & E & _). unfold source_of. rewrite E, shown_mark, map_map. reflexivity.
Qed.
Lemma lused_given nu c1 G lm : Forall (paired_as (given_pair c1 G)) lm ->
  exists U, Forall2 (use_at nu c1) (lused lm) U /\ Forall (fun y => exists s, fst y = nu s /\ In (s, snd y) G) U.
Proof.
  induction 1 as [|n lm Hn _ (U & A & B)]; [exists []; split; constructor|]. unfold lused. cbn [flat_map]. fold (lused lm).
  assert (N : exists U, Forall2 (use_at nu c1) (node_used n) U /\ Forall (fun y => exists s, fst y = nu s /\ In (s, snd y) G) U).
  { assert (D : forall p, given_pair c1 G (pc_src p) (pc_orig p) ->
      exists U, Forall2 (use_at nu c1) (match pc_src p with Some s => map (fun _ => (s, pc_orig p)) (pc_code p) | None => [] end) U /\ Forall (fun y => exists s, fst y = nu s /\ In (s, snd y) G) U).
    { intros p (i & s & E & K & F). rewrite E.
      assert (Y : exists y, use_at nu c1 (i, pc_orig p) y /\ exists s, fst y = nu s /\ In (s, snd y) G).
      { destruct (pc_orig p) as [j|]; [destruct F as (k & Ak & F); exists (nu s, Some k)|exists (nu s, None)]; (split; [exists s; cbn; auto|exists s; auto]). }
      destruct Y as (y & Y1 & Y2). exists (map (fun _ => y) (pc_code p)). split; [now apply Forall2_const|]. apply Forall_map. apply Forall_forall. auto. }
    destruct n as [?|s|p|p|?|?]; cbn [node_used]; try (exists []; split; constructor); now apply D. }
  destruct N as (U0 & A0 & B0). exists (U0 ++ U). split; [now apply Forall2_app|now apply Forall_app].
Qed.
Lemma first_given nu G U s : numbering nu -> Forall (fun y => exists s, fst y = nu s /\ In (s, snd y) G) U -> In (nu s) (map fst U) -> In (s, first_use U (nu s)) G.
Proof.
  intros Hnu. unfold first_use. induction 1 as [|[z k] U (s' & E & Hi) _ IH]; intro H; [destruct H|]. cbn [find fst snd map In] in *.
  destruct (Z.eqb_spec z (nu s)) as [E'|N]; [rewrite E' in E; apply Hnu in E; now subst s'|]. apply IH. destruct H as [H|H]; [now destruct N|exact H].
Qed.

(** ** The whole way *)
Theorem made_line_edited nu e md c1 t : numbering nu -> reached_cache c1 -> line_edit_expr md e -> (forall v, e <> XRaw v) -> made c1 e t ->
  exists o M Ls Ks ms es, js_source_and_map false md t = Some (ResMap o) /\ line_reading nu md e M /\
    map nu Ls = firsts (sources_shown M) /\ Forall2 (fun s k => In (s, k) (line_given md e)) Ls Ks /\
    reads_as nu Ls [] ms = Some es /\ annotate_bytes es (text_of M) = carried None M /\
    forall l, Forall quiet l ->
      (~ starts_with BOM (text_of M) -> snd (rstep (fst (rrun (c1, o) l)) RSource) = AText (text_of M)) /\
      snd (rstep (fst (rrun (c1, o) l)) (RGet FSources)) = AVal (VArr (map Some Ls)) /\
      snd (rstep (fst (rrun (c1, o) l)) (RGet FMappings)) = AVal (VStr ms) /\
      snd (rstep (fst (rrun (c1, o) l)) (RGet FNames)) = AVal VUndef /\
      exists v, snd (rstep (fst (rrun (c1, o) l)) (RGet FContents)) = AVal v /\
        lists v (map Some (flat_map (fun k => match k with Some k => [k] | None => [] end) Ks)).
Proof.
  intros Hnu Hr1 X NR Hm. pose proof (reached_ok _ Hr1) as Hc1.
  assert (Xc : line_edit_child md e) by (destruct e; auto; destruct X).
  assert (N0 : forall s, e <> XStr s) by (intros s ->; destruct X).
  destruct (made_line_edits nu Hnu c1 Hc1 md (line_given md e) e Xc (incl_refl _) t Hm) as (M & RM & PM & D).
  pose proof (made_tree c1 e t Hm N0) as NS. pose proof (made_mapped c1 e t Hm N0 NR) as NJ.
  destruct (egood_list _ _ _ _ _ _ _ _ NS D) as (lm & Elm & Ok & Pr & EM & _ & _).
  destruct (lused_given nu c1 _ lm Pr) as (U & Us & Ug).
  assert (Nm : Forall SpecSlm.named lm).
  { eapply Forall_impl; [|exact Pr]. intros n Hn. destruct n as [?|s|p|p|?|?]; try exact I; destruct Hn as (i & s & E & _); cbn; intros _; now rewrite E. }
  destruct (list_end nu c1 lm M _ _ Hnu Hr1 Ok Nm EM (conj eq_refl (fun _ => eq_refl)) Us PM) as (Ls & ms & es & A1 & A2 & A3 & _ & A4).
  exists (robj_new (list_result lm) false), M, Ls, (map (fun s => first_use U (nu s)) Ls), ms, es.
  split; [unfold js_source_and_map; destruct t; try (destruct NJ); rewrite Elm; reflexivity|].
  split; [exact RM|]. split.
  { rewrite A1, EM, shown_rename, <- (lused_shown c1 _ lm Ok Pr). f_equal. clear - Us Hc1. induction Us as [|x y u' U' (s & E & K & _) _ IH]; [reflexivity|]. cbn [map]. rewrite IH, E. f_equal.
    symmetry. now apply (rho_known nu c1 Hc1). }
  split.
  { assert (I0 : forall s, In s Ls -> In (nu s) (map fst U)).
    { intros s Hs. apply (in_map nu) in Hs. rewrite A1 in Hs. now apply firsts_in. }
    clear - I0 Ug Hnu. induction Ls as [|s Ls IH]; constructor; [apply first_given; auto; apply I0; now left|]. apply IH. intros s' Hs. apply I0. now right. }
  split; [exact A2|]. split; [exact A3|]. intros l Hl. destruct (A4 l Hl) as (B1 & B2 & B3 & B4 & v & B5 & B6).
  split; [exact B1|]. split; [exact B2|]. split; [exact B3|]. split; [exact B4|]. exists v. split; [exact B5|].
  replace (flat_map _ (map _ Ls)) with (flat_map (fun s => match first_use U (nu s) with Some k => [k] | None => [] end) Ls); [exact B6|].
  clear. induction Ls as [|s Ls IH]; [reflexivity|]. cbn [map flat_map]. now rewrite IH.
Qed.
Theorem end_line_edits nu c0 e md c1 t : numbering nu -> reached_cache c0 -> line_edit_expr md e -> (forall v, e <> XRaw v) -> build c0 e = (c1, t) ->
  exists o M Ls Ks ms es, js_source_and_map false md t = Some (ResMap o) /\ line_reading nu md e M /\
    map nu Ls = firsts (sources_shown M) /\ Forall2 (fun s k => In (s, k) (line_given md e)) Ls Ks /\
    reads_as nu Ls [] ms = Some es /\ annotate_bytes es (text_of M) = carried None M /\
    forall l, Forall quiet l ->
      (~ starts_with BOM (text_of M) -> snd (rstep (fst (rrun (c1, o) l)) RSource) = AText (text_of M)) /\
      snd (rstep (fst (rrun (c1, o) l)) (RGet FSources)) = AVal (VArr (map Some Ls)) /\
      snd (rstep (fst (rrun (c1, o) l)) (RGet FMappings)) = AVal (VStr ms) /\
      snd (rstep (fst (rrun (c1, o) l)) (RGet FNames)) = AVal VUndef /\
      exists v, snd (rstep (fst (rrun (c1, o) l)) (RGet FContents)) = AVal v /\
        lists v (map Some (flat_map (fun k => match k with Some k => [k] | None => [] end) Ks)).
Proof.
  intros Hnu Hr0 X NR Eb. apply made_line_edited; auto; [eapply reached_build; eauto|]. now apply (build_made e c0 c1 t (reached_ok _ Hr0) Eb).
Qed.
Corollary made_line_contents (K : jstr -> jstr) e md c1 t : reached_cache c1 -> line_edit_expr md e -> (forall v, e <> XRaw v) -> made c1 e t ->
  (forall s k, In (s, k) (line_given md e) -> k = Some (K s)) ->
  exists o Ls, js_source_and_map false md t = Some (ResMap o) /\ NoDup Ls /\
    forall l, Forall quiet l ->
      snd (rstep (fst (rrun (c1, o) l)) (RGet FSources)) = AVal (VArr (map Some Ls)) /\
      exists v, snd (rstep (fst (rrun (c1, o) l)) (RGet FContents)) = AVal v /\ lists v (map (fun s => Some (K s)) Ls).
Proof.
  intros Hr X NR Eb HK. destruct EndMap.numbers as (nu & Hnu).
  destruct (made_line_edited nu e md c1 t Hnu Hr X NR Eb) as (o & M & Ls & Ks & ms & es & A1 & _ & A3 & A4 & _ & _ & A5).
  exists o, Ls. split; [exact A1|]. split; [apply (NoDup_map_inv nu Ls); rewrite A3; apply LoadFacts.firsts_nodup|]. intros l Hl. destruct (A5 l Hl) as (_ & B2 & _ & _ & v & B5 & B6).
  split; [exact B2|]. exists v. split; [exact B5|]. replace (map (fun s => Some (K s)) Ls) with (map Some (flat_map (fun k => match k with Some k => [k] | None => [] end) Ks)); [exact B6|].
  clear - A4 HK. induction A4 as [|s k Ls Ks Hi _ IH]; [reflexivity|]. rewrite (HK s k Hi). cbn [flat_map app map]. now rewrite IH.
Qed.
Corollary end_line_contents (K : jstr -> jstr) c0 e md c1 t : reached_cache c0 -> line_edit_expr md e -> (forall v, e <> XRaw v) -> build c0 e = (c1, t) ->
  (forall s k, In (s, k) (line_given md e) -> k = Some (K s)) ->
  exists o Ls, js_source_and_map false md t = Some (ResMap o) /\ NoDup Ls /\
    forall l, Forall quiet l ->
      snd (rstep (fst (rrun (c1, o) l)) (RGet FSources)) = AVal (VArr (map Some Ls)) /\
      exists v, snd (rstep (fst (rrun (c1, o) l)) (RGet FContents)) = AVal v /\ lists v (map (fun s => Some (K s)) Ls).
Proof.
  intros Hr0 X NR Eb. apply made_line_contents; auto; [eapply reached_build; eauto|]. now apply (build_made e c0 c1 t (reached_ok _ Hr0) Eb).
Qed.
