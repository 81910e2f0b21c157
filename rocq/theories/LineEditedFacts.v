(** Nodes of line maps with their sources and contents; reading and editing keep them. *)
From Verif Require Import Base Tactics ModelString StringFacts ModelVlq ModelSm ModelSlm ModelSources ModelTree ModelWasm
  SpecText SpecMap SpecAttr SpecEdit SpecLineEdit SpecList SortFacts TextFacts EditFacts NodeFacts LeafFacts ParseFacts MapFacts
  SlmFacts SlmMap SlmRead SlmReplace SlmTree SlmEdits IdxFacts.

(** ** Sources and contents of nodes *)
Section Pairs.
  Variable P : option Z -> option Z -> Prop.
  Definition paired_as (n : slm_node) : Prop :=
    match n with LSource p | LSingle p => P (pc_src p) (pc_orig p) | _ => True end.
  Lemma merge_paired a b x : paired_as a -> node_merge a b = Some x -> paired_as x.
  Proof.
    intros Ha H. destruct a as [?|s|p|p|?|?], b as [?|t|q|q|?|?]; try discriminate; cbn [node_merge] in H.
    - injection H as <-. exact I.
    - unfold source_merge_source in H. destruct (_ && _); [|discriminate]. injection H as <-. exact Ha.
    - unfold source_merge_single in H. destruct (_ && _); [|discriminate]. injection H as <-. exact Ha.
    - unfold single_merge_single in H. destruct (_ && _); [|discriminate]. destruct (_ =? _)%N; [injection H as <-; exact Ha|].
      destruct (_ && _); [|discriminate]. injection H as <-. exact Ha.
  Qed.
  Lemma push_paired acc n : Forall paired_as acc -> match n with Some n => paired_as n | None => True end -> Forall paired_as (push_merge acc n).
  Proof.
    intros Ha Hn. destruct n as [n|]; [|destruct acc; exact Ha]. destruct acc as [|last rest]; cbn [push_merge]; [now constructor|].
    inversion Ha as [|? ? H1 H2]; subst. destruct (node_merge last n) as [x|] eqn:E; [|auto]. constructor; [|exact H2]. eapply merge_paired; eauto.
  Qed.
  Lemma loop_paired {S} (f : mapfun S) : forall l st acc st' acc', Forall paired_as l -> Forall paired_as acc ->
    map_loop f st l acc = Some (st', acc') -> Forall paired_as acc'.
  Proof.
    induction l as [|n l IH]; intros st acc st' acc' Hl Ha E; cbn [map_loop] in E; [now injection E as _ <-|].
    inversion Hl as [|? ? H1 H2]; subst. unb E as [st1 o] E1. eapply IH; [exact H2| |exact E]. apply push_paired; [exact Ha|].
    destruct n as [?|s|p|p|?|?]; cbn [node_map] in E1; try (injection E1 as _ <-; exact I);
      unb E1 as [st2 u] E2; injection E1 as _ <-; [exact I|exact H1].
  Qed.
  Lemma map_code_paired {S} (f : mapfun S) st m st' m' : Forall paired_as m -> map_generated_code f st m = Some (st', m') -> Forall paired_as m'.
  Proof.
    intros H E. unfold map_generated_code in E. rewrite normalize_all_spec in E. cbn [bind] in E. unb E as [st1 acc] E1. injection E as _ <-.
    apply Forall_rev. eapply loop_paired; [|constructor|exact E1]. apply Forall_flat_map. eapply Forall_impl; [|exact H].
    intros n Hn. destruct n as [?|s|p|p|?|?]; cbn [normal_node]; try (repeat constructor; exact Hn).
    generalize (if pc_nl p then removelast (pieces NL (pc_code p)) else pieces NL (pc_code p)) as l. intro l. generalize (pc_line p) as k.
    induction l as [|x l IH]; intro k; cbn [numberN map]; constructor; [exact Hn|apply IH].
  Qed.
  Lemma add_text_paired m s : Forall paired_as m -> Forall paired_as (add_code_text m s).
  Proof.
    intro H. destruct (add_code_cases m s) as [(m0 & t & -> & ->)| ->]; [apply Forall_app in H as [H _]|]; apply Forall_app; split; auto; repeat constructor.
  Qed.
  Lemma replace_paired repls m m' : Forall paired_as m -> replace_list_map repls m = Some m' -> Forall paired_as m'.
  Proof.
    intros H E. unfold replace_list_map in E. unb E as [st m1] E1. unb E as ex E2. pose proof (map_code_paired _ _ _ _ _ H E1) as H1.
    destruct ex as [|c ex]; [now injection E as <-|]. cbn [slm_add is_some] in E. injection E as <-. now apply add_text_paired.
  Qed.
  Lemma concat_paired : forall ys m m', concat_list_map ys m = Some m' ->
    Forall (fun y => match y with inl _ => True | inr l => Forall paired_as l end) ys -> Forall paired_as m -> Forall paired_as m'.
  Proof.
    induction ys as [|y ys IH]; intros m m' E Hy Hm; cbn [concat_list_map] in E; [now injection E as <-|]. inversion Hy as [|? ? H1 H2]; subst.
    destruct y as [s|c]; cbn [slm_add is_some bind] in E; (eapply IH; [exact E|exact H2|]); [now apply add_text_paired|now apply Forall_app].
  Qed.

  (** The reader. *)
  Lemma rd_code_paired r x : Forall paired_as (fst r) -> Forall paired_as (fst (rd_add_code r x)).
  Proof.
    destruct r as [nodes k]. unfold rd_add_code. cbn [fst]. intro H. destruct (last_cases nodes) as [->|(a & n & ->)]; [repeat constructor|].
    rewrite last_opt_snoc. assert (D : Forall paired_as ((a ++ [n]) ++ [LCode x])) by (apply Forall_app; split; [exact H|repeat constructor]).
    apply Forall_app in H as [Ha Hn]. inversion Hn as [|? ? Hn' _]; subst.
    destruct n; rewrite ?set_last_snoc; try exact D; [apply Forall_app; split; [exact Ha|repeat constructor]|].
    destruct (blank x); [|exact D]. cbn [fst]. rewrite ?set_last_snoc. apply Forall_app. split; [exact Ha|]. constructor; [exact Hn'|constructor].
  Qed.
  Lemma rd_source_paired r x src orig line : P src orig -> Forall paired_as (fst r) -> Forall paired_as (fst (rd_add_source r x src orig line)).
  Proof.
    intros HP. destruct r as [nodes k]. unfold rd_add_source. cbn [fst]. intro H. destruct (last_cases nodes) as [->|(a & n & ->)]; [cbn; constructor; [exact HP|constructor]|].
    rewrite last_opt_snoc.
    assert (D : Forall paired_as ((a ++ [n]) ++ [LSource (piece_new x src orig line)])) by (apply Forall_app; split; [exact H|constructor; [exact HP|constructor]]).
    apply Forall_app in H as [Ha Hn]. inversion Hn as [|? ? Hn' _]; subst.
    destruct n; rewrite ?set_last_snoc; try exact D. destruct (_ && _); [|exact D]. cbn [fst]. rewrite ?set_last_snoc. apply Forall_app. split; [exact Ha|]. constructor; [exact Hn'|constructor].
  Qed.
  Lemma reader_paired sources contents : forall lines cs ms,
    Forall2 (Forall2 (fun x l => numbers x 0 1 = Some l)) cs ms ->
    forall k su segs st, decode_lines k su cs = Some segs -> Forall fits segs ->
    Forall (fun s => SlmRead.named s = true -> P (seg_source sources s) (seg_source contents s)) segs -> sync st su ->
    Forall paired_as (fst (rs_rd st)) -> Forall paired_as (fst (rs_rd (reader_spec sources contents ms lines st))).
  Proof.
    induction lines as [|x lines IH]; intros cs ms HF k su segs st D Hs HP Hy Hr; [exact Hr|].
    assert (D' : exists a b su1, segs = a ++ b /\ decode_line k su (hd [] cs) = Some (su1, a) /\
      decode_lines (k + 1) (mk_sums 0 (su_src su1) (su_line su1) (su_ocol su1) (su_name su1)) (tl cs) = Some b).
    { destruct cs as [|c cs].
      - cbn in D. injection D as <-. exists [], [], su. repeat split; auto.
      - cbn [decode_lines] in D. unb D as [su1 a] D1. unb D as b D2. injection D as <-. exists a, b, su1. auto. }
    destruct D' as (a & b & su1 & -> & D1 & D2). clear D. apply Forall_app in Hs as [Hsa Hsb]. apply Forall_app in HP as [HPa HPb].
    assert (HF1 : Forall2 (fun x l => numbers x 0 1 = Some l) (hd [] cs) (hd [] ms)) by (inversion HF; subst; cbn; auto).
    assert (HF2 : Forall2 (Forall2 (fun x l => numbers x 0 1 = Some l)) (tl cs) (tl ms)) by (inversion HF; subst; cbn; auto).
    pose proof (steps_decode sources contents k x _ _ HF1 su su1 a st false D1 Hsa Hy) as St. cbn [reader_spec].
    assert (Z : sync (line_step sources contents (hd [] ms) x st) su1 /\ Forall paired_as (fst (rs_rd (line_step sources contents (hd [] ms) x st)))).
    { unfold line_step. destruct (fold_left _ _ _) as [st' added']. destruct St as [Hy' St]. destruct (find SlmRead.named a) as [s|] eqn:Ef.
      - destruct St as [-> St]. split; [exact Hy'|]. rewrite St. apply find_some in Ef as [Hin Hnm]. apply rd_source_paired; [|exact Hr].
        rewrite Forall_forall in HPa. now apply HPa.
      - destruct St as [-> St]. split; [exact Hy'|]. cbn [rs_rd]. rewrite St. now apply rd_code_paired. }
    destruct Z as [Z1 Z2]. eapply IH; [exact HF2|exact D2|exact Hsb|exact HPb| |exact Z2]. exact Z1.
  Qed.
  Lemma read_paired sources contents code mappings segs lm : decode mappings = Some segs -> Forall fits segs ->
    Forall (fun s => SlmRead.named s = true -> P (seg_source sources s) (seg_source contents s)) segs ->
    slm_from_string code sources contents mappings = Some lm -> Forall paired_as lm.
  Proof.
    intros D Hs HP E. destruct (well_formed_numbers _ (decode_numbers _ _ D)) as (ms & Hm). rewrite (reader_exact sources contents code _ _ Hm) in E. injection E as <-.
    eapply reader_paired; [exact Hm|exact D|exact Hs|exact HP| |constructor]. split; reflexivity.
  Qed.
End Pairs.

(** ** The first piece *)
Definition starts_so (lm : slm) : Prop := match lm with n :: _ => text_node n <> [] | [] => False end.
Lemma starts_pieces lm : Forall node_ok lm -> starts_so lm -> starts_with_text lm.
Proof.
  intros O H. destruct lm as [|n lm]; [destruct H|]. cbn [starts_so] in H. inversion O as [|? ? On _]; subst. unfold starts_with_text, list_pieces. cbn [flat_map].
  destruct n as [?|s|p|p|?|?]; try contradiction; cbn [node_pieces text_node node_ok] in *; cbn [app snd]; auto. destruct On as [_ On].
  assert (F : exists x l, (if pc_nl p then removelast (cut_lines (pc_code p)) else cut_lines (pc_code p)) = x :: l /\ x <> []).
  { rewrite cut_lines_pieces. destruct (pc_code p) as [|c r] eqn:Ep; [now elim H|].
    assert (Px : exists x l, pieces NL (c :: r) = x :: l /\ x <> [] /\ (l = [] -> ends_with NL (c :: r) = false)).
    { rewrite pieces_cut. destruct (cut NL (c :: r)) as [[a b]|] eqn:Ec.
      - exists (a ++ [NL]), (pieces NL b). split; [reflexivity|]. split; [destruct a; discriminate|]. intro Z. now apply pieces_nonempty in Z.
      - exists (c :: r), []. split; [reflexivity|]. split; [discriminate|]. intros _. apply ends_with_none. now apply cut_none. }
    destruct Px as (x & l & -> & Hx & Hl). destruct (pc_nl p); [|eauto]. destruct l as [|y l]; [specialize (Hl eq_refl); rewrite On in Hl; auto; discriminate|].
    exists x, (removelast (y :: l)). split; [reflexivity|exact Hx]. }
  destruct F as (x & l & -> & Hx). cbn. exact Hx.
Qed.
Lemma starts_app a b : starts_so a -> starts_so (a ++ b).
Proof. destruct a; [intros []|exact (fun H => H)]. Qed.

Lemma starts_text m s : starts_so m -> starts_so (add_code_text m s).
Proof.
  intro H. destruct (add_code_cases m s) as [(m0 & t & -> & ->)| ->]; [|now apply starts_app].
  destruct m0 as [|x m0]; [|exact H]. cbn in *. destruct t; [now elim H|discriminate].
Qed.
Lemma concat_starts : forall ys m m', concat_list_map ys m = Some m' -> starts_so m -> starts_so m'.
Proof.
  induction ys as [|y ys IH]; intros m m' E Hm; cbn [concat_list_map] in E; [now injection E as <-|].
  destruct y as [s|c]; cbn [slm_add is_some bind] in E; (eapply IH; [exact E|]); [now apply starts_text|now apply starts_app].
Qed.
Lemma rd_code_starts r x : (starts_so (fst r) \/ (fst r = [] /\ x <> [])) -> starts_so (fst (rd_add_code r x)).
Proof.
  destruct r as [nodes k]. unfold rd_add_code. cbn [fst]. intro H. destruct (last_cases nodes) as [->|(a & n & ->)]; [destruct H as [[]|[_ H]]; exact H|].
  destruct H as [H|[H _]]; [|destruct a; discriminate]. rewrite last_opt_snoc.
  destruct n as [?|s|p|p|?|?]; rewrite ?set_last_snoc; try (now apply starts_app).
  - cbn [fst]. destruct a as [|y a]; [|exact H]. cbn in *. destruct s; [now elim H|discriminate].
  - destruct (blank x); [|now apply starts_app]. cbn [fst]. destruct a as [|y a]; [|exact H]. cbn in *. destruct (pc_code p); [now elim H|discriminate].
Qed.
Lemma rd_source_starts r x src orig line : (starts_so (fst r) \/ (fst r = [] /\ x <> [])) -> starts_so (fst (rd_add_source r x src orig line)).
Proof.
  destruct r as [nodes k]. unfold rd_add_source. cbn [fst]. intro H. destruct (last_cases nodes) as [->|(a & n & ->)]; [destruct H as [[]|[_ H]]; exact H|].
  destruct H as [H|[H _]]; [|destruct a; discriminate]. rewrite last_opt_snoc.
  destruct n as [?|s|p|p|?|?]; rewrite ?set_last_snoc; try (now apply starts_app).
  destruct (_ && _); [|now apply starts_app]. cbn [fst]. destruct a as [|y a]; [|exact H]. cbn in *. destruct (pc_code p); [now elim H|discriminate].
Qed.
Lemma step_starts sources contents line ms st : (starts_so (fst (rs_rd st)) \/ (fst (rs_rd st) = [] /\ line <> [])) ->
  starts_so (fst (rs_rd (line_step sources contents ms line st))).
Proof.
  intro H.
  assert (F : forall ls (st : rdst) (added : bool), ((if added then starts_so (fst (rs_rd st)) else starts_so (fst (rs_rd st)) \/ (fst (rs_rd st) = [] /\ line <> []))) ->
    let '(st', added') := fold_left (spec_step sources contents line) ls (st, added) in
    if added' then starts_so (fst (rs_rd st')) else starts_so (fst (rs_rd st')) \/ (fst (rs_rd st') = [] /\ line <> [])).
  { clear. induction ls as [|l ls IH]; intros st added H; [exact H|]. cbn [fold_left].
    destruct l as [|z [|s r]]; [exact (IH st added H)|exact (IH st added H)|]. cbn [spec_step]. apply IH. cbn [rs_rd].
    destruct added; [exact H|now apply rd_source_starts]. }
  specialize (F ms st false H). unfold line_step. destruct (fold_left _ _ _) as [st' []]; [exact F|]. cbn [rs_rd]. now apply rd_code_starts.
Qed.
Lemma read_starts sources contents code mappings segs lm : decode mappings = Some segs -> slm_from_string code sources contents mappings = Some lm -> code <> [] -> starts_so lm.
Proof.
  intros D E Hc. destruct (well_formed_numbers _ (decode_numbers _ _ D)) as (ms & Hm). rewrite (reader_exact sources contents code _ _ Hm) in E. injection E as <-.
  assert (L : forall lines ms st, starts_so (fst (rs_rd st)) -> starts_so (fst (rs_rd (reader_spec sources contents ms lines st)))).
  { induction lines as [|x lines IH]; intros m st H; [exact H|]. cbn [reader_spec]. apply IH. apply step_starts. now left. }
  destruct code as [|c r]; [now elim Hc|].
  assert (Px : exists x l, pieces NL (c :: r) = x :: l /\ x <> []).
  { rewrite pieces_cut. destruct (cut NL (c :: r)) as [[a b]|]; eexists; eexists; (split; [reflexivity|]); [destruct a; discriminate|discriminate]. }
  destruct Px as (x & l & -> & Hx). cbn [reader_spec]. apply L. apply step_starts. right. auto.
Qed.
