(** Built graphs are fine: induction over API calls. *)
From Verif Require Import Base Tactics ModelString ModelVlq ModelSm ModelSlm ModelSources ModelTree ModelHeap
  SpecText TextFacts TreeText SpecMap MapFacts ParseFacts GenFacts SpecAttr NodeFacts LeafFacts NodeTree
  SlmRead SpecHeap HeapFacts HeapGraph HeapProps SpecBuilt PanicFacts.
Require Import Relations.

Scheme built_mut := Induction for built Sort Prop
  with cell_mut := Induction for map_cell Sort Prop.

Lemma fine_new h o : fine h -> fine_obj o -> (forall j, In (SRef j) (items o) -> j < length h) -> fine (fst (h_new h o)).
Proof.
  intros [C F] Fo Hi. unfold h_new. cbn [fst]. split.
  - intros i j (o' & E & Hin). rewrite app_length. cbn [length].
    destruct (Nat.lt_ge_cases i (length h)) as [L|L].
    + rewrite nth_error_app1 in E by exact L. assert (j < length h) by (apply (C i j); exists o'; auto). lia.
    + rewrite nth_error_app2 in E by exact L. destruct (i - length h) as [|k]; [|destruct k; discriminate].
      injection E as <-. specialize (Hi j Hin). lia.
  - intros i o' E. destruct (Nat.lt_ge_cases i (length h)) as [L|L].
    + rewrite nth_error_app1 in E by exact L. eauto.
    + rewrite nth_error_app2 in E by exact L. destruct (i - length h) as [|k]; [|destruct k; discriminate].
      injection E as <-. exact Fo.
Qed.
Lemma fine_set h i o : fine h -> fine_obj o -> (forall j, In (SRef j) (items o) -> j < length h) -> fine (h_set h i o).
Proof.
  intros [C F] Fo Hi. split.
  - intros k j (o' & E & Hin). rewrite length_h_set. rewrite nth_h_set in E. destruct (Nat.eqb_spec i k) as [<-|].
    + destruct (i <? length h); [|discriminate]. injection E as <-. auto.
    + apply (C k j). exists o'. auto.
  - intros k o' E. rewrite nth_h_set in E. destruct (Nat.eqb i k).
    + destruct (k <? length h); [|discriminate]. injection E as <-. exact Fo.
    + eauto.
Qed.

Lemma answered_acyclic h i q v : reply h i q = Val v -> ~ cyclic h i /\ i < length h.
Proof.
  intro E. destruct (answered_unfolds _ _ _ _ E) as (t & U). split; [eapply unfolds_acyclic; eauto|].
  apply nth_error_Some. inversion U; subst; congruence.
Qed.

Lemma emitted_wf h i c m n file root code g : fine h -> reply h i (AskNode c m) = Val (GotNode n) ->
  to_string_with_generator n file root = Some (code, g) -> gen_wf g.
Proof.
  intros F E G. destruct (answered_acyclic _ _ _ _ E) as [Ac Hi].
  destruct (fine_reply h i (AskNode c m) F Hi Ac) as (v & E' & Hv). rewrite E in E'. injection E' as <-.
  destruct (emitted_total n file root (proj2 Hv)) as (code' & mp & g' & _ & G' & _ & W & _). congruence.
Qed.

Theorem built_fine h : built h -> fine h.
Proof.
  intro B. induction B as
    [| h o B IH Ok | h v vi name c orig B IH M Mc | h v vi name c orig ic B IH M Mc M' Mc'
     | h i q h1 a B IH E | h i x h1 B IH E | h i a b t c d h1 B IH E | h i a t c h1 B IH E
     | d Fd | h i c m n file root code g B IH E G | h i c m n file root code g g' mp B IH E G Gm ]
    using built_mut with (P0 := fun c _ => sound_cell c).
  - split; [intros i j (o & E & _)|intros i o E]; destruct i; discriminate.
  - apply fine_new; auto; destruct o as [| | |p s|s st|l|x]; cbn in *; try contradiction; try tauto;
      try (destruct s as [t|k]; cbn in Ok); try tauto; try (intros j [H|[]]; injection H as <-; tauto).
    subst l. intros j [].
  - apply fine_new; auto; [split; [exact Mc|exact I]|intros j []].
  - apply fine_new; auto; [split; [exact Mc|exact Mc']|intros j []].
  - eapply put_fine; eauto.
  - pose proof IH as [C F]. unfold h_add in E. destruct (nth_error h i) as [o|] eqn:Ei; [|discriminate].
    destruct o as [| | | | |l|]; try discriminate.
    assert (Hl : forall j, In (SRef j) l -> j < length h) by (intros j Hj; apply (C i j); eexists; split; [exact Ei|exact Hj]).
    destruct x as [s|k].
    + injection E as <-. apply fine_set; [exact IH|exact I|]. cbn [items]. intros j Hj. apply in_app_iff in Hj as [Hj|[Hj|[]]]; [auto|discriminate].
    + destruct (Nat.eqb i k); [discriminate|]. destruct (nth_error h k) as [o|] eqn:Ek; [|discriminate].
      assert (Hk : k < length h) by (apply nth_error_Some; congruence).
      destruct o as [| | | | |l'|]; injection E as <-; (apply fine_set; [exact IH|exact I|]); cbn [items]; intros j Hj;
        apply in_app_iff in Hj as [Hj|Hj]; auto; try (destruct Hj as [Hj|[]]; injection Hj as <-; exact Hk).
      apply (C k j). eexists; split; [exact Ek|exact Hj].
  - pose proof IH as [C F]. unfold h_replace in E. destruct (nth_error h i) as [o|] eqn:Ei; [|discriminate].
    destruct o as [| | | |s st| |]; try discriminate. injection E as <-. apply fine_set; [exact IH|exact (F _ _ Ei)|].
    intros j Hj. apply (C i j). eexists; split; [exact Ei|exact Hj].
  - pose proof IH as [C F]. unfold h_insert in E. destruct (nth_error h i) as [o|] eqn:Ei; [|discriminate].
    destruct o as [| | | |s st| |]; try discriminate. injection E as <-. apply fine_set; [exact IH|exact (F _ _ Ei)|].
    intros j Hj. apply (C i j). eexists; split; [exact Ei|exact Hj].
  - cbn. eauto.
  - cbn. split; [eapply emitted_wf; eauto|discriminate].
  - cbn. pose proof (emitted_wf _ _ _ _ _ _ _ _ _ IH E G) as W.
    destruct (to_source_map_spec g W) as (g2 & m2 & Em & -> & _ & _ & _ & _ & _ & R). rewrite Gm in Em. injection Em as -> <-.
    split; [now apply gen_wf_sort|]. intros d Hd. injection Hd as <-. cbn.
    unfold read_map in R. unbind R. eapply decode_numbers; eauto.
Qed.

Theorem built_answers h i q : built h -> i < length h ->
  (exists v, reply h i q = Val v) \/ (reply h i q = Panic /\ cyclic h i).
Proof.
  intros B Hi. apply built_fine in B.
  destruct (reply h i q) as [v| |] eqn:E; [eauto| |destruct (reply_fuel h i q E)].
  right. split; [reflexivity|].
  destruct (source_or_cycle h i (proj1 B) Hi) as [[Cy _]|[Ac _]]; [exact Cy|].
  destruct (fine_reply h i q B Hi Ac) as (v & E' & _). congruence.
Qed.

Theorem built_serialised h i c m n file root : built h -> reply h i (AskNode c m) = Val (GotNode n) ->
  exists code mp g, to_string_with_source_map n file root = Some (code, mp) /\
    to_string_with_generator n file root = Some (code, g) /\
    exists g', gen_to_source_map g = Some (g', mp).
Proof.
  intros B E. apply built_fine in B. destruct (answered_acyclic _ _ _ _ E) as [Ac Hi].
  destruct (fine_reply h i (AskNode c m) B Hi Ac) as (v & E' & Hv). rewrite E in E'. injection E' as <-.
  destruct (emitted_total n file root (proj2 Hv)) as (code & mp & g & E1 & E2 & _).
  exists code, mp, g. split; [exact E1|]. split; [exact E2|].
  unfold to_string_with_source_map, to_string_with_generator in E1, E2.
  match type of E1 with bind ?w _ = _ => destruct w as [cx|]; [|discriminate] end. cbn [bind] in E1, E2.
  injection E2 as E2 E3. subst g. match type of E1 with bind ?w _ = _ => destruct w as [[g1 m1]|] eqn:Eg; [|discriminate] end.
  cbn [bind] in E1. injection E1 as _ <-. eauto.
Qed.

(** The exception: a plain string wrapped directly. *)
Theorem wrapped_string h i o s c m : nth_error h i = Some o -> (exists p, o = OPrefix p (SStr s)) \/ (exists st, o = OReplace (SStr s) st) ->
  reply h i (AskNode c m) = Panic /\ reply h i (AskLines c m) = Panic /\
  exists t, reply h i AskSource = Val (GotText t).
Proof.
  intros E [(p & ->)|(st & ->)];
    (assert (U : exists t, unfolds h (SRef i) t) by (eexists; first [eapply u_prefix; [exact E|apply u_str]|eapply u_replace; [exact E|apply u_str]]));
    destruct U as (t & U);
    (split; [|split; [|rewrite (source_tree h i t AskSource (or_introl eq_refl) U); cbn [t_answer];
                destruct (source_total t) as (x & ->); cbn; eauto]]);
    unfold reply; cbn [put]; unfold h_read; rewrite h_eval_ref; cbn [is_busy existsb]; rewrite E; cbn [lift rbind];
    destruct h; reflexivity.
Qed.
