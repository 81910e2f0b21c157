(** C62 *)
From Verif Require Import Base Tactics ModelString StringFacts ModelVlq ModelSm ModelSlm ModelSources ModelTree ModelWasm
  ModelJs ModelJsApi SpecText SpecMap SpecAttr SpecEdit SpecEffect SpecLineEdit SpecList
  SpecResult ModelJsResult ResultProps SpecJs ModelEnd SpecEnd EndFacts MadeFacts EndMap SpecLeast
  SpecEdited SpecLineEdited ModelHeap ModelJsProg SpecProg ProgProps ModelJsCached SpecCached CachedProps PropertiesEnd PropertiesEdited PropertiesLineEdited PropertiesProg.

(** [i] is a CachedSource [n] around [j], or a CachedSource around it, or one around that, and so on.
    sourceAndMap(options): *)
Theorem C62_pair : forall nu c0 ops since st n j e i o, numbering nu -> reached_cache c0 -> krun (kstate_new c0) ops = Some st ->
  cached_of ops n j since -> fresh_reads (kmeaning ops) j -> steadily ops j e since -> wraps (kmeaning ops) i n ->
  covered (by_columns o) (by_module o) e -> suits ops n i o ->
  exists st' s r, kstep st (KSourceAndMap i o) = Some (st', KPair (TNow s) (Some r)) /\
    (untouched r ops -> tells nu (js_cache (k_js st)) (by_columns o) (by_module o) e (later st' r)).
Proof. intros nu c0 ops since st n j e i o Hnu R0 Run Of Fr Same. rewrite <- cols_by, <- mods_by. exact (cached_pair Hnu R0 Run Of Fr Same i o). Qed.
Print Assumptions C62_pair.
(** map(options), whatever the options. *)
Theorem C62_map : forall nu c0 ops since st n j e i o md, numbering nu -> reached_cache c0 -> krun (kstate_new c0) ops = Some st ->
  cached_of ops n j since -> fresh_reads (kmeaning ops) j -> steadily ops j e since -> wraps (kmeaning ops) i n -> covered true md e ->
  by_columns o = true \/ (forall k, wraps (kmeaning ops) k i -> ~ In (KSourceAndMap k o) ops) ->
  exists st' r, kstep st (KMap i o) = Some (st', KMapped (Some r)) /\
    (untouched r ops -> tells nu (js_cache (k_js st)) true md e (later st' r)).
Proof. intros nu c0 ops since st n j e i o md Hnu R0 Run Of Fr Same. exact (cached_map_of Hnu R0 Run Of Fr Same i o md). Qed.
Print Assumptions C62_map.
(** The other classes. *)
Theorem C62_fresh : forall nu c0 ops st i e o, numbering nu -> reached_cache c0 -> krun (kstate_new c0) ops = Some st ->
  denotes (kmeaning ops) (ArgObj i) e -> fresh_reads (kmeaning ops) i -> covered (by_columns o) (by_module o) e ->
  exists st' r, kstep st (KSourceAndMap i o) = Some (st', KPair (TOf r) (Some r)) /\
    kstep st (KMap i o) = Some (st', KMapped (Some r)) /\ tells nu (js_cache (k_js st)) (by_columns o) (by_module o) e (later st' r).
Proof. intros nu c0 ops st i e o Hnu R0 Run D F. rewrite <- cols_by, <- mods_by. exact (fresh_pair Hnu R0 Run D F o). Qed.
Print Assumptions C62_fresh.
(** The text. *)
Theorem C62_text : forall nu c0 ops since st n j e i M, numbering nu -> reached_cache c0 -> krun (kstate_new c0) ops = Some st ->
  cached_of ops n j since -> fresh_reads (kmeaning ops) j -> steadily ops j e since -> wraps (kmeaning ops) i n -> exact_expr e -> marks nu e = Some M ->
  js_source (alone e) = Some (text_of M) -> ~ starts_with BOM (text_of M) ->
  (forall k o, wraps (kmeaning ops) k n -> In (KSourceAndMap k o) ops -> by_columns o = true) ->
  (exists st', kstep st (KOp (OSource i)) = Some (st', KDone (NText (text_of M)))) /\
  forall o st' t m, by_columns o = true -> kstep st (KSourceAndMap i o) = Some (st', KPair t m) -> t = TNow (text_of M).
Proof.
  intros nu c0 ops since st n j e i M Hnu R0 Run Of Fr Same W X EM Es NB HP.
  assert (Tx := exact_text nu e M Hnu X EM Es NB).
  assert (HP' : forall k o, wraps (kmeaning ops) k n -> In (KSourceAndMap k o) ops -> cols o = true) by (intros k o Wk Hi; rewrite cols_by; eauto).
  split; [exact (cached_source R0 Run Of Fr Same _ _ Tx HP' i W)|]. intros o st' t m. rewrite <- cols_by. exact (cached_pair_text R0 Run Of Fr Same _ _ Tx HP' i o st' t m W).
Qed.
Print Assumptions C62_text.
(** Asking again gives the same text and the same object, whatever happened. *)
Theorem C62_again : forall c0 ops st i j o st1 t m l st2, reached_cache c0 -> krun (kstate_new c0) ops = Some st -> nth_error (kmeaning ops) i = Some (VSame j) ->
  kstep st (KSourceAndMap i o) = Some (st1, KPair t m) -> krun st1 l = Some st2 -> kstep st2 (KSourceAndMap i o) = Some (st2, KPair t m).
Proof. exact pair_again. Qed.
Print Assumptions C62_again.
Theorem C62_again_map : forall c0 ops st i j o st1 m l st2, reached_cache c0 -> krun (kstate_new c0) ops = Some st -> nth_error (kmeaning ops) i = Some (VSame j) ->
  kstep st (KMap i o) = Some (st1, KMapped m) -> krun st1 l = Some st2 -> kstep st2 (KMap i o) = Some (st2, KMapped m).
Proof. exact map_again. Qed.
Print Assumptions C62_again_map.

(** ** Examples *)
(** Object 8 is a CachedSource around object 7 of C60_case, which keeps amounting to the expression
    of C52_case while other objects change, other maps are made and used up, and maps of 8 are read;
    object 9 is a CachedSource around 8. *)
Definition since62 : list kop :=
  [KMap 8 (JObj (Some true) None); KOp (OIntern (lit "zzz") true); KUse 0 (RGet FNames); KOp (OAdd 4 (ArgStr (lit "even later"))); KSourceAndMap 4 JUndef;
   KUse 1 (RWrap (lit "v") (lit "n")); KOp (ONewCached 8); KSourceAndMap 8 (JObj None None); KUse 0 (RGet FSources); KOp (OSource 9); KMap 9 JUndef].
Definition ops62 : list kop := map KOp ops60 ++ KOp (ONewCached 7) :: since62.
Definition run62 : kstate := match krun (kstate_new cache_empty) ops62 with Some st => st | None => kstate_new cache_empty end.
Lemma steadily62 : steadily ops62 7 e52 since62.
Proof.
  intros ops1 l l' E El.
  assert (E1 : ops1 = map KOp ops60).
  { unfold ops62 in E. apply app_inv_tail in E. now symmetry. }
  subst ops1. clear E. unfold since62 in El.
  assert (D : forall vs, nth_error vs 7 = nth_error (meaning ops60) 7 -> nth_error vs 0 = nth_error (meaning ops60) 0 -> nth_error vs 1 = nth_error (meaning ops60) 1 ->
    nth_error vs 2 = nth_error (meaning ops60) 2 -> nth_error vs 3 = nth_error (meaning ops60) 3 -> nth_error vs 5 = nth_error (meaning ops60) 5 -> nth_error vs 6 = nth_error (meaning ops60) 6 ->
    denotes vs (ArgObj 7) e52).
  { intros vs H7 H0 H1 H2 H3 H5 H6. eapply de_concat; [rewrite H7; reflexivity|]. repeat apply ds_cons; try apply ds_nil.
    - apply de_str.
    - eapply de_prefix; [rewrite H3; reflexivity|]. eapply de_concat; [rewrite H2; reflexivity|]. repeat apply ds_cons; try apply ds_nil; eapply de_leaf; [rewrite H0|rewrite H1]; reflexivity.
    - eapply de_leaf; rewrite H5; reflexivity.
    - eapply de_leaf; rewrite H6; reflexivity. }
  repeat (destruct l as [|? l]; [apply D; reflexivity|cbn [app] in El; injection El as <- El]).
  destruct l; [apply D; reflexivity|discriminate].
Qed.
Example C62_case : krun (kstate_new cache_empty) ops62 = Some run62 /\ cached_of ops62 8 7 since62 /\ fresh_reads (kmeaning ops62) 7 /\ steadily ops62 7 e52 since62 /\
  wraps (kmeaning ops62) 9 8 /\ covered true true e52 /\ suits ops62 8 9 (JObj (Some true) None) /\
  exists st' s, kstep run62 (KSourceAndMap 9 (JObj (Some true) None)) = Some (st', KPair (TNow s) (Some 0)) /\ untouched 0 ops62 /\
    s = lit "/* h */" ++ nlj ++ lit "  a();b()" ++ nlj ++ lit "  c()" ++ nlj ++ lit "foox" /\
    look st' 0 (RGet FMappings) = AVal (VStr (lit ";AAAA,MAAI;AACJ,K;ACGIA,CCHJ,ECDA")).
Proof.
  split; [vm_compute; reflexivity|]. split; [exists (map KOp ops60); split; reflexivity|]. split; [intros j; vm_compute; discriminate|]. split; [exact steadily62|].
  split; [eapply wr_in; [reflexivity|apply wr_self]|].
  split; [split; [intros v; discriminate|left; apply C52_case]|]. split; [now left|].
  assert (In62 : forall op, In op ops62 -> match op with KUse 0 q => q = RGet FNames \/ q = RGet FSources | _ => True end).
  { apply Forall_forall. repeat (constructor; [vm_compute; auto|]). constructor. }
  eexists _, _. split; [vm_compute; reflexivity|]. split; [intros op Hi; apply In62 in Hi; destruct Hi as [->| ->]; exact I|]. split; [reflexivity|vm_compute; reflexivity].
Qed.
Example C62_text_case : forall nu, exists M, marks nu e52 = Some M /\ js_source (alone e52) = Some (text_of M) /\ ~ starts_with BOM (text_of M) /\
  forall k o, wraps (kmeaning ops62) k 8 -> In (KSourceAndMap k o) ops62 -> by_columns o = true.
Proof.
  intro nu. eexists. split; [reflexivity|]. split; [vm_compute; reflexivity|]. split; [intros (s & E); vm_compute in E; discriminate|].
  intros k o _. assert (H : forall op, In op ops62 -> match op with KSourceAndMap _ o => by_columns o = true | _ => True end); [|intro Hi; exact (H _ Hi)].
  apply Forall_forall. repeat (constructor; [vm_compute; auto|]). constructor.
Qed.
(** columns: false, an edited bundle: object 8 around object 7, the expression of C59_case, and
    object 9 around 8. *)
Definition lines62 : jopt := JObj (Some false) None.
Lemma steady_lines62 since : (forall l l', since = l ++ l' -> exists v, meaning leops60 ++ VSame 7 :: v = kmeaning (map KOp leops60 ++ KOp (ONewCached 7) :: l)) ->
  steadily (map KOp leops60 ++ KOp (ONewCached 7) :: since) 7 l59 since.
Proof.
  intros H ops1 l l' E El. assert (E1 : ops1 = map KOp leops60) by (apply app_inv_tail in E; now symmetry). subst ops1. destruct (H _ _ El) as (v & <-).
  eapply de_concat; [reflexivity|]. repeat apply ds_cons; try apply ds_nil.
  - apply de_str.
  - eapply de_edit; [reflexivity|]. eapply de_concat; [reflexivity|]. repeat apply ds_cons; try apply ds_nil; (eapply de_leaf; reflexivity).
  - eapply de_leaf; reflexivity.
  - eapply de_edit; [reflexivity|]. eapply de_leaf; reflexivity.
Qed.
Definition lsince62 : list kop := [KSourceAndMap 8 JUndef; KMap 8 JUndef; KUse 0 (RGet FMappings); KOp (ONewCached 8); KMap 9 JUndef; KOp (OSource 8)].
Definition lops62 : list kop := map KOp leops60 ++ KOp (ONewCached 7) :: lsince62.
Example C62_lines_case : exists st, krun (kstate_new cache_empty) lops62 = Some st /\ cached_of lops62 8 7 lsince62 /\ fresh_reads (kmeaning lops62) 7 /\
  steadily lops62 7 l59 lsince62 /\ wraps (kmeaning lops62) 9 8 /\ covered false true l59 /\ suits lops62 8 9 lines62 /\
  exists st' s, kstep st (KSourceAndMap 9 lines62) = Some (st', KPair (TNow s) (Some 2)) /\ untouched 2 lops62 /\
    look st' 2 (RGet FNames) = AVal VUndef /\ look st' 0 (RGet FNames) <> AVal VUndef.
Proof.
  eexists. split; [vm_compute; reflexivity|]. split; [exists (map KOp leops60); split; reflexivity|]. split; [intros j; vm_compute; discriminate|]. split; [|split; [|split; [|split]]].
  - apply steady_lines62. intros l l' El. unfold lsince62 in El. repeat (destruct l as [|? l]; [eexists; reflexivity|cbn [app] in El; injection El as <- El]). destruct l; [eexists; reflexivity|discriminate].
  - eapply wr_in; [reflexivity|apply wr_self].
  - split; [intros v; discriminate|]. right. apply C59_case.
  - assert (In62 : forall op, In op lops62 -> match op with KMap _ o => o = JUndef | KSourceAndMap k _ => k = 8 | KOp (OSource k) => k = 8 \/ k = 3 \/ k = 7 | _ => True end).
    { apply Forall_forall. repeat (constructor; [vm_compute; auto|]). constructor. }
    right. right. intros k W. split; [intros o' Hi; apply In62 in Hi; cbn in Hi; rewrite Hi; discriminate|]. intro Ne. split; [|intros o' Hi; apply In62 in Hi; contradiction].
    intro Hi. apply In62 in Hi. destruct Hi as [->|[->| ->]]; [now apply Ne|..]; inversion W as [|? ? ? E _]; vm_compute in E; discriminate.
  - eexists _, _. split; [vm_compute; reflexivity|]. split; [|split; [vm_compute; reflexivity|vm_compute; discriminate]].
    assert (H : forall op, In op lops62 -> match op with KUse 2 q => False | _ => True end); [apply Forall_forall; repeat (constructor; [vm_compute; auto|]); constructor|].
    intros op Hi. destruct (H _ Hi).
Qed.
(** The CachedSource around 7 itself may be asked while the one around it was read. *)
Definition lsince62' : list kop := [KOp (ONewCached 8); KOp (OSource 9); KMap 9 lines62].
Definition lops62' : list kop := map KOp leops60 ++ KOp (ONewCached 7) :: lsince62'.
Example C62_inner_case : exists st, krun (kstate_new cache_empty) lops62' = Some st /\ cached_of lops62' 8 7 lsince62' /\ fresh_reads (kmeaning lops62') 7 /\
  steadily lops62' 7 l59 lsince62' /\ wraps (kmeaning lops62') 8 8 /\ suits lops62' 8 8 lines62 /\
  exists st' s, kstep st (KSourceAndMap 8 lines62) = Some (st', KPair (TNow s) (Some 1)) /\ untouched 1 lops62' /\
    look st' 1 (RGet FNames) = AVal VUndef /\ look st' 0 (RGet FNames) <> AVal VUndef.
Proof.
  eexists. split; [vm_compute; reflexivity|]. split; [exists (map KOp leops60); split; reflexivity|]. split; [intros j; vm_compute; discriminate|]. split; [|split; [|split]].
  - apply steady_lines62. intros l l' El. unfold lsince62' in El. repeat (destruct l as [|? l]; [eexists; reflexivity|cbn [app] in El; injection El as <- El]). destruct l; [eexists; reflexivity|discriminate].
  - apply wr_self.
  - assert (In62 : forall op, In op lops62' -> match op with KMap k _ => k = 9 | KSourceAndMap _ _ => False | _ => True end).
    { apply Forall_forall. repeat (constructor; [vm_compute; auto|]). constructor. }
    right. left. split; [reflexivity|]. split; [intros o' Hi; apply In62 in Hi; discriminate|]. intros k _ _ Hi. exact (In62 _ Hi).
  - eexists _, _. split; [vm_compute; reflexivity|]. split; [|split; [vm_compute; reflexivity|vm_compute; discriminate]].
    assert (H : forall op, In op lops62' -> match op with KUse 1 q => False | _ => True end); [apply Forall_forall; repeat (constructor; [vm_compute; auto|]); constructor|].
    intros op Hi. destruct (H _ Hi).
Qed.

(** ** Not so *)
(** A text from before and a map from after a change of the wrapped source. *)
Theorem C62_stale_refuted : exists ops st st' s r, krun (kstate_new cache_empty) ops = Some st /\ nth_error (kmeaning ops) 2 = Some (VSame 1) /\
  kstep st (KSourceAndMap 2 JUndef) = Some (st', KPair (TNow s) (Some r)) /\ s = lit "a" /\ look st' r RSource = AText (lit "ba").
Proof.
  exists [KOp (ONewOriginal (lit "a") (lit "f.js")); KOp (ONewReplace (ArgObj 0)); KOp (ONewCached 1); KOp (OSource 2); KOp (OInsertAt 1 (Fin 0 0) (lit "b"))].
  eexists _, _, _, _. split; [vm_compute; reflexivity|]. split; [reflexivity|]. split; [vm_compute; reflexivity|]. split; [reflexivity|]. vm_compute; reflexivity.
Qed.
Print Assumptions C62_stale_refuted.
(** A map that one caller gave to a SourceMapSource is useless for the next caller, although the
    wrapped source is unchanged: reading it throws. *)
Theorem C62_shared_refuted : exists ops use st st1 s r st2 st3 a, krun (kstate_new cache_empty) ops = Some st /\
  kstep st (KSourceAndMap 1 JUndef) = Some (st1, KPair (TNow s) (Some r)) /\ look st1 r (RGet FSources) = AVal (VArr [Some (lit "f.js")]) /\
  kstep st1 (KUse r use) = Some (st2, a) /\ (forall x, kmeaning (ops ++ [x; KUse r use]) = kmeaning (ops ++ [x])) /\
  kstep st2 (KSourceAndMap 1 JUndef) = Some (st3, KPair (TNow s) (Some r)) /\ look st3 r (RGet FSources) = AError.
Proof.
  exists [KOp (ONewOriginal (lit "a") (lit "f.js")); KOp (ONewCached 0)], (RWrap (lit "a") (lit "g.js")).
  eexists _, _, _, _, _, _, _. split; [vm_compute; reflexivity|]. split; [vm_compute; reflexivity|]. split; [vm_compute; reflexivity|]. split; [vm_compute; reflexivity|].
  split; [intros []; reflexivity|]. split; [vm_compute; reflexivity|]. vm_compute; reflexivity.
Qed.
Print Assumptions C62_shared_refuted.
(** source() of a CachedSource depends on whether sourceAndMap was called before. *)
Theorem C62_text_refuted : exists ops op st st1 a1 st2 a2 st3 a3, krun (kstate_new cache_empty) ops = Some st /\
  kstep st (KOp (OSource 2)) = Some (st1, a1) /\ kstep st op = Some (st2, a2) /\ (exists o, op = KSourceAndMap 2 o) /\
  kstep st2 (KOp (OSource 2)) = Some (st3, a3) /\ a1 <> a3.
Proof.
  exists [KOp (ONewRaw []); KOp (ONewPrefix (lit "P") (ArgObj 0)); KOp (ONewCached 1)], (KSourceAndMap 2 JUndef).
  eexists _, _, _, _, _, _, _. split; [vm_compute; reflexivity|]. split; [vm_compute; reflexivity|]. split; [vm_compute; reflexivity|]. split; [eauto|].
  split; [vm_compute; reflexivity|]. discriminate.
Qed.
Print Assumptions C62_text_refuted.
(** sourceAndMap({columns: false}) of a CachedSource around a CachedSource gives the map with columns
    once the outer one was read: it asks the inner one for map(options), which drops the options. *)
Theorem C62_nested_refuted : exists ops o st st1 s r1 st2 a st3 r2 names, krun (kstate_new cache_empty) ops = Some st /\
  nth_error (kmeaning ops) 1 = Some (VSame 0) /\ nth_error (kmeaning ops) 2 = Some (VSame 1) /\ by_columns o = false /\
  kstep st (KSourceAndMap 2 o) = Some (st1, KPair (TNow s) (Some r1)) /\ look st1 r1 (RGet FNames) = AVal VUndef /\
  kstep st (KOp (OSource 2)) = Some (st2, a) /\
  kstep st2 (KSourceAndMap 2 o) = Some (st3, KPair (TNow s) (Some r2)) /\ look st3 r2 (RGet FNames) = AVal (VArr names) /\
  look st3 r2 (RGet FMappings) <> look st1 r1 (RGet FMappings).
Proof.
  exists [KOp (ONewOriginal (lit "a;b" ++ nlj ++ lit "c") (lit "f.js")); KOp (ONewCached 0); KOp (ONewCached 1)], lines62.
  eexists _, _, _, _, _, _, _, _, _. split; [vm_compute; reflexivity|]. split; [reflexivity|]. split; [reflexivity|]. split; [reflexivity|].
  split; [vm_compute; reflexivity|]. split; [vm_compute; reflexivity|]. split; [vm_compute; reflexivity|]. split; [vm_compute; reflexivity|]. split; [vm_compute; reflexivity|]. vm_compute. discriminate.
Qed.
Print Assumptions C62_nested_refuted.
