(** C54: the maps are as small as they can be.  C55: they depend on nothing but the expression. *)
From Verif Require Import Base Tactics ModelString ModelVlq ModelSm ModelSlm ModelSources ModelTree ModelJs ModelJsApi ModelJsResult
  SpecText SpecMap SpecAttr SpecLeast MapFacts GenFacts NodeFacts LeafFacts NodeTree LeastFacts
  SpecJs SpecResult ResultProps ModelEnd SpecEnd EndMap LeastEnd PropertiesNode PropertiesEnd PropertiesEffect.

Theorem C54_node : forall n file root, Forall solid (leaves n) ->
  exists code m, to_string_with_source_map n file root = Some (code, m) /\ code = text_of (flat n) /\
    map_sources m = firsts (srcs_of (flat n)) /\ map_names m = firsts (names_of (flat n)) /\
    read_map (map_sources m) (map_names m) (map_mappings m) = Some (least (flat n)).
Proof. exact emitted_least. Qed.
Print Assumptions C54_node.
(** One segment where the attribution changes, sources and names in the order of their
    first characters. *)
Theorem C54_tree : forall m t M, dense t -> emits true m t M ->
  exists mp, source_and_column_map m t = Some (text_of M, mp) /\
    map_sources mp = firsts (srcs_of M) /\ map_names mp = firsts (names_of M) /\
    read_map (map_sources mp) (map_names mp) (map_mappings mp) = Some (least M).
Proof. exact tree_least. Qed.
Print Assumptions C54_tree.
(** That is enough, and nothing shorter is. *)
Theorem C54_says : forall M, annotate (least M) (text_of M) = M.
Proof. intro M. apply least_says. Qed.
Print Assumptions C54_says.
Theorem C54_needed : forall es M, Forall (fun e : place * option target => 0 <= snd (fst e))%Z es ->
  annotate es (text_of M) = M -> incl (map fst (least M)) (map fst es) /\ length (least M) <= length es.
Proof. intros es M H E. split; [now apply least_minimal|now apply least_shortest]. Qed.
Print Assumptions C54_needed.
Example C54_case : dense tree1 /\ exists M mp, emits true true tree1 M /\ source_and_column_map true tree1 = Some (text_of M, mp) /\
  map_sources mp = [5; 6; 1; 2]%Z /\ length (least M) = 7.
Proof.
  split; [exact C11_dense_case|]. eexists _, _. split; [|split; [|split]].
  - eexists _, _, _, _. split; [vm_compute; reflexivity|]. split; [vm_compute; reflexivity|]. split; [vm_compute; reflexivity|]. vm_compute. reflexivity.
  - vm_compute. reflexivity.
  - vm_compute. reflexivity.
  - vm_compute. reflexivity.
Qed.
(** An edited source: "x" of one file is removed from "xy", its source is still listed and there
    are two segments for one place. *)
Theorem C54_edited_refuted : exists t M mp es, emits true true t M /\ source_and_column_map true t = Some (text_of M, mp) /\
  read_map (map_sources mp) (map_names mp) (map_mappings mp) = Some es /\
  map_sources mp <> firsts (srcs_of M) /\ length (least M) < length es /\ ~ NoDup (map fst es).
Proof.
  exists (TReplace (TConcat [TOriginal (lit "x") 50 1; TOriginal (lit "y") 51 2]) (rs_replace rstate_new 0 1 [] 0 0)).
  eexists _, _, _. split; [|split; [|split; [|split; [|split]]]].
  - eexists _, _, _, _. split; [vm_compute; reflexivity|]. split; [vm_compute; reflexivity|]. split; [vm_compute; reflexivity|]. vm_compute. reflexivity.
  - vm_compute. reflexivity.
  - vm_compute. reflexivity.
  - vm_compute. discriminate.
  - vm_compute. lia.
  - vm_compute. intro H. inversion H as [|? ? N _]; subst. apply N. now left.
Qed.
Print Assumptions C54_edited_refuted.

(** C55.  [c0], [c0']: whatever strings the process has dealt with before. *)
Theorem C55_result : forall c0 c0' e md md' c1 c1' t t', reached_cache c0 -> reached_cache c0' -> exact_expr e -> (forall v, e <> XRaw v) ->
  build c0 e = (c1, t) -> build c0' e = (c1', t') ->
  exists o o', js_source_and_map true md t = Some (ResMap o) /\ js_source_and_map true md' t' = Some (ResMap o') /\
    forall l l' q, Forall quiet l -> Forall quiet l' -> (q = RSource \/ exists f, q = RGet f) ->
      snd (rstep (fst (rrun (c1, o) l)) q) = snd (rstep (fst (rrun (c1', o') l')) q).
Proof. exact end_same. Qed.
Print Assumptions C55_result.
(** What the result is. *)
Theorem C55_value : forall nu c0 e md c1 t, numbering nu -> reached_cache c0 -> exact_expr e -> (forall v, e <> XRaw v) -> build c0 e = (c1, t) ->
  exists o M Ls Ln ms, js_source_and_map true md t = Some (ResMap o) /\ marks nu e = Some M /\
    map nu Ls = firsts (srcs_of M) /\ map nu Ln = firsts (names_of M) /\ reads_as nu Ls Ln ms = Some (least M) /\
    forall l, Forall quiet l ->
      snd (rstep (fst (rrun (c1, o) l)) RSource) = AText (to_js (text_of M)) /\
      snd (rstep (fst (rrun (c1, o) l)) (RGet FSources)) = AVal (VArr (map Some Ls)) /\
      snd (rstep (fst (rrun (c1, o) l)) (RGet FNames)) = AVal (VArr (map Some Ln)) /\
      snd (rstep (fst (rrun (c1, o) l)) (RGet FMappings)) = AVal (VStr ms) /\
      snd (rstep (fst (rrun (c1, o) l)) (RGet FContents)) = AVal (list_value (contents_of e Ls)).
Proof.
  intros nu c0 e md c1 t Hn H0 X N B. destruct (end_least nu c0 e md c1 t Hn H0 X N B) as (o & M & Ls & Ln & ms & segs & A1 & A2 & A3 & A4 & A5 & _ & _ & A6).
  exists o, M, Ls, Ln, ms. auto 10.
Qed.
Print Assumptions C55_value.
(** The strings of another program, or of an earlier use of this one, in the cache. *)
Definition c55 : cache := fst (build (fst (build cache_empty (XConcat [XOriginal (lit "z") (lit "gen.js"); XOriginal (lit "") (lit "other.js")]))) e52).
Example C55_case : reached_cache c55 /\ exact_expr e52 /\ ca_array c55 <> [] /\ c55 <> cache_empty /\
  exists o, js_source_and_map true false (snd (build c55 e52)) = Some (ResMap o) /\
    snd (rrun (fst (build c55 e52), o) [RGet FMappings]) = [AVal (VStr (lit ";AAAA,MAAI;AACJ,K;ACGIA,CCHJ,ECDA"))].
Proof.
  split; [|split; [apply C52_case|split; [vm_compute; discriminate|split; [vm_compute; discriminate|]]]].
  - unfold c55. destruct (build cache_empty _) as [c2 t2] eqn:E2. cbn [fst]. destruct (build c2 e52) as [c3 t3] eqn:E3. cbn [fst].
    eapply reached_build; [|exact E3]. eapply reached_build; [|exact E2]. exists [], []. reflexivity.
  - eexists. split; [vm_compute; reflexivity|]. vm_compute. reflexivity.
Qed.
(** Not so for edited sources. *)
Theorem C55_edited_refuted : exists c0 c0' e c1 c1' t t' o o' l q, reached_cache c0 /\ reached_cache c0' /\ build c0 e = (c1, t) /\ build c0' e = (c1', t') /\
  js_source_and_map true true t = Some (ResMap o) /\ js_source_and_map true true t' = Some (ResMap o') /\ Forall quiet l /\
  snd (rstep (fst (rrun (c1, o) l)) q) <> snd (rstep (fst (rrun (c1', o') l)) q).
Proof.
  exists cache_empty, (fst (cache_add cache_empty (lit "a.js"))), e53. eexists _, _, _, _, _, _, [], (RGet FMappings).
  split; [exists [], []; reflexivity|]. split; [exists [SpecCalls.CAdd (lit "a.js")]; eexists; vm_compute; reflexivity|].
  split; [vm_compute; reflexivity|]. split; [vm_compute; reflexivity|]. split; [vm_compute; reflexivity|]. split; [vm_compute; reflexivity|]. split; [constructor|].
  vm_compute. discriminate.
Qed.
Print Assumptions C55_edited_refuted.
