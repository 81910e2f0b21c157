(** Objects up to wrappers that do nothing. *)
From Verif Require Import Base Tactics ModelString ModelSm ModelSources ModelTree ModelWasm ModelJs ModelJsApi ModelJsResult ModelEnd
  SpecText SpecJs SpecIdle TextFacts TreeText LeafFacts SlmTree Utf16Facts NodeFacts ReplaceNode IdxFacts ProgFacts RegroupFacts IdleFacts.

Lemma split_nodes n pos : is_node n -> match split_sourcenode n pos with Some (NOk l r) => is_node l /\ is_node r | Some (NErr _ x) => is_node x | None => True end.
Proof. destruct n as [s|p s nm ch ct]; [intros []|]. intros _. rewrite split_node. destruct (splits ch false pos [] []) as [[[[[|] q] L] R]|]; cbn [bind is_node]; auto. Qed.
Lemma replacement_like n n' t : is_node n -> is_node n' -> melt n = melt n' -> replacement_to_sourcenode n t = replacement_to_sourcenode n' t.
Proof.
  destruct n as [|p s nm ch ct], n' as [|p' s' nm' ch' ct']; try (intros []; fail); try (intros _ []; fail). intros _ _ H. unfold replacement_to_sourcenode, to_string_with_generator.
  now rewrite (walk_like _ _ _ H).
Qed.
Lemma loop_like rs : forall n n' l l', is_node n -> is_node n' -> melt n = melt n' -> flat_map melt l = flat_map melt l' ->
  option_rel (fun x y => flat_map melt x = flat_map melt y) (replace_node_loop rs (n :: l)) (replace_node_loop rs (n' :: l')).
Proof.
  induction rs as [|r rs IH]; intros n n' l l' N N' H Hl; [cbn [replace_node_loop option_rel flat_map]; congruence|]. cbn [replace_node_loop].
  pose proof (split_like n n' (rp_end_pos r) H) as S. pose proof (split_nodes n (rp_end_pos r) N) as A. pose proof (split_nodes n' (rp_end_pos r) N') as A'.
  destruct (split_sourcenode n (rp_end_pos r)) as [[l1 r1|q x]|], (split_sourcenode n' (rp_end_pos r)) as [[l1' r1'|q' x']|]; cbn [bind]; try contradiction; try exact I.
  - destruct S as [S1 S2], A as [A1 A2], A' as [A1' A2'].
    pose proof (split_like l1 l1' (rp_start_pos r) S1) as S. pose proof (split_nodes l1 (rp_start_pos r) A1) as B. pose proof (split_nodes l1' (rp_start_pos r) A1') as B'.
    destruct (split_sourcenode l1 (rp_start_pos r)) as [[l2 r2|q x]|], (split_sourcenode l1' (rp_start_pos r)) as [[l2' r2'|q' x']|]; cbn [bind]; try contradiction; try exact I.
    + destruct S as [S3 S4], B as [B1 B2], B' as [B1' B2']. rewrite (replacement_like r2 r2') by assumption. destruct (replacement_to_sourcenode r2' (rp_text r)) as [x|]; [|exact I]. cbn [bind].
      apply IH; try assumption. cbn [flat_map]. congruence.
    + rewrite (replacement_like r1 r1') by assumption. destruct (replacement_to_sourcenode r1' (rp_text r)) as [y|]; [|exact I]. cbn [bind].
      apply IH; try assumption. cbn [flat_map]. congruence.
  - pose proof (split_like x x' (rp_start_pos r) S) as S'. pose proof (split_nodes x (rp_start_pos r) A) as B. pose proof (split_nodes x' (rp_start_pos r) A') as B'.
    destruct (split_sourcenode x (rp_start_pos r)) as [[l2 r2|q2 x2]|], (split_sourcenode x' (rp_start_pos r)) as [[l2' r2'|q2' x2']|]; cbn [bind]; try contradiction; try exact I.
    + destruct S' as [S3 S4], B as [B1 B2], B' as [B1' B2']. rewrite (replacement_like r2 r2') by assumption. destruct (replacement_to_sourcenode r2' (rp_text r)) as [y|]; [|exact I]. cbn [bind].
      apply IH; try assumption. cbn [flat_map]. congruence.
    + apply IH; try assumption. cbn [flat_map]. congruence.
Qed.

(** ** Nodes of trees *)
Lemma tree_node c m t n : t_node c m t = Some n -> is_node n.
Proof.
  unfold t_node. destruct t as [s|v|v vi nm|v nm o|p t|t st|l|x]; intro E.
  - discriminate.
  - cbn in E. injection E as <-. exact I.
  - cbn [fold_tree node_alg a_original] in E. unfold original_node in E. unb E as ls E1. unb E as ch E2. injection E as <-. exact I.
  - cbn [fold_tree node_alg a_l2l] in E. unfold l2l_node in E. unb E as ls E1. injection E as <-. exact I.
  - cbn [fold_tree] in E. unb E as x Ex. cbn [node_alg a_prefix] in E. unfold prefix_node in E. destruct (clone_and_prefix x p 1) as [[y z]|]; [|discriminate]. injection E as <-. exact I.
  - cbn [fold_tree] in E. unb E as x Ex. cbn [node_alg a_replace] in E. unfold replace_node in E. unb E as y Ey. injection E as <-. exact I.
  - rewrite fold_concat in E. unb E as xs Ex. cbn [node_alg a_concat] in E. injection E as <-. exact I.
  - cbn [fold_tree node_alg a_sms] in E. destruct (sms_node x) as [[x' n']|] eqn:Ex; [|discriminate]. cbn [bind] in E. injection E as <-.
    unfold sms_node in Ex. destruct (cell_get_generator (sms_map x)) as [[c0 g0]|]; [|discriminate]. cbn [bind] in Ex. 
    destruct (match sms_inner x with Some _ => _ | None => _ end) as [[[g1 i1] a1]|]; [|discriminate]. cbn [bind] in Ex. unb Ex as n1 En. injection Ex as _ <-.
    unfold sm_from_string in En. unb En as ls E1. destruct (next_of ls) as [nl it]. unb En as st E2. injection En as <-. exact I.
Qed.
(** What a tree puts into a ConcatSource. *)
Definition parts_in (c m : bool) (t : tree) : option (list smnode) :=
  match t with TStr s => Some [SmStr s] | _ => option_map melt (t_node c m t) end.
Fixpoint parts_all (c m : bool) (l : list tree) : option (list smnode) :=
  match l with [] => Some [] | t :: r => let* x := parts_in c m t in let* y := parts_all c m r in Some (x ++ y) end.
Lemma parts_concat c m l : parts_in c m (TConcat l) = parts_all c m l.
Proof.
  unfold parts_in, t_node. rewrite fold_concat. induction l as [|t l IH]; [reflexivity|]. cbn [children parts_all]. rewrite <- IH. clear IH.
  assert (E : child (node_alg c m) t = match t with TStr s => Some (inl s) | _ => option_map inr (t_node c m t) end) by (destruct t; cbn [child]; unfold t_node; try reflexivity; destruct (fold_tree _ _); reflexivity).
  rewrite E. clear E. destruct t as [s|v|v vi nm|v nm o|p t|t st|l0|x]; cbn [parts_in]; try (destruct (t_node c m _) as [n|]; [|reflexivity]); cbn [option_map bind]; destruct (children (node_alg c m) l) as [ys|]; try reflexivity.
Qed.
Lemma parts_app c m a b : parts_all c m (a ++ b) = let* x := parts_all c m a in let* y := parts_all c m b in Some (x ++ y).
Proof.
  induction a as [|t a IH]; cbn [app parts_all]; [cbn [bind]; now destruct (parts_all c m b)|]. destruct (parts_in c m t) as [x|]; [|reflexivity]. cbn [bind]. rewrite IH.
  destruct (parts_all c m a) as [y|]; [|reflexivity]. cbn [bind]. destruct (parts_all c m b) as [z|]; [|reflexivity]. cbn [bind]. now rewrite app_assoc.
Qed.
Lemma parts_parts c m t : parts_all c m (parts_of t) = parts_in c m t.
Proof. destruct t; try (cbn [parts_of parts_all]; destruct (parts_in c m _); cbn [bind]; rewrite ?app_nil_r; reflexivity). now rewrite parts_concat. Qed.
Lemma parts_flat c m l : parts_all c m (flat_map parts_of l) = parts_all c m l.
Proof. induction l as [|t l IH]; [reflexivity|]. cbn [flat_map parts_all]. now rewrite parts_app, parts_parts, IH. Qed.

(** ** The same text and the same parts. *)
Definition is_str (t : tree) : bool := match t with TStr _ => true | _ => false end.
Definition equal_parts (t t' : tree) : Prop :=
  t_source t = t_source t' /\ forall c m, parts_in c m t = parts_in c m t'.
Definition equal_trees (t t' : tree) : Prop := is_str t = is_str t' /\ equal_parts t t'.
Lemma equal_node t t' c m : equal_trees t t' -> option_rel (fun x y => melt x = melt y /\ is_node x /\ is_node y) (t_node c m t) (t_node c m t').
Proof.
  intros (S & _ & P). specialize (P c m). pose proof (tree_node c m t) as N. pose proof (tree_node c m t') as N'.
  destruct (is_str t) eqn:E.
  - destruct t; try discriminate. destruct t'; try discriminate. exact I.
  - assert (Q : option_map melt (t_node c m t) = option_map melt (t_node c m t')) by (destruct t; try discriminate; destruct t'; try discriminate; exact P).
    destruct (t_node c m t) as [x|], (t_node c m t') as [y|]; try discriminate; [|exact I]. cbn [option_map] in Q. injection Q as Q. split; [exact Q|]. split; auto.
Qed.
Lemma equal_result t t' c m : equal_trees t t' -> (let* n := t_node c m t in node_result n) = (let* n := t_node c m t' in node_result n).
Proof.
  intro H. pose proof (equal_node t t' c m H) as N. destruct (t_node c m t) as [x|], (t_node c m t') as [y|]; try contradiction; [|reflexivity]. destruct N as [N _].
  cbn [bind]. unfold node_result, to_string_with_generator. now rewrite (walk_like _ _ _ N).
Qed.

Lemma source_prefix p t : t_source (TPrefix p t) = let* s := t_source t in Some (prefixed p s).
Proof. unfold t_source. cbn [fold_tree]. destruct (fold_tree source_alg t); [|reflexivity]. cbn [bind source_alg a_prefix]. now rewrite prefix_source_spec. Qed.
Lemma node_prefix c m p t : t_node c m (TPrefix p t) = let* x := t_node c m t in prefix_node p x.
Proof. reflexivity. Qed.
Lemma prefix_melt p x : is_node x -> option_map melt (prefix_node p x) = option_map (fun y => melt (fst y)) (clone_and_prefix x p 1).
Proof.
  destruct x as [|po s nm ch ct]; [intros []|]. intros _. unfold prefix_node. rewrite clone_node. destruct (clones p ch 1) as [[ch' a]|]; [|reflexivity]. cbn [bind option_map fst].
  f_equal. unfold sn_new. cbn [add_chunk melt]. cbn [hollow flat_map melt app]. now rewrite app_nil_r.
Qed.
Lemma equal_prefix p t t' : equal_trees t t' -> equal_trees (TPrefix p t) (TPrefix p t').
Proof.
  intro H. split; [reflexivity|]. split; [rewrite !source_prefix; now rewrite (proj1 (proj2 H))|]. intros c m. pose proof (equal_node t t' c m H) as N.
  cbn [parts_in]. rewrite !node_prefix. destruct (t_node c m t) as [x|], (t_node c m t') as [y|]; try contradiction; [|reflexivity]. destruct N as (N & Nx & Ny).
  cbn [bind]. pose proof (clone_like x y p 1 N) as K.
  pose proof (prefix_melt p x Nx) as Ex. pose proof (prefix_melt p y Ny) as Ey. rewrite Ex, Ey.
  destruct (clone_and_prefix x p 1) as [[x1 z]|], (clone_and_prefix y p 1) as [[y1 z']|]; try contradiction; [|reflexivity]. destruct K as [K _]. cbn [fst] in K. cbn [option_map fst]. now rewrite K.
Qed.
Lemma indent_nil s : indent [] s = s.
Proof. induction s as [|c s IH]; [reflexivity|]. destruct s as [|d s]; [reflexivity|]. rewrite indent_cons2, IH. now destruct (N.eqb c NL). Qed.
Lemma clone_bare n : forall a, exists a', clone_and_prefix n [] a = Some (n, a').
Proof.
  induction n as [s|p s nm ch ct IH] using smnode_ind'; intro a.
  - cbn [clone_and_prefix]. destruct (0 <? a)%Z; rewrite make_prefixed_string_spec; cbn [bind app]; rewrite indent_nil; eexists; reflexivity.
  - rewrite clone_node. assert (G : forall a, exists a', clones [] ch a = Some (ch, a')).
    { induction IH as [|x l Hx _ IHl]; intro b; cbn [clones]; [eauto|]. destruct (Hx b) as (b1 & ->). cbn [bind]. destruct (IHl b1) as (b2 & ->). cbn [bind]. eauto. }
    destruct (G a) as (a' & ->). cbn [bind]. eauto.
Qed.
Lemma equal_bare t : is_str t = false -> equal_trees (TPrefix [] t) t.
Proof.
  intro S. split; [now rewrite S|]. split; [rewrite source_prefix; destruct (t_source t) as [s|]; [|reflexivity]; cbn [bind]; unfold prefixed; cbn [app]; now rewrite indent_nil|].
  intros c m. replace (parts_in c m t) with (option_map melt (t_node c m t)) by (destruct t; try discriminate; reflexivity). cbn [parts_in]. rewrite node_prefix.
  destruct (t_node c m t) as [x|] eqn:E; [|reflexivity]. cbn [bind]. rewrite prefix_melt by exact (tree_node _ _ _ _ E). destruct (clone_bare x 1) as (a & ->). reflexivity.
Qed.
Lemma indent_some q c s : indent q (c :: s) <> [].
Proof. destruct s as [|d s]; [discriminate|]. rewrite indent_cons2. destruct (N.eqb c NL); discriminate. Qed.
Lemma indent_skip p q x : ~ In NL q -> indent p (q ++ x) = q ++ indent p x.
Proof.
  intro H. destruct x as [|c x]; [cbn [indent]; rewrite !app_nil_r; apply indent_no_nl; exact H|]. apply indent_run; [|discriminate].
  apply Forall_forall. intros z Hz ->. exact (H Hz).
Qed.
Lemma indent_twice p q s : ~ In NL q -> indent p (indent q s) = indent (p ++ q) s.
Proof.
  intro H. induction s as [|c s IH]; [reflexivity|]. destruct s as [|d s]; [reflexivity|]. rewrite !indent_cons2. pose proof (indent_some q d s) as Ne. destruct (N.eqb c NL) eqn:E.
  - rewrite <- IH. replace (indent p (c :: q ++ indent q (d :: s))) with (c :: p ++ indent p (q ++ indent q (d :: s))).
    + rewrite indent_skip by exact H. now rewrite <- app_assoc.
    + destruct (q ++ indent q (d :: s)) as [|y l] eqn:Ey; [apply app_eq_nil in Ey as [_ Ey]; contradiction|]. now rewrite indent_cons2, E.
  - rewrite <- IH. destruct (indent q (d :: s)) as [|y l]; [contradiction|]. now rewrite indent_cons2, E.
Qed.
Lemma prefixed_twice p q s : ~ In NL q -> p ++ indent p (q ++ indent q s) = (p ++ q) ++ indent (p ++ q) s.
Proof. intro H. now rewrite indent_skip, indent_twice, app_assoc by exact H. Qed.
Lemma ends_with_app c a b : b <> [] -> ends_with c (a ++ b) = ends_with c b.
Proof. induction a as [|x a IH]; intro H; [reflexivity|]. cbn [app]. destruct (a ++ b) as [|y l] eqn:E; [apply app_eq_nil in E as [_ E]; contradiction|]. cbn [ends_with]. rewrite <- IH by exact H. reflexivity. Qed.
Lemma ends_prefixed q s : ~ In NL q -> ends_with NL (q ++ indent q s) = ends_with NL s.
Proof.
  intro H. destruct s as [|c s].
  - cbn [indent]. rewrite app_nil_r. cbn [ends_with]. destruct (ends_with NL q) eqn:E; [|now destruct q]. exfalso. apply H. clear H.
    induction q as [|x q IH]; [discriminate|]. cbn [ends_with] in E. destruct q; [apply N.eqb_eq in E; subst; now left|right; now apply IH].
  - rewrite ends_with_app by apply indent_some. apply ends_indent.
Qed.
Lemma clone_twice n p q : ~ In NL q -> forall a, exists n1 n2 a', clone_and_prefix n q a = Some (n1, a') /\ clone_and_prefix n1 p a = Some (n2, a') /\ clone_and_prefix n (p ++ q) a = Some (n2, a').
Proof.
  intro H. induction n as [s|po s nm ch ct IH] using smnode_ind'; intro a.
  - cbn [clone_and_prefix]. destruct (0 <? a)%Z eqn:Ea; rewrite !make_prefixed_string_spec; cbn [bind]; eexists _, _, _; (split; [reflexivity|]); cbn [clone_and_prefix]; rewrite Ea, !make_prefixed_string_spec; cbn [bind].
    + rewrite ends_prefixed, prefixed_twice by exact H. split; reflexivity.
    + cbn [app]. rewrite ends_indent, indent_twice by exact H. split; reflexivity.
  - assert (G : forall a, exists l1 l2 a', clones q ch a = Some (l1, a') /\ clones p l1 a = Some (l2, a') /\ clones (p ++ q) ch a = Some (l2, a')).
    { induction IH as [|x l Hx _ IHl]; intro b; [exists [], [], b; auto|]. cbn [clones]. destruct (Hx b) as (x1 & x2 & b1 & E1 & E2 & E3). destruct (IHl b1) as (l1 & l2 & b2 & F1 & F2 & F3).
      exists (x1 :: l1), (x2 :: l2), b2. cbn [clones]. rewrite E1, E2, E3. cbn [bind]. now rewrite F1, F2, F3. }
    destruct (G a) as (l1 & l2 & a' & G1 & G2 & G3). exists (SmNode po s nm l1 ct), (SmNode po s nm l2 ct), a'. rewrite !clone_node, G1, G2, G3. auto.
Qed.
Lemma equal_twice p q t : ~ In NL q -> equal_trees (TPrefix p (TPrefix q t)) (TPrefix (p ++ q) t).
Proof.
  intro H. split; [reflexivity|]. split; [rewrite !source_prefix; destruct (t_source t) as [s|]; [|reflexivity]; cbn [bind]; unfold prefixed; now rewrite prefixed_twice|].
  intros c m. cbn [parts_in]. rewrite !node_prefix. destruct (t_node c m t) as [x|] eqn:E; [|reflexivity]. cbn [bind]. pose proof (tree_node _ _ _ _ E) as N.
  destruct (clone_twice x p q H 1) as (n1 & n2 & a & E1 & E2 & E3). rewrite (prefix_melt (p ++ q)) by exact N. rewrite E3. cbn [option_map fst].
  assert (P2 : prefix_node q x = Some (sn_new None None None (Some (CNode n1)))) by (unfold prefix_node; now rewrite E1). rewrite P2. cbn [bind].
  assert (K : sn_new None None None (Some (CNode n1)) = SmNode None None None [n1] []).
  { destruct x as [|po s nm ch ct]; [destruct N|]. rewrite clone_node in E1. destruct (clones q ch 1) as [[l1 a1]|]; [|discriminate]. injection E1 as <- _. reflexivity. }
  rewrite K, prefix_melt by exact I. rewrite clone_node. cbn [clones]. rewrite E2. cbn [bind option_map fst melt hollow flat_map]. now rewrite app_nil_r.
Qed.

(** ** ReplaceSources *)
Lemma node_replace c m t st : t_node c m (TReplace t st) = let* x := t_node c m t in replace_node (rs_repls (sort_replacements st)) x.
Proof. reflexivity. Qed.
Lemma source_replace t st : t_source (TReplace t st) = let* s := t_source t in replace_text (rs_repls (sort_replacements st)) s.
Proof. reflexivity. Qed.
Lemma equal_replace t t' st : equal_trees t t' -> equal_trees (TReplace t st) (TReplace t' st).
Proof.
  intro H. split; [reflexivity|]. split; [rewrite !source_replace; now rewrite (proj1 (proj2 H))|]. intros c m. pose proof (equal_node t t' c m H) as N.
  cbn [parts_in]. rewrite !node_replace. destruct (t_node c m t) as [x|], (t_node c m t') as [y|]; try contradiction; [|reflexivity]. destruct N as (N & Nx & Ny). cbn [bind]. unfold replace_node.
  pose proof (loop_like (rs_repls (sort_replacements st)) x y [] [] Nx Ny N eq_refl) as L.
  destruct (replace_node_loop _ [x]) as [l|], (replace_node_loop _ [y]) as [l'|]; try contradiction; [|reflexivity]. cbn [option_rel] in L. cbn [bind option_map sn_new add_chunk app melt hollow].
  unfold sn_new. cbn [add_chunk app melt hollow]. now rewrite L.
Qed.
Lemma only_reads h : Forall (eq JRead) h -> rs_repls (js_run h) = [].
Proof.
  assert (S : forall st, rs_repls st = [] -> rs_repls (sort_replacements st) = []) by (intros st E; unfold sort_replacements; destruct (rs_sorted st); [exact E|]; cbn [rs_repls]; now rewrite E).
  intro H. unfold js_run. assert (G : forall st, rs_repls st = [] -> rs_repls (fold_left js_step h st) = []); [|now apply G].
  induction H as [|x l Hx _ IH]; intros st E; [exact E|]. cbn [fold_left]. apply IH. subst x. cbn [js_step]. now apply S.
Qed.
Lemma equal_unedited t h : is_str t = false -> Forall (eq JRead) h -> equal_trees (TReplace t (js_run h)) t.
Proof.
  intros S H. assert (E : rs_repls (sort_replacements (js_run h)) = []) by (unfold sort_replacements; destruct (rs_sorted (js_run h)); cbn [rs_repls]; now rewrite (only_reads h H)).
  split; [now rewrite S|]. split; [rewrite source_replace, E; destruct (t_source t) as [s|]; [|reflexivity]; cbn; now rewrite app_nil_r|].
  intros c m. replace (parts_in c m t) with (option_map melt (t_node c m t)) by (destruct t; try discriminate; reflexivity). cbn [parts_in]. rewrite node_replace, E.
  destruct (t_node c m t) as [x|]; [|reflexivity]. cbn [bind replace_node replace_node_loop option_map]. unfold sn_new. cbn [add_chunk app melt hollow flat_map]. now rewrite app_nil_r.
Qed.

(** ** ConcatSources *)
Fixpoint text_all (l : list tree) : option str :=
  match l with [] => Some [] | t :: r => let* x := t_source t in let* y := text_all r in Some (x ++ y) end.
Lemma text_concat l : t_source (TConcat l) = text_all l.
Proof.
  unfold t_source. rewrite fold_concat. induction l as [|t l IH]; [reflexivity|]. cbn [children text_all]. rewrite <- IH. clear IH.
  assert (E : child source_alg t = match t with TStr s => Some (inl s) | _ => option_map inr (t_source t) end) by (destruct t; cbn [child]; unfold t_source; try reflexivity; destruct (fold_tree _ _); reflexivity).
  rewrite E. clear E. destruct t as [s|v|v vi nm|v nm o|p t|t st|l0|x]; unfold t_source; try (destruct (fold_tree source_alg _) as [n|] eqn:En; [|reflexivity]); cbn [option_map bind];
    destruct (children source_alg l) as [ys|]; try reflexivity; cbn [fold_tree source_alg a_str] in *; try (injection En as <-); reflexivity.
Qed.
Lemma text_all_app a b : text_all (a ++ b) = let* x := text_all a in let* y := text_all b in Some (x ++ y).
Proof.
  induction a as [|t a IH]; cbn [app text_all]; [cbn [bind]; now destruct (text_all b)|]. destruct (t_source t) as [x|]; [|reflexivity]. cbn [bind]. rewrite IH.
  destruct (text_all a) as [y|]; [|reflexivity]. cbn [bind]. destruct (text_all b) as [z|]; [|reflexivity]. cbn [bind]. now rewrite app_assoc.
Qed.
Lemma text_parts t : text_all (parts_of t) = t_source t.
Proof. destruct t; try (cbn [parts_of text_all]; destruct (t_source _); cbn [bind]; rewrite ?app_nil_r; reflexivity). now rewrite text_concat. Qed.
Lemma text_flat l : text_all (flat_map parts_of l) = text_all l.
Proof. induction l as [|t l IH]; [reflexivity|]. cbn [flat_map text_all]. now rewrite text_all_app, text_parts, IH. Qed.
Lemma equal_concat l l' : Forall2 equal_parts (map import l) (map import l') -> equal_trees (import (JConcat l)) (import (JConcat l')).
Proof.
  intro H. rewrite !import_concat. split; [reflexivity|]. split.
  - rewrite !text_concat, !text_flat. induction H as [|x y r r' [E _] _ IH]; [reflexivity|]. cbn [text_all]. now rewrite E, IH.
  - intros c m. rewrite !parts_concat, !parts_flat. induction H as [|x y r r' [_ E] _ IH]; [reflexivity|]. cbn [parts_all]. now rewrite E, IH.
Qed.
Lemma equal_one t : is_str (import t) = false -> equal_trees (import (JConcat [t])) (import t).
Proof.
  intro S. rewrite import_concat. cbn [map flat_map]. rewrite app_nil_r. split; [now rewrite S|]. split; [rewrite text_concat; apply text_parts|]. intros c m. rewrite parts_concat. apply parts_parts.
Qed.
Lemma equal_refl t : equal_parts t t.
Proof. split; auto. Qed.
Lemma refl_all l : Forall2 equal_parts l l.
Proof. induction l; constructor; auto using equal_refl. Qed.
Lemma from_js_some s : s <> [] -> from_js s <> [].
Proof. destruct s as [|a r]; [congruence|]. intros _. cbn [from_js]. destruct (is_high a); [destruct r as [|b r]; [discriminate|destruct (is_low b); discriminate]|]. destruct (is_low a); discriminate. Qed.
Lemma equal_text s : s <> [] -> equal_parts (import (JRaw s)) (import (JStr s)).
Proof. intro H. split; [reflexivity|]. intros c m. apply from_js_some in H. cbn [import parts_in]. unfold t_node. cbn [fold_tree node_alg a_raw option_map raw_node]. unfold raw_node, sn_new. destruct (from_js s); [congruence|reflexivity]. Qed.

(** ** Expressions *)
Lemma nl_in s u : utf16 s u -> In NL s -> In NL u.
Proof.
  induction 1 as [|c s x u Sc U _ IH]; intro H; [destruct H|]. apply in_or_app. destruct H as [->|H]; [left|right; auto].
  inversion U as [L E|a b La Lb E E2]; subst; [now left|]. exfalso. unfold NL in E. lia.
Qed.
Lemma object_tree e c : object e -> is_str (import (snd (build c e))) = false.
Proof.
  destruct e as [s|v|v n|v n o|p e|e h|l|v n m o i]; intro H; [destruct H|..]; cbn [build].
  - reflexivity.
  - destruct (cache_add_unchecked c v) as [c1 i]. destruct (cache_add c1 n) as [c2 j]. reflexivity.
  - destruct (cache_add c n) as [c1 i]. destruct (cache_add_unchecked c1 o) as [c2 j]. reflexivity.
  - destruct (build c e). reflexivity.
  - destruct (build c e). reflexivity.
  - change (is_str (import (snd (build c (XConcat l)))) = false). now rewrite build_concat.
  - repeat match goal with |- context [let '(_, _) := ?z in _] => destruct z end; reflexivity.
Qed.
Theorem idle_built e e' : idle e e' -> forall c, fst (build c e) = fst (build c e') /\ equal_trees (import (snd (build c e))) (import (snd (build c e'))).
Proof.
  induction 1 as [e|e e' _ IH|e e1 e2 _ IH1 _ IH2|a e e' b _ IH|p e e' _ IH|e e' h _ IH|a m b|e O|e O|p q e P Q N|e h O H|a s b H]; intro c.
  - split; [reflexivity|]. split; [reflexivity|apply equal_refl].
  - destruct (IH c) as (E & S & T & P). split; [now symmetry|]. split; [now symmetry|]. split; [now symmetry|]. intros. now symmetry.
  - destruct (IH1 c) as (E & S & T & P), (IH2 c) as (E' & S' & T' & P'). split; [congruence|]. split; [congruence|]. split; [congruence|]. intros. now rewrite P.
  - rewrite !build_concat. cbn [fst snd]. rewrite !build_all_app. cbn [fst snd build_all]. destruct (IH (fst (build_all c a))) as (E & S & T).
    destruct (build (fst (build_all c a)) e) as [c1 t], (build (fst (build_all c a)) e') as [c1' t']. cbn [fst snd] in *. subst c1'. destruct (build_all c1 b) as [c2 bs]. cbn [fst snd].
    split; [reflexivity|]. apply equal_concat. rewrite !map_app. cbn [map]. apply Forall2_app; [apply refl_all|]. constructor; [exact T|apply refl_all].
  - cbn [build]. destruct (IH c) as (E & T). destruct (build c e) as [c1 t], (build c e') as [c1' t']. cbn [fst snd] in *. split; [exact E|]. cbn [import]. now apply equal_prefix.
  - cbn [build]. destruct (IH c) as (E & T). destruct (build c e) as [c1 t], (build c e') as [c1' t']. cbn [fst snd] in *. split; [exact E|]. cbn [import]. now apply equal_replace.
  - rewrite !build_concat. cbn [fst snd]. rewrite !build_all_app. cbn [fst snd build_all]. rewrite build_concat.
    destruct (build_all (fst (build_all c a)) m) as [c1 ms]. cbn [fst snd]. destruct (build_all c1 b) as [c2 bs]. cbn [fst snd].
    split; [reflexivity|]. rewrite !import_concat, !map_app, !flat_map_app. cbn [map flat_map]. rewrite import_concat. cbn [parts_of]. split; [reflexivity|apply equal_refl].
  - rewrite build_concat. cbn [build_all]. pose proof (object_tree e c O) as S. destruct (build c e) as [c1 t]. cbn [fst snd] in *. split; [reflexivity|]. now apply equal_one.
  - cbn [build]. pose proof (object_tree e c O) as S. destruct (build c e) as [c1 t]. cbn [fst snd import from_js] in *. split; [reflexivity|]. now apply equal_bare.
  - cbn [build]. destruct (build c e) as [c1 t]. cbn [fst snd import]. split; [reflexivity|]. destruct P as (s1 & P), Q as (s2 & Q). replace (from_js (p ++ q)) with (from_js p ++ from_js q)
      by (rewrite (from_js_utf16 _ _ (utf16_app _ _ _ _ P Q)); now rewrite (from_js_utf16 _ _ P), (from_js_utf16 _ _ Q)).
    apply equal_twice. intro Z. apply N. rewrite (from_js_utf16 _ _ Q) in Z. eapply nl_in; eauto.
  - cbn [build]. pose proof (object_tree e c O) as S. destruct (build c e) as [c1 t]. cbn [fst snd import] in *. split; [reflexivity|]. now apply equal_unedited.
  - rewrite !build_concat. cbn [fst snd]. rewrite !build_all_app. cbn [fst snd build_all build]. destruct (build_all (fst (build_all c a)) b) as [c2 bs]. cbn [fst snd].
    split; [reflexivity|]. apply equal_concat. rewrite !map_app. cbn [map]. apply Forall2_app; [apply refl_all|]. constructor; [now apply equal_text|apply refl_all].
Qed.

Lemma js_text e c : sturdy e -> js_source (snd (build c e)) = option_map to_js (t_source (import (snd (build c e)))).
Proof.
  assert (G : forall v, well_formed v /\ ~ starts_with BOM v -> Some v = option_map to_js (Some (from_js v))).
  { intros v [(s & W) B]. cbn [option_map]. now rewrite (boundary_utf16 s v W B). }
  destruct e as [s|v|v n|v n o|p e|e h|l|v n m o i]; intro H; cbn [sturdy] in H.
  - exact (G _ H).
  - exact (G _ H).
  - cbn [build]. destruct (cache_add_unchecked c v) as [c1 i]. destruct (cache_add c1 n) as [c2 j]. exact (G _ H).
  - cbn [build]. destruct (cache_add c n) as [c1 i]. destruct (cache_add_unchecked c1 o) as [c2 j]. exact (G _ H).
  - cbn [build]. destruct (build c e). reflexivity.
  - cbn [build]. destruct (build c e). reflexivity.
  - rewrite build_concat. reflexivity.
  - cbn [build]. repeat match goal with |- context [let '(_, _) := ?z in _] => destruct z end; cbn [snd js_source import t_source fold_tree]; unfold t_source; cbn [fold_tree source_alg a_sms bind].
    all: repeat match goal with |- context [match ?z with Some _ => _ | None => _ end] => is_var z; destruct z as [?|] end; repeat match goal with x : (_ * _)%type |- _ => destruct x end; exact (G _ H).
Qed.
Lemma js_length e c : wrapper e -> js_size (snd (build c e)) = t_size (import (snd (build c e))).
Proof. destruct e as [s|v|v n|v n o|p e|e h|l|v n m o i]; intros []; cbn [build]; [destruct (build c e); reflexivity|destruct (build c e); reflexivity|]. change (js_size (snd (build c (XConcat l))) = t_size (import (snd (build c (XConcat l))))). now rewrite build_concat. Qed.
Lemma js_columns e c md : mapped e -> js_source_and_map true md (snd (build c e)) =
  let* r := (let* n := t_node true md (import (snd (build c e))) in node_result n) in Some (ResMap (robj_new r true)).
Proof.
  assert (G : forall t, match t with JStr _ | JRaw _ => False | _ => True end -> js_source_and_map true md t = let* r := (let* n := t_node true md (import t) in node_result n) in Some (ResMap (robj_new r true))).
  { intros t H. destruct t; destruct H; cbn [js_source_and_map]; destruct (t_node true md (import _)); reflexivity. }
  intro H. apply G. destruct e as [s|v|v n|v n o|p e|e h|l|v n m o i]; destruct H; cbn [build].
  - destruct (cache_add_unchecked c v) as [c1 i]. destruct (cache_add c1 n) as [c2 j]. exact I.
  - destruct (cache_add c n) as [c1 i]. destruct (cache_add_unchecked c1 o) as [c2 j]. exact I.
  - destruct (build c e). exact I.
  - destruct (build c e). exact I.
  - change (match snd (build c (XConcat l)) with JStr _ | JRaw _ => False | _ => True end). rewrite build_concat. exact I.
  - repeat match goal with |- context [let '(_, _) := ?z in _] => destruct z end; exact I.
Qed.
Theorem idle_same c e e' c1 c1' t t' : idle e e' -> build c e = (c1, t) -> build c e' = (c1', t') ->
  c1 = c1' /\
  (mapped e -> mapped e' -> forall md, js_source_and_map true md t = js_source_and_map true md t') /\
  (sturdy e -> sturdy e' -> js_source t = js_source t') /\
  (wrapper e -> wrapper e' -> js_size t = js_size t').
Proof.
  intros H B B'. destruct (idle_built e e' H c) as (E & T). pose proof (js_text e c) as X. pose proof (js_text e' c) as X'. pose proof (js_length e c) as Y. pose proof (js_length e' c) as Y'.
  pose proof (js_columns e c) as Z. pose proof (js_columns e' c) as Z'. rewrite B, B' in *. cbn [fst snd] in *. split; [exact E|]. split; [|split].
  - intros M M' md. rewrite (Z md M), (Z' md M'). now rewrite (equal_result _ _ true md T).
  - intros S S'. rewrite (X S), (X' S'). now rewrite (proj1 (proj2 T)).
  - intros W W'. rewrite (Y W), (Y' W'). apply source_size. exact (proj1 (proj2 T)).
Qed.
