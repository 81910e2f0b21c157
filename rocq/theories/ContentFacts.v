(** The contents in an emitted map: the first one given for a source. *)
From Verif Require Import Base Tactics ModelString ModelVlq ModelSm ModelSlm ModelSources ModelTree SortFacts NodeFacts NodeTree TextFacts IdxFacts.
From Verif Require Export SpecContents.

Lemma al_get_app {A} (a b : list (Z * A)) k : al_get (a ++ b) k = match al_get a k with Some v => Some v | None => al_get b k end.
Proof. induction a as [|[k' v] a IH]; [reflexivity|]. cbn [app al_get]. destruct (k =? k')%Z; auto. Qed.
Lemma or_insert_get {A} (l : list (Z * A)) k v s : al_get (al_or_insert l k v) s = al_get (l ++ [(k, v)]) s.
Proof.
  unfold al_or_insert. destruct (al_get l k) as [w|] eqn:E; [|reflexivity]. rewrite al_get_app. destruct (al_get l s) eqn:Es; [reflexivity|].
  cbn. destruct (Z.eqb_spec s k) as [->|]; congruence.
Qed.
Definition same_get (a b : list (Z * Z)) : Prop := forall s, al_get a s = al_get b s.
Lemma same_app a a' b b' : same_get a a' -> same_get b b' -> same_get (a ++ b) (a' ++ b').
Proof. intros H1 H2 s. rewrite !al_get_app, (H1 s), (H2 s). reflexivity. Qed.
Lemma fold_insert_get ct : forall g, same_get (g_contents (fold_left (fun g '(s, c) => gen_set_source_content g s (Some c)) ct g)) (g_contents g ++ ct).
Proof.
  induction ct as [|[k c] ct IH]; intros g s; [now rewrite app_nil_r|]. cbn [fold_left]. rewrite (IH _ s). cbn [gen_set_source_content gen_set_contents g_contents].
  rewrite al_get_app, or_insert_get, !al_get_app. cbn [al_get]. destruct (al_get (g_contents g) s); [reflexivity|]. destruct (s =? k)%Z; reflexivity.
Qed.

(** ** Walking *)
Lemma add_mapping_contents g m g' : gen_add_mapping g m = Some g' -> g_contents g' = g_contents g.
Proof.
  unfold gen_add_mapping. destruct (_ || _); [|discriminate]. intro E. injection E as <-. destruct (m_src m), (m_name m); reflexivity.
Qed.
Lemma chunk_loop_contents src pos name len : forall s cx b cx', chunk_loop cx src pos name len b s = Some cx' -> g_contents (cx_map cx') = g_contents (cx_map cx).
Proof.
  induction s as [|c s IH]; intros cx b cx' E; cbn [chunk_loop] in E; [now injection E as <-|]. unb E as cx1 E1. rewrite (IH _ _ _ E). clear IH E.
  destruct (N.eqb c NL); [|now injection E1 as <-]. destruct (b + 1 =? len); [now injection E1 as <-|]. destruct (cx_active cx); [|now injection E1 as <-].
  unb E1 as g E2. injection E1 as <-. cbn. now apply add_mapping_contents in E2.
Qed.
Lemma chunk_contents cx s src pos name cx' : process_chunk cx s src pos name = Some cx' -> g_contents (cx_map cx') = g_contents (cx_map cx).
Proof.
  intro E. unfold process_chunk in E. unb E as cx1 E1. rewrite (chunk_loop_contents _ _ _ _ _ _ _ _ E). clear E.
  destruct (is_some src && is_some pos).
  - unb E1 as g E2. injection E1 as <-. cbn. destruct (_ || _ || _) in E2; [now apply add_mapping_contents in E2|now injection E2 as <-].
  - destruct (cx_active cx); [|now injection E1 as <-]. unb E1 as g E2. injection E1 as <-. cbn. now apply add_mapping_contents in E2.
Qed.
Fixpoint nconts (n : smnode) : list (Z * Z) :=
  match n with
  | SmStr _ => []
  | SmNode _ _ _ ch ct => flat_map nconts ch ++ ct
  end.
Lemma process_contents_get ct : forall cx, same_get (g_contents (cx_map (process_contents cx ct))) (g_contents (cx_map cx) ++ ct).
Proof.
  intros cx s. rewrite <- (fold_insert_get ct (cx_map cx) s). f_equal. f_equal. revert cx. induction ct as [|[k c] ct IH]; intro cx; [reflexivity|].
  cbn [process_contents fold_left]. apply (IH (process_source_content cx k c)).
Qed.
Lemma walk_contents n : forall psrc ppos pname cx cx', walk_node psrc ppos pname n cx = Some cx' ->
  same_get (g_contents (cx_map cx')) (g_contents (cx_map cx) ++ nconts n).
Proof.
  induction n as [s|pos src name ch ct IH] using smnode_ind'; intros psrc ppos pname cx cx' E; cbn [walk_node] in E.
  - apply chunk_contents in E. rewrite E. cbn [nconts]. rewrite app_nil_r. now intro.
  - unb E as cx1 E1. injection E as <-. intro s. rewrite (process_contents_get ct cx1 s). cbn [nconts]. rewrite app_assoc.
    revert s. apply same_app; [|now intro]. revert cx cx1 E1. induction ch as [|x ch IHc]; intros cx cx1 E; [injection E as <-; cbn; rewrite app_nil_r; now intro|].
    unb E as cx2 E2. inversion IH as [|? ? I1 I2]; subst. intro s. rewrite (IHc I2 _ _ E s). cbn [flat_map]. rewrite app_assoc. revert s.
    apply same_app; [|now intro]. eapply I1. exact E2.
Qed.

(** ** The nodes of the sources *)
Definition tt1 (_ : Z) := True.
Definition ff2 (_ _ : Z) := False.
Lemma bare n : node_idx tt1 tt1 ff2 n -> nconts n = [].
Proof.
  induction n as [s|pos src name ch ct IH] using smnode_ind'; intro H; [reflexivity|]. apply node_idx_node in H as (_ & _ & H1 & H2).
  cbn [nconts]. replace ct with (@nil (Z * Z)) by (destruct H1 as [|? ? []]; reflexivity). rewrite app_nil_r.
  induction ch as [|x ch IHc]; [reflexivity|]. inversion IH as [|? ? I1 I2]; subst. inversion H2 as [|? ? N1 N2]; subst. cbn. now rewrite I1, IHc.
Qed.
Lemma bares ch : Forall (node_idx tt1 tt1 ff2) ch -> flat_map nconts ch = [].
Proof. induction 1 as [|x ch H1 H2 IH]; [reflexivity|]. cbn. now rewrite bare, IH. Qed.
Lemma any_opt {A} (X : A -> Prop) (o : option A) : (forall a, X a) -> opt_all X o.
Proof. destruct o; cbn; auto. Qed.
Lemma any_mapping m : mapping_idx tt1 tt1 m.
Proof. split; now apply any_opt. Qed.
Lemma from_string_contents code g n : sm_from_string code g = Some n -> nconts n = g_contents g.
Proof.
  intros E. unfold sm_from_string in E. unb E as ls E0. destruct (next_of ls) as [nl it]. unb E as st E1. injection E as <-. cbn [nconts].
  assert (H : fs_idx tt1 tt1 ff2 st).
  { eapply fs_loop_idx; [| |exact E1]; [split; [constructor|exact I]|]. apply Forall_forall. intros m _. apply any_mapping. }
  rewrite bares; [reflexivity|]. destruct (snd (fst (fs_line st))); [|apply H]. destruct (fs_last st) as [m|] eqn:El.
  - destruct (next_of (fs_iter st)) as [nl' it']. apply (add_chunk_idx tt1 tt1 ff2 (add_mapping_with_code (fs_children st) (Some m) (fst (fst (fs_line st)))) (SmStr (fs_remaining nl' it'))); [|exact I].
    apply with_code_idx; [apply H|apply any_mapping].
  - apply (add_chunk_idx tt1 tt1 ff2 (fs_children st) (SmStr (fs_remaining (fs_line st) (fs_iter st)))); [apply H|exact I].
Qed.
Lemma remove_get {A} (l : list (Z * A)) k s : s <> k -> al_get (al_remove l k) s = al_get l s.
Proof.
  intro H. induction l as [|[k' v] l IH]; [reflexivity|]. cbn [al_remove al_get]. destruct (Z.eqb_spec k k') as [->|].
  - destruct (Z.eqb_spec s k') as [->|]; congruence.
  - cbn. now rewrite IH.
Qed.
Lemma remove_absent {A} (l : list (Z * A)) k : al_get l k = None -> al_remove l k = l.
Proof.
  induction l as [|[k' v] l IH]; [reflexivity|]. cbn [al_remove al_get]. destruct (Z.eqb_spec k k') as [->|]; [discriminate|]. intro H. now rewrite IH.
Qed.
Lemma load_sources_contents check : forall sources contents g, NoDup sources -> (forall s, In s sources -> al_get (g_contents g) s = None) ->
  same_get (g_contents (load_sources check g sources contents)) (g_contents g ++ zipz sources contents).
Proof.
  induction sources as [|x r IH]; intros contents g N A s; cbn [load_sources zipz]; [now rewrite app_nil_r|]. inversion N as [|? ? N1 N2]; subst.
  set (g1 := if check then gen_add_source g x else g). assert (E1 : g_contents g1 = g_contents g) by (unfold g1; now destruct check).
  destruct contents as [|c k]; cbn [hd_error tl].
  - rewrite IH; [|exact N2|]; cbn [gen_set_source_content gen_set_contents g_contents]; rewrite E1, (remove_absent _ x) by (apply A; now left).
    + destruct r; reflexivity.
    + intros y Hy. apply A. now right.
  - rewrite IH; [|exact N2|]; cbn [gen_set_source_content gen_set_contents g_contents]; rewrite E1.
    + rewrite !al_get_app, or_insert_get, al_get_app. cbn [al_get]. destruct (al_get (g_contents g) s); [reflexivity|]. destruct (s =? x)%Z; reflexivity.
    + intros y Hy. rewrite or_insert_get, al_get_app, (A y) by now right. cbn. destruct (Z.eqb_spec y x) as [->|]; [contradiction|reflexivity].
Qed.
Lemma load_mappings_contents sources names : forall l g g', load_mappings g sources names l = Some g' -> g_contents g' = g_contents g.
Proof.
  induction l as [|rm l IH]; intros g g' E; cbn [load_mappings] in E; [now injection E as <-|]. unb E as m E1. unb E as g1 E2.
  rewrite (IH _ _ E). now apply add_mapping_contents in E2.
Qed.
Lemma data_contents d c' g : NoDup (sc_sources d) -> cell_get_generator (mk_cell (Some d) None) = Some (c', g) ->
  same_get (g_contents g) (zipz (sc_sources d) (sc_contents d)).
Proof.
  intros N E. unfold cell_get_generator in E. cbn [ce_gen ce_data bind] in E. unb E as g0 E0. injection E as _ <-. unfold from_source_map in E0.
  unb E0 as l E1. rewrite (load_mappings_contents _ _ _ _ _ E0). intro s. rewrite load_sources_contents; [reflexivity|exact N|reflexivity].
Qed.
Lemma apply_loop_contents file : forall l inner inner' l', apply_loop inner file l = Some (inner', l') -> g_contents inner' = g_contents inner.
Proof.
  induction l as [|m l IH]; intros inner inner' l' E; cbn [apply_loop] in E; [now injection E as <- <-|]. unb E as [i1 m'] E1. unb E as [i2 r'] E2.
  injection E as <- <-. rewrite (IH _ _ _ E2). destruct (m_orig m) as [[li co]|]; [|now injection E1 as <- <-]. destruct (optZ_eqb (m_src m) file); [|now injection E1 as <- <-].
  unb E1 as [i3 o] E3. assert (X : g_contents i3 = g_contents inner).
  { unfold original_position_for in E3. destruct (binary_search_by _ _) as [i|[|i]]; [|now injection E3 as <- <-|]; unb E3 as mm E4;
      destruct (fst (m_gen mm) =? li)%N; now injection E3 as <- <-. }
  destruct (m_src o); now injection E1 as <- <-.
Qed.
Lemma fold_source_contents l : forall g, g_contents (fold_left gen_add_source l g) = g_contents g.
Proof. induction l as [|x l IH]; intro g; [reflexivity|]. cbn. now rewrite IH. Qed.
Lemma fold_name_contents l : forall g, g_contents (fold_left gen_add_name l g) = g_contents g.
Proof. induction l as [|x l IH]; intro g; [reflexivity|]. cbn. now rewrite IH. Qed.
Lemma apply_contents_get g inner file g' inner' : apply_source_map_generator g inner file = Some (g', inner') ->
  same_get (g_contents g') (g_contents g ++ g_contents inner).
Proof.
  intro E. unfold apply_source_map_generator in E. unb E as file' E1. unb E as [i l] E2. injection E as <- <-. intro s. rewrite fold_insert_get.
  rewrite fold_name_contents. cbn [gen_set_names g_contents]. rewrite fold_source_contents, (apply_loop_contents _ _ _ _ _ E2). now destruct l.
Qed.
Lemma sms_contents x x' n : fresh_sms x -> sms_node x = Some (x', n) -> same_get (nconts n) (sms_conts x).
Proof.
  intros ((d & Ed & Nd) & Fi & Fa) E. unfold sms_node in E. rewrite Ed in E. unb E as [c g] E1. unb E as [[g1 inner] applied] E2. unb E as n' E3. injection E as _ <-.
  rewrite (from_string_contents _ _ _ E3). pose proof (data_contents d c g Nd E1) as Hg. unfold sms_conts. rewrite Ed. cbn [ce_data].
  destruct (sms_inner x) as [ic|]; [|injection E2 as <- _ _; rewrite app_nil_r; exact Hg]. destruct Fi as (id & -> & Ni).
  unb E2 as [ic' ig] E4. pose proof (data_contents id ic' ig Ni E4) as Hi. rewrite Fa in E2. cbn [negb] in E2. unb E2 as [g2 ig2] E5. injection E2 as <- _ _.
  intro s. rewrite (apply_contents_get _ _ _ _ _ E5 s). cbn [ce_data]. rewrite app_assoc. revert s. apply same_app; [|exact Hi].
  destruct (sms_original x) as [o|]; intro s; [|rewrite app_nil_r; apply Hg].
  cbn [gen_set_source_content gen_set_contents g_contents]. rewrite or_insert_get. revert s. apply same_app; [exact Hg|now intro].
Qed.
(** ** Edits: contents in front of the text stay *)
Fixpoint on_spine (n : smnode) : Prop :=
  match n with
  | SmStr _ => True
  | SmNode _ _ _ ch _ => match ch with [] => True | x :: r => on_spine x /\ flat_map nconts r = [] end
  end.
Definition split_go := fix go (l : list smnode) (is_split : bool) (pos : Z) (lefts rights : list smnode)
  : option (bool * Z * list smnode * list smnode) :=
  match l with
  | [] => Some (is_split, pos, lefts, rights)
  | x :: r =>
      if negb is_split then
        let* o := split_sourcenode x pos in
        match o with
        | NOk a b => go r true pos (lefts ++ [a]) (rights ++ [b])
        | NErr pos x => go r false pos (lefts ++ [x]) rights
        end
      else go r true pos lefts (rights ++ [x])
  end.
Lemma split_node_eq p s nm ch ct pos : split_sourcenode (SmNode p s nm ch ct) pos =
  let* (split, pos, lefts, rights) := split_go ch false pos [] [] in
  if (split : bool) then Some (NOk (SmNode p s nm lefts ct) (SmNode p s nm rights []))
  else Some (NErr pos (SmNode p s nm lefts ct)).
Proof. reflexivity. Qed.
Lemma split_go_true : forall l pos A B, split_go l true pos A B = Some (true, pos, A, B ++ l).
Proof. induction l as [|x l IH]; intros pos A B; cbn; [now rewrite app_nil_r|]. rewrite IH, <- app_assoc. reflexivity. Qed.
Definition split_conts (K : list (Z * Z)) (o : node_split) : Prop :=
  match o with NOk a b => nconts a = K /\ nconts b = [] | NErr _ a => nconts a = K end.
Lemma split_go_bare : forall l, Forall (fun n => nconts n = [] -> forall pos o, split_sourcenode n pos = Some o -> split_conts [] o) l ->
  flat_map nconts l = [] -> forall pos A B sp pos' A' B', split_go l false pos A B = Some (sp, pos', A', B') ->
  flat_map nconts A' = flat_map nconts A /\ flat_map nconts B' = flat_map nconts B /\ exists l', A' = A ++ l'.
Proof.
  induction 1 as [|x l Hx _ IH]; intros N pos A B sp pos' A' B' E; cbn [split_go] in E; fold split_go in E.
  - injection E as _ _ <- <-. repeat split. exists []. now rewrite app_nil_r.
  - cbn [flat_map] in N. apply app_eq_nil in N as [N1 N2]. cbn [negb] in E. unb E as o Eo. specialize (Hx N1 _ _ Eo). destruct o as [a b|q x'].
    + rewrite split_go_true in E. injection E as _ _ <- <-. destruct Hx as [X1 X2]. rewrite !flat_map_app. cbn [flat_map]. rewrite X1, X2, N2, !app_nil_r. repeat split. eauto.
    + cbn in Hx. destruct (IH N2 _ _ _ _ _ _ _ E) as (H1 & H2 & l' & ->). rewrite H1, H2, flat_map_app. cbn [flat_map]. rewrite Hx, !app_nil_r.
      repeat split. rewrite <- app_assoc. eexists. reflexivity.
Qed.
Lemma split_bare n : nconts n = [] -> forall pos o, split_sourcenode n pos = Some o -> split_conts [] o.
Proof.
  induction n as [s|p s nm ch ct IH] using smnode_ind'; intros N pos o E.
  - cbn [split_sourcenode] in E. unb E as r Er. destruct r; injection E as <-; repeat split.
  - rewrite split_node_eq in E. unb E as [[[sp q] A] B] Eg. cbn [nconts] in N. apply app_eq_nil in N as [N1 ->].
    destruct (split_go_bare _ IH N1 _ _ _ _ _ _ _ Eg) as (H1 & H2 & _). destruct sp; injection E as <-; cbn [split_conts nconts]; rewrite H1, ?H2; auto.
Qed.
Lemma split_spine n : on_spine n -> forall pos o, split_sourcenode n pos = Some o ->
  split_conts (nconts n) o /\ match o with NOk a _ | NErr _ a => on_spine a end.
Proof.
  induction n as [s|p s nm ch ct IH] using smnode_ind'; intros N pos o E.
  - cbn [split_sourcenode] in E. unb E as r Er. destruct r; injection E as <-; repeat split.
  - rewrite split_node_eq in E. unb E as [[[sp q] A] B] Eg. cbn [nconts].
    assert (Y : flat_map nconts A = flat_map nconts ch /\ flat_map nconts B = [] /\ on_spine (SmNode p s nm A ct)).
    { clear E. destruct ch as [|x r]; [injection Eg as _ _ <- <-; repeat split|]. inversion IH as [|? ? I1 I2]; subst. cbn [on_spine] in N. destruct N as [N1 N2].
      cbn [split_go negb] in Eg. fold split_go in Eg. unb Eg as o' Eo. specialize (I1 N1 _ _ Eo) as [I1 I3]. destruct o' as [a b|q' x'].
      - rewrite split_go_true in Eg. injection Eg as _ _ <- <-. destruct I1 as [J1 J2]. cbn [app flat_map on_spine]. rewrite J1, J2, N2. auto.
      - cbn in I1. destruct (split_go_bare r) with (pos := q') (A := [x']) (B := @nil smnode) (sp := sp) (pos' := q) (A' := A) (B' := B) as (H1 & H2 & l' & ->);
          [apply Forall_forall; intros y _; apply split_bare|exact N2|exact Eg|]. rewrite H1, H2. cbn [app flat_map on_spine]. rewrite I1, N2, !app_nil_r.
        repeat split; [exact I3|]. cbn [app flat_map] in H1. rewrite app_nil_r in H1. rewrite <- (app_nil_r (nconts x')) in H1 at 2. now apply app_inv_head in H1. }
    destruct Y as (Y1 & Y2 & Y3). destruct sp; injection E as <-; cbn [split_conts nconts add_chunk app]; rewrite Y1, ?Y2; repeat split; exact Y3.
Qed.
Lemma replacement_conts n s x : replacement_to_sourcenode n s = Some x -> nconts x = [].
Proof. unfold replacement_to_sourcenode. destruct n; [discriminate|]. intro E. unb E as [a g] E1. unb E as [b m] E2. injection E as <-. reflexivity || (destruct s; reflexivity). Qed.
Lemma replace_loop_spine rs : forall rem stack res, on_spine rem -> flat_map nconts stack = [] -> replace_node_loop rs (rem :: stack) = Some res ->
  on_spine (SmNode None None None res []) /\ flat_map nconts res = nconts rem.
Proof.
  induction rs as [|r rs IH]; intros rem stack res H N E; cbn [replace_node_loop] in E.
  - injection E as <-. cbn [on_spine flat_map]. rewrite N, app_nil_r. auto.
  - unb E as o Eo. destruct (split_spine rem H _ _ Eo) as [S1 S2]. destruct o as [l1 r1|p rem1]; cbn [split_conts] in S1.
    + destruct S1 as [S1 S3]. unb E as o Eo2. destruct (split_spine l1 S2 _ _ Eo2) as [S4 S5]. destruct o as [l2 r2|q l1']; cbn [split_conts] in S4.
      * destruct S4 as [S4 S6]. unb E as x Ex. edestruct IH as [J1 J2]; [exact S5| |exact E|]; [cbn [flat_map]; now rewrite (replacement_conts _ _ _ Ex), S3|]. split; [exact J1|congruence].
      * unb E as x Ex. edestruct IH as [J1 J2]; [exact S5| |exact E|]; [cbn [flat_map]; now rewrite (replacement_conts _ _ _ Ex), S3|]. split; [exact J1|congruence].
    + unb E as o Eo2. destruct (split_spine rem1 S2 _ _ Eo2) as [S4 S5]. destruct o as [l2 r2|q rem2]; cbn [split_conts] in S4.
      * destruct S4 as [S4 S6]. unb E as x Ex. edestruct IH as [J1 J2]; [exact S5| |exact E|]; [cbn [flat_map]; now rewrite (replacement_conts _ _ _ Ex)|]. split; [exact J1|congruence].
      * edestruct IH as [J1 J2]; [exact S5| |exact E|]; [exact N|]. split; [exact J1|congruence].
Qed.
Lemma fresh_concat l : fresh_tree (TConcat l) <-> Forall fresh_tree l.
Proof.
  induction l as [|x r IH]; cbn [fresh_tree] in *; [split; constructor|]. rewrite IH. split; [intros [H1 H2]; auto|]. intro H. now inversion H.
Qed.
Lemma prefix_conts p n : forall k n' k', clone_and_prefix n p k = Some (n', k') -> nconts n' = nconts n.
Proof.
  induction n as [s|pos src name ch ct IH] using smnode_ind'; intros k n' k' E; cbn [clone_and_prefix] in E.
  - unb E as [s' k1] E1. now injection E as <- _.
  - unb E as [ch' k1] E1. injection E as <- _. cbn [nconts]. f_equal. revert k ch' k1 E1. induction ch as [|x ch IHc]; intros k ch' k1 E; [now injection E as <- _|].
    inversion IH as [|? ? I1 I2]; subst. unb E as [x' k2] E2. unb E as [r' k3] E3. injection E as <- _. cbn. now rewrite (I1 _ _ _ E2), (IHc I2 _ _ _ E3).
Qed.
Lemma sn_new_conts pos src name n : nconts (sn_new pos src name (Some (CNode n))) = nconts n.
Proof. unfold sn_new, add_chunk. cbn [nconts]. rewrite app_nil_r. destruct n as [[|]|]; cbn; now rewrite ?app_nil_r. Qed.
Lemma prefix_spine p n : on_spine n -> forall k n' k', clone_and_prefix n p k = Some (n', k') -> on_spine n'.
Proof.
  induction n as [s|pos src name ch ct IH] using smnode_ind'; intros H k n' k' E; cbn [clone_and_prefix] in E.
  - unb E as [s' k1] E1. now injection E as <- _.
  - unb E as [ch' k1] E1. injection E as <- _. destruct ch as [|x r]; [injection E1 as <- _; exact I|]. inversion IH as [|? ? I1 I2]; subst.
    unb E1 as [x' k2] E2. unb E1 as [r' k3] E3. injection E1 as <- _. cbn [on_spine] in *. destruct H as [H1 H2]. split; [eauto|]. rewrite <- H2. clear - E3.
    revert k2 r' k3 E3. induction r as [|y r IHr]; intros k2 r' k3 E; [now injection E as <- _|]. unb E as [y' k4] E4. unb E as [r2 k5] E5. injection E as <- _.
    cbn. now rewrite (prefix_conts _ _ _ _ _ E4), (IHr _ _ _ E5).
Qed.
Lemma sn_new_spine pos src name n : on_spine n -> on_spine (sn_new pos src name (Some (CNode n))).
Proof. intro H. unfold sn_new, add_chunk. cbn [on_spine]. destruct n as [[|]|]; cbn; auto. Qed.
Lemma bare_spine n : nconts n = [] -> on_spine n.
Proof.
  induction n as [s|pos src name ch ct IH] using smnode_ind'; intro H; [exact I|]. cbn [nconts] in H. apply app_eq_nil in H as [H _]. destruct ch as [|x r]; [exact I|].
  cbn [flat_map] in H. apply app_eq_nil in H as [H1 H2]. inversion IH as [|? ? I1 I2]; subst. split; auto.
Qed.
Lemma bares_spine pos src name ch ct : flat_map nconts ch = [] -> on_spine (SmNode pos src name ch ct).
Proof. destruct ch as [|x r]; intro H; [exact I|]. cbn [flat_map] in H. apply app_eq_nil in H as [H1 H2]. split; [now apply bare_spine|exact H2]. Qed.
Lemma from_string_spine code g n : sm_from_string code g = Some n -> on_spine n.
Proof.
  intros E. unfold sm_from_string in E. unb E as ls E0. destruct (next_of ls) as [nl it]. unb E as st E1. injection E as <-. apply bares_spine. apply bares.
  assert (H : fs_idx tt1 tt1 ff2 st).
  { eapply fs_loop_idx; [| |exact E1]; [split; [constructor|exact I]|]. apply Forall_forall. intros m _. apply any_mapping. }
  destruct (snd (fst (fs_line st))); [|apply H]. destruct (fs_last st) as [m|] eqn:El.
  - destruct (next_of (fs_iter st)) as [nl' it']. apply (add_chunk_idx tt1 tt1 ff2 (add_mapping_with_code (fs_children st) (Some m) (fst (fst (fs_line st)))) (SmStr (fs_remaining nl' it'))); [|exact I].
    apply with_code_idx; [apply H|apply any_mapping].
  - apply (add_chunk_idx tt1 tt1 ff2 (fs_children st) (SmStr (fs_remaining (fs_line st) (fs_iter st)))); [apply H|exact I].
Qed.
Lemma sms_spine x x' n : sms_node x = Some (x', n) -> on_spine n.
Proof. intro E. unfold sms_node in E. unb E as [c g] E1. unb E as [[g1 inner] applied] E2. unb E as n' E3. injection E as _ <-. now apply from_string_spine in E3. Qed.
Lemma t_node_spine c m t : spine_tree t -> forall n, t_node c m t = Some n -> on_spine n.
Proof.
  induction t as [s|v|v i nm|v nm o|p t IH|t st IH|l IH|x] using tree_ind'; intros H n E; unfold t_node in *; cbn [fold_tree] in E; try (now destruct H).
  - injection E as <-. unfold raw_node. now apply sn_new_spine.
  - cbn [node_alg a_original] in E. unfold original_node in E. unb E as ls E1. unb E as ch E2. injection E as <-. apply bares_spine, bares.
    eapply orig_lines_idx; [|constructor|exact E2]. exact I.
  - cbn [node_alg a_l2l] in E. unfold l2l_node in E. unb E as ls E1. injection E as <-. apply bares_spine, bares. now apply l2l_lines_idx.
  - unb E as n1 E1. cbn [node_alg a_prefix] in E. unfold prefix_node in E. unb E as [n' k] E2. injection E as <-. apply sn_new_spine. eapply prefix_spine; [|exact E2]. now apply IH.
  - unb E as n1 E1. cbn [node_alg a_replace] in E. unfold replace_node in E. unb E as res E2. injection E as <-.
    destruct (replace_loop_spine _ n1 [] res (IH H n1 E1) eq_refl E2) as [J _]. exact J.
  - unb E as [x' n'] E1. injection E as <-. cbn [node_alg a_sms] in E1. eapply sms_spine; exact E1.
Qed.
Theorem t_node_contents c m t : fresh_tree t -> forall n, t_node c m t = Some n -> same_get (nconts n) (tconts t).
Proof.
  induction t as [s|v|v i nm|v nm o|p t IH|t st IH|l IH|x] using tree_ind'; intros H n E; unfold t_node in *; cbn [fold_tree] in E.
  - discriminate.
  - injection E as <-. unfold raw_node. rewrite sn_new_conts. now intro.
  - cbn [node_alg a_original] in E. unfold original_node in E. unb E as ls E1. unb E as ch E2. injection E as <-. cbn [nconts tconts].
    rewrite bares; [now intro|]. eapply orig_lines_idx; [|constructor|exact E2]. exact I.
  - cbn [node_alg a_l2l] in E. unfold l2l_node in E. unb E as ls E1. injection E as <-. cbn [nconts tconts]. rewrite bares; [now intro|]. now apply l2l_lines_idx.
  - unb E as n1 E1. cbn [node_alg a_prefix] in E. unfold prefix_node in E. unb E as [n' k] E2. injection E as <-. rewrite sn_new_conts, (prefix_conts _ _ _ _ _ E2). now apply IH.
  - destruct H as [H1 H2]. unb E as n1 E1. cbn [node_alg a_replace] in E. unfold replace_node in E. unb E as res E2. injection E as <-.
    destruct (replace_loop_spine _ n1 [] res (t_node_spine c m t H2 n1 E1) eq_refl E2) as [_ J]. unfold sn_new. cbn [nconts add_chunk app tconts]. rewrite app_nil_r, J. now apply IH.
  - unb E as ys E1. cbn [node_alg a_concat] in E. injection E as <-. change (same_get (flat_map nconts (map (fun x => match x with inl s => SmStr s | inr n => n end) ys) ++ []) (flat_map tconts l)). rewrite app_nil_r. apply fresh_concat in H.
    revert ys E1. induction l as [|x l IHl]; intros ys E; [injection E as <-; now intro|].
    inversion IH as [|? ? I1 I2]; subst. inversion H as [|? ? H1 H2]; subst. unb E as y E1. unb E as ys' E2. injection E as <-. cbn [map flat_map].
    apply same_app; [|apply IHl; auto]. destruct x; try (unb E1 as y' E3; injection E1 as <-; now apply I1). injection E1 as <-. now intro.
  - unb E as [x' n'] E1. injection E as <-. cbn [node_alg a_sms] in E1. eapply sms_contents; [exact H|exact E1].
Qed.
Lemma collect_same a b : same_get a b -> forall l, collect_contents l a = collect_contents l b.
Proof. intros H. induction l as [|s l IH]; [reflexivity|]. cbn [collect_contents]. rewrite (H s), IH. reflexivity. Qed.
Lemma map_contents_gen g g' mp : gen_to_source_map g = Some (g', mp) -> map_contents mp = collect_contents (map_sources mp) (g_contents g).
Proof.
  intro Em. unfold gen_to_source_map, serialize_mappings in Em. unb Em as [g1 ms] E1. unb E1 as st E2. injection E1 as <- <-. now injection Em as _ <-.
Qed.
Theorem map_contents_of c m t n file root s g g' mp : fresh_tree t -> t_node c m t = Some n -> to_string_with_generator n file root = Some (s, g) ->
  gen_to_source_map g = Some (g', mp) -> map_contents mp = collect_contents (map_sources mp) (tconts t).
Proof.
  intros F En Eg Em. rewrite (map_contents_gen _ _ _ Em). apply collect_same. unfold to_string_with_generator in Eg. unb Eg as cx Ew. injection Eg as _ <-.
  intro k. rewrite (walk_contents _ _ _ _ _ _ Ew k). cbn [ctx_new cx_map gen_new g_contents app]. now apply (t_node_contents c m t).
Qed.
