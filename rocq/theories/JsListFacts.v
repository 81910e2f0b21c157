(** Programs that make line maps by hand: proofs. *)
From Verif Require Import Base Tactics ModelString StringFacts ModelVlq ModelSm ModelSlm ModelSources ModelTree ModelWasm
  ModelJs ModelJsApi SpecText SpecMap SpecAttr SpecList SortFacts TextFacts NodeFacts LeafFacts ParseFacts MapFacts LoadFacts GenFacts SmsProps NodeTree
  SlmFacts SlmMap SlmRead SlmReplace SlmTree SlmWhole SlmProps SlmLines
  IdxFacts JsFacts Utf16Facts JsTextProps SpecResult ModelJsResult ResultFacts ResultProps SpecJs ModelEnd SpecEnd EndFacts EndProps ContentFacts EndMap LineEnd
  ModelJsList SpecJsList.

Lemma identity_all m : Forall node_ok m -> Forall named m -> (forall p, In (LSingle p) m -> tidy (pc_code p)) ->
  exists m', map_generated_code identical_mapfun tt m = Some (tt, m') /\ Forall node_ok m' /\ Forall named m' /\ list_marks m' = list_marks m /\ same_uses (lused m') (lused m).
Proof.
  intros Ok Nm Ti. destruct (map_identity m Ok) as (m' & E & _ & Mk). specialize (Mk Ti). exists m'. split; [exact E|].
  pose proof (map_generated_code_spec (fun (_ : unit) s => Some (tt, s)) tt m Ok) as H. rewrite run_id in H. destruct H as (m2 & E2 & Ok2 & _).
  assert (m2 = m') as -> by (assert (X : Some (tt, m2) = Some (tt, m')) by (rewrite <- E, <- E2; reflexivity); now injection X).
  split; [exact Ok2|]. unfold map_generated_code in E. rewrite normalize_all_spec in E. cbn [bind] in E. unb E as [st acc] E3. injection E as _ <-.
  assert (X : Forall (fun n => match n with LCode _ => True | LSingle p => counted p | _ => False end) (flat_map normal_node m)).
  { pose proof (normals_say m Ok) as S. clear - S. induction S as [|n x l xs Hn _ IH]; constructor; [|exact IH]. destruct n; try destruct Hn; auto. }
  destruct (loop_uses (fun s => s) identical_mapfun (fun st s => match st with tt => eq_refl end) _ X (named_flat m Nm) (Forall_impl _ (fun n _ => conj (fun H => H) (fun H => H)) X) [] _ _ (Forall_nil _) (Forall_nil _) E3) as [A B]. split; [now apply Forall_rev|]. split; [exact Mk|].
  cbn in B. now rewrite normal_used in B.
Qed.

(** ** Whole lines *)
Lemma at_ends_split (a b : list str) : at_line_ends (a ++ b) -> a <> [] -> b <> [] -> Forall ends a /\ concat b <> [] /\ at_line_ends b.
Proof.
  intros H Ha Hb. induction a as [|x a IH]; [congruence|]. cbn [app at_line_ends] in H. destruct (a ++ b) as [|y r] eqn:E.
  - apply app_eq_nil in E as [_ ->]. congruence.
  - destruct H as (H1 & H2 & H3). destruct a as [|z a].
    + cbn [app] in E. rewrite E. split; [constructor; [exact H1|constructor]|]. auto.
    + destruct (IH H3) as (I1 & I2 & I3); [discriminate|]. split; [constructor; assumption|]. auto.
Qed.
Lemma ends_concat (a : list str) : a <> [] -> Forall ends a -> ends (concat a).
Proof.
  intros Ha H. destruct (exists_last Ha) as (b & z & ->). apply Forall_app in H as [_ H]. inversion H as [|? ? Hz _]; subst.
  rewrite concat_app. cbn [concat]. rewrite app_nil_r. unfold ends in *. rewrite ends_with_tail; [exact Hz|]. intros ->. discriminate.
Qed.
Lemma good_app a b : SlmWhole.good a -> ends (slm_text a) -> SlmWhole.good b -> slm_text b <> [] -> SlmWhole.good (a ++ b).
Proof.
  intros Ga Ea Gb Nb. destruct (good_full a Ga Ea) as (A1 & A2 & A3). destruct Gb as (B1 & B2 & B3).
  split; [now apply Forall_app|]. split; [now apply Forall_app|]. rewrite texts_app. apply at_ends_app; [exact A3| | |exact B3].
  - intro Z. rewrite Z in B3. destruct B3.
  - left. unfold SlmWhole.texts. now rewrite pieces_text.
Qed.
Lemma good_one n : node_ok n -> sealed n -> SlmWhole.good [n].
Proof. intros O S. split; [repeat constructor; exact O|]. split; [repeat constructor; exact S|]. apply (node_at_ends n O S). Qed.
Lemma full_tidy m : full m -> forall p, In (LSingle p) m -> tidy (pc_code p).
Proof.
  intros (_ & _ & F) p Hp _. rewrite Forall_forall in F. apply F. unfold SlmWhole.texts, list_pieces. apply in_map_iff. eexists (_, _). split; [reflexivity|].
  apply in_flat_map. exists (LSingle p). split; [exact Hp|]. cbn [node_pieces]. left. reflexivity.
Qed.
Lemma full_tidy_nodes m : full m -> Forall tidy_node m.
Proof. intro F. apply Forall_forall. intros n Hn. destruct n; try exact I. now apply (full_tidy m). Qed.

(** ** Functions that agree on the pieces *)
Lemma map_loop_ext {S} (f g : mapfun S) : forall l xs, Forall2 says l xs -> Forall (fun x => forall st, f st x = g st x) (map snd xs) ->
  forall st acc, map_loop f st l acc = map_loop g st l acc.
Proof.
  induction 1 as [|n [t s] l xs Hn _ IH]; intros H st acc; [reflexivity|]. cbn [map snd] in H. inversion H as [|? ? H1 H2]; subst. cbn [map_loop].
  assert (E : node_map f st n = node_map g st n).
  { destruct n as [?|c|p|p|?|?]; try contradiction; cbn [node_map says] in *; [injection Hn as -> ->|destruct Hn as [_ Hn]; injection Hn as -> ->]; now rewrite H1. }
  rewrite E. destruct (node_map g st n) as [[st1 o]|]; [|reflexivity]. cbn [bind]. now apply IH.
Qed.
Lemma map_ext_pieces {S} (f g : mapfun S) st m : Forall node_ok m -> Forall (fun x => forall st, f st x = g st x) (SlmWhole.texts m) ->
  map_generated_code f st m = map_generated_code g st m.
Proof.
  intros Ok H. unfold map_generated_code. rewrite normalize_all_spec. cbn [bind]. now rewrite (map_loop_ext f g _ _ (normals_say m Ok) H).
Qed.
Lemma ends_in x : ends x -> In NL x.
Proof. intro H. apply ends_count in H. apply count_pos_in. lia. Qed.
Lemma wasm_prefix_whole p m : full m -> map_generated_code (wasm_prefix_mapfun p) tt m = map_generated_code (prefix_mapfun p) tt m.
Proof.
  intros (Ok & _ & F). apply map_ext_pieces; [exact Ok|]. eapply Forall_impl; [|exact F]. intros x Hx st. unfold wasm_prefix_mapfun, prefix_mapfun.
  rewrite make_prefixed_string_spec. cbn [bind]. now rewrite wasm_prefix_lines by now apply ends_in.
Qed.

Lemma prefix_all p m : ~ In NL p -> SlmWhole.good m -> ends (slm_text m) -> Forall named m ->
  exists m', map_generated_code (wasm_prefix_mapfun p) tt m = Some (tt, m') /\ SlmWhole.good m' /\ Forall named m' /\ Forall tidy_node m' /\
    list_marks m' = mprefixed p (list_marks m) /\ same_uses (lused m') (lused m) /\ slm_text m' = prefixed p (slm_text m).
Proof.
  intros Hp G E Nm. pose proof (good_full m G E) as F. pose proof (full_tidy_nodes m F) as Td. pose proof G as (G1 & _ & G3).
  rewrite (wasm_prefix_whole p m F). destruct (prefix_list_map_spec p m G1) as (m' & Em & O' & _ & A).
  assert (Ne : slm_text m <> []) by (intro Z; rewrite Z in E; discriminate).
  destruct (prefix_uses p m m' Nm G Ne Em) as [N' U'].
  destruct (prefix_whole p m m' Hp (conj G Td) (or_intror E) Em) as ([G' T'] & _ & Tx).
  exists m'. split; [unfold prefix_list_map in Em; unb Em as [st m2] E2; injection Em as <-; destruct st; exact E2|].
  split; [exact G'|]. split; [exact N'|]. split; [exact T'|]. split; [|split; [exact U'|exact Tx]].
  rewrite A.
  - rewrite mprefixed_pieces, pieces_marks; auto. now rewrite pieces_text.
  - pose proof (tidy_pieces m Td G1) as H2. clear -H2 Hp. induction H2 as [|x l [Hx|Hx] _ IH]; cbn [map]; constructor; auto. right. now apply tidy_prefixed.
Qed.
Lemma identity_good m m' : SlmWhole.good m -> map_generated_code identical_mapfun tt m = Some (tt, m') -> SlmWhole.good m'.
Proof.
  intros (G1 & G2 & G3) E. unfold map_generated_code in E. rewrite normalize_all_spec in E. cbn [bind] in E. unb E as [st acc] E2. injection E as _ <-.
  eapply (map_loop_good identical_mapfun _ _ (normals_say m G1) tt []); [split; [constructor|split; constructor]| |exact G3|right; reflexivity|exact E2].
  fold (SlmWhole.texts m). generalize (SlmWhole.texts m) as l. clear. induction l as [|x l IH]; [reflexivity|]. cbn [run_fun]. unfold identical_mapfun at 1. cbn [bind]. now rewrite IH.
Qed.

(** ** Lines that each come from another one *)
Lemma flows_tail c M : flows (c :: M) = true -> flows M = true.
Proof. destruct c as [c t]. destruct M as [|[d u] M]; [reflexivity|]. cbn [flows]. intro H. now apply andb_true_iff in H. Qed.
Lemma flows_mid a b d : flows (a ++ b ++ d) = true -> flows b = true.
Proof.
  intro H. assert (H2 : flows (b ++ d) = true) by (induction a as [|x a IH]; [exact H|apply IH; eapply flows_tail; exact H]). clear H.
  induction b as [|[c t] b IH]; [reflexivity|]. destruct b as [|[c2 u] b]; [reflexivity|]. cbn [app flows] in *. apply andb_true_iff in H2 as [A B]. rewrite A. exact (IH B).
Qed.
Lemma flows_mark T s : flows (mark (Some T) s) = true -> tidy s.
Proof.
  destruct T as [[i [l k]] nm]. induction s as [|c s IH]; intros H C; [discriminate|]. destruct s as [|d s].
  - cbn in C |- *. destruct (N.eqb c NL); [reflexivity|discriminate].
  - cbn [mark map flows same_line] in H. rewrite !Z.eqb_refl, !andb_true_r in H. apply andb_true_iff in H as [H1 H2]. apply negb_true_iff in H1.
    cbn [ends_with]. apply IH; [exact H2|]. cbn [count_char] in C |- *. rewrite H1 in C. exact C.
Qed.
Lemma flows_tidy F l : flows (retarget (rename F) (list_marks l)) = true -> forall p, In (LSingle p) l -> tidy (pc_code p).
Proof.
  intros H p Hp. apply in_split in Hp as (a & b & ->). unfold list_marks in H. rewrite flat_map_app in H. cbn [flat_map node_marks] in H.
  rewrite !retarget_app, retarget_mark in H. cbn [rename] in H. apply flows_mid in H. eapply flows_mark. exact H.
Qed.
