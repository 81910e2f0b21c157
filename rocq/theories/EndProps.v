(** From the arguments of the constructors to the properties of the map. *)
From Verif Require Import Base Tactics ModelString StringFacts ModelVlq ModelSm ModelSlm ModelSources ModelTree ModelWasm
  ModelJs ModelJsApi ModelJsResult SpecText SpecMap SpecAttr SortFacts TextFacts NodeFacts LeafFacts ParseFacts GenFacts SmsProps NodeTree
  IdxFacts JsFacts Utf16Facts JsTextProps SpecResult ResultFacts ResultProps SpecJs ModelEnd SpecEnd EndFacts MadeFacts.

(** ** Nested ConcatSources *)
Lemma concat_children c m l M : attributed c m (TConcat l) M -> exists Ms, Forall2 (child_attr c m) l Ms /\ concat Ms = M.
Proof.
  intro H. apply attributed_flat in H as (n & E & F). unfold t_node in E. rewrite fold_concat in E. unbind E. rename v into ys.
  cbn [node_alg a_concat] in E. injection E as <-. change (flat (concat_node ys) = M) in F. rewrite concat_flat in F. subst M.
  revert ys E0. induction l as [|x l IH]; intros ys E; cbn [children] in E; [injection E as <-; exists []; auto|].
  unbind E. unbind E. injection E as <-. destruct (IH _ E1) as (Ms & A & B). exists (child_flat v :: Ms). cbn [flat_map concat]. rewrite B. split; [|reflexivity].
  constructor; [|exact A]. clear - E0. unfold child in E0. unfold child_attr. destruct x; try (unbind E0; injection E0 as <-; apply attributed_flat; exists v0; auto).
  injection E0 as <-. reflexivity.
Qed.
Lemma emits_attributed c m t M : dense t -> emits c m t M -> attributed c m t M.
Proof.
  intros D H. destruct (dense_node c m t D) as (n & E & _ & _). apply attributed_flat. exists n. split; [exact E|].
  assert (A : attributed c m t (flat n)) by (apply attributed_flat; eauto). apply (dense_emits c m t _ D) in A.
  destruct A as (n1 & code & mp & es & E1 & T1 & R1 & A1), H as (n2 & code2 & mp2 & es2 & E2 & T2 & R2 & A2).
  rewrite E in E1, E2. injection E1 as <-. injection E2 as <-. rewrite T1 in T2. injection T2 as <- <-. rewrite R1 in R2. injection R2 as <-. congruence.
Qed.
Lemma dense_attr_child c m t M : dense t -> attributed c m t M -> dense_child t /\ child_attr c m t M.
Proof. intros D A. destruct t; auto. destruct D. Qed.

Section Build.
  Variables (nu : jstr -> Z) (Hnu : numbering nu) (c1 : cache) (Hc1 : cache_ok c1) (md : bool).
  Variables (S N : list jstr) (G : list (jstr * jstr)).

  Definition rho (i : Z) : Z := nu (nth (Z.to_nat i) (ca_array c1) []).
  Definition PS (i : Z) : Prop := exists s, In s S /\ known c1 i s.
  Definition PN (i : Z) : Prop := exists s, In s N /\ known c1 i s.
  Definition RG (i j : Z) : Prop := exists s k, In (s, k) G /\ known c1 i s /\ at_ c1 j k.

  Lemma rho_at i s : at_ c1 i s -> rho i = nu s.
  Proof. intros (k & -> & E). unfold rho. rewrite Nat2Z.id. f_equal. now apply nth_error_nth. Qed.
  Lemma rho_known i s : known c1 i s -> rho i = nu s.
  Proof. intro H. apply rho_at. now apply known_at. Qed.
  Lemma rho_map is l : Forall2 (known c1) is l -> map rho is = map nu l.
  Proof. induction 1 as [|i s is l H _ IH]; [reflexivity|]. cbn. rewrite IH. f_equal. now apply rho_known. Qed.
  Lemma rho_inj i j s s' : known c1 i s -> known c1 j s' -> rho i = rho j -> i = j.
  Proof.
    intros H H' E. rewrite (rho_known i s H), (rho_known j s' H') in E. apply Hnu in E. subst s'. eapply known_index; eauto.
  Qed.

  Definition good (t : tree) (M : marked) : Prop :=
    dense_child t /\ tree_idx PS PN RG t /\ exists M0, child_attr true md t M0 /\ M = retarget (rename rho) M0.

  Lemma good_concat ts Ms : Forall2 good ts Ms -> good (TConcat (fold_left concat_add ts [])) (concat Ms).
  Proof.
    intro H.
    assert (X : forall acc Ma, Forall dense_child acc -> Forall (tree_idx PS PN RG) acc -> Forall2 (child_attr true md) acc Ma ->
      exists Mb, Forall dense_child (fold_left concat_add ts acc) /\ Forall (tree_idx PS PN RG) (fold_left concat_add ts acc) /\
        Forall2 (child_attr true md) (fold_left concat_add ts acc) Mb /\
        retarget (rename rho) (concat Mb) = retarget (rename rho) (concat Ma) ++ concat Ms).
    { induction H as [|t M ts Ms (D & T & M0 & A & E) _ IH]; intros acc Ma Hd Ht Ha; cbn [fold_left].
      - exists Ma. cbn [concat]. rewrite app_nil_r. auto.
      - assert (Y : exists ks Mk, concat_add acc t = acc ++ ks /\ Forall dense_child ks /\ Forall (tree_idx PS PN RG) ks /\
          Forall2 (child_attr true md) ks Mk /\ concat Mk = M0).
        { destruct t; try (eexists [_], [M0]; split; [reflexivity|]; split; [constructor; [exact D|constructor]|]; split; [constructor; [exact T|constructor]|];
            split; [constructor; [exact A|constructor]|apply app_nil_r]).
          destruct (concat_children _ _ _ _ A) as (Mk & F & C). exists children, Mk. split; [reflexivity|].
          split; [now apply dense_concat|]. split; [now apply tree_idx_concat|]. auto. }
        destruct Y as (ks & Mk & Ek & K1 & K2 & K3 & K4). rewrite Ek.
        destruct (IH (acc ++ ks) (Ma ++ Mk)) as (Mb & B1 & B2 & B3 & B4);
          [apply Forall_app; auto|apply Forall_app; auto|apply Forall2_app; auto|].
        exists Mb. split; [exact B1|]. split; [exact B2|]. split; [exact B3|]. rewrite B4, concat_app, K4. cbn [concat].
        rewrite retarget_app, E, app_assoc. reflexivity. }
    destruct (X [] [] (Forall_nil _) (Forall_nil _) (Forall2_nil _)) as (Mb & B1 & B2 & B3 & B4).
    split; [now apply dense_concat|]. split; [now apply tree_idx_concat|]. exists (concat Mb). split; [|now rewrite B4].
    now apply concat_attributed.
  Qed.
  Lemma good_dense t M M0 : dense t -> tree_idx PS PN RG t -> emits true md t M0 -> M = retarget (rename rho) M0 -> good t M.
  Proof.
    intros D T E ->. destruct (dense_attr_child true md t M0 D (emits_attributed _ _ _ _ D E)) as [A B].
    split; [exact A|]. split; [exact T|]. eauto.
  Qed.
  Lemma passed_idx m d : passed c1 m d -> incl (jm_sources m) S -> incl (jm_names m) N -> incl (zip (jm_sources m) (jm_contents m)) G ->
    Forall PS (sc_sources d) /\ Forall PN (sc_names d) /\ contents_idx RG (sc_sources d) (sc_contents d).
  Proof.
    intros (A & B & C & _) I1 I2 I3. split; [|split].
    - clear - A I1. induction A as [|i s is l H _ IH]; constructor; [exists s; split; [apply I1; now left|exact H]|].
      apply IH. intros x Hx. apply I1. now right.
    - clear - C I2. induction C as [|i s is l H _ IH]; constructor; [exists s; split; [apply I2; now left|exact H]|].
      apply IH. intros x Hx. apply I2. now right.
    - clear - A B I3. revert B I3. generalize (sc_contents d) (jm_contents m). induction A as [|i s is l H _ IH]; intros ks kl B I3; [exact I|].
      destruct B as [|j k ks kl Hj B]; [exact I|]. cbn [zip] in I3. split; [exists s, k; split; [apply I3; now left|auto]|].
      apply (IH ks kl B). intros x Hx. apply I3. now right.
  Qed.
  Lemma passed_says m d : sound_map m -> passed c1 m d -> exists es, readable d es /\ map_says nu m = Some (rename_entries rho es).
  Proof.
    intros Hs Hp. destruct (sound_readable c1 m d Hc1 Hs Hp) as (es & R). exists es. split; [exact R|].
    destruct Hp as (A & B & C & D). unfold map_says, reads_as. rewrite <- (rho_map _ _ A), <- (rho_map _ _ C), read_map_rename.
    destruct Hs as (_ & _ & Pl & _). rewrite plain_in in D by exact Pl. rewrite <- D. destruct R as (_ & _ & -> & _). reflexivity.
  Qed.

  Definition exact_child (e : jexpr) : Prop := match e with XStr s => s <> [] /\ plain s | _ => exact_expr e end.
  Lemma exact_concat l : exact_expr (XConcat l) <-> Forall exact_child l.
  Proof.
    induction l as [|x r IH]; cbn [exact_expr] in *; [split; constructor|]. rewrite IH. split; [intros [H1 H2]; auto|]. intro H. now inversion H.
  Qed.
  Lemma dense_of_child t : (match t with TStr _ => False | _ => True end) -> dense_child t -> dense t.
  Proof. destruct t; auto; now intros []. Qed.

  Theorem made_good e : exact_child e -> incl (sources_in e) S -> incl (names_in e) N -> incl (contents_given e) G ->
    forall t, made c1 e t -> exists M, marks nu e = Some M /\ good (import t) M.
  Proof.
    induction e as [s|v|v n|v n o|p e IH|e h IH|l IH|v n m o i] using jexpr_ind'; intros X IS IN IG t Hm.
    - rewrite Hm. eexists. split; [reflexivity|].
      cbn [import]. rewrite plain_in by apply X. split; [apply X|]. split; [exact I|]. exists (mark None s). split; [reflexivity|]. now rewrite retarget_mark.
    - rewrite Hm. eexists. split; [reflexivity|].
      cbn [import]. rewrite plain_in by apply X. apply (good_dense (TRaw v) _ (mark None v)); [exact I|exact I| |now rewrite retarget_mark].
      apply dense_emits; [exact I|]. apply attributed_flat. exists (raw_node v). split; [reflexivity|]. unfold raw_node, sn_new, flat. rewrite leaves_root.
      destruct v; reflexivity || (cbn; now rewrite app_nil_r).
    - destruct Hm as (vi & ni & -> & A & K). eexists. split; [reflexivity|]. destruct X as [X1 X2].
      cbn [import]. rewrite plain_in by now apply is_ascii_plain.
      apply (good_dense _ _ (mark_tokens advance ni (1, 0)%Z (tokens v))); [exact I| | |].
      + split; [exists n; split; [apply IS; now left|exact K]|]. exists n, v. split; [apply IG; now left|]. auto.
      + now apply original_attributed_ascii.
      + rewrite mark_tokens_rename. now rewrite (rho_known _ _ K).
    - destruct Hm as (ni & oi & -> & K & A). eexists. split; [reflexivity|].
      cbn [import]. rewrite plain_in by exact X.
      apply (good_dense _ _ (mark_lines ni 1 v)); [exact I| | |].
      + split; [exists n; split; [apply IS; now left|exact K]|]. exists n, o. split; [apply IG; now left|]. auto.
      + apply l2l_attributed.
      + rewrite mark_lines_rename. now rewrite (rho_known _ _ K).
    - destruct Hm as (t2 & -> & Hm). destruct X as [X1 X2].
      assert (Xc : exact_child e) by (destruct e; auto; destruct X2).
      destruct (IH Xc IS IN IG t2 Hm) as (M & EM & D & T & M0 & A & EM0). cbn [marks]. rewrite EM. cbn [bind]. eexists. split; [reflexivity|].
      cbn [import]. rewrite plain_in by exact X1.
      assert (NS : match import t2 with TStr _ => False | _ => True end) by (apply (made_tree c1 e t2 Hm); intros s ->; destruct X2).
      assert (D' : dense (import t2)) by now apply dense_of_child.
      assert (A' : attributed true md (import t2) M0) by (destruct (import t2); auto; destruct NS).
      apply (good_dense _ _ (mprefixed p M0)); [exact D'|exact T| |].
      + apply dense_emits; [exact D'|]. apply prefix_attributed; auto using dense_usable. eapply chunks_impl; [apply solid_nonempty|now apply dense_chunks].
      + unfold mprefixed. rewrite mprefix_retarget. now subst M.
    - destruct X.
    - apply exact_concat in X. apply made_concat in Hm as (ts & -> & Hm).
      assert (Y : exists Ms, marks nu (XConcat l) = Some (concat Ms) /\ Forall2 good (map import ts) Ms).
      { cbn [sources_in names_in contents_given] in IS, IN, IG. revert ts Hm.
        induction IH as [|x l Hx _ IHl]; intros ts Hm; inversion Hm as [|? t3 ? ts3 M1 M2]; subst.
        - exists []. split; [reflexivity|constructor].
        - inversion X as [|? ? X1 X2]; subst.
          cbn [flat_map] in IS, IN, IG. apply incl_app_inv in IS as [IS1 IS2], IN as [IN1 IN2], IG as [IG1 IG2].
          destruct (Hx X1 IS1 IN1 IG1 _ M1) as (M & EM & GM). destruct (IHl X2 IS2 IN2 IG2 _ M2) as (Ms & EMs & GMs). exists (M :: Ms).
          cbn [marks] in EMs |- *. rewrite EM. cbn [bind]. rewrite EMs. cbn [bind concat map]. split; [reflexivity|]. constructor; auto. }
      destruct Y as (Ms & EM & GM). exists (concat Ms). split; [exact EM|]. cbn [import]. now apply good_concat.
    - destruct X as (Xv & Xm & Xi). cbn [sources_in names_in contents_given] in IS, IN, IG.
      apply incl_app_inv in IS as [IS1 IS2], IN as [IN1 IN2], IG as [IG1 IG2].
      destruct Hm as (vi & ni & d & oo & ii & -> & _ & K & Pm & A5 & A6).
      destruct (passed_says m d Xm Pm) as (es & Rd & Es). destruct (passed_idx m d Pm IS1 IN1 IG1) as (T1 & T2 & T3).
      cbn [import marks]. rewrite plain_in by exact Xv. rewrite Es. cbn [bind].
      destruct i as [im|].
      + apply incl_app_inv in IG2 as [IG2 IG3].
        assert (Ho : opt_all (RG ni) (option_map snd oo)).
        { destruct o as [|ch o]; [rewrite A5; exact I|]. destruct A5 as (oi & -> & Ao). cbn. exists n, (ch :: o). split; [apply IG2; now left|]. auto. }
        destruct A6 as (id & -> & Pi).
        destruct (passed_says im id Xi Pi) as (ei & Rdi & Ei). destruct (passed_idx im id Pi IS2 IN2 IG3) as (U1 & U2 & U3).
        rewrite Ei. cbn [bind]. eexists. split; [reflexivity|].
        set (x := sms_set_inner _ _ _).
        assert (Hx : sms_value x = v /\ sms_name x = ni /\ sms_map x = mk_cell (Some d) None /\ sms_inner x = Some (mk_cell (Some id) None) /\
          sms_applied x = false /\ sms_original x = option_map snd oo) by (unfold x; destruct oo as [[? ?]|]; repeat split).
        destruct Hx as (X1 & X2 & X3 & X4 & X5 & X6).
        assert (C1 : cell_entries (sms_map x) es) by (rewrite X3; now apply data_entries).
        assert (C2 : cell_entries (mk_cell (Some id) None) ei) by now apply data_entries.
        apply (good_dense _ _ (retarget (through (Some (sms_name x)) ei) (annotate es (sms_value x)))).
        * exists es. split; [exact C1|]. right. eauto 9.
        * split; [|split].
          -- rewrite X3. split; [|exact I]. cbn. auto.
          -- rewrite X4. cbn. split; [|exact I]. cbn. auto.
          -- rewrite X2, X6. intros _. exact Ho.
        * now apply (sms_emits_inner true md x es (mk_cell (Some id) None) ei).
        * rewrite X1, X2, annotate_rename, retarget_retarget. unfold retarget at 1 2. rewrite map_map.
          change (retarget (fun t => through (Some (nu n)) (rename_entries rho ei) (rename rho t)) (annotate es v) =
                  retarget (fun t => rename rho (through (Some ni) ei t)) (annotate es v)).
          apply retarget_ext. intros ch t Ht. rewrite <- (rho_known _ _ K). symmetry. apply through_rename. intros s p nn -> Es'.
          apply annotate_from_in in Ht as (q & Hq). destruct Rd as (_ & _ & Rm & _). pose proof (read_map_sources _ _ _ _ Rm q s p nn Hq) as Hin.
          rewrite Forall_forall in T1. destruct (T1 s Hin) as (str & _ & Ks). eapply rho_inj; eauto.
      + rewrite A6. eexists. split; [reflexivity|]. set (x := match oo with Some _ => _ | None => _ end).
        assert (Hx : sms_value x = v /\ sms_name x = ni /\ sms_map x = mk_cell (Some d) None /\ sms_inner x = None /\
          sms_original x = option_map snd oo) by (unfold x; destruct oo as [[? ?]|]; repeat split).
        destruct Hx as (X1 & X2 & X3 & X4 & X6).
        assert (C1 : cell_entries (sms_map x) es) by (rewrite X3; now apply data_entries).
        apply (good_dense _ _ (annotate es (sms_value x))).
        * exists es. split; [exact C1|]. now left.
        * split; [|split].
          -- rewrite X3. split; [|exact I]. cbn. auto.
          -- rewrite X4. exact I.
          -- rewrite X4. intro Hn. now elim Hn.
        * now apply sms_emits.
        * rewrite X1. apply annotate_rename.
  Qed.
End Build.

