(** Renaming the numbers of sources and names; building expressions. *)
From Verif Require Import Base Tactics ModelString StringFacts ModelVlq ModelSm ModelSlm ModelSources ModelTree ModelWasm
  ModelJs ModelJsApi ModelJsResult SpecText SpecMap SpecAttr SortFacts TextFacts NodeFacts LeafFacts ParseFacts GenFacts SmsProps NodeTree
  IdxFacts JsFacts Utf16Facts JsTextProps SpecResult ResultFacts ResultProps SpecJs ModelEnd SpecEnd.

(** ** Renaming *)
Definition rename (f : Z -> Z) (t : option target) : option target :=
  match t with Some (s, p, n) => Some (f s, p, option_map f n) | None => None end.
Definition rename_entries (f : Z -> Z) (es : list (place * option target)) : list (place * option target) :=
  map (fun e : place * option target => (fst e, rename f (snd e))) es.

Lemma entry_map f l i : entry (map f l) i = option_map f (entry l i).
Proof. unfold entry. destruct (i <? 0)%Z; [reflexivity|]. apply nth_error_map. Qed.
Lemma resolve_map f ss ns s : resolve (map f ss) (map f ns) s =
  option_map (fun e : place * option target => (fst e, rename f (snd e))) (resolve ss ns s).
Proof.
  unfold resolve. destruct (sg_orig s) as [[[[a b] c] n]|]; [|reflexivity]. rewrite entry_map.
  destruct (entry ss a); [|reflexivity]. cbn [option_map bind]. destruct n as [n|]; [|reflexivity]. rewrite entry_map.
  destruct (entry ns n); reflexivity.
Qed.
Lemma all_some_map {A B C} (g : A -> option B) (h : A -> option C) (k : B -> C) : (forall a, h a = option_map k (g a)) ->
  forall l, all_some (map h l) = option_map (map k) (all_some (map g l)).
Proof.
  intro H. induction l as [|a l IH]; [reflexivity|]. cbn [map all_some]. rewrite H, IH.
  destruct (g a); [|reflexivity]. cbn [option_map bind]. destruct (all_some (map g l)); reflexivity.
Qed.
Lemma read_map_rename f ss ns ms : read_map (map f ss) (map f ns) ms = option_map (rename_entries f) (read_map ss ns ms).
Proof.
  unfold read_map. destruct (decode ms) as [segs|]; [|reflexivity]. cbn [bind]. apply all_some_map. intro s. apply resolve_map.
Qed.
Lemma annotate_rename f es s : annotate (rename_entries f es) s = retarget (rename f) (annotate es s).
Proof. unfold annotate, rename_entries. now apply annotate_map. Qed.
Lemma retarget_app F a b : retarget F (a ++ b) = retarget F a ++ retarget F b.
Proof. apply map_app. Qed.
Lemma retarget_mark F a s : retarget F (mark a s) = mark (F a) s.
Proof. unfold retarget, mark. rewrite map_map. reflexivity. Qed.
Lemma mark_tokens_rename f adv n ts : forall p, retarget (rename f) (mark_tokens adv n p ts) = mark_tokens adv (f n) p ts.
Proof.
  induction ts as [|t ts IH]; intro p; [reflexivity|]. cbn [mark_tokens]. rewrite retarget_app, IH, retarget_mark.
  destruct (forallb is_ws t); reflexivity.
Qed.
Lemma mark_lines_rename f n s : forall l, retarget (rename f) (mark_lines n l s) = mark_lines (f n) l s.
Proof. induction s as [|c s IH]; intro l; [reflexivity|]. cbn [mark_lines retarget map fst snd rename option_map]. f_equal. apply IH. Qed.
Lemma mprefix_retarget F p M : forall b, retarget F (mprefix p b M) = mprefix p b (retarget F M).
Proof.
  induction M as [|[c a] M IH]; intro b; [reflexivity|]. change (retarget F ((c, a) :: M)) with ((c, F a) :: retarget F M).
  cbn [mprefix]. rewrite retarget_app. f_equal; [destruct b; [apply retarget_mark|reflexivity]|].
  change (retarget F ((c, a) :: mprefix p (N.eqb c NL) M)) with ((c, F a) :: retarget F (mprefix p (N.eqb c NL) M)). f_equal. apply IH.
Qed.
Lemma concat_retarget F Ms : retarget F (concat Ms) = concat (map (retarget F) Ms).
Proof. unfold retarget. now rewrite concat_map. Qed.
Lemma text_retarget F M : text_of (retarget F M) = text_of M.
Proof. unfold text_of, retarget. rewrite map_map. reflexivity. Qed.
(** Following the inner map: the file must not be confused with another source. *)
Lemma through_rename f file ei t : (forall s p n, t = Some (s, p, n) -> f s = f file -> s = file) ->
  rename f (through (Some file) ei t) = through (Some (f file)) (rename_entries f ei) (rename f t).
Proof.
  intro H. destruct t as [[[s [ol oc]] n]|]; [|reflexivity]. cbn [through rename].
  destruct (Z.eqb_spec s file) as [->|Hs].
  - rewrite Z.eqb_refl. unfold rename_entries. rewrite lookup_map by reflexivity.
    destruct (lookup ei ol oc) as [[[s' p'] n']|]; [|reflexivity]. cbn [rename option_map]. destruct n'; reflexivity.
  - destruct (Z.eqb_spec (f s) (f file)) as [E|_]; [|reflexivity]. exfalso. apply Hs. now apply (H s (ol, oc) n).
Qed.
Lemma retarget_retarget F G M : retarget F (retarget G M) = retarget (fun t => F (G t)) M.
Proof. unfold retarget. rewrite map_map. reflexivity. Qed.
Lemma retarget_ext F G M : (forall c t, In (c, t) M -> F t = G t) -> retarget F M = retarget G M.
Proof. intro H. apply map_ext_in. intros [c t] Hx. cbn. f_equal. eauto. Qed.

(** The targets an annotated text can have. *)
Lemma annotate_from_in es s : forall p c t, In (c, Some t) (annotate_from es p s) -> exists q, In (q, Some t) es.
Proof.
  induction s as [|d s IH]; intros p c t H; [destruct H|]. cbn [annotate_from] in H. destruct H as [H|H]; [|eauto].
  injection H as _ H. unfold lookup in H. destruct (find_entry es (fst p) (snd p)) as [[q o]|] eqn:E; [|discriminate]. subst o.
  apply find_entry_in in E as (I1 & _). eauto.
Qed.
Lemma read_map_sources ss ns ms es : read_map ss ns ms = Some es -> forall q s p n, In (q, Some (s, p, n)) es -> In s ss.
Proof.
  unfold read_map. intros E q s p n H. unbind E. clear E0. revert es E H. induction v as [|x l IH]; intros es E H; cbn [map all_some] in E.
  - injection E as <-. destruct H.
  - unbind E. unbind E. injection E as <-. destruct H as [->|H]; [|eauto]. clear - E0. unfold resolve in E0.
    destruct (sg_orig x) as [[[[a b] c] m]|]; [|discriminate]. unbind E0. unbind E0. injection E0 as _ <- _ _.
    unfold entry in E. destruct (a <? 0)%Z; [discriminate|]. now apply nth_error_In in E.
Qed.

(** ** Strings without surrogates *)
Lemma plain_in u : plain u -> from_js u = u.
Proof. intro H. apply from_js_utf16. now apply plain_utf16. Qed.
Lemma plain_out u : plain u -> ~ starts_with BOM u -> to_js u = u.
Proof.
  intros H B. unfold to_js. destruct u as [|c r]; [reflexivity|]. destruct (N.eqb_spec c BOM) as [->|_]; [exfalso; apply B; now exists r|].
  now apply units_plain.
Qed.
Lemma ascii_plain u : Forall (fun c => c < 128)%N u -> plain u /\ ~ starts_with BOM u.
Proof.
  intro H. split.
  - eapply Forall_impl; [|exact H]. intros c Hc. cbn beta in Hc. unfold scalar. lia.
  - intros (r & ->). inversion H; subst. unfold BOM in *. lia.
Qed.
Lemma is_ascii_plain u : forallb is_ascii u = true -> plain u.
Proof.
  intro H. apply ascii_plain. rewrite forallb_forall in H. apply Forall_forall. intros c Hc. specialize (H c Hc). unfold is_ascii in H. unfold char in *. lia.
Qed.

(** ** Strings in the cache *)
Definition at_ (c : cache) (i : Z) (s : jstr) : Prop := exists k, i = Z.of_nat k /\ nth_error (ca_array c) k = Some s.
Definition known (c : cache) (i : Z) (s : jstr) : Prop := exists k, i = Z.of_nat k /\ cache_index_of c s = Some k.
Lemma known_at c i s : cache_ok c -> known c i s -> at_ c i s.
Proof. intros H (k & -> & E). exists k. split; [reflexivity|]. now apply H. Qed.
Lemma known_grows c c' i s : grows c c' -> known c i s -> known c' i s.
Proof. intros [_ G] (k & -> & E). exists k. auto. Qed.
Lemma at_grows c c' i s : grows c c' -> at_ c i s -> at_ c' i s.
Proof. intros [[l El] _] (k & -> & E). exists k. split; [reflexivity|]. rewrite El. rewrite nth_error_app1; [exact E|]. apply nth_error_Some. congruence. Qed.
Lemma known_index c i j s : known c i s -> known c j s -> i = j.
Proof. intros (k & -> & E) (k' & -> & E'). congruence. Qed.
Lemma at_string c i s s' : at_ c i s -> at_ c i s' -> s = s'.
Proof. intros (k & -> & E) (k' & Ek & E'). apply Nat2Z.inj in Ek. congruence. Qed.

Lemma add_known c s c' i : cache_ok c -> cache_add c s = (c', i) -> cache_ok c' /\ grows c c' /\ known c' (Z.of_nat i) s.
Proof.
  intros H E. destruct (add_grows _ _ _ _ H E) as (A & B & _). split; [exact A|]. split; [exact B|]. exists i. split; [reflexivity|].
  unfold cache_add in E. destruct (cache_index_of c s) as [k|] eqn:Ek; [injection E as <- <-; exact Ek|]. injection E as <- <-.
  unfold cache_index_of. cbn. now rewrite (proj2 (jstr_eqb_eq s s) eq_refl).
Qed.
Lemma addu_at c s c' i : cache_ok c -> cache_add_unchecked c s = (c', i) -> cache_ok c' /\ grows c c' /\ at_ c' (Z.of_nat i) s.
Proof. intros H E. destruct (addu_grows _ _ _ _ H E) as (A & B & C). split; [exact A|]. split; [exact B|]. exists i. auto. Qed.
Lemma add_list_spec add (X : cache -> Z -> jstr -> Prop) :
  (forall c s c' i, cache_ok c -> add c s = (c', i) -> cache_ok c' /\ grows c c' /\ X c' (Z.of_nat i) s) ->
  (forall c c' i s, grows c c' -> X c i s -> X c' i s) ->
  forall l c c' is, cache_ok c -> add_list add c l = (c', is) -> cache_ok c' /\ grows c c' /\ Forall2 (X c') is l.
Proof.
  intros Ha Hg. induction l as [|s l IH]; intros c c' is Hc E; cbn [add_list] in E.
  - injection E as <- <-. split; [exact Hc|]. split; [apply grows_refl|constructor].
  - destruct (add c s) as [c1 i] eqn:E1. destruct (add_list add c1 l) as [c2 js] eqn:E2. injection E as <- <-.
    destruct (Ha _ _ _ _ Hc E1) as (O1 & G1 & X1). destruct (IH _ _ _ O1 E2) as (O2 & G2 & X2).
    split; [exact O2|]. split; [eapply grows_trans; eauto|]. constructor; [eauto|exact X2].
Qed.
Lemma Forall2_mono {A B} (X Y : A -> B -> Prop) l l' : (forall a b, X a b -> Y a b) -> Forall2 X l l' -> Forall2 Y l l'.
Proof. intro H. induction 1; auto. Qed.

Lemma Forall2_len {A B} (X : A -> B -> Prop) l l' : Forall2 X l l' -> length l = length l'.
Proof. induction 1; cbn; auto. Qed.

(** What has been passed for a map. *)
Definition passed (c : cache) (m : jmap) (d : sm_content) : Prop :=
  Forall2 (known c) (sc_sources d) (jm_sources m) /\ Forall2 (at_ c) (sc_contents d) (jm_contents m) /\
  Forall2 (known c) (sc_names d) (jm_names m) /\ sc_mappings d = from_js (jm_mappings m).
Lemma passed_grows c c' m d : grows c c' -> passed c m d -> passed c' m d.
Proof.
  intros G (A & B & C & D). unfold passed. repeat split; auto; (eapply Forall2_mono; [|eassumption]); intros; eauto using known_grows, at_grows.
Qed.
Lemma pass_map_spec c m c' d : cache_ok c -> pass_map c m = (c', d) -> cache_ok c' /\ grows c c' /\ passed c' m d.
Proof.
  intros Hc E. unfold pass_map in E.
  destruct (add_list cache_add c (jm_sources m)) as [c1 ss] eqn:E1. destruct (add_list cache_add_unchecked c1 (jm_contents m)) as [c2 ks] eqn:E2.
  destruct (add_list cache_add c2 (jm_names m)) as [c3 ns] eqn:E3. injection E as <- <-.
  destruct (add_list_spec _ known add_known known_grows _ _ _ _ Hc E1) as (O1 & G1 & X1).
  destruct (add_list_spec _ at_ addu_at at_grows _ _ _ _ O1 E2) as (O2 & G2 & X2).
  destruct (add_list_spec _ known add_known known_grows _ _ _ _ O2 E3) as (O3 & G3 & X3).
  split; [exact O3|]. split; [eauto using grows_trans|]. split; [|split; [|split; [exact X3|reflexivity]]].
  - eapply Forall2_mono; [|exact X1]. intros. eauto using known_grows.
  - eapply Forall2_mono; [|exact X2]. intros. eauto using at_grows.
Qed.

Lemma known_nodup c is l : cache_ok c -> Forall2 (known c) is l -> NoDup l -> NoDup is.
Proof.
  intros Hc H. induction H as [|i s is l H1 H2 IH]; intro N; [constructor|]. inversion N as [|? ? N1 N2]; subst. constructor; [|auto].
  intro Hin. apply N1. clear - Hc H1 H2 Hin. induction H2 as [|j t is l H3 H4 IH]; [destruct Hin|]. destruct Hin as [->|Hin]; [left|right; auto].
  eapply at_string; [apply known_at; [exact Hc|exact H3]|apply known_at; [exact Hc|exact H1]].
Qed.

(** ** Sound maps can be read *)
Lemma nth_some {A} (l : list A) k : k < length l -> exists x, nth_error l k = Some x.
Proof. intro H. destruct (nth_error l k) eqn:E; [eauto|]. apply nth_error_None in E. lia. Qed.
Lemma entry_some l i : (0 <= i < Z.of_nat (length l))%Z -> exists x, entry l i = Some x.
Proof. intro H. unfold entry. destruct (Z.ltb_spec i 0); [lia|]. apply nth_some. lia. Qed.
Lemma resolve_some ss ns s : small_seg s -> in_range (length ss) (length ns) s -> exists o,
  resolve ss ns s = Some ((sg_line s + 1, sg_col s)%Z, o).
Proof.
  unfold small_seg, in_range, resolve. intros [_ H] R. destruct (sg_orig s) as [[[[a b] c] n]|]; [|eexists; reflexivity].
  destruct H as (H1 & H2 & H3 & H4), R as [R1 R2].
  destruct (entry_some ss a) as [x Ex]; [lia|]. rewrite Ex. cbn [bind]. destruct n as [n|]; [|eexists; reflexivity].
  destruct (entry_some ns n) as [y Ey]; [lia|]. rewrite Ey. cbn [bind]. eexists; reflexivity.
Qed.
Lemma resolve_all ss ns segs : Forall small_seg segs -> Forall (in_range (length ss) (length ns)) segs ->
  exists es, all_some (map (resolve ss ns) segs) = Some es /\
    forall e, In e es -> exists s, In s segs /\ resolve ss ns s = Some e.
Proof.
  induction segs as [|s segs IH]; intros H R; [exists []; split; [reflexivity|intros e []]|].
  inversion H as [|? ? H1 H2]; subst. inversion R as [|? ? R1 R2]; subst. destruct (IH H2 R2) as (es & E & F).
  destruct (resolve_some ss ns s H1 R1) as [o Eo]. cbn [map all_some]. rewrite Eo, E. cbn [bind].
  eexists. split; [reflexivity|]. intros e [<-|He]; [exists s; split; [now left|exact Eo]|]. destruct (F e He) as (s' & I & E'). exists s'. split; [now right|exact E'].
Qed.
Lemma sound_readable c m d : cache_ok c -> sound_map m -> passed c m d -> exists es, readable d es.
Proof.
  intros Hc (N1 & N2 & Pl & segs & Hd & Sm & Rg & U) (A & B & C & D). rewrite plain_in in D by exact Pl.
  rewrite <- (Forall2_len _ _ _ A), <- (Forall2_len _ _ _ C) in Rg.
  destruct (resolve_all (sc_sources d) (sc_names d) segs Sm Rg) as (es & E & F). exists es. unfold readable. rewrite D.
  split; [eapply known_nodup; eauto|]. split; [eapply known_nodup; eauto|]. split; [unfold read_map; now rewrite Hd|].
  split; [exists segs; split; [exact Hd|]|].
  - eapply Forall_impl; [|exact Sm]. intros s [S1 S2]. unfold small, u32, u32_max. split; [lia|]. destruct (sg_orig s) as [[[[a b] c0] n]|]; [|exact I].
    destruct n; lia.
  - assert (G : forall e, In e es -> exists s, In s segs /\ fst e = (sg_line s + 1, sg_col s)%Z /\ resolve (sc_sources d) (sc_names d) s = Some e).
    { intros e He. destruct (F e He) as (s & Is & Es). exists s. split; [exact Is|]. split; [|exact Es].
      destruct (resolve_some (sc_sources d) (sc_names d) s) as [o Eo]; [rewrite Forall_forall in Sm; auto|rewrite Forall_forall in Rg; auto|].
      rewrite Es in Eo. injection Eo as ->. reflexivity. }
    split.
    + intros e e' He He' Ef. destruct (G e He) as (s & Is & Fs & Es), (G e' He') as (s' & Is' & Fs' & Es').
      rewrite Fs, Fs' in Ef. injection Ef as E1 E2. assert (L : sg_line s = sg_line s') by lia. specialize (U s s' Is Is' L E2).
      unfold resolve in Es, Es'. rewrite <- U, L, E2 in *. rewrite Es in Es'. now injection Es' as ->.
    + apply Forall_forall. intros e He. destruct (G e He) as (s & Is & Fs & _). destruct e as [[a b] o]. cbn in Fs. injection Fs as -> ->. cbn. rewrite Forall_forall in Sm. destruct (Sm s Is) as [S1 _]. lia.
Qed.

