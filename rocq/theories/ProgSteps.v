(** Programs of the JavaScript API: every call keeps the invariant. *)
From Verif Require Import Base Tactics ModelString ModelVlq ModelSm ModelSlm ModelSources ModelTree ModelHeap
  ModelWasm ModelJs ModelJsApi ModelJsResult ModelEnd ModelJsProg SortFacts EditFacts TreeText SpecHeap HeapFacts HeapProps
  SpecMap SpecAttr JsFacts SpecJs SpecResult ResultFacts ResultProps SpecEnd EndFacts MadeFacts EndMap SpecProg IdxFacts ProgFacts.

(** ** Changing an object *)
Lemma lately_same h0 h p o : lately h0 h -> nth_error h p = Some o -> (match o with OReplace _ _ | OSms _ => False | _ => True end) -> nth_error h0 p = Some o.
Proof.
  intros L E N. specialize (L p I). rewrite E in L. destruct (nth_error h0 p) as [o'|]; [|destruct L].
  destruct o'; cbn [later_obj] in L; try congruence; destruct o; try contradiction.
Qed.
Lemma lately_same' h0 h p o : lately h0 h -> nth_error h0 p = Some o -> (match o with OReplace _ _ | OSms _ => False | _ => True end) -> nth_error h p = Some o.
Proof.
  intros L E N. specialize (L p I). rewrite E in L. destruct (nth_error h p) as [o'|]; [|destruct L].
  destruct o; cbn [later_obj] in L; try contradiction; congruence.
Qed.

Section Change.
  Context {st : jstate} {vs : list sobj} {h0 : heap} (Iv : prog_inv st vs h0).
  Notation objs := (js_objs st).

  (** Object [i] with pointer [p] gets new contents. *)
  Lemma inv_change i b v p o o1 o2 b' f :
    nth_error objs i = Some b -> nth_error vs i = Some v -> own_ptr b = Some p -> nth_error h0 p = Some o -> changing o -> changing o1 ->
    own_ptr b' = Some p -> later_obj kept o1 o2 ->
    (forall l, o = OConcat l <-> False) \/ (exists l l1, o = OConcat l /\ o1 = OConcat l1 /\
       forall q, In (SRef q) l1 -> exists x, nth_error h0 q = Some x /\ forall l', x <> OConcat l') ->
    ((forall l, o = OConcat l <-> False) -> forall l, o1 <> OConcat l) ->
    (objs_ext objs (set_nth objs i b') -> matches (js_cache st) (h_set h0 p o1) (set_nth objs i b') b' (f v)) ->
    (forall j, f v <> VSame j) ->
    prog_inv (set_obj (set_heap st (h_set (js_heap st) p o2)) i b') (update_at i f vs) (h_set h0 p o1).
  Proof.
    intros Ei Ev Ep Eo Co Co1 Ep' L12 Cs Cs' M Nf. pose proof (nth_lt _ _ _ Eo) as Lp. pose proof (nth_lt _ _ _ Ei) as Li.
    assert (NC : forall j t n, b <> BCached j t n) by (intros j t n ->; discriminate).
    assert (X : objs_ext objs (set_nth objs i b')).
    { apply (ext_set _ _ b); [exact Ei|congruence|]. destruct b; auto. destruct (NC source text size); reflexivity. }
    specialize (M X). destruct Iv as [H1 H2 H3 H4 H5 H6 H7 H8 H9].
    assert (O : forall j x q y, nth_error objs j = Some x -> j <> i -> own_ptr x = Some q -> nth_error h0 q = Some y -> nth_error (h_set h0 p o1) q = Some y).
    { intros j x q y Ej N Eq Ey. rewrite nth_h_set. destruct (Nat.eqb_spec p q) as [<-|]; [|exact Ey].
      destruct N. symmetry. eapply (H6 i j b x p y); eauto. congruence. }
    constructor; cbn [js_cache js_heap js_raws js_boots js_objs set_obj set_heap]; auto.
    - now apply lately_set.
    - now rewrite length_set_nth, length_update.
    - intros j x w Ej Ew. rewrite nth_set_nth in Ej. rewrite nth_update in Ew. destruct (Nat.eqb_spec i j) as [<-|N].
      + apply Nat.ltb_lt in Li. rewrite Li in Ej. injection Ej as <-. rewrite Ev in Ew. injection Ew as <-. exact M.
      + eapply matches_mono; [apply grows_refl|exact X| |exact (H4 _ _ _ Ej Ew)]. intros q y Eq Ey. eapply O; eauto.
    - assert (K : forall q x, nth_error h0 q = Some x -> (forall l', x <> OConcat l') ->
        exists x', nth_error (h_set h0 p o1) q = Some x' /\ forall l', x' <> OConcat l').
      { intros q x En Nx. rewrite nth_h_set. destruct (Nat.eqb_spec p q) as [<-|]; [|eauto].
        apply Nat.ltb_lt in Lp. rewrite Lp. exists o1. split; [reflexivity|]. apply Cs'. intros l. split; [|tauto].
        intros ->. assert (x = OConcat l) by congruence. now apply (Nx l). }
      intros q l r E Hr. rewrite nth_h_set in E. destruct (Nat.eqb_spec p q) as [<-|N].
      + apply Nat.ltb_lt in Lp. rewrite Lp in E. injection E as ->. destruct Cs as [C|(l0 & l1 & -> & E1 & C)].
        * destruct (Cs' C l). reflexivity.
        * injection E1 as <-. destruct (C _ Hr) as (x & En & Nx). eauto.
      + destruct (H5 _ _ _ E Hr) as (x & En & Nx). eauto.
    - intros j k x x' q y Ej Ek Eq Eq' Ey Cy.
      assert (R : forall j x, nth_error (set_nth objs i b') j = Some x -> exists x', nth_error objs j = Some x' /\ own_ptr x' = own_ptr x).
      { clear - Ei Li Ep Ep'. intros j x E. rewrite nth_set_nth in E. destruct (Nat.eqb_spec i j) as [<-|]; [|eauto].
        apply Nat.ltb_lt in Li. rewrite Li in E. injection E as <-. exists b. split; [exact Ei|congruence]. }
      destruct (R _ _ Ej) as (z & Ej' & Oz). destruct (R _ _ Ek) as (z' & Ek' & Oz').
      rewrite nth_h_set in Ey. destruct (Nat.eqb_spec p q) as [<-|N].
      + eapply (H6 j k z z' p o); eauto; congruence.
      + eapply (H6 j k z z' q y); eauto; congruence.
    - intros w q E. specialize (H7 _ _ E). rewrite nth_h_set. destruct (Nat.eqb_spec p q) as [<-|]; [|exact H7].
      rewrite Eo in H7. injection H7 as ->. destruct Co.
    - intros j k E. rewrite nth_update in E. destruct (Nat.eqb_spec i j) as [<-|N]; [|eauto]. rewrite Ev in E. injection E as E. now destruct (Nf k).
  Qed.
End Change.

(** The object behind an argument. *)
Lemma inside_enough (vs : list sobj) : (forall i j, nth_error vs i = Some (VSame j) -> j < i) ->
  forall d d' i, i <= d -> i <= d' -> inside d vs i = inside d' vs i.
Proof.
  intro Dn. induction d as [|d IH]; intros [|d'] i L L'; cbn [inside]; try reflexivity.
  - assert (i = 0) by lia. subst i. destruct (nth_error vs 0) as [v|] eqn:E; [|reflexivity]. destruct v; try reflexivity.
    pose proof (Dn _ _ E). lia.
  - assert (i = 0) by lia. subst i. destruct (nth_error vs 0) as [v|] eqn:E; [|reflexivity]. destruct v; try reflexivity.
    pose proof (Dn _ _ E). lia.
  - destruct (nth_error vs i) as [v|] eqn:E; [|reflexivity]. destruct v; try reflexivity. pose proof (Dn _ _ E). apply IH; lia.
Qed.
Lemma behind_same vs i j : (forall i j, nth_error vs i = Some (VSame j) -> j < i) -> nth_error vs i = Some (VSame j) -> behind vs i = behind vs j.
Proof.
  intros Dn E. pose proof (Dn _ _ E) as L. unfold behind. destruct i as [|i]; [lia|]. cbn [inside]. rewrite E. apply inside_enough; auto; lia.
Qed.
Lemma behind_fresh vs i : fresh_reads vs i -> behind vs i = nth_error vs i.
Proof. intro F. unfold behind. destruct i; cbn [inside]; destruct (nth_error vs _) as [v|] eqn:E; try reflexivity; destruct v; try reflexivity; destruct (F _ E). Qed.
Lemma own_fresh_reads st vs h0 i b p : prog_inv st vs h0 -> nth_error (js_objs st) i = Some b -> own_ptr b = Some p -> fresh_reads vs i.
Proof.
  intros Iv E O j Ev. destruct (inv_cachedv Iv _ _ Ev) as (t & n & E'). rewrite E in E'. injection E' as ->. discriminate.
Qed.
Lemma inv_core st vs h0 i p : prog_inv st vs h0 -> ptr_of (js_objs st) i = Some p ->
  exists k b v, wraps vs i k /\ nth_error (js_objs st) k = Some b /\ own_ptr b = Some p /\ nth_error vs k = Some v /\ behind vs i = Some v.
Proof.
  intro Iv. pose proof (iv_down _ _ _ Iv) as Dn. revert p. induction i as [i IH] using lt_wf_ind. intros p E.
  destruct (nth_error (js_objs st) i) as [b|] eqn:Ei; [|unfold ptr_of in E; destruct i; cbn [ptr_from] in E; rewrite Ei in E; discriminate].
  destruct (own_ptr b) as [q|] eqn:Ob.
  - rewrite (inv_ptr _ _ _ Ei Ob) in E. injection E as ->. destruct (inv_val Iv _ _ Ei) as (v & Ev).
    exists i, b, v. split; [constructor|]. split; [exact Ei|]. split; [exact Ob|]. split; [exact Ev|].
    rewrite behind_fresh; [exact Ev|]. eapply own_fresh_reads; eauto.
  - destruct b as [| | | | | | |j t n]; try discriminate. destruct (inv_same Iv _ _ _ _ Ei) as (Ev & L & q & Pj & Pi).
    rewrite Pi in E. injection E as ->. destruct (IH _ L _ Pj) as (k & b & v & W & Ek & Ok & Evk & B).
    exists k, b, v. split; [econstructor; eauto|]. split; [exact Ek|]. split; [exact Ok|]. split; [exact Evk|].
    rewrite (behind_same _ _ _ Dn Ev). exact B.
Qed.
Lemma inv_behind st vs h0 i p : prog_inv st vs h0 -> ptr_of (js_objs st) i = Some p ->
  exists k b v, nth_error (js_objs st) k = Some b /\ own_ptr b = Some p /\ nth_error vs k = Some v /\ behind vs i = Some v /\
    matches (js_cache st) h0 (js_objs st) b v.
Proof.
  intros Iv E. destruct (inv_core _ _ _ _ _ Iv E) as (k & b & v & _ & Ek & Ok & Ev & B). exists k, b, v.
  repeat (split; [assumption|]). exact (iv_objs _ _ _ Iv _ _ _ Ek Ev).
Qed.

Lemma matches_heap c h objs b v p : matches c h objs b v -> own_ptr b = Some p ->
  match v with
  | VConcat l g => b = BConcat p g /\ exists ss, nth_error h p = Some (OConcat ss) /\ Forall2 (fun a s => pass_arg objs a = Some s) l ss
  | VSame _ => False
  | _ => exists o, nth_error h p = Some o /\ forall l, o <> OConcat l
  end.
Proof.
  intros M E. destruct v; cbn [matches] in M.
  - destruct M as (t & q & o & _ & Eb & Eo & En).
    assert (q = p) by (destruct t; cbn [leaf_js] in Eb; try discriminate; injection Eb as <-; injection E as <-; reflexivity). subst q.
    exists o. split; [exact En|]. intros l ->. unfold leaf_obj in Eo. destruct (import t); discriminate.
  - destruct M as (q & s & -> & En & _). injection E as <-. eexists. split; [exact En|]. discriminate.
  - destruct M as (q & s & -> & En & _). injection E as <-. eexists. split; [exact En|]. discriminate.
  - destruct M as (q & s & -> & En & Ea). injection E as <-. split; [reflexivity|]. eauto.
  - destruct M as (t & n & q & -> & _). discriminate.
Qed.

Lemma forall2_ext (objs objs' : list jobj) l ss : objs_ext objs objs' -> Forall2 (fun a s => pass_arg objs a = Some s) l ss ->
  Forall2 (fun a s => pass_arg objs' a = Some s) l ss.
Proof. intros X H. induction H; constructor; eauto using ext_arg. Qed.

(** ** add *)
Lemma inv_add st vs h0 i a st' : prog_inv st vs h0 -> js_add st i a = Some st' ->
  exists h1, prog_inv st' (spec_add i vs a) h1 /\ length (js_objs st') = length (js_objs st).
Proof.
  intros Iv E. unfold js_add in E. destruct (nth_error (js_objs st) i) as [b|] eqn:Ei; [|discriminate].
  destruct b as [| | | | |p g| |]; try discriminate. destruct (pass_arg (js_objs st) a) as [s|] eqn:Ea; [|discriminate]. cbn [bind] in E.
  destruct (h_add (js_heap st) p s) as [h'| |] eqn:Eh; try discriminate. injection E as <-.
  destruct (inv_val Iv _ _ Ei) as (v & Ev). pose proof (iv_objs _ _ _ Iv _ _ _ Ei Ev) as M.
  pose proof (iv_later _ _ _ Iv) as L.
  assert (Hv : exists l ss, v = VConcat l g /\ nth_error h0 p = Some (OConcat ss) /\ Forall2 (fun a s => pass_arg (js_objs st) a = Some s) l ss).
  { pose proof (matches_heap _ _ _ _ _ p M eq_refl) as H. unfold h_add in Eh.
    destruct v; try (destruct H as (o & En & No); exfalso;
      destruct (nth_error (js_heap st) p) as [o'|] eqn:Eo; [|discriminate]; destruct o'; try discriminate;
      rewrite (lately_same _ _ _ _ L Eo I) in En; injection En as <-; now apply (No children)).
    - destruct H as (B & ss & En & Hf). injection B as <-. eauto.
    - destruct H. }
  destruct Hv as (l & ss & -> & En & Hf). pose proof (lately_same' _ _ _ _ L En I) as En'.
  assert (Y : exists ex, h' = h_set (js_heap st) p (OConcat (ss ++ ex)) /\ Forall2 (fun a s => pass_arg (js_objs st) a = Some s) (added vs a) ex /\
    forall q, In (SRef q) ex -> exists x, nth_error h0 q = Some x /\ forall l', x <> OConcat l').
  { unfold h_add in Eh. rewrite En' in Eh. destruct a as [u|j].
    - injection Ea as <-. injection Eh as <-. exists [SStr (from_js u)]. split; [reflexivity|]. split; [now repeat constructor|].
      intros q [H|[]]; discriminate.
    - cbn [pass_arg] in Ea. destruct (ptr_of (js_objs st) j) as [q|] eqn:Eq; [|discriminate]. cbn [bind] in Ea. injection Ea as <-.
      destruct (inv_behind _ _ _ _ _ Iv Eq) as (k & b & w & Ek & Ob & Ew & Bw & Mw).
      destruct (Nat.eqb p q); [discriminate|]. cbn [added]. rewrite Bw. pose proof (matches_heap _ _ _ _ _ q Mw Ob) as H.
      assert (G : forall o, nth_error h0 q = Some o -> (forall l, o <> OConcat l) -> h' = h_set (js_heap st) p (OConcat (ss ++ [SRef q]))).
      { intros o Eo No. destruct (nth_error (js_heap st) q) as [o'|] eqn:Eo'; [|discriminate].
        destruct o'; try (injection Eh as <-; reflexivity). rewrite (lately_same _ _ _ _ L Eo' I) in Eo. injection Eo as <-.
        now destruct (No children). }
      assert (A1 : Forall2 (fun a s => pass_arg (js_objs st) a = Some s) [ArgObj j] [SRef q]) by (constructor; [cbn [pass_arg]; now rewrite Eq|constructor]).
      destruct w as [e|pre a|a cs|l2 g2|j2].
      + destruct H as (o & Eo & No). exists [SRef q]. split; [eauto|]. split; [exact A1|]. intros r [Hr|[]]. injection Hr as <-. eauto.
      + destruct H as (o & Eo & No). exists [SRef q]. split; [eauto|]. split; [exact A1|]. intros r [Hr|[]]. injection Hr as <-. eauto.
      + destruct H as (o & Eo & No). exists [SRef q]. split; [eauto|]. split; [exact A1|]. intros r [Hr|[]]. injection Hr as <-. eauto.
      + destruct H as (_ & ss2 & Eo & Hf2). rewrite (lately_same' _ _ _ _ L Eo I) in Eh. injection Eh as <-. exists ss2.
        split; [reflexivity|]. split; [exact Hf2|]. intros r Hr. exact (iv_flat _ _ _ Iv _ _ _ Eo Hr).
      + destruct H. }
  destruct Y as (ex & -> & Hex & Hfl).
  exists (h_set h0 p (OConcat (ss ++ ex))). split; [|cbn [set_obj set_heap js_objs]; now rewrite length_set_nth].
  pose proof (nth_lt _ _ _ En) as Lp. apply Nat.ltb_lt in Lp.
  unfold spec_add. eapply (inv_change Iv i (BConcat p g) (VConcat l g) p (OConcat ss)); eauto; try exact I; try reflexivity.
  - right. exists ss, (ss ++ ex). split; [reflexivity|]. split; [reflexivity|]. intros q Hq. apply in_app_or in Hq as [Hq|Hq]; [|eauto].
    exact (iv_flat _ _ _ Iv _ _ _ En Hq).
  - intros H. exfalso. now apply (H ss).
  - intro X. cbn [matches]. exists p, (ss ++ ex). split; [reflexivity|]. split; [rewrite nth_h_set, Nat.eqb_refl, Lp; reflexivity|].
    apply Forall2_app; eauto using forall2_ext.
  - discriminate.
Qed.
Lemma inv_adds i l : forall st vs h0 st', prog_inv st vs h0 -> js_adds st i l = Some st' ->
  exists h1, prog_inv st' (fold_left (spec_add i) l vs) h1.
Proof.
  induction l as [|a l IH]; intros st vs h0 st' Iv E; cbn [js_adds] in E.
  - injection E as <-. exists h0. exact Iv.
  - destruct (js_add st i a) as [st1|] eqn:E1; [|discriminate]. cbn [bind] in E. destruct (inv_add _ _ _ _ _ _ Iv E1) as (h1 & Iv1 & _).
    cbn [fold_left]. eauto.
Qed.

(** ** replace, insert *)
Lemma inv_call st vs h0 i p k s r : prog_inv st vs h0 -> nth_error (js_objs st) i = Some (BReplace p) -> k <> JRead ->
  nth_error (js_heap st) p = Some (OReplace s r) ->
  exists h1, prog_inv (set_heap st (h_set (js_heap st) p (OReplace s (js_step r k)))) (spec_call i vs k) h1.
Proof.
  intros Iv Ei NR Eo. destruct (inv_val Iv _ _ Ei) as (v & Ev). pose proof (iv_objs _ _ _ Iv _ _ _ Ei Ev) as M.
  assert (Hv : exists a l s0, v = VEdit a l /\ nth_error h0 p = Some (OReplace s0 (js_run l)) /\ pass_arg (js_objs st) a = Some s0).
  { destruct v; cbn [matches] in M.
    - destruct M as (t & q & o & _ & B & _). destruct t; discriminate.
    - destruct M as (q & s0 & B & _); discriminate.
    - destruct M as (q & s0 & B & En & Ea). injection B as <-. eauto 6.
    - destruct M as (q & s0 & B & _); discriminate.
    - destruct M as (? & ? & ? & B & _); discriminate. }
  destruct Hv as (a & l & s0 & -> & En & Ea). pose proof (iv_later _ _ _ Iv p I) as Lo. rewrite En, Eo in Lo. cbn [later_obj] in Lo. destruct Lo as (<- & Hs).
  exists (h_set h0 p (OReplace s0 (js_step (js_run l) k))).
  assert (Es : set_obj (set_heap st (h_set (js_heap st) p (OReplace s0 (js_step r k)))) i (BReplace p) =
               set_heap st (h_set (js_heap st) p (OReplace s0 (js_step r k)))).
  { unfold set_obj, set_heap. cbn [js_cache js_heap js_raws js_boots js_objs]. f_equal. clear - Ei. revert i Ei.
    generalize (js_objs st) as l. induction l as [|x l IH]; intros [|i] Ei; cbn in *; try discriminate; [congruence|f_equal; auto]. }
  rewrite <- Es. pose proof (nth_lt _ _ _ En) as Lp. apply Nat.ltb_lt in Lp.
  unfold spec_call. eapply (inv_change Iv i (BReplace p) (VEdit a l) p (OReplace s0 (js_run l))); eauto; try exact I; try reflexivity.
  - cbn [later_obj]. split; [reflexivity|]. apply step_sort; auto. apply numbered_run.
  - left. intros l'. split; [discriminate|tauto].
  - intros _ l'. discriminate.
  - intro X. cbn [matches]. exists p, s0. split; [reflexivity|]. split; [|eauto using ext_arg].
    rewrite nth_h_set, Nat.eqb_refl, Lp. unfold js_run. now rewrite fold_left_app.
  - discriminate.
Qed.

(** ** Reads *)
Lemma set_heap_same st : set_heap st (js_heap st) = st.
Proof. now destruct st. Qed.
Lemma set_heap_twice st h h' : set_heap (set_heap st h) h' = set_heap st h'.
Proof. reflexivity. Qed.
Lemma inv_heap st vs h0 h : prog_inv st vs h0 -> lately h0 h -> prog_inv (set_heap st h) vs h0.
Proof. intros [H1 H2 H3 H4 H5 H6 H7 H8 H9] L. now constructor. Qed.
Definition only_reads (st st' : jstate) : Prop :=
  exists h, st' = set_heap st h /\ forall h0, lately h0 (js_heap st) -> lately h0 h.
Lemma only_refl st : only_reads st st.
Proof. exists (js_heap st). split; [symmetry; apply set_heap_same|auto]. Qed.
Lemma only_trans a b c : only_reads a b -> only_reads b c -> only_reads a c.
Proof. intros (h & -> & H) (h' & -> & H'). exists h'. split; [reflexivity|]. intros h0 L. apply H'. now apply H. Qed.
Lemma only_inv st st' vs h0 : only_reads st st' -> prog_inv st vs h0 -> prog_inv st' vs h0.
Proof. intros (h & -> & H) Iv. apply inv_heap; [exact Iv|]. apply H. apply (iv_later _ _ _ Iv). Qed.

Lemma read_only {A} (q : question) (f : A -> answer) (r : res (heap * A)) st p h v :
  put (js_heap st) p q = rmap f r -> of_res r = Some (h, v) -> only_reads st (set_heap st h).
Proof.
  intros E Er. destruct r as [[h1 v1]| |]; try discriminate. injection Er as <- <-. cbn in E. exists h1. split; [reflexivity|].
  intros h0 L. eapply put_later; eauto.
Qed.
Lemma source_only st b st' s : read_source st b = Some (st', s) -> only_reads st st'.
Proof.
  intro E. destruct b; cbn [read_source] in E; try discriminate; try (injection E as <- _; apply only_refl);
    unb E as [h t] E1; injection E as <- _; (eapply (read_only AskSource GotText); [reflexivity|eauto]).
Qed.
Lemma size_only st b st' s : read_size st b = Some (st', s) -> only_reads st st'.
Proof.
  intro E. destruct b; cbn [read_size] in E; try discriminate; try (injection E as <- _; apply only_refl);
    unb E as [h t] E1; injection E as <- _; (eapply (read_only AskSize GotSize); [reflexivity|eauto]).
Qed.
Lemma map_only st b c m st' r : read_map_of st b c m = Some (st', r) -> only_reads st st'.
Proof.
  intro E. destruct b; cbn [read_map_of own_ptr bind] in E; try discriminate; try (injection E as <- _; apply only_refl);
    (destruct c; unb E as [h t] E1; [unb E as w E2|]; injection E as <- _;
     [eapply (read_only (AskNode true m) GotNode)|eapply (read_only (AskLines false m) GotLines)]; [reflexivity|eauto|reflexivity|eauto]).
Qed.
Definition hash_all (stack : nat) : jstate -> list jarg -> option (jstate * jstr) :=
  fix go (st : jstate) (l : list jarg) : option (jstate * jstr) :=
    match l with
    | [] => Some (st, [])
    | x :: r =>
        let* (st, s) := update_hash stack st x in
        let* (st, t) := go st r in
        Some (st, s ++ t)
    end.
Lemma hash_concat stack st i p l : nth_error (js_objs st) i = Some (BConcat p l) -> update_hash (S stack) st (ArgObj i) = hash_all stack st l.
Proof. intro E. cbn [update_hash]. rewrite E. reflexivity. Qed.
Lemma hash_only stack : forall st a st' s, update_hash stack st a = Some (st', s) -> only_reads st st'.
Proof.
  induction stack as [|n IH]; intros st [u|i] st' s E; try (injection E as <- _; apply only_refl); [discriminate|].
  destruct (nth_error (js_objs st) i) as [b|] eqn:Ei; [|cbn [update_hash] in E; rewrite Ei in E; discriminate].
  destruct b as [p v|p v|p v o|p pre a|p|p l|p v o|j t k].
  6: { rewrite (hash_concat _ _ _ _ _ Ei) in E. clear Ei. revert st s E. induction l as [|x l IHl]; intros st s E; cbn [hash_all] in E.
       - injection E as <- _. apply only_refl.
       - unb E as [st1 s1] E1. unb E as [st2 s2] E2. injection E as <- _. eapply only_trans; eauto. }
  all: cbn [update_hash] in E; rewrite Ei in E; cbn [bind] in E; try (injection E as <- _; apply only_refl).
  - unb E as [st1 s1] E1. injection E as <- _. eauto.
  - eapply source_only; eauto.
  - eauto.
Qed.

(** A CachedSource remembers. *)
Lemma inv_cached st vs h0 i j t n t' n' : prog_inv st vs h0 -> nth_error (js_objs st) i = Some (BCached j t n) ->
  prog_inv (set_obj st i (BCached j t' n')) vs h0.
Proof.
  intros Iv Ei. assert (X : objs_ext (js_objs st) (set_nth (js_objs st) i (BCached j t' n'))) by (apply (ext_set _ _ (BCached j t n)); [exact Ei|reflexivity|eauto]).
  pose proof (nth_lt _ _ _ Ei) as Li. apply Nat.ltb_lt in Li.
  destruct (inv_same Iv _ _ _ _ Ei) as (Ev & _ & p & Pj & _). destruct Iv as [H1 H2 H3 H4 H5 H6 H7 H8 H9].
  constructor; cbn [js_cache js_heap js_raws js_boots js_objs set_obj]; auto.
  - now rewrite length_set_nth.
  - intros k x w Ek Ew. rewrite nth_set_nth in Ek. destruct (Nat.eqb_spec i k) as [<-|N].
    + rewrite Li in Ek. injection Ek as <-. rewrite Ev in Ew. injection Ew as <-.
      cbn [matches]. exists t', n', p. split; [reflexivity|]. eapply ext_ptr; eauto.
    + eapply matches_mono; [apply grows_refl|exact X| |exact (H4 _ _ _ Ek Ew)]. auto.
  - intros k l x x' q y Ek El Eq Eq' Ey Cy. rewrite nth_set_nth in Ek, El.
    destruct (Nat.eqb_spec i k) as [<-|N]; [rewrite Li in Ek; injection Ek as <-; discriminate|].
    destruct (Nat.eqb_spec i l) as [<-|N']; [rewrite Li in El; injection El as <-; discriminate|]. eauto.
Qed.
(** What reading a source can do: objects with a heap object do not change, CachedSources
    keep the object inside. *)
Lemma source_inv vs h0 d : forall st i st' s, prog_inv st vs h0 -> source_from d st i = Some (st', s) ->
  prog_inv st' vs h0 /\ length (js_objs st') = length (js_objs st) /\ js_cache st' = js_cache st /\
  (forall k j t n, nth_error (js_objs st) k = Some (BCached j t n) -> exists t' n', nth_error (js_objs st') k = Some (BCached j t' n')).
Proof.
  assert (K : forall st st' b s, prog_inv st vs h0 -> read_source st b = Some (st', s) -> prog_inv st' vs h0 /\ length (js_objs st') = length (js_objs st) /\ js_cache st' = js_cache st /\
    (forall k j t n, nth_error (js_objs st) k = Some (BCached j t n) -> exists t' n', nth_error (js_objs st') k = Some (BCached j t' n'))).
  { intros st st' b s Iv E. pose proof (source_only _ _ _ _ E) as Ho. split; [eapply only_inv; eauto|]. destruct Ho as (h & -> & _). cbn [set_heap js_objs js_cache]. eauto. }
  induction d as [|d IH]; intros st i st' s Iv E; cbn [source_from] in E; unb E as b Eb; destruct b as [| | | | | | |j [t|] n]; eauto; try discriminate;
    try (injection E as <- <-; eauto 12; fail).
  unb E as [st1 s1] E1. injection E as <- <-. destruct (IH _ _ _ _ Iv E1) as (Iv1 & Len & Ca & C). destruct (C _ _ _ _ Eb) as (t' & n' & Eb').
  split; [eapply inv_cached; eauto|]. unfold set_obj. cbn [js_objs js_cache]. split; [now rewrite length_set_nth|]. split; [exact Ca|].
  intros k j' t0 n0 Ek. rewrite nth_set_nth. destruct (Nat.eqb_spec i k) as [<-|N]; [|eauto]. rewrite Eb in Ek. injection Ek as <- <- <-.
  pose proof (nth_lt _ _ _ Eb') as L. apply Nat.ltb_lt in L. rewrite L. eauto.
Qed.
Lemma size_inv vs h0 d : forall st i st' s, prog_inv st vs h0 -> size_from d st i = Some (st', s) ->
  prog_inv st' vs h0 /\ length (js_objs st') = length (js_objs st) /\ js_cache st' = js_cache st /\
  (forall k j t n, nth_error (js_objs st) k = Some (BCached j t n) -> exists t' n', nth_error (js_objs st') k = Some (BCached j t' n')).
Proof.
  assert (K : forall st st' b s, prog_inv st vs h0 -> read_size st b = Some (st', s) -> prog_inv st' vs h0 /\ length (js_objs st') = length (js_objs st) /\ js_cache st' = js_cache st /\
    (forall k j t n, nth_error (js_objs st) k = Some (BCached j t n) -> exists t' n', nth_error (js_objs st') k = Some (BCached j t' n'))).
  { intros st st' b s Iv E. pose proof (size_only _ _ _ _ E) as Ho. split; [eapply only_inv; eauto|]. destruct Ho as (h & -> & _). cbn [set_heap js_objs js_cache]. eauto. }
  assert (S : forall st st1 i j t n t2 n2, nth_error (js_objs st) i = Some (BCached j t n) -> prog_inv st1 vs h0 -> length (js_objs st1) = length (js_objs st) -> js_cache st1 = js_cache st ->
    (forall k j t n, nth_error (js_objs st) k = Some (BCached j t n) -> exists t' n', nth_error (js_objs st1) k = Some (BCached j t' n')) ->
    let st' := set_obj st1 i (BCached j t2 n2) in prog_inv st' vs h0 /\ length (js_objs st') = length (js_objs st) /\ js_cache st' = js_cache st /\
    (forall k j t n, nth_error (js_objs st) k = Some (BCached j t n) -> exists t' n', nth_error (js_objs st') k = Some (BCached j t' n'))).
  { intros st st1 i j t n t2 n2 Eb Iv1 Len Ca C. destruct (C _ _ _ _ Eb) as (t' & n' & Eb').
    split; [eapply inv_cached; eauto|]. unfold set_obj. cbn [js_objs js_cache]. split; [now rewrite length_set_nth|]. split; [exact Ca|].
    intros k j' t0 n0 Ek. rewrite nth_set_nth. destruct (Nat.eqb_spec i k) as [<-|N]; [|eauto]. rewrite Eb in Ek. injection Ek as <- <- <-.
    pose proof (nth_lt _ _ _ Eb') as L. apply Nat.ltb_lt in L. rewrite L. eauto. }
  induction d as [|d IH]; intros st i st' s Iv E; cbn [size_from] in E; unb E as b Eb; destruct b as [| | | | | | |j [t|] [n|]]; eauto; try discriminate;
    try (injection E as <- <-; eauto 12; fail).
  unb E as [st1 s1] E1. injection E as <- <-. destruct (IH _ _ _ _ Iv E1) as (Iv1 & Len & Ca & C). eapply S; eauto.
Qed.

(** ** New objects *)
Lemma inv_new st vs h0 c o b v : prog_inv st vs h0 -> reached_cache c -> grows (js_cache st) c ->
  (forall x, o = OSms x -> steady x) -> (forall l, o = OConcat l -> l = []) -> (forall p, own_ptr (b p) = Some p) -> (forall j, v <> VSame j) ->
  (forall p, nth_error (h0 ++ [o]) p = Some o -> matches c (h0 ++ [o]) (js_objs st ++ [b p]) (b p) v) ->
  prog_inv (new_obj st c o b) (vs ++ [v]) (h0 ++ [o]).
Proof.
  intros Iv R G S C O Nv M. unfold new_obj. cbn [h_new]. pose proof (lately_len _ _ (iv_later _ _ _ Iv)) as Len. rewrite Len.
  pose proof (inv_alloc (inv_grow Iv c R G) o S C) as Iv2. cbn [js_cache js_heap js_raws js_boots js_objs] in Iv2.
  apply (inv_push Iv2 (b (length h0)) v); cbn [js_cache js_heap js_raws js_boots js_objs].
  - apply M. apply nth_last.
  - intros p x Ep _ _ j b' Ej Ep'. rewrite O in Ep. injection Ep as <-. destruct (inv_val Iv _ _ Ej) as (w & Ew).
    pose proof (inv_lt Iv _ _ _ Ej Ew _ Ep'). lia.
  - intros j E. now destruct (Nv j).
Qed.
Lemma grows_length c c' : grows c c' -> length (ca_array c) <= length (ca_array c').
Proof. intros [[l ->] _]. rewrite app_length. lia. Qed.
Lemma new_steady v vi n d o i x :
  (let x := sms_new v vi n d None in
   let x := match o with Some oi => sms_set_original x oi | None => x end in
   match i with Some i => sms_set_inner x i None | None => x end) = x -> steady x.
Proof. intros <-. destruct o, i; eapply data_steady; reflexivity. Qed.

Theorem inv_step st vs h0 op st' a : prog_inv st vs h0 -> jstep st op = Some (st', a) -> exists h1, prog_inv st' (spec_step vs op) h1.
Proof.
  intros Iv E. pose proof (iv_cache _ _ _ Iv) as R. pose proof (reached_ok _ R) as Ok.
  destruct op as [v|v n|v n o|pre x|x|l|v n m o inner|j|i x|i s e t|i s t|i|i|k i|i cl md|s ck]; cbn [jstep spec_step] in *.
  - destruct (js_get (js_raws st) v) as [p|] eqn:Er.
    + injection E as <- _. exists h0. pose proof (iv_raws _ _ _ Iv _ _ Er) as En. apply (inv_push Iv).
      * cbn [matches]. exists (JRaw v), p, (ORaw (from_js v)). repeat split; auto.
      * intros q y Eq Ey Cy. injection Eq as <-. rewrite En in Ey. injection Ey as <-. destruct Cy.
      * discriminate.
    + cbn [h_new] in E. injection E as <- _. exists (h0 ++ [ORaw (from_js v)]). pose proof (lately_len _ _ (iv_later _ _ _ Iv)) as Len.
      assert (Iv2 : prog_inv (new_obj st (js_cache st) (ORaw (from_js v)) (fun p => BRaw p v)) (vs ++ [VLeaf (XRaw v)]) (h0 ++ [ORaw (from_js v)])).
      { apply inv_new; auto using grows_refl; try discriminate. intros p En. cbn [matches].
        exists (JRaw v), p, (ORaw (from_js v)). repeat split; auto. }
      unfold new_obj in Iv2. cbn [h_new] in Iv2. destruct Iv2 as [H1 H2 H3 H4 H5 H6 H7 H8 H9].
      constructor; cbn [js_cache js_heap js_raws js_boots js_objs] in *; auto.
      intros w q Eq. cbn [js_get] in Eq. destruct (jstr_eqb w v) eqn:Ew; [|auto]. apply (proj1 (jstr_eqb_eq _ _)) in Ew as ->. injection Eq as <-.
      rewrite Len. apply nth_last.
  - destruct (cache_add_unchecked (js_cache st) v) as [c1 vi] eqn:E1. destruct (cache_add c1 n) as [c2 ni] eqn:E2.
    destruct (addu_at _ _ _ _ Ok E1) as (O1 & G1 & A1). destruct (add_known _ _ _ _ O1 E2) as (O2 & G2 & A2).
    pose proof (reached_addu _ _ _ _ R E1) as R1. pose proof (reached_add _ _ _ _ R1 E2) as R2.
    pose proof (grows_trans _ _ _ G1 G2) as G. set (ob := OOriginal (from_js v) (Z.of_nat vi) (Z.of_nat ni)) in *.
    assert (Iv2 : prog_inv (new_obj st c2 ob (fun p => BOriginal p v)) (vs ++ [VLeaf (XOriginal v n)]) (h0 ++ [ob])).
    { apply inv_new; auto; try (unfold ob; discriminate). intros p En. cbn [matches].
      exists (JOriginal v (Z.of_nat vi) (Z.of_nat ni)), p, ob. split; [|split; [reflexivity|split; [reflexivity|exact En]]].
      exists (Z.of_nat vi), (Z.of_nat ni). split; [reflexivity|]. split; [exact (at_grows _ _ _ _ G2 A1)|exact A2]. }
    exists (h0 ++ [ob]). destruct (jstr_eqb n BOOTSTRAP); [|injection E as <- _; exact Iv2].
    assert (Evi : vi = length (ca_array (js_cache st))) by (unfold cache_add_unchecked in E1; congruence).
    destruct (boot_get (js_boots st) vi) as [q|] eqn:Eb.
    { pose proof (iv_boots _ _ _ Iv _ _ Eb). lia. }
    cbn [h_new] in E. injection E as <- _. unfold new_obj in Iv2. cbn [h_new] in Iv2. destruct Iv2 as [H1 H2 H3 H4 H5 H6 H7 H8 H9].
    constructor; cbn [js_cache js_heap js_raws js_boots js_objs] in *; auto.
    intros k q Ek. cbn [boot_get] in Ek. destruct (Nat.eqb_spec k vi) as [->|]; [|eauto].
    unfold cache_add_unchecked in E1. injection E1 as <- _. pose proof (grows_length _ _ G2) as Le. cbn [ca_array] in Le.
    rewrite app_length in Le. cbn [length] in Le. lia.
  - destruct (cache_add (js_cache st) n) as [c1 ni] eqn:E1. destruct (cache_add_unchecked c1 o) as [c2 oi] eqn:E2.
    destruct (add_known _ _ _ _ Ok E1) as (O1 & G1 & A1). destruct (addu_at _ _ _ _ O1 E2) as (O2 & G2 & A2).
    pose proof (reached_add _ _ _ _ R E1) as R1. pose proof (reached_addu _ _ _ _ R1 E2) as R2.
    pose proof (grows_trans _ _ _ G1 G2) as G. injection E as <- _. eexists. apply inv_new; try exact Iv; auto; try discriminate. intros p En. cbn [matches].
    exists (JL2L v (Z.of_nat ni) (Z.of_nat oi) o), p. eexists. split; [|split; [reflexivity|split; [reflexivity|exact En]]].
    exists (Z.of_nat ni), (Z.of_nat oi). split; [reflexivity|]. split; [exact (known_grows _ _ _ _ G2 A1)|exact A2].
  - unb E as s E1. injection E as <- _. eexists. apply inv_new; try exact Iv; auto using grows_refl; try discriminate. intros p En. cbn [matches].
    exists p, s. split; [reflexivity|]. split; [exact En|]. eapply ext_arg; [apply ext_snoc|exact E1].
  - unb E as s E1. injection E as <- _. eexists. apply inv_new; try exact Iv; auto using grows_refl; try discriminate. intros p En. cbn [matches].
    exists p, s. split; [reflexivity|]. split; [exact En|]. eapply ext_arg; [apply ext_snoc|exact E1].
  - match type of E with (if ?g then _ else _) = _ => destruct g; [|discriminate] end. unb E as st2 E1. injection E as <- _.
    rewrite (iv_len _ _ _ Iv) in E1. eapply inv_adds; [|exact E1]. eapply (inv_new st vs h0 (js_cache st) (OConcat []) (fun p => BConcat p []) (VConcat [] [])); auto using grows_refl; try discriminate.
    + intros l' H. congruence.
    + intros p En. cbn [matches]. exists p, []. split; [reflexivity|]. split; [exact En|constructor].
  - destruct (cache_add_unchecked (js_cache st) v) as [c2 vi] eqn:E1. destruct (cache_add c2 n) as [c3 ni] eqn:E2. destruct (pass_map c3 m) as [c4 d] eqn:E3.
    destruct (addu_at _ _ _ _ Ok E1) as (O1 & G1 & A1). destruct (add_known _ _ _ _ O1 E2) as (O2 & G2 & A2).
    destruct (pass_map_spec _ _ _ _ O2 E3) as (O3 & G3 & A3).
    pose proof (reached_addu _ _ _ _ R E1) as R2. pose proof (reached_add _ _ _ _ R2 E2) as R3. pose proof (reached_map _ _ _ _ R3 E3) as R4.
    match type of E with context [sms_new ?a ?b ?c ?d ?e] => set (x0 := sms_new a b c d e) in E end.
    match type of E with (let '(_, _) := ?z in _) = _ => destruct z as [c5 x1] eqn:E5 end.
    assert (Y : exists oo, reached_cache c5 /\ grows c4 c5 /\ x1 = match oo with Some (_, oi) => sms_set_original x0 oi | None => x0 end /\
      o = match oo with Some (s, _) => s | None => [] end /\
      match o with [] => oo = None | _ => exists oi, oo = Some (o, oi) /\ at_ c5 oi o end).
    { destruct o as [|x o]; [injection E5 as <- <-; exists None; split; [exact R4|]; split; [apply grows_refl|]; auto|].
      destruct (cache_add_unchecked c4 (x :: o)) as [c6 oi] eqn:E6. injection E5 as <- <-. destruct (addu_at _ _ _ _ O3 E6) as (O6 & G6 & A6).
      exists (Some (x :: o, Z.of_nat oi)). split; [eapply reached_addu; eauto|]. split; [exact G6|]. split; [reflexivity|]. split; [reflexivity|]. eauto. }
    destruct Y as (oo & R5 & G5 & X1 & Eo & A5).
    match type of E with (let '(_, _) := ?z in _) = _ => destruct z as [c6 x2] eqn:E6 end. injection E as <- _.
    assert (Y : exists ii, reached_cache c6 /\ grows c5 c6 /\ x2 = match ii with Some i => sms_set_inner x1 i None | None => x1 end /\
      match inner with None => ii = None | Some im => exists id, ii = Some id /\ passed c6 im id end).
    { destruct inner as [im|]; [|injection E6 as <- <-; exists None; split; [exact R5|]; split; [apply grows_refl|]; auto].
      destruct (pass_map c5 im) as [c7 id] eqn:E7. injection E6 as <- <-. destruct (pass_map_spec _ _ _ _ (reached_ok _ R5) E7) as (O7 & G7 & A7).
      exists (Some id). split; [eapply reached_map; eauto|]. eauto 6. }
    destruct Y as (ii & R6 & G6 & X2 & A6). pose proof (grows_trans _ _ _ (grows_trans _ _ _ G1 G2) (grows_trans _ _ _ G3 (grows_trans _ _ _ G5 G6))) as G. eexists. apply inv_new; try exact Iv; auto; try discriminate.
    + intros y Ey. injection Ey as <-. subst x2 x1 x0. apply (new_steady (from_js v) (Z.of_nat vi) (Z.of_nat ni) d (match oo with Some (_, oi) => Some oi | None => None end) ii).
      now destruct oo as [[? ?]|], ii.
    + intros p En. cbn [matches].
      exists (JSms v (Z.of_nat vi) (Z.of_nat ni) d oo ii), p, (OSms x2). split; [|split; [|split; [|exact En]]].
      * exists (Z.of_nat vi), (Z.of_nat ni), d, oo, ii. split; [reflexivity|].
        split; [eapply at_grows; [|exact A1]; eauto 6 using grows_trans|]. split; [eapply known_grows; [|exact A2]; eauto 6 using grows_trans|].
        split; [eapply passed_grows; [|exact A3]; eauto 6 using grows_trans|]. split; [|exact A6].
        destruct o; [exact A5|]. destruct A5 as (oi & -> & A). exists oi. split; [reflexivity|]. exact (at_grows _ _ _ _ G6 A).
      * cbn [leaf_js]. now rewrite <- Eo.
      * unfold leaf_obj. cbn [import]. now rewrite X2, X1.
  - destruct (Nat.ltb_spec j (length (js_objs st))) as [L|]; [|discriminate]. injection E as <- _. destruct (inv_total Iv _ L) as (p & P).
    exists h0. apply (inv_push Iv); [|discriminate|].
    + cbn [matches]. exists None, None, p. split; [reflexivity|]. eapply ext_ptr; [apply ext_snoc|exact P].
    + intros k Ek. injection Ek as <-. now rewrite <- (iv_len _ _ _ Iv).
  - unb E as st2 E1. injection E as <- _. destruct (inv_add _ _ _ _ _ _ Iv E1) as (h1 & Iv1 & _). eauto.
  - unb E as b E1. destruct b as [| | | |p| | |]; try discriminate. unb E as h E2. injection E as <- _.
    unfold h_replace in E2. destruct (nth_error (js_heap st) p) as [[| | | |s0 r| |]|] eqn:Eo; try discriminate. injection E2 as <-.
    eapply (inv_call st vs h0 i p (JReplace s e t)); eauto; discriminate.
  - unb E as b E1. destruct b as [| | | |p| | |]; try discriminate. unb E as h E2. injection E as <- _.
    unfold h_insert in E2. destruct (nth_error (js_heap st) p) as [[| | | |s0 r| |]|] eqn:Eo; try discriminate. injection E2 as <-.
    eapply (inv_call st vs h0 i p (JInsert s t)); eauto; discriminate.
  - exists h0. unb E as [st2 s] E1. injection E as <- _. eapply source_inv; eauto.
  - exists h0. unb E as [st2 s] E1. injection E as <- _. eapply size_inv; eauto.
  - exists h0. unb E as [st2 s] E1. injection E as <- _. eapply only_inv; [eapply hash_only; eauto|exact Iv].
  - exists h0. unb E as b E1. unb E as [st2 r] E2. injection E as <- _. eapply only_inv; [eapply map_only; eauto|exact Iv].
  - injection E as <- _. exists h0. destruct ck.
    + destruct (cache_add (js_cache st) s) as [c i] eqn:E1. apply (inv_grow Iv); [eapply reached_add; eauto|eapply add_known; eauto].
    + destruct (cache_add_unchecked (js_cache st) s) as [c i] eqn:E1. apply (inv_grow Iv); [eapply reached_addu; eauto|eapply addu_at; eauto].
Qed.

Lemma inv_start c : reached_cache c -> prog_inv (jstate_new c) [] [].
Proof.
  intro R. constructor; cbn [js_cache js_heap js_raws js_boots js_objs jstate_new]; auto; try (intros [|?]; discriminate); try discriminate.
  intros [|i] _; exact I.
Qed.
Theorem inv_run c ops st : reached_cache c -> jrun (jstate_new c) ops = Some st -> exists h0, prog_inv st (meaning ops) h0.
Proof.
  intros R. assert (H : exists h0, prog_inv (jstate_new c) [] h0) by (exists []; now apply inv_start).
  revert H. unfold meaning. generalize (jstate_new c) as st0, (@nil sobj) as vs. induction ops as [|op ops IH]; intros st0 vs [h0 Iv] E; cbn [jrun fold_left] in *.
  - injection E as <-. eauto.
  - unb E as [st1 a] E1. destruct (inv_step _ _ _ _ _ _ Iv E1) as (h1 & Iv1). eapply IH; eauto.
Qed.
