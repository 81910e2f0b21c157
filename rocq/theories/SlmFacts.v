(** The mappings string of a SourceListMap attributes every character as its node says. *)
From Verif Require Import Base Tactics ModelString StringFacts ModelVlq ModelSm ModelSlm
  SpecText SpecMap SpecAttr SpecList VlqFacts MapFacts GenFacts NodeFacts.

(** ** Annotations with any way of counting columns *)
Section By.
  Variable adv : place -> char -> place.
  Hypothesis adv_lt : forall p c, plt p (adv p c).
  Lemma annotate_by_app l p a b :
    annotate_by adv l p (a ++ b) = annotate_by adv l p a ++ annotate_by adv l (fold_left adv a p) b.
  Proof. revert p; induction a as [|c a IH]; intro p; cbn; [reflexivity|]. f_equal. apply IH. Qed.
  Lemma adv_le s p : ple p (fold_left adv s p).
  Proof.
    revert p; induction s as [|c s IH]; intro p; cbn; [unfold ple; lia|].
    pose proof (adv_lt p c). pose proof (IH (adv p c)). unfold plt, ple in *. lia.
  Qed.
  Lemma annotate_by_freeze l (e : place * option target) s p :
    ple (fold_left adv s p) (fst e) -> annotate_by adv (l ++ [e]) p s = annotate_by adv l p s.
  Proof.
    revert p; induction s as [|c s IH]; intros p H; [reflexivity|]. cbn in H |- *.
    rewrite IH by auto. rewrite lookup_snoc_before; [reflexivity|].
    pose proof (adv_lt p c). pose proof (adv_le s (adv p c)). unfold plt, ple in *. lia.
  Qed.
End By.

Lemma advance_bytes_lt p c : plt p (advance_bytes p c).
Proof. unfold advance_bytes, plt. pose proof (len_utf8_pos c). destruct (N.eqb c NL); cbn; lia. Qed.

Lemma annotate_by_ext l adv adv' s : forall p, (forall q c, In c s -> adv q c = adv' q c) ->
  annotate_by adv l p s = annotate_by adv' l p s.
Proof.
  induction s as [|c s IH]; intros p H; [reflexivity|]. cbn. rewrite (H p c) by now left.
  f_equal. apply IH. intros q d Hd. apply H. now right.
Qed.
Lemma annotate_by_advance l s : forall p, annotate_by advance l p s = annotate_from l p s.
Proof. induction s as [|c s IH]; intro p; [reflexivity|]. cbn. now rewrite IH. Qed.
Lemma annotate_bytes_ascii l s : forallb is_ascii s = true -> annotate_bytes l s = annotate l s.
Proof.
  intro H. unfold annotate_bytes, annotate. rewrite <- annotate_by_advance. apply annotate_by_ext.
  rewrite forallb_forall in H. intros q c Hc. unfold advance_bytes, advance. rewrite len_utf8_ascii by auto. reflexivity.
Qed.

(** ** The mappings string as a sequence of operations *)
Inductive lop := Semi | Bare | From (u ds dl : Z).

Definition lbody (o : lop) : str :=
  match o with
  | Semi => []
  | Bare => lit "A"
  | From u ds dl => vlq_encode u ++ vlq_encode ds ++ vlq_encode dl ++ lit "A"
  end.
(** [busy]: the current line already has a segment. *)
Fixpoint render (busy : bool) (l : list lop) : str :=
  match l with
  | [] => []
  | Semi :: r => SEMI :: render false r
  | o :: r => (if busy then [COMMA] else []) ++ lbody o ++ render true r
  end.
Fixpoint busy_after (busy : bool) (l : list lop) : bool :=
  match l with
  | [] => busy
  | Semi :: r => busy_after false r
  | _ :: r => busy_after true r
  end.
Lemma render_app l : forall b l', render b (l ++ l') = render b l ++ render (busy_after b l) l'.
Proof.
  induction l as [|o l IH]; intros b l'; [reflexivity|].
  destruct o; cbn [app render busy_after]; rewrite IH; rewrite ?app_assoc; reflexivity.
Qed.
Lemma busy_after_app l : forall b l', busy_after b (l ++ l') = busy_after (busy_after b l) l'.
Proof. induction l as [|o l IH]; intros b l'; [reflexivity|]. destruct o; apply IH. Qed.

(** Operations that put no two segments of a line in the same place. *)
Fixpoint orderly (busy : bool) (l : list lop) : Prop :=
  match l with
  | [] => True
  | Semi :: r => orderly false r
  | Bare :: r => busy = false /\ orderly true r
  | From u _ _ :: r => (busy = true -> 0 < u)%Z /\ orderly true r
  end.
Lemma orderly_app l : forall b l', orderly b l -> orderly (busy_after b l) l' -> orderly b (l ++ l').
Proof. induction l as [|o l IH]; intros b l' H H'; [exact H'|]. destruct o; cbn [app orderly busy_after] in *; intuition. Qed.

(** What the operations mean. *)
Record dstate := mk_d { d_line : Z; d_sums : sums; d_segs : list seg }.
Definition lexec (d : dstate) (o : lop) : dstate :=
  let s := d_sums d in
  match o with
  | Semi => mk_d (d_line d + 1) (next_line s) (d_segs d)
  | Bare => mk_d (d_line d) s (d_segs d ++ [mk_seg (d_line d) (su_col s) None])
  | From u ds dl =>
      let s := mk_sums (su_col s + u) (su_src s + ds) (su_line s + dl) (su_ocol s) (su_name s) in
      mk_d (d_line d) s
        (d_segs d ++ [mk_seg (d_line d) (su_col s) (Some (su_src s, su_line s, su_ocol s, None))])
  end.
Definition lexecs (l : list lop) (d : dstate) : dstate := fold_left lexec l d.

Definition seg_place (s : seg) : Z * Z := (sg_line s, sg_col s).
Lemma lexecs_places l : forall b d, orderly b l -> NoDup (map seg_place (d_segs d)) ->
  (forall s, In s (d_segs d) -> (sg_line s <= d_line d)%Z /\ (sg_line s = d_line d -> b = true /\ (sg_col s <= su_col (d_sums d))%Z)) ->
  NoDup (map seg_place (d_segs (lexecs l d))).
Proof.
  assert (Add : forall (segs : list seg) x, NoDup (map seg_place segs) -> (forall s, In s segs -> seg_place s <> seg_place x) -> NoDup (map seg_place (segs ++ [x]))).
  { intros segs x N H. rewrite map_app. cbn [map].
    induction segs as [|y segs IH]; [repeat constructor; intros []|]. cbn [map app] in *. inversion N as [|? ? N1 N2]; subst. constructor.
    - rewrite in_app_iff. intros [G|[G|[]]]; [now apply N1|]. apply (H y); [now left|now symmetry].
    - apply IH; [exact N2|]. intros s Hs. apply H. now right. }
  induction l as [|o l IH]; intros b d O N H; [exact N|]. unfold lexecs. cbn [fold_left]. fold (lexecs l (lexec d o)).
  destruct o as [| |u ds dl]; cbn [orderly] in O.
  - apply (IH false); [exact O|exact N|]. cbn [lexec d_segs d_line]. intros s Hs. destruct (H s Hs) as [H1 _]. split; [lia|intro; lia].
  - destruct O as [-> O]. apply (IH true); [exact O| |]; cbn [lexec d_segs d_line d_sums].
    + apply Add; [exact N|]. intros s Hs E. unfold seg_place in E. cbn [sg_line sg_col] in E. injection E as E1 E2. destruct (H s Hs) as [_ G]. destruct (G E1); discriminate.
    + intros s Hs. rewrite in_app_iff in Hs. destruct Hs as [Hs|[<-|[]]]; [|cbn [sg_line sg_col]; split; [lia|split; [reflexivity|lia]]].
      destruct (H s Hs) as [H1 H2]. split; [exact H1|]. intro E. destruct (H2 E) as [F _]; discriminate.
  - destruct O as [Ou O]. apply (IH true); [exact O| |]; cbn [lexec d_segs d_line d_sums].
    + apply Add; [exact N|]. intros s Hs E. unfold seg_place in E. cbn [sg_line sg_col su_col] in E. injection E as E1 E2. destruct (H s Hs) as [_ G]. destruct (G E1) as [-> G2]. specialize (Ou eq_refl). lia.
    + intros s Hs. rewrite in_app_iff in Hs. destruct Hs as [Hs|[<-|[]]]; [|cbn [sg_line sg_col su_col]; split; [lia|split; [reflexivity|lia]]].
      destruct (H s Hs) as [H1 H2]. split; [exact H1|]. intro E. destruct (H2 E) as [F G]. specialize (Ou F). cbn [su_col]. split; [reflexivity|lia].
Qed.
Lemma resolve_place ss ns s x : resolve ss ns s = Some x -> fst x = (sg_line s + 1, sg_col s)%Z.
Proof.
  unfold resolve. intro E. destruct (sg_orig s) as [[[[a b] c] n]|]; [|now injection E as <-]. unbind E. unbind E. now injection E as <-.
Qed.
Lemma resolves_places ss ns segs : forall es, all_some (map (resolve ss ns) segs) = Some es -> NoDup (map seg_place segs) -> NoDup (map fst es).
Proof.
  assert (F : forall segs es, all_some (map (resolve ss ns) segs) = Some es -> map fst es = map (fun p => (fst p + 1, snd p)%Z) (map seg_place segs)).
  { clear. induction segs as [|s segs IH]; intros es E; cbn [map all_some] in E; [now injection E as <-|]. unbind E. unbind E. injection E as <-. cbn [map]. f_equal; [now apply (resolve_place ss ns)|auto]. }
  intros es E N. rewrite (F _ _ E). clear - N. induction (map seg_place segs) as [|p l IH]; [constructor|]. inversion N as [|? ? N1 N2]; subst. cbn [map]. constructor; [|auto].
  rewrite in_map_iff. intros (q & Eq & Hq). apply N1. replace p with q; [exact Hq|]. destruct p, q. cbn in Eq. injection Eq as E1 E2. f_equal; lia.
Qed.

Lemma lexecs_segs l : forall line s segs,
  d_segs (lexecs l (mk_d line s segs)) = segs ++ d_segs (lexecs l (mk_d line s [])).
Proof.
  induction l as [|o l IH]; intros line s segs; [cbn; now rewrite app_nil_r|].
  unfold lexecs in *. cbn [fold_left]. destruct o; cbn [lexec d_line d_sums d_segs].
  - apply IH.
  - rewrite IH. rewrite (IH _ _ ([] ++ [_])). now rewrite app_assoc.
  - rewrite IH. rewrite (IH _ _ ([] ++ [_])). now rewrite app_assoc.
Qed.

Lemma lbody_no_sep o : no_sep (lbody o).
Proof.
  assert (HA : no_sep (lit "A")) by (split; cbn; intuition discriminate).
  destruct o; cbn [lbody]; auto; [split; intros []|]. repeat apply no_sep_app; auto using no_sep_encode.
Qed.
Lemma encode_A : lit "A" = vlq_encode 0.
Proof. reflexivity. Qed.
Lemma numbers_A r : numbers (lit "A" ++ r) 0 1 = (let* l := numbers r 0 1 in Some (0%Z :: l)).
Proof. rewrite encode_A. apply numbers_encode. Qed.
Lemma lbody_decode o line s : o <> Semi ->
  decode_seg line s (lbody o) =
  Some (d_sums (lexec (mk_d line s []) o), d_segs (lexec (mk_d line s []) o)).
Proof.
  intro H. destruct o; [congruence| |]; cbn [lbody]; unfold decode_seg.
  - rewrite <- (app_nil_r (lit "A")), numbers_A. cbn [numbers bind]. change (1 =? 1)%Z with true. cbn [bind].
    cbn [lexec d_sums d_segs d_line app]. destruct s. cbn. eq_lia.
  - rewrite !numbers_encode. rewrite <- (app_nil_r (lit "A")), numbers_A. cbn [numbers bind].
    change (1 =? 1)%Z with true. cbn [bind]. cbn [lexec d_sums d_segs d_line app]. destruct s. cbn. eq_lia.
Qed.

Lemma decode_render l : forall busy x line s0 s a,
  no_sep x -> decode_seg line s0 x = Some (s, a) -> (busy = false -> x = []) ->
  decode_lines line s0 (cells (x ++ render busy l)) = Some (a ++ d_segs (lexecs l (mk_d line s []))).
Proof.
  induction l as [|o l IH]; intros busy x line s0 s a Hx Hd Hb.
  - cbn [render]. rewrite app_nil_r, cells_seg by auto. cbn [decode_lines decode_line]. rewrite Hd. cbn [bind].
    cbn. now rewrite !app_nil_r.
  - assert (Hseg : forall y, o <> Semi -> y = lbody o ->
      decode_lines line s (cells (y ++ render true l)) = Some (d_segs (lexecs (o :: l) (mk_d line s [])))).
    { intros y Ho ->. assert (Eline : d_line (lexec (mk_d line s []) o) = line) by (destruct o; [congruence|reflexivity|reflexivity]).
      rewrite (IH true (lbody o) line s _ _ (lbody_no_sep o) (lbody_decode o line s Ho)) by discriminate.
      f_equal. unfold lexecs at 2. cbn [fold_left]. fold (lexecs l (lexec (mk_d line s []) o)).
      destruct (lexec (mk_d line s []) o) as [ln sm sg] eqn:El. cbn [d_line d_sums d_segs] in *. subst ln.
      now rewrite (lexecs_segs l line sm sg). }
    assert (Hcomma : o <> Semi -> busy = true ->
      decode_lines line s0 (cells (x ++ COMMA :: lbody o ++ render true l)) =
      Some (a ++ d_segs (lexecs (o :: l) (mk_d line s [])))).
    { intros Ho _. destruct (cells_comma x (lbody o ++ render true l) Hx) as (h & tl & C1 & C2).
      rewrite C2. specialize (Hseg (lbody o) Ho eq_refl). rewrite C1 in Hseg. cbn [decode_lines] in Hseg |- *.
      rewrite (decode_line_cons _ _ _ _ _ _ Hd). unbind Hseg. destruct v as [st2 b]. unbind Hseg.
      injection Hseg as Hseg. rewrite E. cbn [bind]. rewrite E0. cbn [bind]. now rewrite <- app_assoc, Hseg. }
    assert (Hfree : o <> Semi -> busy = false ->
      decode_lines line s0 (cells (x ++ lbody o ++ render true l)) =
      Some (a ++ d_segs (lexecs (o :: l) (mk_d line s [])))).
    { intros Ho E. rewrite (Hb E) in *. cbn in Hd. injection Hd as -> <-. cbn [app]. now apply Hseg. }
    destruct o; cbn [render].
    + rewrite cells_semi by auto. cbn [decode_lines decode_line]. rewrite Hd. cbn [bind].
      change (mk_sums 0 (su_src s) (su_line s) (su_ocol s) (su_name s)) with (next_line s).
      pose proof (IH false [] (line + 1)%Z (next_line s) (next_line s) [] ltac:(split; intros []) eq_refl
        (fun _ => eq_refl)) as G. cbn [app] in G. rewrite G. cbn [bind]. rewrite app_nil_r. reflexivity.
    + destruct busy; [apply Hcomma|apply Hfree]; congruence.
    + destruct busy; [apply Hcomma|apply Hfree]; congruence.
Qed.

Lemma decode_ops l : decode (render false l) = Some (d_segs (lexecs l (mk_d 0 (mk_sums 0 0 0 0 0) []))).
Proof.
  unfold decode. apply (decode_render l false [] 0%Z _ (mk_sums 0 0 0 0 0) []); auto. split; intros [].
Qed.

(** ** Invariant: the segments so far attribute the text so far; the current place is [u]
    bytes behind the last column. *)
Definition table (mc : mctx) : list Z :=
  map (fun e : option Z * (nat * option Z) => match fst e with Some i => i | None => -1 end)%Z (mc_sources mc).

Inductive linv (tb : list Z) (d : dstate) (u : nat) (mt : marked) (a : option target) : Prop :=
| mk_linv es :
    all_some (map (resolve tb []) (d_segs d)) = Some es ->
    fold_left advance_bytes (text_of mt) (1, 0)%Z = (d_line d + 1, su_col (d_sums d) + Z.of_nat u)%Z ->
    su_ocol (d_sums d) = 0%Z ->
    annotate_bytes es (text_of mt) = mt ->
    Forall (fun e : place * option target =>
              ple (fst e) (d_line d + 1, su_col (d_sums d) + Z.of_nat u)%Z) es ->
    lookup es (d_line d + 1) (su_col (d_sums d) + Z.of_nat u) = a ->
    linv tb d u mt a.

Lemma all_some_app {A} (l l' : list (option A)) :
  all_some (l ++ l') = (let* a := all_some l in let* b := all_some l' in Some (a ++ b)).
Proof.
  induction l as [|[x|] l IH]; cbn; [destruct (all_some l'); reflexivity| |reflexivity].
  rewrite IH. destruct (all_some l); cbn; [|reflexivity]. destruct (all_some l'); reflexivity.
Qed.

Lemma linv_start : linv [] (mk_d 0 (mk_sums 0 0 0 0 0) []) 0 [] None.
Proof. exists []; try reflexivity. constructor. Qed.

Lemma linv_table tb x d u mt a : linv tb d u mt a -> linv (tb ++ x) d u mt a.
Proof.
  intros [es H1 H2 H3 H4 H5 H6]. exists es; auto. clear -H1. revert es H1.
  induction (d_segs d) as [|s l IH]; intros es H; [exact H|]. cbn [map all_some] in H |- *.
  unbind H. unbind H. injection H as <-. rewrite (IH _ E0).
  assert (R : resolve (tb ++ x) [] s = Some v).
  { unfold resolve in *. destruct (sg_orig s) as [[[[si ol] oc] ni]|]; [|exact E]. unbind E.
    unfold entry in E1 |- *. destruct (si <? 0)%Z; [discriminate|]. rewrite nth_error_app1 by (apply nth_error_Some; congruence).
    rewrite E1. exact E. }
  rewrite R. reflexivity.
Qed.

(** A character other than a newline. *)
Lemma linv_char tb d u mt a c : c <> NL -> linv tb d u mt a ->
  linv tb d (u + len_utf8 c) (mt ++ [(c, a)]) a.
Proof.
  intros Hc [es H1 H2 H3 H4 H5 H6].
  assert (Hadv : forall l k : Z, advance_bytes (l, k) c = (l, k + Z.of_nat (len_utf8 c))%Z).
  { intros l k. unfold advance_bytes. destruct (N.eqb_spec c NL); [congruence|reflexivity]. }
  exists es; auto.
  - rewrite text_app, fold_left_app, H2. cbn [text_of map fst fold_left]. rewrite Hadv. f_equal; lia.
  - unfold annotate_bytes in *. rewrite text_app, annotate_by_app, H4, H2. cbn [text_of map fst annotate_by snd].
    now rewrite H6.
  - eapply Forall_impl; [|exact H5]. intros e He. unfold ple in *. cbn [fst snd] in *. lia.
  - rewrite <- H6. apply lookup_later; [exact H5|lia].
Qed.
(** A newline. *)
Lemma linv_semi tb d u mt a : linv tb d u mt a ->
  linv tb (lexec d Semi) 0 (mt ++ [(NL, a)]) None.
Proof.
  intros [es H1 H2 H3 H4 H5 H6]. exists es; cbn [lexec d_line d_sums d_segs next_line su_col su_ocol]; auto.
  - rewrite text_app, fold_left_app, H2. cbn [text_of map fst fold_left]. unfold advance_bytes. rewrite N.eqb_refl.
    cbn [fst]. f_equal; lia.
  - unfold annotate_bytes in *. rewrite text_app, annotate_by_app, H4, H2. cbn [text_of map fst annotate_by snd].
    now rewrite H6.
  - eapply Forall_impl; [|exact H5]. intros e He. unfold ple in *. cbn [fst snd] in *. lia.
  - replace (0 + Z.of_nat 0)%Z with 0%Z by lia. eapply lookup_new_line. exact H5.
Qed.
(** Several characters of one line. *)
Lemma linv_chars tb d a s : ~ In NL s -> forall u mt, linv tb d u mt a ->
  linv tb d (u + blen s) (mt ++ mark a s) a.
Proof.
  induction s as [|c s IH]; intros Hs u mt H; cbn [blen mark map].
  - now rewrite Nat.add_0_r, app_nil_r.
  - apply (linv_char _ _ _ _ _ c) in H; [|intros ->; apply Hs; now left].
    apply IH in H; [|intro Hin; apply Hs; now right]. rewrite <- app_assoc in H. cbn [app] in H.
    now rewrite Nat.add_assoc.
Qed.

(** A segment naming a source at the current place. *)
Lemma linv_from tb d u mt a ds dl src : linv tb d u mt a ->
  entry tb (su_src (d_sums d) + ds) = Some src ->
  linv tb (lexec d (From (Z.of_nat u) ds dl)) 0 mt (Some (src, (su_line (d_sums d) + dl + 1, 0)%Z, None)).
Proof.
  intros [es H1 H2 H3 H4 H5 H6] Hsrc.
  set (e := ((d_line d + 1, su_col (d_sums d) + Z.of_nat u)%Z,
             Some (src, (su_line (d_sums d) + dl + 1, 0)%Z, @None Z)) : place * option target).
  exists (es ++ [e]); cbn [lexec d_line d_sums d_segs su_col su_ocol]; auto.
  - rewrite map_app, all_some_app, H1. cbn [bind map all_some]. unfold resolve. cbn [sg_orig sg_line sg_col su_src su_line su_ocol su_col].
    rewrite Hsrc, H3. cbn [bind]. reflexivity.
  - rewrite H2. f_equal; lia.
  - unfold annotate_bytes in *. rewrite annotate_by_freeze; auto using advance_bytes_lt.
    rewrite H2. unfold ple, e. cbn. lia.
  - replace (su_col (d_sums d) + Z.of_nat u + Z.of_nat 0)%Z with (su_col (d_sums d) + Z.of_nat u)%Z by lia.
    apply Forall_app. split; [exact H5|]. constructor; [|constructor]. unfold ple, e. cbn. lia.
  - replace (su_col (d_sums d) + Z.of_nat u + Z.of_nat 0)%Z with (su_col (d_sums d) + Z.of_nat u)%Z by lia.
    apply (lookup_snoc_at es e (d_line d + 1, su_col (d_sums d) + Z.of_nat u)%Z); auto.
Qed.
(** A segment without source at the start of a line. *)
Lemma linv_bare tb d mt a : linv tb d 0 mt a -> linv tb (lexec d Bare) 0 mt None.
Proof.
  intros [es H1 H2 H3 H4 H5 H6].
  set (e := ((d_line d + 1, su_col (d_sums d))%Z, None) : place * option target).
  exists (es ++ [e]); cbn [lexec d_line d_sums d_segs su_col su_ocol]; auto.
  - rewrite map_app, all_some_app, H1. reflexivity.
  - unfold annotate_bytes in *. rewrite annotate_by_freeze; auto using advance_bytes_lt.
    rewrite H2. unfold ple, e. cbn. lia.
  - apply Forall_app. split; [exact H5|]. constructor; [|constructor]. unfold ple, e. cbn. lia.
  - replace (su_col (d_sums d) + Z.of_nat 0)%Z with (su_col (d_sums d)) in * by lia.
    apply (lookup_snoc_at es e (d_line d + 1, su_col (d_sums d))%Z); auto.
Qed.

(** ** Unfinished lines *)
Lemma rfind_nl_spec s : forall off best,
  rfind_nl s off best = if 0 <? count_char NL s then
    match rfind_nl s off None with Some x => Some x | None => best end else best.
Proof.
  induction s as [|c s IH]; intros off best; [reflexivity|]. cbn [rfind_nl count_char].
  rewrite IH. rewrite (IH _ (if N.eqb c NL then Some off else None)).
  destruct (N.eqb c NL) eqn:E; cbn [Nat.add].
  - destruct (0 <? count_char NL s); [|reflexivity]. destruct (rfind_nl s _ None); reflexivity.
  - destruct (0 <? count_char NL s) eqn:E2; [|reflexivity]. destruct (rfind_nl s _ None); reflexivity.
Qed.
Lemma count_pos_in s : 0 < count_char NL s <-> In NL s.
Proof.
  induction s as [|c s IH]; cbn; [split; [lia|tauto]|]. destruct (N.eqb_spec c NL); [subst; split; auto; lia|].
  rewrite <- IH. cbn. intuition congruence.
Qed.
Lemma rfind_nl_last a b : forall off best, ~ In NL b ->
  rfind_nl (a ++ NL :: b) off best = Some (off + blen a).
Proof.
  induction a as [|c a IH]; intros off best Hb; cbn [app rfind_nl blen].
  - rewrite rfind_nl_spec. destruct (Nat.ltb_spec 0 (count_char NL b)) as [H|H].
    + apply count_pos_in in H. contradiction.
    + rewrite Nat.add_0_r. reflexivity.
  - rewrite IH by auto. f_equal. lia.
Qed.
Lemma unfinished_last a b : ~ In NL b -> get_unfinished_lines (a ++ NL :: b) = blen b.
Proof.
  intro H. unfold get_unfinished_lines. rewrite rfind_nl_last by auto. rewrite blen_app. cbn [blen].
  change (len_utf8 NL) with 1. lia.
Qed.
Lemma unfinished_none s : ~ In NL s -> get_unfinished_lines s = blen s.
Proof.
  intro H. unfold get_unfinished_lines. rewrite rfind_nl_spec.
  destruct (Nat.ltb_spec 0 (count_char NL s)) as [G|G]; [apply count_pos_in in G; contradiction|reflexivity].
Qed.
Lemma count_app a b : count_char NL (a ++ b) = count_char NL a + count_char NL b.
Proof. induction a as [|c a IH]; cbn; [reflexivity|]. rewrite IH. lia. Qed.
Lemma last_line s : In NL s -> exists a b, s = a ++ NL :: b /\ ~ In NL b.
Proof.
  induction s as [|c s IH]; intro H; [destruct H|].
  destruct (in_dec N.eq_dec NL s) as [G|G].
  - destruct (IH G) as (a & b & -> & Hb). now exists (c :: a), b.
  - destruct H as [->|H]; [|contradiction]. now exists [], s.
Qed.
Lemma ends_with_last a b : ~ In NL b -> ends_with NL (a ++ NL :: b) = match b with [] => true | _ => false end.
Proof.
  intro H. induction a as [|c a IH].
  - destruct b as [|d b]; [reflexivity|]. cbn [app]. change (ends_with NL (NL :: d :: b)) with (ends_with NL (d :: b)).
    revert H. clear. revert d. induction b as [|e b IH]; intros d H.
    + cbn. apply N.eqb_neq. intros ->. apply H. now left.
    + change (ends_with NL (d :: e :: b)) with (ends_with NL (e :: b)). apply IH. intro G. apply H. now right.
  - cbn [app]. destruct (a ++ NL :: b) as [|x y] eqn:E; [destruct a; discriminate|]. exact IH.
Qed.
Lemma ends_with_none s : ~ In NL s -> ends_with NL s = false.
Proof.
  induction s as [|c s IH]; intro H; [reflexivity|]. cbn.
  destruct s as [|d s]; [apply N.eqb_neq; intros ->; apply H; now left|]. apply IH. intro G. apply H. now right.
Qed.
Lemma unfinished_zero s : s <> [] -> (get_unfinished_lines s = 0 <-> ends_with NL s = true).
Proof.
  intro Hs. destruct (in_dec N.eq_dec NL s) as [H|H].
  - destruct (last_line s H) as (a & b & -> & Hb). rewrite unfinished_last, ends_with_last by auto.
    destruct b as [|c b]; [cbn; tauto|]. cbn [blen]. pose proof (len_utf8_pos c). split; [lia|discriminate].
  - rewrite unfinished_none, ends_with_none by auto. split; [|discriminate]. intro E. apply blen_zero in E. contradiction.
Qed.

(** ** Source pieces and single-line pieces *)
Fixpoint src_ops (k : Z) (s : str) : list lop :=
  match s with
  | [] => []
  | c :: r => if N.eqb c NL then Semi :: (match r with [] => [] | _ => From 0 0 k :: src_ops k r end)
              else src_ops k r
  end.
Lemma orderly_src k s : forall b, orderly b (src_ops k s).
Proof.
  induction s as [|c s IH]; intro b; [exact I|]. cbn [src_ops]. destruct (N.eqb c NL); [|apply IH]. cbn [orderly]. destruct s as [|c' s]; [exact I|]. split; [discriminate|apply IH].
Qed.
Fixpoint mark_step (k src line : Z) (s : str) : marked :=
  match s with
  | [] => []
  | c :: r => (c, Some (src, (line, 0%Z), None)) :: mark_step k src (if N.eqb c NL then line + k else line)%Z r
  end.
Lemma mark_step_lines src s : forall line, mark_step 1 src line s = mark_lines src line s.
Proof. induction s as [|c s IH]; intro line; [reflexivity|]. cbn. now rewrite IH. Qed.
Lemma mark_step_const src s : forall line, mark_step 0 src line s = mark (Some (src, (line, 0%Z), None)) s.
Proof.
  induction s as [|c s IH]; intro line; [reflexivity|]. cbn [mark_step]. rewrite Z.add_0_r.
  destruct (N.eqb c NL); rewrite IH; reflexivity.
Qed.

Lemma render_src k s : s <> [] ->
  render true (src_ops k s) =
  rep_str (count_char NL s - 1) (SEMI :: lbody (From 0 0 k)) ++
  (if get_unfinished_lines s =? 0 then lit ";"
   else if negb (count_char NL s =? 0) then SEMI :: lbody (From 0 0 k) else []).
Proof.
  assert (E0 : forall s, s <> [] -> (get_unfinished_lines s =? 0) = ends_with NL s).
  { intros t Ht. pose proof (unfinished_zero t Ht) as U. destruct (Nat.eqb_spec (get_unfinished_lines t) 0) as [E|E].
    - symmetry. now apply U.
    - destruct (ends_with NL t); [exfalso; apply E; now apply U|reflexivity]. }
  intro Hs. rewrite E0 by auto.
  induction s as [|c r IH]; [congruence|].
  destruct r as [|d r].
  - destruct (N.eqb_spec c NL); cbn; [subst; reflexivity|].
    destruct (N.eqb_spec c NL); [congruence|]. reflexivity.
  - specialize (IH ltac:(discriminate)). change (ends_with NL (c :: d :: r)) with (ends_with NL (d :: r)).
    remember (d :: r) as q eqn:Eq. cbn [src_ops count_char]. destruct (N.eqb_spec c NL) as [Ec|Ec].
    + assert (Em : match q with [] => [] | _ => From 0 0 k :: src_ops k q end = From 0 0 k :: src_ops k q) by (subst q; reflexivity).
      rewrite Em. cbn [render app]. rewrite IH. clear IH Em.
      set (sg := SEMI :: lbody (From 0 0 k)). change (SEMI :: lbody (From 0 0 k) ++ ?x) with (sg ++ x).
      cbn [Nat.add]. replace (S (count_char NL q) - 1) with (count_char NL q) by lia.
      destruct (count_char NL q) as [|n] eqn:En.
      * cbn [Nat.sub rep_str repeat concat app Nat.eqb negb].
        rewrite (ends_with_none q); [now rewrite app_nil_r|]. rewrite <- count_pos_in. lia.
      * replace (S n - 1) with n by lia. cbn [rep_str repeat concat Nat.eqb negb]. unfold rep_str.
        rewrite <- app_assoc. reflexivity.
    + cbn [Nat.add]. exact IH.
Qed.

(** Bytes behind the last newline, or added to [u] if there is none. *)
Definition pend (u : nat) (s : str) : nat :=
  if 0 <? count_char NL s then get_unfinished_lines s else u + blen s.
Lemma pend_char u c s : c <> NL -> pend u (c :: s) = pend (u + len_utf8 c) s.
Proof.
  intro H. unfold pend. cbn [count_char]. destruct (N.eqb_spec c NL); [congruence|]. cbn [Nat.add].
  destruct (Nat.ltb_spec 0 (count_char NL s)) as [G|G]; [|cbn [blen]; lia].
  apply count_pos_in in G. destruct (last_line s G) as (a & b & -> & Hb).
  change (c :: a ++ NL :: b) with ((c :: a) ++ NL :: b). now rewrite !unfinished_last.
Qed.
Lemma pend_nl u s : pend u (NL :: s) = pend 0 s.
Proof.
  unfold pend. cbn [count_char]. rewrite N.eqb_refl. cbn [Nat.add]. change (0 <? S _) with true. cbn iota.
  destruct (Nat.ltb_spec 0 (count_char NL s)) as [G|G].
  - apply count_pos_in in G. destruct (last_line s G) as (a & b & -> & Hb).
    change (NL :: a ++ NL :: b) with ((NL :: a) ++ NL :: b). now rewrite !unfinished_last.
  - cbn [Nat.add]. apply (unfinished_last []). intro H. apply count_pos_in in H. lia.
Qed.

Lemma same_target src a b : a = b -> Some (src, (a, 0%Z), @None Z) = Some (src, (b, 0%Z), None) :> option target.
Proof. now intros ->. Qed.
Lemma linv_src tb k src s : forall d u mt L, 
  linv tb d u mt (Some (src, (L, 0%Z), None)) ->
  entry tb (su_src (d_sums d)) = Some src -> L = (su_line (d_sums d) + 1)%Z ->
  let d' := lexecs (src_ops k s) d in
  exists a, linv tb d' (pend u s) (mt ++ mark_step k src L s) a /\
    a = (if ends_with NL s then None
         else Some (src, (L + k * Z.of_nat (count_char NL s), 0)%Z, None)) /\
    su_src (d_sums d') = su_src (d_sums d) /\
    su_line (d_sums d') = (su_line (d_sums d) + k * (Z.of_nat (count_char NL s) - if ends_with NL s then 1 else 0))%Z.
Proof.
  induction s as [|c s IH]; intros d u mt L H Hs HL d'; subst d'.
  - exists (Some (src, (L, 0%Z), None)). cbn. unfold pend. cbn. rewrite app_nil_r, Nat.add_0_r.
    repeat split; auto; [|lia]. apply same_target. lia.
  - destruct (N.eqb_spec c NL) as [Ec|Ec].
    + subst c. pose proof (linv_semi _ _ _ _ _ H) as H1.
      destruct s as [|e s].
      * exists None. rewrite pend_nl. repeat split; try (cbn; lia); exact H1.
      * remember (e :: s) as q eqn:Eq. 
        assert (Em : match q with [] => [] | _ => From 0 0 k :: src_ops k q end = From 0 0 k :: src_ops k q) by (subst q; reflexivity).
        cbn [src_ops]. rewrite N.eqb_refl, Em. change (lexecs (Semi :: From 0 0 k :: src_ops k q) d) with
          (lexecs (src_ops k q) (lexec (lexec d Semi) (From 0 0 k))).
        pose proof (linv_from tb _ _ _ _ 0 k src H1) as H2. change (Z.of_nat 0) with 0%Z in H2.
        set (d1 := lexec (lexec d Semi) (From 0 0 k)) in *.
        destruct (IH d1 0 (mt ++ [(NL, Some (src, (L, 0%Z), None))]) (L + k)%Z) as (a & G1 & G2 & G3 & G4).
        { assert (Ht : (su_line (d_sums (lexec d Semi)) + k + 1 = L + k)%Z) by (cbn [lexec d_sums next_line su_line]; lia).
          rewrite Ht in H2. apply H2. cbn [lexec d_sums next_line su_src]. now rewrite Z.add_0_r. }
        { unfold d1. cbn [lexec d_sums next_line su_src]. now rewrite Z.add_0_r. }
        { unfold d1. cbn [lexec d_sums next_line su_line]. lia. }
        exists a. rewrite pend_nl. cbn [mark_step]. rewrite N.eqb_refl.
        rewrite <- app_assoc in G1. cbn [app] in G1. split; [exact G1|].
        cbn [count_char]. rewrite N.eqb_refl.
        assert (Ee : ends_with NL (NL :: q) = ends_with NL q) by (subst q; reflexivity). rewrite Ee.
        split; [|split].
        -- rewrite G2. destruct (ends_with NL q); [reflexivity|]. apply same_target. lia.
        -- rewrite G3. unfold d1. cbn [lexec d_sums next_line su_src]. lia.
        -- rewrite G4. unfold d1. cbn [lexec d_sums next_line su_line]. destruct (ends_with NL q); lia.
    + apply (linv_char _ _ _ _ _ c Ec) in H.
      destruct (IH d _ _ L H Hs HL) as (a & G1 & G2 & G3 & G4). exists a.
      rewrite pend_char by auto. cbn [src_ops mark_step count_char]. destruct (N.eqb_spec c NL); [congruence|].
      rewrite <- app_assoc in G1. cbn [app] in G1. split; [exact G1|]. cbn [Nat.add].
      assert (Ee : ends_with NL (c :: s) = ends_with NL s).
      { destruct s; [cbn; now apply N.eqb_neq|reflexivity]. }
      rewrite Ee. auto.
Qed.

Lemma carried_mark_step k src s l : forall b line, k = k ->
  carried b (mark_step k src line s ++ l) =
  mark_step k src line s ++
  carried (match s with [] => b | _ => if ends_with NL s then None
           else Some (src, (line + k * Z.of_nat (count_char NL s), 0)%Z, None) end) l.
Proof.
  induction s as [|c s IH]; intros b line _; [reflexivity|]. cbn [mark_step app carried].
  rewrite IH by auto. f_equal. f_equal. f_equal.
  destruct s as [|d s].
  - cbn [ends_with count_char]. destruct (N.eqb c NL); [reflexivity|]. apply same_target. lia.
  - remember (d :: s) as q eqn:Eq. assert (Ee : ends_with NL (c :: q) = ends_with NL q) by (subst q; reflexivity).
    rewrite Ee. cbn [count_char]. subst q.
    destruct (ends_with NL (d :: s)); [reflexivity|]. apply same_target. destruct (N.eqb c NL); lia.
Qed.

(** ** The invariant along the nodes *)
Record ninv (mc : mctx) (d : dstate) (mt : marked) (a : option target) : Prop := mk_ninv {
  ni_inv : linv (table mc) d (mc_unfinished mc) mt a;
  ni_idx : map (fun e : option Z * (nat * option Z) => fst (snd e)) (mc_sources mc) = seq 0 (length (mc_sources mc));
  ni_src : su_src (d_sums d) = Z.of_nat (mc_source mc);
  ni_line : su_line (d_sums d) = (mc_line mc - 1)%Z;
  ni_zero : mc_unfinished mc = 0 -> a = None }.

Definition zsrc (s : option Z) : Z := match s with Some i => i | None => -1 end%Z.

Lemma ol_get_nth l src i o : forall n, map (fun e : option Z * (nat * option Z) => fst (snd e)) l = seq n (length l) ->
  ol_get l src = Some (i, o) -> n <= i /\ nth_error (map fst l) (i - n) = Some src.
Proof.
  induction l as [|[k [j q]] l IH]; intros n E H; [discriminate|]. cbn in E, H. injection E as -> E.
  destruct (optZ_eqb src k) eqn:Ek.
  - injection H as -> ->. apply optZ_eqb_eq in Ek. subst k. rewrite Nat.sub_diag. auto.
  - destruct (IH _ E H) as [G1 G2]. split; [lia|]. replace (i - n) with (S (i - S n)) by lia. exact G2.
Qed.
Lemma table_fst mc : table mc = map zsrc (map fst (mc_sources mc)).
Proof. unfold table. rewrite map_map. reflexivity. Qed.

Lemma ensure_ninv mc d mt a src orig mc' i : ninv mc d mt a -> ensure_source mc src orig = (mc', i) ->
  ninv mc' d mt a /\ entry (table mc') (Z.of_nat i) = Some (zsrc src) /\
  mc_unfinished mc' = mc_unfinished mc /\ mc_line mc' = mc_line mc /\ mc_source mc' = mc_source mc.
Proof.
  intros [H1 H2 H3 H4 H5]. unfold ensure_source. destruct (ol_get (mc_sources mc) src) as [[j o]|] eqn:E; intros [= <- <-].
  - split; [constructor; auto|]. split; [|auto]. rewrite entry_of_nat, table_fst.
    destruct (ol_get_nth _ _ _ _ 0 H2 E) as [_ G]. rewrite Nat.sub_0_r in G. now rewrite nth_error_map, G.
  - set (mc' := mk_mctx _ _ _ _ _).
    assert (T : table mc' = table mc ++ [zsrc src]) by (unfold table, mc'; cbn [mc_sources]; now rewrite map_app).
    split; [constructor; auto|].
    + rewrite T. now apply linv_table.
    + cbn [mc_sources mc']. rewrite map_app, H2, app_length, Nat.add_1_r, seq_S. reflexivity.
    + split; [|auto]. rewrite entry_of_nat, T, nth_error_app2 by (unfold table; rewrite map_length; lia).
      unfold table. rewrite map_length, Nat.sub_diag. reflexivity.
Qed.

Lemma busy_src k s : s <> [] -> busy_after true (src_ops k s) = (0 <? get_unfinished_lines s).
Proof.
  intro Hs. assert (E : (0 <? get_unfinished_lines s) = negb (ends_with NL s)).
  { pose proof (unfinished_zero s Hs) as U. destruct (Nat.ltb_spec 0 (get_unfinished_lines s)) as [H|H].
    - destruct (ends_with NL s); [|reflexivity]. assert (get_unfinished_lines s = 0) by now apply U. lia.
    - rewrite (proj1 U) by lia. reflexivity. }
  rewrite E. clear E. induction s as [|c s IH]; [congruence|].
  destruct s as [|e s].
  - cbn. destruct (N.eqb c NL); reflexivity.
  - change (ends_with NL (c :: e :: s)) with (ends_with NL (e :: s)). specialize (IH ltac:(discriminate)).
    remember (e :: s) as q eqn:Eq. cbn [src_ops]. destruct (N.eqb c NL); [|exact IH].
    subst q. exact IH.
Qed.

(** A piece: [k] = 1 for source nodes, 0 for single-line nodes. *)
Lemma piece_step k p mc d mt a mc1 si :
  pc_code p <> [] -> ninv mc d mt a -> ensure_source mc (pc_src p) (pc_orig p) = (mc1, si) ->
  let u := get_unfinished_lines (pc_code p) in
  let n := count_char NL (pc_code p) in
  let ops := From (Z.of_nat (mc_unfinished mc)) (Z.of_nat si - Z.of_nat (mc_source mc))
               (Z.of_N (pc_line p) - mc_line mc) :: src_ops k (pc_code p) in
  let mc2 := mk_mctx (mc_sources mc1) (mc_has_content mc1)
               (Z.of_N (pc_line p) + k * (Z.of_nat n - if u =? 0 then 1 else 0)) si u in
  piece_head mc1 si (pc_line p) ++ render true (src_ops k (pc_code p)) = render (0 <? mc_unfinished mc) ops /\
  orderly (0 <? mc_unfinished mc) ops /\
  busy_after (0 <? mc_unfinished mc) ops = (0 <? u) /\
  exists a', ninv mc2 (lexecs ops d) (mt ++ mark_step k (source_of p) (Z.of_N (pc_line p)) (pc_code p)) a' /\
    a' = (if ends_with NL (pc_code p) then None
          else Some (source_of p, (Z.of_N (pc_line p) + k * Z.of_nat n, 0)%Z, None)).
Proof.
  intros Hp HN He u n ops mc2. destruct (ensure_ninv _ _ _ _ _ _ _ _ HN He) as ([H1 H2 H3 H4 H5] & Hen & Eu & El & Es).
  split; [|split; [|split]].
  - unfold ops, piece_head. cbn [render lbody]. rewrite Eu, El, Es.
    destruct (Nat.eqb_spec (mc_unfinished mc) 0) as [E|E]; cbn [negb].
    + rewrite E. cbn [Nat.ltb Nat.leb app]. change (Z.of_nat 0) with 0%Z. rewrite <- !app_assoc. reflexivity.
    + destruct (Nat.ltb_spec 0 (mc_unfinished mc)); [|lia]. rewrite <- !app_assoc. reflexivity.
  - unfold ops. cbn [orderly]. split; [|apply orderly_src]. intro E. apply Nat.ltb_lt in E. lia.
  - unfold ops. cbn [busy_after]. now apply busy_src.
  - rewrite Eu in H1. rewrite El in H4. rewrite Es in H3.
    pose proof (linv_from _ _ _ _ _ (Z.of_nat si - Z.of_nat (mc_source mc)) (Z.of_N (pc_line p) - mc_line mc) (source_of p) H1) as G.
    rewrite H3, H4 in G. replace (Z.of_nat (mc_source mc) + (Z.of_nat si - Z.of_nat (mc_source mc)))%Z with (Z.of_nat si) in G by lia.
    specialize (G Hen). replace (mc_line mc - 1 + (Z.of_N (pc_line p) - mc_line mc) + 1)%Z with (Z.of_N (pc_line p)) in G by lia.
    destruct (linv_src (table mc1) k (source_of p) (pc_code p) _ _ _ _ G) as (a' & G1 & G2 & G3 & G4).
    { cbn [lexec d_sums su_src]. rewrite H3. replace (Z.of_nat (mc_source mc) + (Z.of_nat si - Z.of_nat (mc_source mc)))%Z with (Z.of_nat si) by lia. exact Hen. }
    { cbn [lexec d_sums su_line]. lia. }
    exists a'. split; [|exact G2].
    assert (Ez : (u =? 0) = ends_with NL (pc_code p)).
    { pose proof (unfinished_zero _ Hp) as U. unfold u. destruct (Nat.eqb_spec (get_unfinished_lines (pc_code p)) 0) as [E|E].
      - symmetry. now apply U.
      - destruct (ends_with NL (pc_code p)); [exfalso; apply E; now apply U|reflexivity]. }
    constructor.
    + unfold mc2. cbn [mc_unfinished]. change (table (mk_mctx (mc_sources mc1) (mc_has_content mc1)
         (Z.of_N (pc_line p) + k * (Z.of_nat n - (if u =? 0 then 1 else 0))) si u)) with (table mc1).
      replace u with (pend 0 (pc_code p)); [exact G1|]. unfold pend, u.
      destruct (Nat.ltb_spec 0 (count_char NL (pc_code p))) as [Hc|Hc]; [reflexivity|].
      cbn [Nat.add]. symmetry. apply unfinished_none. rewrite <- count_pos_in. lia.
    + exact H2.
    + unfold ops. change (lexecs (?x :: ?y) d) with (lexecs y (lexec d x)). rewrite G3.
      cbn [lexec d_sums su_src mc_source mc2]. lia.
    + unfold ops. change (lexecs (?x :: ?y) d) with (lexecs y (lexec d x)). rewrite G4.
      unfold mc2. cbn [lexec d_sums su_line mc_line]. rewrite Ez. fold n. destruct (ends_with NL (pc_code p)); lia.
    + unfold mc2. cbn [mc_unfinished]. intro E. rewrite G2, <- Ez, E. reflexivity.
Qed.

(** Plain code. *)
Lemma carried_code s : forall a l, carried a (mark None s ++ l) =
  carried a (mark None s) ++ carried (if 0 <? count_char NL s then None else a) l.
Proof.
  induction s as [|c s IH]; intros a l; [reflexivity|]. cbn [mark map app carried count_char].
  change (map (fun c0 : char => (c0, None)) s) with (mark None s). rewrite IH. f_equal. f_equal. f_equal.
  destruct (N.eqb c NL); [|reflexivity]. cbn [Nat.add]. destruct (0 <? count_char NL s); reflexivity.
Qed.
Lemma carried_none s : carried None (mark None s) = mark None s.
Proof.
  induction s as [|c s IH]; [reflexivity|]. cbn [mark map carried].
  destruct (N.eqb c NL); f_equal; exact IH.
Qed.
Lemma carried_line a s : ~ In NL s -> carried a (mark None s) = mark a s.
Proof.
  induction s as [|c s IH]; intro H; [reflexivity|]. cbn [mark map carried].
  destruct (N.eqb_spec c NL); [subst; exfalso; apply H; now left|]. f_equal. apply IH. intro G. apply H. now right.
Qed.

Lemma linv_lines tb s : forall d u mt a, linv tb d u mt a ->
  let d' := lexecs (repeat Semi (count_char NL s)) d in
  linv tb d' (pend u s) (mt ++ carried a (mark None s)) (if 0 <? count_char NL s then None else a) /\
  su_src (d_sums d') = su_src (d_sums d) /\ su_line (d_sums d') = su_line (d_sums d).
Proof.
  induction s as [|c s IH]; intros d u mt a H d'; subst d'.
  - cbn. unfold pend. cbn. rewrite Nat.add_0_r, app_nil_r. auto.
  - cbn [mark map carried count_char]. change (map (fun c0 : char => (c0, None)) s) with (mark None s).
    destruct (N.eqb_spec c NL) as [->|Ec]; cbn [Nat.add repeat].
    + apply linv_semi in H. destruct (IH _ _ _ _ H) as (G1 & G2 & G3). rewrite pend_nl.
      rewrite <- app_assoc in G1. cbn [app] in G1.
      change (lexecs (Semi :: repeat Semi (count_char NL s)) d) with (lexecs (repeat Semi (count_char NL s)) (lexec d Semi)).
      rewrite G2, G3. change (0 <? S (count_char NL s)) with true. cbn iota.
      split; [|split; reflexivity]. destruct (0 <? count_char NL s); exact G1.
    + apply (linv_char _ _ _ _ _ c Ec) in H. destruct (IH _ _ _ _ H) as (G1 & G2 & G3).
      rewrite pend_char by auto. rewrite <- app_assoc in G1. auto.
Qed.

Lemma lexecs_app l l' d : lexecs (l ++ l') d = lexecs l' (lexecs l d).
Proof. apply fold_left_app. Qed.
Lemma render_semis n : forall b l, render b (repeat Semi (S n) ++ l) = repeat SEMI (S n) ++ render false l.
Proof. induction n as [|n IH]; intros b l; [reflexivity|]. cbn [repeat app render]. f_equal. exact (IH false l). Qed.
Lemma busy_semis n : forall b, busy_after b (repeat Semi (S n)) = false.
Proof. induction n as [|n IH]; intros b; [reflexivity|]. exact (IH false). Qed.

Lemma blen_pos_iff s : (0 <? blen s) = match s with [] => false | _ => true end.
Proof. destruct s as [|c s]; [reflexivity|]. cbn [blen]. pose proof (len_utf8_pos c). destruct (Nat.ltb_spec 0 (len_utf8 c + blen s)); [reflexivity|lia]. Qed.

Lemma code_node_step mc d mt a s mc' out : ninv mc d mt a -> code_get_mappings s mc = (mc', out) ->
  exists ops a', out = render (0 <? mc_unfinished mc) ops /\ orderly (0 <? mc_unfinished mc) ops /\
    busy_after (0 <? mc_unfinished mc) ops = (0 <? mc_unfinished mc') /\
    ninv mc' (lexecs ops d) (mt ++ carried a (mark None s)) a' /\
    a' = if 0 <? count_char NL s then None else a.
Proof.
  intros [H1 H2 H3 H4 H5]. unfold code_get_mappings, number_of_lines.
  destruct (Nat.ltb_spec 0 (count_char NL s)) as [Hc|Hc]; intros [= <- <-].
  - apply count_pos_in in Hc. destruct (last_line s Hc) as (x & b & -> & Hb).
    rewrite unfinished_last by auto.
    exists (repeat Semi (S (count_char NL x)) ++ (if 0 <? blen b then [Bare] else [])), None.
    assert (Ecount : count_char NL (x ++ NL :: b) = S (count_char NL x)).
    { rewrite count_app. cbn [count_char]. rewrite N.eqb_refl.
      assert (count_char NL b = 0) by (destruct (count_char NL b) eqn:E; auto; exfalso; apply Hb, count_pos_in; lia). lia. }
    rewrite Ecount. split; [|split; [|split; [|split; [|reflexivity]]]].
    2: { apply orderly_app; [|rewrite busy_semis; destruct (0 <? blen b); repeat split]. clear. generalize (S (count_char NL x)), (0 <? mc_unfinished mc).
         induction n as [|n IH]; intro b0; [exact I|]. exact (IH false). }
    + rewrite render_semis. f_equal. destruct (0 <? blen b); reflexivity.
    + rewrite busy_after_app, busy_semis. cbn [mc_unfinished]. destruct (0 <? blen b); reflexivity.
    + rewrite lexecs_app.
      assert (Ex : count_char NL (x ++ [NL]) = S (count_char NL x)) by (rewrite count_app; cbn; lia).
      destruct (linv_lines _ (x ++ [NL]) _ _ _ _ H1) as (G1 & G2 & G3). rewrite Ex in G1, G2, G3.
      change (0 <? S (count_char NL x)) with true in G1. cbn iota in G1.
      assert (Ep : pend (mc_unfinished mc) (x ++ [NL]) = 0).
      { unfold pend. rewrite Ex. change (0 <? S (count_char NL x)) with true. cbn iota. rewrite (unfinished_last x []); [reflexivity|intros []]. }
      rewrite Ep in G1.
      assert (Ec : carried a (mark None (x ++ NL :: b)) = carried a (mark None (x ++ [NL])) ++ mark None b).
      { change (x ++ NL :: b) with (x ++ [NL] ++ b). rewrite app_assoc, mark_app, carried_code, Ex.
        change (0 <? S (count_char NL x)) with true. cbn iota. now rewrite carried_none. }
      rewrite Ec, app_assoc. set (d1 := lexecs (repeat Semi (S (count_char NL x))) d) in *.
      rewrite blen_pos_iff. destruct b as [|c b].
      * cbn [mark map blen]. change (lexecs [] d1) with d1. rewrite app_nil_r. constructor; auto.
        -- now rewrite G2.
        -- cbn [mc_line]. now rewrite G3.
      * apply linv_bare in G1. apply (linv_chars _ _ _ (c :: b) Hb) in G1.
        constructor; auto.
        -- cbn [lexecs fold_left lexec d_sums mc_source]. now rewrite G2.
        -- cbn [lexecs fold_left lexec d_sums mc_line]. now rewrite G3.
  - assert (Hn : ~ In NL s) by (rewrite <- count_pos_in; lia). rewrite unfinished_none by auto.
    rewrite carried_line by auto. cbn [mc_unfinished].
    destruct (Nat.eqb_spec (mc_unfinished mc) 0) as [E0|E0]; cbn [andb].
    + rewrite E0 in *. cbn [Nat.add Nat.ltb Nat.leb].
      specialize (H5 eq_refl). subst a. change (match blen s with 0 => false | S _ => true end) with (0 <? blen s).
      rewrite blen_pos_iff. destruct s as [|c s].
      * exists [], None. repeat split; auto. cbn [mark map]. now rewrite app_nil_r.
      * exists [Bare], None. split; [reflexivity|]. split; [repeat split|]. split; [reflexivity|]. split; [|reflexivity].
        apply linv_bare in H1. apply (linv_chars _ _ _ (c :: s) Hn) in H1.
        constructor; auto.
    + exists [], a. split; [reflexivity|]. split; [exact I|]. cbn [busy_after]. split.
      { destruct (Nat.ltb_spec 0 (mc_unfinished mc)), (Nat.ltb_spec 0 (mc_unfinished mc + blen s)); auto; lia. }
      split; [|reflexivity]. apply (linv_chars _ _ _ s Hn) in H1. constructor; auto. cbn [mc_unfinished]. lia.
Qed.

Lemma node_step n mc d mt a mc' out : node_ok n -> ninv mc d mt a -> node_get_mappings n mc = (mc', out) ->
  exists ops a', out = render (0 <? mc_unfinished mc) ops /\ orderly (0 <? mc_unfinished mc) ops /\
    busy_after (0 <? mc_unfinished mc) ops = (0 <? mc_unfinished mc') /\
    ninv mc' (lexecs ops d) (mt ++ carried a (node_marks n)) a' /\
    forall l, carried a (node_marks n ++ l) = carried a (node_marks n) ++ carried a' l.
Proof.
  intros Hok HN E. destruct n as [s|s|p|p|ch|i]; try contradiction; cbn [node_get_mappings node_marks] in *.
  - destruct (code_node_step _ _ _ _ _ _ _ HN E) as (ops & a' & H1 & HO & H2 & H3 & ->).
    exists ops, (if 0 <? count_char NL s then None else a). repeat (split; [assumption|]).
    intro l. apply carried_code.
  - unfold source_get_mappings in E. destruct (pc_code p) as [|c r] eqn:Ep.
    + injection E as <- <-. exists [], a. cbn. rewrite app_nil_r. auto.
    + rewrite <- Ep in *. assert (Hp : pc_code p <> []) by congruence. clear Ep c r.
      destruct (ensure_source mc (pc_src p) (pc_orig p)) as [mc1 si] eqn:Ee.
      destruct (piece_step 1 p mc d mt a mc1 si Hp HN Ee) as (H1 & HO & H2 & a' & H3 & H4).
      destruct Hok as [Hn _]. rewrite Hn in E.
      rewrite (render_src 1 _ Hp) in H1. change (SEMI :: lbody (From 0 0 1)) with (lit ";AACA") in H1.
      set (ops := From _ _ _ :: _) in H1, H2, H3.
      assert (Hc : carried a (mark_lines (source_of p) (Z.of_N (pc_line p)) (pc_code p)) =
                   mark_step 1 (source_of p) (Z.of_N (pc_line p)) (pc_code p)).
      { rewrite <- mark_step_lines. pose proof (carried_mark_step 1 (source_of p) (pc_code p) [] a (Z.of_N (pc_line p)) eq_refl) as G.
        cbn [carried] in G. now rewrite !app_nil_r in G. }
      exists ops, a'.
      assert (Hl : forall l, carried a (mark_lines (source_of p) (Z.of_N (pc_line p)) (pc_code p) ++ l) =
         carried a (mark_lines (source_of p) (Z.of_N (pc_line p)) (pc_code p)) ++ carried a' l).
      { intro l. rewrite Hc, <- mark_step_lines, carried_mark_step by auto. f_equal. f_equal. rewrite H4.
        destruct (pc_code p); [congruence|reflexivity]. }
      rewrite Hc in Hl |- *. destruct (Nat.eqb_spec (get_unfinished_lines (pc_code p)) 0) as [Eu|Eu]; injection E as <- <-.
      * split; [exact H1|]. split; [exact HO|]. split; [exact H2|]. split; [|exact Hl]. revert H3. cbn [negb].
        match goal with |- ninv ?x _ _ _ -> ninv ?y _ _ _ => replace y with x; [auto|] end. f_equal; lia.
      * split; [exact H1|]. split; [exact HO|]. split; [exact H2|]. split; [|exact Hl]. revert H3. cbn [negb].
        match goal with |- ninv ?x _ _ _ -> ninv ?y _ _ _ => replace y with x; [auto|] end. f_equal; lia.
  - unfold single_get_mappings in E. destruct (pc_code p) as [|c r] eqn:Ep.
    + injection E as <- <-. exists [], a. cbn. rewrite app_nil_r. auto.
    + rewrite <- Ep in *. assert (Hp : pc_code p <> []) by congruence. clear Ep c r.
      destruct (ensure_source mc (pc_src p) (pc_orig p)) as [mc1 si] eqn:Ee.
      destruct (piece_step 0 p mc d mt a mc1 si Hp HN Ee) as (H1 & HO & H2 & a' & H3 & H4).
      destruct Hok as [Hn _]. rewrite Hn in E.
      rewrite (render_src 0 _ Hp) in H1. change (SEMI :: lbody (From 0 0 0)) with (lit ";AAAA") in H1.
      set (ops := From _ _ _ :: _) in H1, H2, H3.
      assert (Hc : carried a (mark (Some (source_of p, (Z.of_N (pc_line p), 0%Z), None)) (pc_code p)) =
                   mark_step 0 (source_of p) (Z.of_N (pc_line p)) (pc_code p)).
      { rewrite <- mark_step_const. pose proof (carried_mark_step 0 (source_of p) (pc_code p) [] a (Z.of_N (pc_line p)) eq_refl) as G.
        cbn [carried] in G. now rewrite !app_nil_r in G. }
      exists ops, a'.
      assert (Hl : forall l, carried a (mark (Some (source_of p, (Z.of_N (pc_line p), 0%Z), None)) (pc_code p) ++ l) =
         carried a (mark (Some (source_of p, (Z.of_N (pc_line p), 0%Z), None)) (pc_code p)) ++ carried a' l).
      { intro l. rewrite Hc, <- mark_step_const, carried_mark_step by auto. f_equal. f_equal. rewrite H4.
        destruct (pc_code p); [congruence|reflexivity]. }
      rewrite Hc in Hl |- *. injection E as <- <-.
      split; [exact H1|]. split; [exact HO|]. split; [exact H2|]. split; [|exact Hl]. revert H3.
      match goal with |- ninv ?x _ _ _ -> ninv ?y _ _ _ => replace y with x; [auto|] end. f_equal; lia.
Qed.

Lemma mappings_ops m : forall mc d mt a mc' out, Forall node_ok m -> ninv mc d mt a ->
  mappings_loop m mc = (mc', out) ->
  exists ops a', out = render (0 <? mc_unfinished mc) ops /\ orderly (0 <? mc_unfinished mc) ops /\
    ninv mc' (lexecs ops d) (mt ++ carried a (list_marks m)) a'.
Proof.
  induction m as [|n m IH]; intros mc d mt a mc' out Hok HN E; cbn [mappings_loop] in E.
  - injection E as <- <-. exists [], a. cbn. rewrite app_nil_r. auto.
  - inversion Hok as [|? ? Hn Hm]; subst.
    destruct (node_get_mappings n mc) as [mc1 o1] eqn:E1. destruct (mappings_loop m mc1) as [mc2 o2] eqn:E2.
    injection E as <- <-. destruct (node_step _ _ _ _ _ _ _ Hn HN E1) as (ops1 & a1 & -> & O1 & Hb & HN1 & Hc).
    destruct (IH _ _ _ _ _ _ Hm HN1 E2) as (ops2 & a2 & -> & O2 & HN2).
    exists (ops1 ++ ops2), a2. rewrite render_app, Hb, lexecs_app. split; [reflexivity|]. split; [apply orderly_app; [exact O1|now rewrite Hb]|].
    cbn [list_marks flat_map]. fold (list_marks m). now rewrite Hc, app_assoc.
Qed.

Lemma text_carried m : forall a, text_of (carried a m) = text_of m.
Proof. induction m as [|[c t] m IH]; intro a; [reflexivity|]. cbn. f_equal. apply IH. Qed.
Lemma text_mark_lines src s : forall line, text_of (mark_lines src line s) = s.
Proof. induction s as [|c s IH]; intro line; [reflexivity|]. cbn. f_equal. apply IH. Qed.
Lemma text_list_marks m : Forall node_ok m -> text_of (list_marks m) = slm_text m.
Proof.
  induction 1 as [|n m Hn _ IH]; [reflexivity|]. cbn [list_marks flat_map]. fold (list_marks m). rewrite text_app, IH.
  unfold slm_text. cbn [flat_map]. f_equal. destruct n; try contradiction; cbn [node_marks].
  - apply text_mark.
  - apply text_mark_lines.
  - apply text_mark.
Qed.

Theorem list_map_exact m file : Forall node_ok m ->
  exists code mp es, slm_to_string_with_source_map m file = (code, mp) /\
    code = slm_text m /\ code = text_of (list_marks m) /\
    read_map (map_sources mp) [] (map_mappings mp) = Some es /\
    annotate_bytes es code = carried None (list_marks m) /\ NoDup (map fst es).
Proof.
  intro Hok. unfold slm_to_string_with_source_map.
  destruct (mappings_loop m mctx_new) as [mc out] eqn:E.
  assert (H0 : ninv mctx_new (mk_d 0 (mk_sums 0 0 0 0 0) []) [] None).
  { constructor; auto. apply linv_start. }
  destruct (mappings_ops _ _ _ _ _ _ _ Hok H0 E) as (ops & a & Eout & Or & [[es R _ _ A _ _] _ _ _ _]).
  destruct (get_arrays mc) as [sources contents] eqn:Ea. unfold get_arrays in Ea. injection Ea as <- <-.
  eexists _, _, es. split; [reflexivity|]. split; [reflexivity|]. rewrite <- text_list_marks by auto.
  split; [reflexivity|]. cbn [map_sources map_mappings]. rewrite Eout. change (0 <? mc_unfinished mctx_new) with false.
  split; [|split].
  - unfold read_map. rewrite decode_ops. cbn [bind]. change (map _ (map fst (mc_sources mc))) with (map zsrc (map fst (mc_sources mc))).
    rewrite <- table_fst. exact R.
  - cbn [app] in A. rewrite text_carried in A. exact A.
  - eapply resolves_places; [exact R|]. apply (lexecs_places ops false); [exact Or|constructor|intros s []].
Qed.
