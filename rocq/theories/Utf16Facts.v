(** UTF-16, the wasm boundary and JavaScript numbers. *)
From Coq Require Import ZArith Zquot.
From Verif Require Import Base Tactics ModelString ModelVlq ModelSm ModelSlm ModelSources ModelTree ModelJs ModelJsApi
  SpecText SpecJs EditFacts TreeText.

(** ** Strings *)
Lemma units_of_to_units c : scalar c -> units_of c (to_units c).
Proof.
  intro H. unfold to_units. destruct (c <? 65536)%N eqn:E; [constructor; lia|].
  set (d := (c - 65536)%N).
  pose proof (N.div_mod d 1024 ltac:(lia)). pose proof (N.mod_lt d 1024 ltac:(lia)).
  assert (d < 1048576)%N by (unfold d, scalar in *; lia).
  assert (d / 1024 < 1024)%N by (apply N.div_lt_upper_bound; lia).
  apply two_units; auto. unfold d in *. lia.
Qed.
Lemma units_of_det c x : units_of c x -> to_units c = x.
Proof.
  intro H. destruct H as [Hc|a b Ha Hb Hc]; unfold to_units.
  - destruct (c <? 65536)%N eqn:E; [reflexivity|lia].
  - destruct (c <? 65536)%N eqn:E; [lia|].
    replace (c - 65536)%N with (b + a * 1024)%N by lia.
    rewrite N.div_add, N.mod_add by lia. rewrite N.div_small, N.mod_small by lia. reflexivity.
Qed.
Lemma utf16_det s u : utf16 s u -> flat_map to_units s = u.
Proof. induction 1 as [|c s x u Hc Hx _ IH]; [reflexivity|]. cbn [flat_map]. rewrite IH. f_equal. now apply units_of_det. Qed.
Lemma utf16_scalar s u : utf16 s u -> Forall scalar s.
Proof. induction 1; auto. Qed.
Lemma utf16_units s : Forall scalar s -> utf16 s (flat_map to_units s).
Proof. induction 1 as [|c s H _ IH]; [constructor|]. cbn [flat_map]. constructor; auto. now apply units_of_to_units. Qed.
Lemma utf16_iff s u : utf16 s u <-> Forall scalar s /\ u = flat_map to_units s.
Proof.
  split; [intro H; split; [now apply utf16_scalar in H|now rewrite (utf16_det s u)]|].
  intros [H ->]. now apply utf16_units.
Qed.

Lemma from_js_units c x u : scalar c -> units_of c x -> from_js (x ++ u) = c :: from_js u.
Proof.
  intros Hc [Hx|a b Ha Hb E].
  - cbn [app from_js]. unfold is_high, is_low, scalar in *.
    destruct ((55296 <=? c) && (c <? 56320))%N eqn:E1; [lia|].
    destruct ((56320 <=? c) && (c <? 57344))%N eqn:E2; [lia|]. reflexivity.
  - cbn [app from_js]. unfold is_high, is_low, pair_value.
    destruct ((55296 <=? 55296 + a) && (55296 + a <? 56320))%N eqn:E1; [|lia].
    destruct ((56320 <=? 56320 + b) && (56320 + b <? 57344))%N eqn:E2; [|lia].
    f_equal. lia.
Qed.
Lemma from_js_utf16 s u : utf16 s u -> from_js u = s.
Proof. induction 1 as [|c s x u Hc Hx _ IH]; [reflexivity|]. rewrite from_js_units with (c := c); auto. now rewrite IH. Qed.

(** Two elements at a time. *)
Lemma units_ind (P : list N -> Prop) : P [] -> (forall a, P [a]) ->
  (forall a b r, P (b :: r) -> P r -> P (a :: b :: r)) -> forall u, P u.
Proof.
  intros H0 H1 H2. assert (forall u, P u /\ forall a, P (a :: u)) as H; [|intro u; apply H].
  induction u as [|b u [IH1 IH2]]; [auto|]. split; [apply IH2|]. intro a. apply H2; auto.
Qed.

Lemma from_js_good u : Forall (fun a => a < 65536)%N u -> Forall scalar (from_js u) /\ length (flat_map to_units (from_js u)) = length u.
Proof.
  assert (R : scalar REPL) by (unfold scalar, REPL; lia).
  assert (S1 : forall c, (c < 65536)%N -> to_units c = [c]).
  { intros c Hc. unfold to_units. destruct (c <? 65536)%N eqn:E; [reflexivity|lia]. }
  assert (S2 : forall a, is_high a = false -> is_low a = false -> (a < 65536)%N -> scalar a).
  { intros a. unfold is_high, is_low, scalar. lia. }
  induction u as [|a|a b r IHbr IHr] using units_ind; intro H.
  - split; [constructor|reflexivity].
  - inversion H; subst. cbn [from_js]. destruct (is_high a) eqn:E1; [|destruct (is_low a) eqn:E2].
    + split; [auto|reflexivity].
    + split; [auto|reflexivity].
    + cbn [flat_map]. rewrite S1 by auto. auto.
  - inversion H as [|? ? Ha Hbr]; subst. inversion Hbr as [|? ? Hb Hr]; subst.
    destruct (IHbr Hbr) as [G1 G2]. destruct (IHr Hr) as [G3 G4].
    cbn [from_js]. cbn [from_js] in G1, G2. destruct (is_high a) eqn:E1; [destruct (is_low b) eqn:E2|destruct (is_low a) eqn:E3].
    + unfold is_high, is_low in *. split.
      * constructor; auto. unfold scalar, pair_value. lia.
      * cbn [flat_map]. rewrite app_length, G4. unfold to_units.
        destruct (pair_value a b <? 65536)%N eqn:E; [unfold pair_value in E; lia|reflexivity].
    + split; [constructor; auto|]. cbn [flat_map]. rewrite app_length. rewrite G2. reflexivity.
    + split; [constructor; auto|]. cbn [flat_map]. rewrite app_length. rewrite G2. reflexivity.
    + split; [constructor; auto|]. cbn [flat_map]. rewrite app_length, S1 by auto. rewrite G2. reflexivity.
Qed.

Lemma to_js_units s : ~ starts_with BOM s -> to_js s = flat_map to_units s.
Proof.
  intro H. unfold to_js. destruct s as [|c r]; [reflexivity|].
  destruct (N.eqb_spec c BOM) as [->|]; [|reflexivity]. destruct H. now exists r.
Qed.
Lemma units_start s : Forall scalar s -> starts_with BOM (flat_map to_units s) -> starts_with BOM s.
Proof.
  intros H [r Hr]. destruct s as [|c s]; [discriminate|]. inversion H; subst. cbn [flat_map] in Hr.
  unfold to_units in Hr. destruct (c <? 65536)%N eqn:E; [|apply (f_equal (hd 0%N)) in Hr; cbn in Hr; unfold BOM in Hr; set (x := ((c - 65536) / 1024)%N) in *].
  - injection Hr as -> _. now exists s.
  - exfalso. assert (x < 1024)%N; [|lia]. unfold x. apply N.div_lt_upper_bound; [lia|]. unfold scalar in *. lia.
Qed.
Lemma start_units s : starts_with BOM s -> starts_with BOM (flat_map to_units s).
Proof. intros [r ->]. now exists (flat_map to_units r). Qed.

Lemma boundary_utf16 s u : utf16 s u -> ~ starts_with BOM u -> to_js (from_js u) = u.
Proof.
  intros H Hb. rewrite (from_js_utf16 s u H). apply utf16_iff in H as [H ->].
  apply to_js_units. intro B. apply Hb. now apply start_units.
Qed.
Lemma boundary_exact u : Forall (fun a => a < 65536)%N u ->
  (to_js (from_js u) = u <-> well_formed u /\ ~ starts_with BOM u).
Proof.
  intro Hu. destruct (from_js_good u Hu) as [G1 G2]. split.
  - intro E. unfold to_js in E. destruct (from_js u) as [|c s] eqn:Ef.
    + cbn in E. subst u. split; [exists []; constructor|]. intros [r Hr]. discriminate.
    + destruct (N.eqb_spec c BOM) as [->|Hc].
      * exfalso. cbn [flat_map] in G2. rewrite app_length, E in G2. cbn in G2. lia.
      * split; [exists (c :: s); apply utf16_iff; auto|]. intro B. rewrite <- E in B.
        apply units_start in B; [|auto]. destruct B as [r Hr]. now injection Hr.
  - intros [[s Hs] Hb]. now apply (boundary_utf16 s).
Qed.

(** Concatenation on both sides of the boundary. *)
Lemma utf16_app s1 u1 s2 u2 : utf16 s1 u1 -> utf16 s2 u2 -> utf16 (s1 ++ s2) (u1 ++ u2).
Proof.
  rewrite !utf16_iff. intros [H1 ->] [H2 ->]. split; [now apply Forall_app|]. now rewrite flat_map_app.
Qed.

(** Plain texts are their own units. *)
Lemma plain_utf16 u : plain u -> utf16 u u.
Proof.
  intro H. apply utf16_iff. induction H as [|c u [H1 H2] _ [IH1 IH2]]; [auto|]. split; [auto|].
  cbn [flat_map]. rewrite <- IH2. unfold to_units. destruct (c <? 65536)%N eqn:E; [reflexivity|lia].
Qed.

(** Prefixing. *)
Lemma units_NL : to_units NL = [NL]. Proof. reflexivity. Qed.
Lemma indent_cons2 p c d r : indent p (c :: d :: r) = if N.eqb c NL then c :: p ++ indent p (d :: r) else c :: indent p (d :: r).
Proof. reflexivity. Qed.
Lemma units_cons c : scalar c -> exists a l, to_units c = a :: l /\ Forall (fun x => x <> NL) l /\ (a = NL -> c = NL).
Proof.
  intro H. pose proof (units_of_to_units c H) as U. inversion U as [Hc E|a b Ha Hb Hc E]; eexists _, _.
  - split; [reflexivity|]. auto.
  - split; [reflexivity|]. split; [|unfold NL; lia]. constructor; [unfold NL; lia|constructor].
Qed.
Lemma indent_run p l r : Forall (fun x => x <> NL) l -> r <> [] -> indent p (l ++ r) = l ++ indent p r.
Proof.
  intros H Hr. induction H as [|x l Hx _ IH]; [reflexivity|].
  destruct (l ++ r) as [|d r'] eqn:E; [apply app_eq_nil in E; tauto|].
  cbn [app]. rewrite E, indent_cons2. destruct (N.eqb_spec x NL); [tauto|]. now rewrite IH.
Qed.
Lemma indent_run_nil p l : Forall (fun x => x <> NL) l -> indent p l = l.
Proof.
  induction 1 as [|x l Hx _ IH]; [reflexivity|]. destruct l as [|d r]; [reflexivity|].
  rewrite indent_cons2. destruct (N.eqb_spec x NL); [tauto|]. now rewrite IH.
Qed.
Lemma units_nonnil c : to_units c <> [].
Proof. unfold to_units. destruct (c <? 65536)%N; discriminate. Qed.
Lemma units_NL_free c : scalar c -> c <> NL -> Forall (fun x => x <> NL) (to_units c).
Proof.
  intros H Hc. destruct (units_cons c H) as (a & l & E & F & G). rewrite E. constructor; auto.
Qed.
Lemma indent_units p s : Forall scalar s ->
  flat_map to_units (indent p s) = indent (flat_map to_units p) (flat_map to_units s).
Proof.
  induction 1 as [|c s Hc Hs IH]; [reflexivity|]. destruct s as [|d s].
  - cbn [indent flat_map]. rewrite app_nil_r. destruct (N.eq_dec c NL) as [->|Hn]; [reflexivity|].
    symmetry. apply indent_run_nil. now apply units_NL_free.
  - rewrite indent_cons2. destruct (N.eqb_spec c NL) as [->|Hn].
    + change (flat_map to_units (NL :: p ++ indent p (d :: s))) with (NL :: flat_map to_units (p ++ indent p (d :: s))).
      rewrite flat_map_app, IH. change (flat_map to_units (NL :: d :: s)) with (NL :: flat_map to_units (d :: s)).
      destruct (flat_map to_units (d :: s)) as [|e r] eqn:E; [|reflexivity].
      cbn [flat_map] in E. apply app_eq_nil in E as [E _]. now apply units_nonnil in E.
    + change (flat_map to_units (c :: indent p (d :: s))) with (to_units c ++ flat_map to_units (indent p (d :: s))).
      rewrite IH. change (flat_map to_units (c :: d :: s)) with (to_units c ++ flat_map to_units (d :: s)).
      symmetry. apply indent_run; [now apply units_NL_free|].
      cbn [flat_map]. intro E. apply app_eq_nil in E as [E _]. now apply units_nonnil in E.
Qed.
Lemma prefixed_utf16 p s up us : utf16 p up -> utf16 s us -> utf16 (prefixed p s) (prefixed up us).
Proof.
  rewrite !utf16_iff. intros [Hp ->] [Hs ->]. unfold prefixed. split.
  - apply Forall_app. split; [exact Hp|]. induction Hs as [|c s Hc Hs IH]; [constructor|].
    destruct s as [|d s]; [now constructor|]. rewrite (indent_cons2 p c d s). destruct (N.eqb c NL); constructor; auto. apply Forall_app; auto.
  - now rewrite flat_map_app, indent_units.
Qed.

(** ** Numbers *)
Lemma rem_floor z d : (0 < d)%Z -> (0 <= z)%Z -> ((16 * z) / d = 16 * (z / d) + (16 * Z.rem z d) / d)%Z.
Proof.
  intros Hd Hz. rewrite Z.rem_mod_nonneg by lia.
  replace (16 * z)%Z with (16 * (z mod d) + (16 * (z / d)) * d)%Z by (pose proof (Z.div_mod z d ltac:(lia)); lia).
  rewrite Z.div_add by lia. lia.
Qed.
Lemma rem_bounds z d : (0 < d)%Z -> (0 <= z)%Z -> (0 <= (16 * Z.rem z d) / d < 16)%Z.
Proof.
  intros Hd Hz. pose proof (Z.rem_bound_pos z d Hz Hd). split; [apply Z.div_pos; lia|].
  apply Z.div_lt_upper_bound; lia.
Qed.
Lemma to_i32_id z : (-2147483648 <= z < 2147483648)%Z -> to_i32 z = z.
Proof. intro H. unfold to_i32. rewrite Z.mod_small; lia. Qed.
Lemma ordinary_parts p : ordinary p ->
  js_floor32 p = (sixteenths p / 16)%Z /\ js_sixteenths p = (sixteenths p mod 16)%Z /\
  (-2147483648 < js_floor32 p < 2147483647)%Z.
Proof.
  destruct p as [z k| |]; cbn [ordinary]; try tauto. set (d := (2 ^ Z.of_nat k)%Z). intros (H1 & H2 & H3).
  assert (Hd : (0 < d)%Z) by (unfold d; apply Z.pow_pos_nonneg; lia).
  unfold js_floor32, js_sixteenths, sixteenths. fold d.
  assert (B : (-2147483648 < z / d < 2147483647 \/ -2147483648 <= z / d /\ z / d < 2147483647 /\ z / d * d < z)%Z).
  { pose proof (Z.div_mod z d ltac:(lia)). pose proof (Z.mod_pos_bound z d Hd).
    assert (z / d < 2147483647)%Z by (apply Z.div_lt_upper_bound; lia).
    assert (-2147483648 <= z / d)%Z by (apply Z.div_le_lower_bound; lia).
    destruct (Z.eq_dec (z mod d) 0); [left; split; [|lia]|right; lia].
    assert (-2147483648 * d < z / d * d)%Z by lia. nia. }
  destruct H1 as [Hz|[q Hq]].
  - assert (Hp : (0 <= z / d)%Z) by (apply Z.div_pos; lia).
    pose proof (rem_floor z d Hd Hz) as E. pose proof (rem_bounds z d Hd Hz) as R.
    rewrite !to_i32_id by lia. rewrite E.
    replace (16 * (z / d) + 16 * Z.rem z d / d)%Z with (16 * Z.rem z d / d + (z / d) * 16)%Z by lia.
    set (r := (16 * Z.rem z d / d)%Z) in *.
    rewrite Z.div_add, Z.mod_add by lia. rewrite (Z.div_small r), (Z.mod_small r) by lia.
    split; [lia|]. split; [reflexivity|]. lia.
  - subst z. rewrite Z.rem_mul by lia. rewrite Z.mul_0_r, Z.div_0_l by lia.
    rewrite Z.mul_assoc, !Z.div_mul by lia. rewrite Z.div_mul in B by lia.
    assert (B' : (-2147483648 < q < 2147483647)%Z) by nia.
    rewrite !to_i32_id by lia. rewrite (Z.mul_comm 16 q), Z.div_mul, Z.mod_mul by lia. auto.
Qed.

(** ** Calls *)
Definition import_call (c : jcall) : call :=
  match c with
  | JReplace a b t => Replace (js_floor32 a) (js_floor32 b) (from_js t) (js_sixteenths a) (js_sixteenths b)
  | JInsert p t => Insert (js_floor32 p) (from_js t) (js_sixteenths p)
  | JRead => Read
  end.
Lemma js_run_run h : js_run h = run (map import_call h).
Proof.
  unfold js_run, run. generalize rstate_new. induction h as [|c h IH]; intro st; [reflexivity|].
  cbn [fold_left map]. rewrite <- IH. f_equal. destruct c; reflexivity.
Qed.
Lemma import_edits h : Forall ordinary_call h ->
  edits_of (map import_call h) = map (set_text from_js) (jedits h) /\
  Forall call_ok (map import_call h) /\ Forall edit_ok (edits_of (map import_call h)).
Proof.
  unfold edits_of, jedits. induction 1 as [|c h Hc _ (IH1 & IH2 & IH3)]; [repeat split; constructor|].
  cbn [map flat_map]. rewrite map_app, IH1. rewrite IH1 in IH3.
  assert (G : edit_of (import_call c) = map (set_text from_js) (jedit_of c) /\ call_ok (import_call c) /\
              Forall edit_ok (edit_of (import_call c))).
  { destruct c as [a b t|p t|]; cbn [import_call edit_of jedit_of map call_ok].
    - destruct Hc as [Ha Hb]. destruct (ordinary_parts a Ha) as (A1 & A2 & A3). destruct (ordinary_parts b Hb) as (B1 & B2 & B3).
      rewrite A1, A2, B1, B2 in *. split; [reflexivity|]. split; [exact I|]. repeat constructor; cbn; try lia;
        apply Z.mod_pos_bound; lia.
    - destruct (ordinary_parts p Hc) as (A1 & A2 & A3). rewrite A1, A2 in *.
      assert (E : (sixteenths p - 16 = sixteenths p + (-1) * 16)%Z) by lia. unfold jedit, set_text; cbn.
      rewrite E, Z.div_add, Z.mod_add by lia. split; [repeat f_equal; lia|]. split; [lia|].
      repeat constructor; cbn; try lia; apply Z.mod_pos_bound; lia.
    - repeat split; constructor. }
  destruct G as (G1 & G2 & G3). rewrite G1 in *. split; [reflexivity|]. split; [constructor; auto|].
  apply Forall_app. auto.
Qed.
