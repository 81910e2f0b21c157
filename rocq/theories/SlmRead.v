(** Reading a line map back: no code lost, lines attributed by their first segment. *)
From Verif Require Import Base Tactics ModelString StringFacts ModelVlq ModelSm ModelSlm
  SpecText SpecMap SpecAttr SpecList SliceFacts VlqFacts ParseFacts NodeFacts SlmFacts SlmMap.

(** ** Segments *)
Section Read.
Variable sources contents : list Z.

Definition spec_step (line : str) (sa : rdst * bool) (l : list Z) : rdst * bool :=
  let '(st, added) := sa in
  match l with
  | _ :: s :: r =>
      let si := to_usize (s + Z.of_N (rs_src st)) in
      let lp := match r with ol :: _ => (ol + rs_line st)%Z | [] => rs_line st end in
      (mk_rdst (if added then rs_rd st
                else rd_add_source (rs_rd st) line (get_idx sources si) (get_idx contents si) (to_usize lp)) lp si,
       true)
  | _ => (st, added)
  end.

Definition stop (t : str) : Prop := match t with [] => True | c :: _ => c = COMMA end.
Definition after (t : str) : str := match t with [] => [] | _ :: r => r end.

Lemma skip_to_comma_spec x t : ~ In COMMA x -> stop t -> skip_to_comma (x ++ t) = t.
Proof.
  induction x as [|c x IH]; intros Hx Ht.
  - destruct t as [|c t]; [reflexivity|]. cbn in *. now subst.
  - cbn. destruct (N.eqb_spec c COMMA); [subst; exfalso; apply Hx; now left|]. apply IH; auto. intro; apply Hx; now right.
Qed.

Lemma stop_sep t : stop t -> at_sep t = true.
Proof. destruct t as [|c t]; [reflexivity|]. intros ->. reflexivity. Qed.

Lemma at_comma t : stop t -> match t with [] => True | c :: r => N.eqb c COMMA = true end.
Proof. destruct t as [|c t]; [auto|]. intros ->. reflexivity. Qed.

(** The head of a non-empty rest of a segment is no comma. *)
Lemma numbers_head r l : numbers r 0 1 = Some l ->
  match r with [] => l = [] | c :: _ => N.eqb c COMMA = false /\ l <> [] end.
Proof.
  intro H. destruct (numbers_decode _ _ H) as [[-> ->]|(z & r' & l' & E & -> & _ & L)]; [reflexivity|].
  destruct r as [|c r]; [cbn in L; lia|]. split; [|discriminate].
  apply numbers_no_sep in H as [H _]. destruct (N.eqb_spec c COMMA); auto. subst. exfalso. apply H. now left.
Qed.

(** Taking one number off a segment, as the code does. *)
Lemma peel x l t : numbers x 0 1 = Some l -> stop t ->
  match l with
  | [] => x = []
  | z :: l' => exists c x0 x', x = c :: x0 /\ N.eqb c COMMA = false /\ vlq_decode (x ++ t) = Some (z, x' ++ t) /\
                 numbers x' 0 1 = Some l' /\ length x' < length x
  end.
Proof.
  intros H Ht. pose proof (numbers_head _ _ H) as Hh.
  destruct (numbers_decode _ _ H) as [[-> ->]|(z & r' & l' & E & -> & E' & L)]; [reflexivity|].
  destruct x as [|c x]; [cbn in L; lia|]. exists c, x, r'. destruct Hh. repeat split; auto.
  apply vlq_decode_app. exact E.
Qed.

Lemma segment_step_spec line st x l t added : numbers x 0 1 = Some l -> stop t -> x ++ t <> [] ->
  exists rest b, segment_step sources contents line st (x ++ t) added = Some (fst (spec_step line (st, added) l), rest, b) /\
    b || added = snd (spec_step line (st, added) l) /\
    length rest < length (x ++ t) /\
    match l with _ :: _ :: _ => rest = t | _ => rest = after t end.
Proof.
  intros H Ht Hne. pose proof (peel _ _ t H Ht) as P. unfold segment_step.
  destruct l as [|z l1].
  - subst x. destruct t as [|c t]; [exfalso; apply Hne; reflexivity|]. cbn in Ht. subst c. cbn.
    eexists _, _. split; [reflexivity|]. cbn. auto.
  - destruct P as (c & x0 & x1 & -> & Hc & -> & H1 & L1). cbn [app negb bind]. rewrite Hc. cbn [negb bind].
    pose proof (peel _ _ t H1 Ht) as P. destruct l1 as [|s l2].
    + subst x1. cbn [app]. destruct t as [|d t].
      * eexists _, _. split; [reflexivity|]. cbn. split; [reflexivity|]. split; [lia|reflexivity].
      * cbn in Ht. subst d. cbn. eexists _, _. split; [reflexivity|]. cbn. rewrite app_length. cbn. split; [reflexivity|]. split; [lia|reflexivity].
    + destruct P as (c1 & y & x2 & -> & Hc1 & E2 & H2 & L2). cbn [app]. rewrite Hc1. cbn [app] in E2. rewrite E2. cbn [bind].
      pose proof (peel _ _ t H2 Ht) as P. cbn [length app] in *.
      assert (Hlt : length t < S (length (x0 ++ t))) by (rewrite app_length; lia).
      match goal with |- context[bind ?m _] =>
        assert (E3 : exists x3, m = Some (match l2 with ol :: _ => (ol + rs_line st)%Z | [] => rs_line st end, x3 ++ t) /\ ~ In COMMA x3)
      end.
      { destruct l2 as [|ol l3].
        - subst x2. exists []. split; [|intros []]. cbn [app]. destruct t as [|d t]; [reflexivity|]. cbn in Ht. subst d. reflexivity.
        - destruct P as (c2 & y2 & x3 & -> & Hc2 & E4 & H3 & _). exists x3. cbn [app] in *. rewrite Hc2. cbn [negb]. rewrite E4.
          split; [reflexivity|]. now apply numbers_no_sep in H3 as [? _]. }
      destruct E3 as (x3 & E3 & Hx3).
      rewrite E3. cbn [bind]. rewrite skip_to_comma_spec by auto.
      destruct added; cbn [negb]; eexists _, _; (split; [reflexivity|]); cbn; auto.
Qed.

Lemma loop_nil fuel line st added : segment_loop fuel sources contents line st [] added = Some (st, added).
Proof. destruct fuel; reflexivity. Qed.
Lemma loop_S fuel line st c r added : segment_loop (S fuel) sources contents line st (c :: r) added =
  (let* (st, rest, b) := segment_step sources contents line st (c :: r) added in
   segment_loop fuel sources contents line st rest (b || added)).
Proof. reflexivity. Qed.

(** One whole segment with the comma after it. *)
Lemma loop_seg line fuel st x l t added : numbers x 0 1 = Some l -> stop t -> length (x ++ t) <= fuel ->
  exists fuel', length (after t) <= fuel' /\
  segment_loop fuel sources contents line st (x ++ t) added =
  segment_loop fuel' sources contents line (fst (spec_step line (st, added) l)) (after t)
    (snd (spec_step line (st, added) l)).
Proof.
  intros H Ht Hf. destruct (x ++ t) as [|c r] eqn:E.
  { destruct x; [|discriminate]. cbn in E. subst t. cbn in H. injection H as <-. exists 0. split; [cbn; lia|].
    now rewrite !loop_nil. }
  destruct fuel as [|fuel]; [cbn in Hf; lia|]. rewrite loop_S, <- E.
  destruct (segment_step_spec line st x l t added H Ht) as (rest & b & E1 & E2 & E3 & E4); [rewrite E; discriminate|].
  rewrite E1. cbn [bind]. rewrite E2. rewrite E in E3. cbn [length] in E3, Hf.
  assert (D : rest = after t \/ rest = t) by (destruct l as [|? [|? ?]]; auto).
  destruct D as [->|Hr].
  - exists fuel. split; [lia|reflexivity].
  - subst rest. destruct t as [|d t]; [exists fuel; split; [cbn; lia|reflexivity]|].
    cbn in Ht. subst d. destruct fuel as [|fuel]; [cbn in E3; lia|]. exists fuel. cbn in E3. split; [cbn; lia|].
    rewrite loop_S. reflexivity.
Qed.

Lemma loop_line line : forall ls cs, Forall2 (fun x l => numbers x 0 1 = Some l) cs ls ->
  forall mapping, fields_of COMMA mapping = cs -> forall fuel st added, length mapping <= fuel ->
  segment_loop fuel sources contents line st mapping added =
  Some (fold_left (spec_step line) ls (st, added)).
Proof.
  intros ls cs HF. induction HF as [|x l cs ls Hx HF IH]; intros mapping Em fuel st added Hf.
  - exfalso. apply (fields_nonempty COMMA mapping). exact Em.
  - assert (Hn : ~ In COMMA x) by (now apply numbers_no_sep in Hx as [? _]).
    rewrite fields_of_fields, fields_cut in Em. destruct (cut COMMA mapping) as [[a b]|] eqn:Ec.
    + injection Em as -> Em. apply cut_some in Ec as [-> _].
      destruct (loop_seg line fuel st x l (COMMA :: b) added Hx eq_refl Hf) as (fuel' & L & ->). cbn [after] in *.
      cbn [fold_left]. rewrite (surjective_pairing (spec_step line (st, added) l)). apply IH; auto.
    + injection Em as -> Em. subst cs. inversion HF; subst.
      destruct (loop_seg line fuel st x l [] added Hx I) as (fuel' & L & E); [now rewrite app_nil_r|].
      rewrite app_nil_r in E. rewrite E. cbn [after fold_left]. rewrite loop_nil. now rewrite <- surjective_pairing.
Qed.

(** ** Lines *)
Definition line_step (ls : list (list Z)) (line : str) (st : rdst) : rdst :=
  let '(st', added) := fold_left (spec_step line) ls (st, false) in
  if added then st' else mk_rdst (rd_add_code (rs_rd st') line) (rs_line st') (rs_src st').

Lemma reader_line_spec mapping ls line st :
  Forall2 (fun x l => numbers x 0 1 = Some l) (fields_of COMMA mapping) ls ->
  reader_line sources contents mapping line st = Some (line_step ls line st).
Proof.
  intro H. unfold reader_line, line_step. destruct mapping as [|c r] eqn:E.
  - cbn in H. inversion H as [|? l ? ? Hx HF]; subst. inversion HF; subst. cbn in Hx. injection Hx as <-. reflexivity.
  - rewrite <- E in *. rewrite (loop_line line ls _ H mapping eq_refl) by lia. cbn [bind].
    destruct (fold_left (spec_step line) ls (st, false)) as [st' []]; reflexivity.
Qed.

Fixpoint reader_spec (ms : list (list (list Z))) (lines : list str) (st : rdst) : rdst :=
  match lines with
  | [] => st
  | x :: r => reader_spec (tl ms) r (line_step (hd [] ms) x st)
  end.

Definition fin : msplit := mk_msplit false None NL true.
Definition at_text (a s : str) : msplit := mk_msplit true (Some (mslice a s [])) NL true.

Lemma reader_loop_fin : forall mls st, reader_loop sources contents mls fin st = Some (fin, st).
Proof. induction mls as [|mp mls IH]; intro st; [reflexivity|]. cbn. apply IH. Qed.

Lemma NL_ascii : is_ascii NL = true. Proof. reflexivity. Qed.

Lemma reader_loop_step mp m1 mls a s st : Forall2 (fun x l => numbers x 0 1 = Some l) (fields_of COMMA mp) m1 ->
  reader_loop sources contents (mp :: mls) (at_text a s) st =
  match cut NL s with
  | Some (u, v) => reader_loop sources contents mls (at_text (a ++ u ++ [NL]) v) (line_step m1 (u ++ [NL]) st)
  | None => Some (fin, line_step m1 s st)
  end.
Proof.
  intro H1. cbn [reader_loop]. unfold at_text at 1. rewrite msplit_next_keep by exact NL_ascii.
  destruct (cut NL s) as [[u v]|]; cbn [bind]; rewrite mslice_view; cbn [bind];
    rewrite (reader_line_spec _ _ _ _ H1); cbn [bind]; [reflexivity|apply reader_loop_fin].
Qed.

(** Either all lines are used up, or the rest starts behind a newline. *)
Lemma reader_loop_spec : forall ms mls, Forall2 (Forall2 (fun x l => numbers x 0 1 = Some l)) (map (fields_of COMMA) mls) ms ->
  ms <> [] ->
  forall a s st,
  (exists st', reader_loop sources contents mls (at_text a s) st = Some (fin, st') /\
     reader_spec ms (pieces NL s) st = st') \/
  (exists u v st', s = u ++ NL :: v /\
     reader_loop sources contents mls (at_text a s) st = Some (at_text (a ++ u ++ [NL]) v, st') /\
     reader_spec ms (pieces NL s) st = reader_spec [] (pieces NL v) st').
Proof.
  induction ms as [|m1 ms IH]; intros mls HF Hne a s st; [congruence|].
  destruct mls as [|mp mls]; [inversion HF|]. cbn [map] in HF. inversion HF as [|? ? ? ? H1 H2]; subst.
  rewrite (reader_loop_step mp m1 mls a s st H1). rewrite pieces_cut.
  destruct (cut NL s) as [[u v]|] eqn:Ec; cbn [reader_spec tl hd].
  - apply cut_some in Ec as [-> _]. destruct ms as [|m2 ms].
    + destruct mls; [|inversion H2]. right. exists u, v, (line_step m1 (u ++ [NL]) st). auto.
    + destruct (IH mls H2 ltac:(discriminate) (a ++ u ++ [NL]) v (line_step m1 (u ++ [NL]) st)) as [(st' & E1 & E2)|(u' & v' & st' & -> & E1 & E2)].
      * left. exists st'. auto.
      * right. exists (u ++ NL :: u'), v', st'. split; [now rewrite <- app_assoc|]. split; [|exact E2].
        rewrite E1. f_equal. f_equal. f_equal. rewrite <- !app_assoc. reflexivity.
  - left. eexists. split; reflexivity.
Qed.

(** ** The remaining lines *)
Definition add_lines (l : list str) (st : rd) : rd := fold_left rd_add_code l st.
Lemma reader_spec_nil l : forall st,
  reader_spec [] l st = mk_rdst (add_lines l (rs_rd st)) (rs_line st) (rs_src st).
Proof. induction l as [|x l IH]; intros [r li s]; [reflexivity|]. cbn [reader_spec tl hd]. rewrite IH. reflexivity. Qed.

Lemma set_last_snoc {A} (l : list A) x y : set_last (l ++ [x]) y = l ++ [y].
Proof.
  induction l as [|z l IH]; [reflexivity|]. cbn [app set_last]. rewrite IH. destruct (l ++ [x]) eqn:E; [|reflexivity].
  destruct l; discriminate.
Qed.
Lemma last_opt_snoc {A} (l : list A) x : last_opt (l ++ [x]) = Some x.
Proof. induction l as [|z l IH]; [reflexivity|]. cbn [app last_opt]. rewrite IH. destruct (l ++ [x]) eqn:E; [|reflexivity]. destruct l; discriminate. Qed.
Lemma last_cases {A} (l : list A) : l = [] \/ exists a x, l = a ++ [x].
Proof. destruct l as [|y l]; [auto|]. right. destruct (@exists_last _ (y :: l)) as (a & x & E); [discriminate|]. eauto. Qed.

Lemma add_lines_code l : forall nodes t csnl,
  add_lines l (nodes ++ [LCode t], csnl) = (nodes ++ [LCode (t ++ concat l)], csnl).
Proof.
  induction l as [|x l IH]; intros nodes t csnl; [cbn; now rewrite app_nil_r|].
  cbn [add_lines fold_left concat]. unfold rd_add_code at 2. rewrite last_opt_snoc, set_last_snoc.
  fold (add_lines l (nodes ++ [LCode (t ++ x)], csnl)). rewrite IH, app_assoc. reflexivity.
Qed.
Lemma blank_app a b : blank (a ++ b) = blank a && blank b.
Proof. apply forallb_app. Qed.
Lemma add_block st x l : blank x = false -> rd_add_code st (x ++ concat l) = add_lines (x :: l) st.
Proof.
  intro Hb. destruct st as [nodes csnl]. cbn [add_lines fold_left]. fold (add_lines l (rd_add_code (nodes, csnl) x)).
  assert (F : blank (x ++ concat l) = false) by (rewrite blank_app, Hb; reflexivity).
  unfold rd_add_code. destruct (last_cases nodes) as [->|(a & n & ->)].
  - cbn [last_opt]. now rewrite (add_lines_code l [] x csnl).
  - rewrite last_opt_snoc. destruct n; rewrite ?set_last_snoc, ?F, ?Hb, add_lines_code, <- ?app_assoc; reflexivity.
Qed.

Lemma rest_S f it st : reader_rest (S f) it st =
  (let* (it, o) := msplit_next it in
   match o with
   | None => Some st
   | Some x =>
       let* back := m_view (m_offset x (-1)) in
       if blank back then
         let* line := m_view x in
         reader_rest f it (rd_add_code st line)
       else
         let '(it, r) := msplit_take_rest it in
         let* last :=
           (match r with
            | Some last => m_view (m_offset last (- sl_len x))
            | None => m_view x
            end) in
         reader_rest f it (rd_add_code st last)
   end).
Proof. reflexivity. Qed.

Lemma back_view a s c : m_view (m_offset (mslice (a ++ [NL]) s c) (-1)) = Some (NL :: s).
Proof.
  pose proof (m_offset_back a [NL] s c) as H. unfold mslice. rewrite <- app_assoc.
  change (- Z.of_nat (blen [NL]))%Z with (-1)%Z in H. rewrite H. reflexivity.
Qed.
Lemma back_line a x s : m_view (m_offset (mslice (a ++ x) s []) (- sl_len (mslice a x s))) = Some (x ++ s).
Proof.
  pose proof (m_offset_back a x s []) as H. unfold mslice. rewrite <- app_assoc. cbn [sl_len]. exact H.
Qed.
Lemma blank_nl s : blank (NL :: s) = blank s.
Proof. reflexivity. Qed.

Lemma reader_rest_fin f st : f <> 0 -> reader_rest f fin st = Some st.
Proof. destruct f; [congruence|]. reflexivity. Qed.

Lemma reader_rest_spec : forall fuel a s st, length s + 2 <= fuel ->
  reader_rest fuel (at_text (a ++ [NL]) s) st = Some (add_lines (pieces NL s) st).
Proof.
  induction fuel as [|f IH]; intros a s st Hf; [lia|]. rewrite rest_S. unfold at_text at 1.
  rewrite msplit_next_keep by exact NL_ascii. pose proof (pieces_cut NL s) as Ep.
  destruct (cut NL s) as [[u v]|] eqn:Ec; cbn [bind].
  - pose proof (cut_length _ _ _ _ Ec) as L. apply cut_some in Ec as [-> _].
    rewrite back_view. cbn [bind]. rewrite blank_nl. destruct (blank (u ++ [NL])) eqn:Hb.
    + rewrite mslice_view. cbn [bind]. rewrite Ep. cbn [add_lines fold_left].
      fold (at_text ((a ++ [NL]) ++ u ++ [NL]) v). rewrite (app_assoc (a ++ [NL])), IH by lia. reflexivity.
    + unfold msplit_take_rest. cbn [ms_rest ms_pat ms_keep]. fold fin.
      pose proof (back_line (a ++ [NL]) (u ++ [NL]) v) as B. rewrite app_nil_r. rewrite B. cbn [bind].
      rewrite reader_rest_fin by lia. rewrite Ep. f_equal. rewrite <- (pieces_concat NL v) at 1. now apply add_block.
  - rewrite back_view. cbn [bind]. rewrite blank_nl. rewrite Ep. destruct (blank s) eqn:Hb.
    + rewrite mslice_view. cbn [bind]. fold fin. rewrite reader_rest_fin by lia. reflexivity.
    + unfold msplit_take_rest. cbn [ms_rest ms_pat ms_keep]. rewrite mslice_view. fold fin. cbn [bind].
      rewrite reader_rest_fin by lia. reflexivity.
Qed.

Lemma well_formed_numbers mappings : well_formed mappings ->
  exists ms, Forall2 (Forall2 (fun x l => numbers x 0 1 = Some l)) (cells mappings) ms.
Proof.
  unfold well_formed. generalize (cells mappings). intro cs. induction 1 as [|c cs Hc _ (ms & IH)]; [exists []; constructor|].
  assert (H : exists m, Forall2 (fun x l => numbers x 0 1 = Some l) c m).
  { induction Hc as [|x c (l & Hx) _ (m & IHc)]; [exists []; constructor|]. exists (l :: m). now constructor. }
  destruct H as (m & H). exists (m :: ms). now constructor.
Qed.

Definition start : rdst := mk_rdst ([], 0%N) 1 0.

Theorem reader_exact code mappings ms :
  Forall2 (Forall2 (fun x l => numbers x 0 1 = Some l)) (cells mappings) ms ->
  slm_from_string code sources contents mappings =
  Some (fst (rs_rd (reader_spec ms (pieces NL code) start))).
Proof.
  intro H. unfold slm_from_string. rewrite split_all_drop by reflexivity. cbn [bind].
  rewrite <- fields_of_fields.
  assert (Hne : ms <> []).
  { intros ->. inversion H as [E|]. unfold cells in E. symmetry in E. apply map_eq_nil in E. now apply (fields_nonempty SEMI mappings). }
  replace (msplit_new (m_from code) NL true) with (at_text [] code)
    by (unfold at_text, msplit_new, mslice, m_from; cbn; rewrite app_nil_r; reflexivity).
  destruct (reader_loop_spec ms _ H Hne [] code start) as [(st' & E1 & E2)|(u & v & st' & -> & E1 & E2)];
    fold start; rewrite E1; cbn [bind]; rewrite E2.
  - rewrite reader_rest_fin by lia. cbn [bind]. destruct (rs_rd st'); reflexivity.
  - cbn [app]. rewrite reader_rest_spec; [|rewrite app_length; cbn; lia].
    cbn [bind]. rewrite reader_spec_nil. cbn [rs_rd]. destruct (add_lines (pieces NL v) (rs_rd st')); reflexivity.
Qed.

(** ** Text *)
Definition rd_ok (r : rd) : Prop := Forall node_ok (fst r).
Definition rd_text (r : rd) : str := flat_map text_node (fst r).

Lemma counted_add p x : counted p -> counted (piece_add_code p x).
Proof.
  intros [H1 H2]. unfold counted, piece_add_code. cbn. rewrite count_app, H1. split; [reflexivity|].
  intro H. rewrite ends_with_tail; auto. destruct x; [discriminate H|discriminate].
Qed.
Lemma snoc_ok l n : Forall node_ok (l ++ [n]) <-> Forall node_ok l /\ node_ok n.
Proof. rewrite Forall_app. split; intros [A B]; split; auto. now inversion B. Qed.
Lemma snoc_text l n : flat_map text_node (l ++ [n]) = flat_map text_node l ++ text_node n.
Proof. rewrite flat_map_app. cbn. now rewrite app_nil_r. Qed.

Lemma add_code_ok r x : rd_ok r -> rd_ok (rd_add_code r x) /\ rd_text (rd_add_code r x) = rd_text r ++ x.
Proof.
  destruct r as [nodes csnl]. unfold rd_ok, rd_text, rd_add_code. cbn [fst]. intro H.
  destruct (last_cases nodes) as [->|(a & n & ->)]; [cbn; rewrite app_nil_r; split; auto; repeat constructor|].
  rewrite last_opt_snoc. apply snoc_ok in H as [Ha Hn].
  destruct n; try contradiction; rewrite ?set_last_snoc; cbn [fst].
  - rewrite snoc_ok, !snoc_text. cbn. rewrite app_assoc. auto.
  - destruct (blank x); cbn [fst].
    + rewrite snoc_ok, !snoc_text. cbn. rewrite app_assoc. auto using counted_add.
    + rewrite !snoc_ok, !snoc_text. cbn. auto.
  - rewrite !snoc_ok, !snoc_text. cbn. auto.
Qed.
Lemma add_source_ok r x src orig line : rd_ok r ->
  rd_ok (rd_add_source r x src orig line) /\ rd_text (rd_add_source r x src orig line) = rd_text r ++ x.
Proof.
  destruct r as [nodes csnl]. unfold rd_ok, rd_text, rd_add_source. cbn [fst]. intro H.
  destruct (last_cases nodes) as [->|(a & n & ->)]; [cbn; rewrite app_nil_r; split; auto; repeat constructor; auto|].
  rewrite last_opt_snoc. pose proof H as H'. apply snoc_ok in H as [Ha Hn].
  assert (F : rd_ok ((a ++ [n]) ++ [LSource (piece_new x src orig line)], (line + 1)%N) /\
              rd_text ((a ++ [n]) ++ [LSource (piece_new x src orig line)], (line + 1)%N) = flat_map text_node (a ++ [n]) ++ x).
  { unfold rd_ok, rd_text. cbn [fst]. rewrite (snoc_ok (a ++ [n])), (snoc_text (a ++ [n])). split; auto. split; auto. apply counted_new. }
  destruct n; try exact F. destruct (_ && _); [|exact F]. rewrite set_last_snoc. cbn [fst].
  rewrite snoc_ok, !snoc_text. cbn. rewrite app_assoc. auto using counted_add.
Qed.
Lemma steps_ok line : forall ls st added, rd_ok (rs_rd st) ->
  let '(st', added') := fold_left (spec_step line) ls (st, added) in
  rd_ok (rs_rd st') /\
  rd_text (rs_rd st') = if added' then if added then rd_text (rs_rd st) else rd_text (rs_rd st) ++ line else rd_text (rs_rd st).
Proof.
  induction ls as [|l ls IH]; intros st added H; cbn [fold_left].
  - split; auto. destruct added; reflexivity.
  - destruct l as [|z [|s r]]; [exact (IH st added H)|exact (IH st added H)|].
    cbn [spec_step]. remember (match r with ol :: _ => (ol + rs_line st)%Z | [] => rs_line st end) as lp eqn:Elp. clear Elp.
    remember (to_usize (s + Z.of_N (rs_src st))) as si eqn:Esi. clear Esi.
    destruct added.
    + specialize (IH (mk_rdst (rs_rd st) lp si) true H). destruct (fold_left _ _ _) as [st' []]; exact IH.
    + destruct (add_source_ok (rs_rd st) line (get_idx sources si) (get_idx contents si) (to_usize lp) H) as [A B].
      specialize (IH (mk_rdst (rd_add_source (rs_rd st) line (get_idx sources si) (get_idx contents si) (to_usize lp)) lp si) true A).
      assert (T : forall ls' s', snd (fold_left (spec_step line) ls' (s', true)) = true).
      { clear. induction ls' as [|l ls' IH]; intro s'; [reflexivity|]. cbn [fold_left]. destruct l as [|? [|? ?]]; cbn [spec_step]; apply IH. }
      match type of IH with context[fold_left _ _ (?s', true)] => specialize (T ls s') end.
      destruct (fold_left _ _ _) as [st' added']. cbn [snd] in T. subst added'. cbn [rs_rd] in IH. destruct IH as [IH1 IH2].
      split; auto. now rewrite IH2, B.
Qed.
Lemma line_step_ok ls line st : rd_ok (rs_rd st) ->
  rd_ok (rs_rd (line_step ls line st)) /\ rd_text (rs_rd (line_step ls line st)) = rd_text (rs_rd st) ++ line.
Proof.
  intro H. unfold line_step. pose proof (steps_ok line ls st false H) as S.
  destruct (fold_left _ _ _) as [st' []]; destruct S as [S1 S2]; [auto|]. cbn [rs_rd].
  destruct (add_code_ok _ line S1) as [A B]. split; auto. now rewrite B, S2.
Qed.
Lemma reader_spec_ok : forall lines ms st, rd_ok (rs_rd st) ->
  rd_ok (rs_rd (reader_spec ms lines st)) /\ rd_text (rs_rd (reader_spec ms lines st)) = rd_text (rs_rd st) ++ concat lines.
Proof.
  induction lines as [|x lines IH]; intros ms st H; [cbn; rewrite app_nil_r; auto|].
  cbn [reader_spec concat]. destruct (line_step_ok (hd [] ms) x st H) as [A B].
  destruct (IH (tl ms) _ A) as [C D]. split; auto. now rewrite D, B, app_assoc.
Qed.

Theorem reader_text code mappings : well_formed mappings ->
  exists m, slm_from_string code sources contents mappings = Some m /\ Forall node_ok m /\ slm_text m = code.
Proof.
  intro H. destruct (well_formed_numbers _ H) as (ms & Hm). rewrite (reader_exact code _ _ Hm).
  destruct (reader_spec_ok (pieces NL code) ms start (Forall_nil _)) as [A B].
  eexists. split; [reflexivity|]. split; [exact A|]. rewrite slm_text_ok by exact A.
  unfold rd_text in B. rewrite B. cbn. apply pieces_concat.
Qed.
End Read.

(** ** Attribution *)
Definition tail_is (r : rd) (prev : option (Z * Z)) : Prop :=
  match last_opt (fst r) with
  | Some (LSource p) =>
      prev = Some (source_of p, Z.of_N (snd r)) /\
      Z.of_N (snd r) = (Z.of_N (pc_line p) + Z.of_nat (count_char NL (pc_code p)))%Z
  | _ => prev = None
  end.
Definition or_none (o : option Z) : Z := match o with Some i => i | None => (-1)%Z end.

Lemma snoc_marks l n : list_marks (l ++ [n]) = list_marks l ++ node_marks n.
Proof. unfold list_marks. rewrite flat_map_app. cbn. now rewrite app_nil_r. Qed.

Lemma add_source_marks r prev x src orig line : rd_ok r -> tail_is r prev ->
  count_char NL x <= 1 -> tidy x ->
  list_marks (fst (rd_add_source r x src orig line)) =
    list_marks (fst r) ++ mark (Some (or_none src, (Z.of_N line, 0%Z), None)) x /\
  (count_char NL x = 1 -> tail_is (rd_add_source r x src orig line) (Some (or_none src, (Z.of_N line + 1)%Z))).
Proof.
  destruct r as [nodes csnl]. unfold rd_ok, tail_is, rd_add_source. cbn [fst snd]. intros Hok Ht Hc Hx.
  assert (F : list_marks (fst (nodes ++ [LSource (piece_new x src orig line)], (line + 1)%N)) =
      list_marks nodes ++ mark (Some (or_none src, (Z.of_N line, 0%Z), None)) x /\
    (count_char NL x = 1 -> tail_is (nodes ++ [LSource (piece_new x src orig line)], (line + 1)%N) (Some (or_none src, (Z.of_N line + 1)%Z)))).
  { cbn [fst]. rewrite snoc_marks. unfold node_marks. cbn [pc_line pc_code piece_new]. rewrite mark_lines_one by auto.
    split; [reflexivity|]. intro C. unfold tail_is. cbn [fst snd]. rewrite last_opt_snoc. cbn [pc_line pc_code piece_new].
    rewrite C. split; [|lia]. f_equal. f_equal. lia. }
  destruct (last_cases nodes) as [->|(a & n & ->)]; [exact F|]. rewrite last_opt_snoc in *.
  destruct n as [?|?|p|?|?|?]; try exact F.
  destruct (optZ_eqb (pc_src p) src && (csnl =? line)%N) eqn:E; [|exact F].
  apply andb_true_iff in E as [E1 E2]. apply optZ_eqb_eq in E1. apply N.eqb_eq in E2. destruct Ht as [_ Ht].
  rewrite set_last_snoc. cbn [fst snd]. rewrite last_opt_snoc, !snoc_marks. unfold node_marks, source_of.
  cbn [pc_src pc_line pc_code piece_add_code]. rewrite mark_lines_app, <- Ht, (mark_lines_one _ _ x), <- app_assoc, E1, E2 by auto.
  split; [reflexivity|]. intro C. rewrite count_app, C. subst. split; [f_equal; f_equal; lia|lia].
Qed.

Lemma add_code_marks r prev x : rd_ok r -> tail_is r prev -> count_char NL x <= 1 -> tidy x ->
  let go := match prev with
            | Some (s, l) => if blank x then Some (s, l) else None
            | None => None
            end in
  list_marks (fst (rd_add_code r x)) =
    list_marks (fst r) ++ mark (match go with Some (s, l) => Some (s, (l, 0%Z), None) | None => None end) x /\
  (count_char NL x = 1 ->
   tail_is (rd_add_code r x) (match go with Some (s, l) => Some (s, (l + 1)%Z) | None => None end)).
Proof.
  destruct r as [nodes csnl]. unfold rd_ok, tail_is, rd_add_code. cbn [fst snd]. intros Hok Ht Hc Hx.
  destruct (last_cases nodes) as [->|(a & n & ->)].
  { cbn in Ht. subst prev. cbn. rewrite app_nil_r. auto. }
  rewrite last_opt_snoc in *. apply snoc_ok in Hok as [_ Hok]. destruct n as [?|t|p|p|?|?]; try contradiction.
  - subst prev. rewrite set_last_snoc. cbn [fst]. rewrite last_opt_snoc, !snoc_marks. cbn [node_marks].
    rewrite mark_app, <- app_assoc. auto.
  - destruct Ht as [-> Ht]. destruct (blank x) eqn:Hb; cbn zeta; cbn iota.
    + rewrite set_last_snoc. cbn [fst snd]. rewrite last_opt_snoc, !snoc_marks. unfold node_marks, source_of.
      cbn [pc_src pc_line pc_code piece_add_code]. rewrite mark_lines_app, <- Ht, (mark_lines_one _ _ x), <- app_assoc by auto.
      split; [reflexivity|]. intro C. rewrite count_app, C. split; [f_equal; f_equal; lia|lia].
    + cbn [fst]. rewrite last_opt_snoc, snoc_marks. auto.
  - subst prev. cbn [fst]. rewrite last_opt_snoc, snoc_marks. auto.
Qed.

Definition sync (st : rdst) (su : sums) : Prop :=
  rs_line st = (su_line su + 1)%Z /\ Z.of_N (rs_src st) = su_src su.
Definition named (s : seg) : bool := match sg_orig s with Some _ => true | None => false end.
Definition seg_source (l : list Z) (s : seg) : option Z :=
  match sg_orig s with Some (si, _, _, _) => entry l si | None => None end.
Definition seg_line (s : seg) : N :=
  match sg_orig s with Some (_, ol, _, _) => Z.to_N (ol + 1) | None => 0%N end.

Lemma get_entry l i : get_idx l i = entry l (Z.of_N i).
Proof.
  unfold get_idx, entry. destruct (Z.ltb_spec (Z.of_N i) 0); [lia|]. replace (Z.to_nat (Z.of_N i)) with (N.to_nat i) by lia.
  destruct (N.ltb_spec i (N.of_nat (length l))); [reflexivity|]. symmetry. apply nth_error_None. lia.
Qed.
Lemma to_usize_id z : (0 <= z < 2 ^ 32)%Z -> to_usize z = Z.to_N z.
Proof. intro H. unfold to_usize. rewrite Z.mod_small; auto. Qed.

Lemma steps_decode sources contents k line : forall cs ls, Forall2 (fun x l => numbers x 0 1 = Some l) cs ls ->
  forall su su' segs st added, decode_line k su cs = Some (su', segs) -> Forall fits segs -> sync st su ->
  let '(st', added') := fold_left (spec_step sources contents line) ls (st, added) in
  sync st' su' /\
  match find named segs with
  | None => added' = added /\ rs_rd st' = rs_rd st
  | Some s => added' = true /\
      rs_rd st' = if added then rs_rd st
                  else rd_add_source (rs_rd st) line (seg_source sources s) (seg_source contents s) (seg_line s)
  end.
Proof.
  intros cs ls HF. induction HF as [|x l cs ls Hx HF IH]; intros su su' segs st added D Hs Hy.
  - cbn in D. injection D as <- <-. cbn. auto.
  - cbn [decode_line] in D. unbind D. destruct v as [su1 a]. unbind D. destruct v as [su2 b]. injection D as <- <-.
    apply Forall_app in Hs as [Ha Hb]. unfold decode_seg in E. rewrite Hx in E. cbn [bind] in E. cbn [fold_left].
    destruct l as [|c [|s [|ol [|oc r]]]]; try discriminate.
    + injection E as <- <-. exact (IH su su2 b st added E0 Hb Hy).
    + injection E as <- <-. cbn [app find named sg_orig].
      refine (IH _ su2 b st added E0 Hb _). exact Hy.
    + assert (G : exists q, a = [mk_seg k (su_col su + c) (Some (su_src su + s, su_line su + ol, su_ocol su + oc, q))%Z] /\
                 su_src su1 = (su_src su + s)%Z /\ su_line su1 = (su_line su + ol)%Z).
      { destruct r as [|n [|]]; try discriminate; injection E as <- <-; eauto. }
      destruct G as (q & -> & G1 & G2). clear E. cbn [app find named sg_orig].
      inversion Ha as [|? ? Hf _]; subst. cbn in Hf. destruct Hf as [F1 F2]. destruct Hy as [Y1 Y2].
      cbn [spec_step].
      assert (Esi : to_usize (s + Z.of_N (rs_src st)) = Z.to_N (su_src su + s)).
      { rewrite to_usize_id by (change (2 ^ 32)%Z with 4294967296%Z; lia). f_equal. lia. }
      assert (Elp : (ol + rs_line st = su_line su + ol + 1)%Z) by lia.
      rewrite Esi, Elp, !get_entry, Z2N.id by lia. rewrite (to_usize_id (su_line su + ol + 1)) by (change (2 ^ 32)%Z with 4294967296%Z; lia).
      match goal with |- context[fold_left _ _ (?st1, true)] =>
        assert (Hy1 : sync st1 su1) by (split; cbn; rewrite ?G1, ?G2; lia);
        specialize (IH su1 su2 b st1 true E0 Hb Hy1) end.
      destruct (fold_left _ _ _) as [st' added']. destruct IH as [IH1 IH2]. split; [exact IH1|].
      unfold seg_source, seg_line. cbn [sg_orig]. cbn [rs_rd] in IH2. destruct (find named b); exact IH2.
Qed.

Lemma decode_line_on k : forall cs su su' segs, decode_line k su cs = Some (su', segs) -> Forall (fun s => sg_line s = k) segs.
Proof.
  induction cs as [|x cs IH]; intros su su' segs D; cbn [decode_line] in D; [injection D as <- <-; constructor|].
  unbind D. destruct v as [su1 a]. unbind D. destruct v as [su2 b]. injection D as <- <-. apply Forall_app. split; eauto.
  unfold decode_seg in E. unbind E. destruct v as [|? [|? [|? [|? [|? [|]]]]]]; try discriminate; injection E as <- <-; repeat constructor.
Qed.
Lemma decode_lines_on : forall cs k su segs, decode_lines k su cs = Some segs -> Forall (fun s => k <= sg_line s)%Z segs.
Proof.
  induction cs as [|x cs IH]; intros k su segs D; cbn [decode_lines] in D; [injection D as <-; constructor|].
  unbind D. destruct v as [su1 a]. unbind D. injection D as <-. apply Forall_app. split.
  - eapply Forall_impl; [|eapply decode_line_on; exact E]. cbn. lia.
  - eapply Forall_impl; [|eapply IH; exact E0]. cbn. lia.
Qed.

Definition on_line (k : Z) (s : seg) : bool := (sg_line s =? k)%Z && named s.
Lemma find_here k a b : Forall (fun s => sg_line s = k) a -> Forall (fun s => k < sg_line s)%Z b ->
  find (on_line k) (a ++ b) = find named a.
Proof.
  intros Ha Hb. induction Ha as [|s a Hs _ IH]; cbn [app find].
  - induction Hb as [|s b Hs _ IH]; [reflexivity|]. cbn [find]. unfold on_line at 1. destruct (Z.eqb_spec (sg_line s) k); [lia|exact IH].
  - unfold on_line at 1. rewrite Hs, Z.eqb_refl. cbn [andb]. now rewrite IH.
Qed.
Lemma find_later k k' a b : Forall (fun s => sg_line s = k) a -> k <> k' -> find (on_line k') (a ++ b) = find (on_line k') b.
Proof.
  intros Ha Hk. induction Ha as [|s a Hs _ IH]; [reflexivity|]. cbn [app find]. unfold on_line at 1. rewrite Hs.
  destruct (Z.eqb_spec k k'); [congruence|exact IH].
Qed.
Definition pick (sources : list Z) (o : option seg) : option (Z * Z) :=
  match o with
  | Some s => match sg_orig s with
              | Some (si, ol, _, _) => Some (or_none (entry sources si), (ol + 1)%Z)
              | None => None
              end
  | None => None
  end.
Lemma first_on_pick sources segs k : first_on sources segs k = pick sources (find (on_line k) segs).
Proof. reflexivity. Qed.

Lemma attribute_later sources : forall lines k0 k prev a b, Forall (fun s => sg_line s = k0) a -> (k0 < k)%Z ->
  attribute sources (a ++ b) k prev lines = attribute sources b k prev lines.
Proof.
  induction lines as [|x lines IH]; intros k0 k prev a b Ha Hk; [reflexivity|]. cbn [attribute].
  rewrite !first_on_pick, (find_later k0 k a b) by (auto; lia).
  destruct (pick _ _) as [[s l]|]; [now rewrite (IH k0 (k + 1)%Z _ a b Ha) by lia|].
  destruct prev as [[s l]|]; [|now rewrite (IH k0 (k + 1)%Z _ a b Ha) by lia].
  destruct (blank x); now rewrite (IH k0 (k + 1)%Z _ a b Ha) by lia.
Qed.

Definition line_shape (lines : list str) : Prop :=
  Forall (fun x => count_char NL x <= 1 /\ tidy x) lines /\
  (forall a b x, lines = a ++ x :: b -> b <> [] -> ends_with NL x = true).
Lemma line_shape_cons x l : line_shape (x :: l) ->
  count_char NL x <= 1 /\ tidy x /\ line_shape l /\ (l <> [] -> count_char NL x = 1).
Proof.
  intros [H1 H2]. inversion H1 as [|? ? [A B] C]; subst. split; [auto|]. split; [auto|]. split.
  - split; auto. intros a b y ->. apply (H2 (x :: a) b y eq_refl).
  - intro Hl. specialize (H2 [] l x eq_refl Hl).
    assert (0 < count_char NL x); [|lia]. apply count_pos_in. destruct (in_dec N.eq_dec NL x); auto.
    rewrite ends_with_none in H2 by auto. discriminate.
Qed.

Lemma reader_marks sources contents : forall lines cs ms,
  Forall2 (Forall2 (fun x l => numbers x 0 1 = Some l)) cs ms -> line_shape lines ->
  forall k su segs st prev, decode_lines k su cs = Some segs -> Forall fits segs -> sync st su ->
  rd_ok (rs_rd st) -> tail_is (rs_rd st) prev ->
  list_marks (fst (rs_rd (reader_spec sources contents ms lines st))) =
  list_marks (fst (rs_rd st)) ++ attribute sources segs k prev lines.
Proof.
  induction lines as [|x lines IH]; intros cs ms HF Hl k su segs st prev D Hs Hy Hok Ht; [cbn; now rewrite app_nil_r|].
  apply line_shape_cons in Hl as (Hc & Hx & Hl & Hn).
  (* the segments of this line and of the following ones *)
  assert (D' : exists a b su1, segs = a ++ b /\ Forall (fun s => sg_line s = k) a /\ Forall (fun s => k < sg_line s)%Z b /\
    decode_line k su (hd [] cs) = Some (su1, a) /\
    decode_lines (k + 1) (mk_sums 0 (su_src su1) (su_line su1) (su_ocol su1) (su_name su1)) (tl cs) = Some b).
  { destruct cs as [|c cs].
    - cbn in D. injection D as <-. exists [], [], su. repeat split; auto.
    - cbn [decode_lines] in D. unbind D. destruct v as [su1 a]. unbind D. injection D as <-. exists a, v, su1.
      repeat split; auto; [eapply decode_line_on; eauto|]. eapply Forall_impl; [|eapply decode_lines_on; eauto]. cbn. lia. }
  destruct D' as (a & b & su1 & -> & Ha & Hb & D1 & D2). clear D. apply Forall_app in Hs as [Hsa Hsb].
  assert (HF1 : Forall2 (fun x l => numbers x 0 1 = Some l) (hd [] cs) (hd [] ms)) by (inversion HF; subst; cbn; auto).
  assert (HF2 : Forall2 (Forall2 (fun x l => numbers x 0 1 = Some l)) (tl cs) (tl ms)) by (inversion HF; subst; cbn; auto).
  pose proof (steps_decode sources contents k x _ _ HF1 su su1 a st false D1 Hsa Hy) as S.
  cbn [reader_spec attribute].
  rewrite first_on_pick, (find_here k a b Ha Hb).
  assert (L : exists go, match pick sources (find named a), prev with
      | Some (s, l), _ =>
          mark (Some (s, (l, 0%Z), None)) x ++ attribute sources (a ++ b) (k + 1) (Some (s, (l + 1)%Z)) lines
      | None, Some (s, l) =>
          if blank x then mark (Some (s, (l, 0%Z), None)) x ++ attribute sources (a ++ b) (k + 1) (Some (s, (l + 1)%Z)) lines
          else mark None x ++ attribute sources (a ++ b) (k + 1) None lines
      | None, None => mark None x ++ attribute sources (a ++ b) (k + 1) None lines
      end = mark (match go with Some (s, l) => Some (s, (l, 0%Z), None) | None => None end) x ++
            attribute sources b (k + 1) (match go with Some (s, l) => Some (s, (l + 1)%Z) | None => None end) lines /\
      sync (line_step sources contents (hd [] ms) x st) su1 /\ rd_ok (rs_rd (line_step sources contents (hd [] ms) x st)) /\
      list_marks (fst (rs_rd (line_step sources contents (hd [] ms) x st))) =
        list_marks (fst (rs_rd st)) ++ mark (match go with Some (s, l) => Some (s, (l, 0%Z), None) | None => None end) x /\
      (count_char NL x = 1 -> tail_is (rs_rd (line_step sources contents (hd [] ms) x st))
         (match go with Some (s, l) => Some (s, (l + 1)%Z) | None => None end))).
  { pose proof (line_step_ok sources contents (hd [] ms) x st Hok) as [Hok' _]. revert Hok'.
    unfold line_step. destruct (fold_left _ _ _) as [st' added']. destruct S as [Hy' S]. intro Hok'.
    destruct (find named a) as [s|] eqn:Ef.
    - destruct S as [-> S]. apply find_some in Ef as [Hin Hnm]. unfold named in Hnm.
      rewrite Forall_forall in Hsa. specialize (Hsa s Hin). unfold fits in Hsa.
      unfold pick. unfold seg_source, seg_line in S. destruct (sg_orig s) as [[[[si ol] oc] nm]|]; [|discriminate].
      exists (Some (or_none (entry sources si), (ol + 1)%Z)). split; [now rewrite (attribute_later sources lines k (k + 1)) by (auto; lia)|].
      split; [auto|]. split; [auto|]. rewrite S.
      destruct (add_source_marks (rs_rd st) prev x (entry sources si) (entry contents si) (Z.to_N (ol + 1)) Hok Ht Hc Hx) as [M1 M2].
      rewrite Z2N.id in M1, M2 by lia. auto.
    - destruct S as [-> S]. cbn [rs_rd] in *. rewrite S in *.
      destruct (add_code_marks (rs_rd st) prev x Hok Ht Hc Hx) as [M1 M2]. cbn zeta in M1, M2.
      exists (match prev with Some (s, l) => if blank x then Some (s, l) else None | None => None end).
      split; [|auto]. cbn [pick]. destruct prev as [[s l]|]; [destruct (blank x)|];
        now rewrite (attribute_later sources lines k (k + 1)) by (auto; lia). }
  destruct L as (go & L0 & L1 & L2 & L3 & L4).
  etransitivity; [|exact (f_equal (app (list_marks (fst (rs_rd st)))) (eq_sym L0))]. clear L0.
  destruct lines as [|y lines].
  { cbn [reader_spec attribute]. rewrite app_nil_r. exact L3. }
  rewrite (IH (tl cs) (tl ms) HF2 Hl (k + 1)%Z (mk_sums 0 (su_src su1) (su_line su1) (su_ocol su1) (su_name su1)) b
             (line_step sources contents (hd [] ms) x st)
             (match go with Some (s, l) => Some (s, (l + 1)%Z) | None => None end) D2 Hsb); auto.
  - rewrite L3, <- app_assoc. reflexivity.
  - apply L4, Hn. discriminate.
Qed.

Lemma decode_numbers mappings segs : decode mappings = Some segs -> well_formed mappings.
Proof.
  unfold decode, well_formed. generalize 0%Z at 1, (mk_sums 0 0 0 0 0). generalize (cells mappings).
  intros cs. revert segs. induction cs as [|c cs IH]; intros segs k su D; [constructor|].
  cbn [decode_lines] in D. unbind D. destruct v as [su1 a]. unbind D. constructor; [|eapply IH; eauto].
  clear -E. revert su su1 a E. induction c as [|x c IH]; intros su su1 a E; [constructor|].
  cbn [decode_line] in E. unbind E. destruct v as [su2 b]. unbind E. destruct v as [su3 b2]. constructor; [|eapply IH; eauto].
  unfold decode_seg in E0. unbind E0. eauto.
Qed.

Theorem reader_attribution sources contents code mappings segs :
  decode mappings = Some segs -> Forall fits segs ->
  exists m, slm_from_string code sources contents mappings = Some m /\ Forall node_ok m /\
    list_marks m = attribute sources segs 0 None (cut_lines code).
Proof.
  intros D Hs. destruct (well_formed_numbers _ (decode_numbers _ _ D)) as (ms & Hm).
  rewrite (reader_exact sources contents code _ _ Hm).
  destruct (reader_spec_ok sources contents (pieces NL code) ms start (Forall_nil _)) as [A _].
  eexists. split; [reflexivity|]. split; [exact A|]. rewrite cut_lines_pieces.
  rewrite (reader_marks sources contents (pieces NL code) (cells mappings) ms Hm (pieces_tidy code) 0
             (mk_sums 0 0 0 0 0) segs start None D Hs).
  - reflexivity.
  - split; reflexivity.
  - constructor.
  - reflexivity.
Qed.
