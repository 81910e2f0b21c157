(** Final theorems about line maps: C08, C13, C17 - C20, C26, C27, C33, C38, C39, C41, C42. *)
From Verif Require Import Base Tactics ModelString ModelVlq ModelSm ModelSlm ModelSources ModelTree ModelJs
  SpecText SpecMap SpecAttr SpecEdit SpecList EditFacts MapFacts LoadFacts SlmFacts SlmMap SlmRead SlmReplace SlmTree SlmWhole SlmProps.

Definition ln (s : str) : str := s ++ [NL].
Definition lm1 : slm :=
  [LCode (lit "a"); LSource (piece_new (ln (lit "b") ++ lit "c") (Some 7%Z) (Some 70%Z) 4);
   LCode (ln (lit "d") ++ lit "e"); LSingle (piece_new (ln (lit "f") ++ ln (lit "g")) (Some 9%Z) None 2)].
Lemma lm1_ok : Forall node_ok lm1.
Proof. repeat (apply Forall_cons; [exact I || apply counted_new|]). apply Forall_nil. Qed.

(** C08 *)
Theorem C08_line_text : forall m t s, line_ready false m t -> t_source t = Some s ->
  exists mp, source_and_line_map m t = Some (s, mp).
Proof. exact line_map_text. Qed.
Print Assumptions C08_line_text.

(** The condition on prefixes holds for whole lines. *)
Theorem C08_whole_lines : forall c m p t, whole m t -> line_ready c m t /\ line_ready c m (TPrefix p t).
Proof. intros c m p t W. split; [apply whole_good; exact W|now apply whole_prefix_ready]. Qed.
Print Assumptions C08_whole_lines.

Example C08_whole_lines_case :
  let t := TConcat [TOriginal (ln (lit "ab")) 50 5; TStr (lit "c")] in
  whole false t /\ source_and_line_map false (TPrefix (lit "> ") t) <> None /\
  t_source (TPrefix (lit "> ") t) = Some (ln (lit "> ab") ++ lit "> c").
Proof.
  cbn zeta. split; [|split; [vm_compute; discriminate|vm_compute; reflexivity]].
  split; [cbn; auto|]. exists [ln (lit "ab"); lit "c"]. split; [reflexivity|]. cbn. split; [reflexivity|]. split; [discriminate|exact I].
Qed.

Definition tree8 : tree :=
  TReplace
    (TConcat [TStr (lit "x"); TPrefix (lit "> ") (TConcat [TOriginal (ln (lit "ab")) 50 5; TStr (lit "c")])])
    (run [Insert 1 (lit "!") 0; Replace 3 3 [] 0 0]).
Example C08_case : line_ready false false tree8 /\ t_source tree8 = Some (lit "x!> b" ++ [NL] ++ lit "> c").
Proof.
  split; [|vm_compute; reflexivity]. split.
  - split; [exact I|]. split; [|exact I].
    apply (C08_whole_lines false false (lit "> ") (TConcat [TOriginal (ln (lit "ab")) 50 5; TStr (lit "c")])).
    split; [cbn; auto|]. exists [ln (lit "ab"); lit "c"]. split; [reflexivity|]. cbn. split; [reflexivity|]. split; [discriminate|exact I].
  - eexists. split; [reflexivity|]. split; [repeat constructor; cbn; lia|]. split; [repeat constructor; cbn; lia|].
    split; [repeat constructor; unfold forward; cbn; lia|].
    constructor; [constructor; [left; unfold before, e_hi; cbn; lia|constructor]|]. constructor; [constructor|constructor].
Qed.

(** Overlapping and inverted edits give another text. *)
Theorem C08_edits_refuted : exists h1 h2,
  let t1 := TReplace (TRaw (lit "0123456789")) (run h1) in
  let t2 := TReplace (TRaw (lit "0123456789")) (run h2) in
  Forall call_ok h1 /\ Forall call_ok h2 /\ Forall edit_ok (edits_of h1) /\ Forall edit_ok (edits_of h2) /\
  Forall forward (edits_of h1) /\
  t_source t1 = Some (lit "01BA9") /\ option_map fst (source_and_line_map true t1) = Some (lit "0123BA9") /\
  t_source t2 = Some (lit "0123X456789") /\ option_map fst (source_and_line_map true t2) = Some (lit "01234567X89").
Proof.
  exists [Replace 2 8 (lit "A") 0 0; Replace 4 5 (lit "B") 0 0], [Replace 8 3 (lit "X") 0 0]. cbn zeta.
  split; [repeat constructor; cbn; lia|]. split; [repeat constructor; cbn; lia|]. split; [repeat constructor; cbn; lia|].
  split; [repeat constructor; cbn; lia|]. split; [repeat constructor; unfold forward; cbn; lia|]. vm_compute. repeat split.
Qed.
Print Assumptions C08_edits_refuted.
(** Nor where one edit ends at the greatest 32-bit position: one past it wraps around, and the two
    readings make different things of it; a user means "to the end". *)
Theorem C08_far_refuted : exists h,
  let t := TReplace (TRaw (lit "0123456789")) (run h) in
  Forall forward (edits_of h) /\ length (edits_of h) = 1 /\
  t_source t = Some (lit "X0123456789") /\ option_map fst (source_and_line_map true t) = Some (lit "0X").
Proof.
  exists [Replace 1 2147483647 (lit "X") 0 0]. cbn zeta. split; [repeat constructor; unfold forward; cbn; lia|]. vm_compute. repeat split.
Qed.
Print Assumptions C08_far_refuted.

(** Pieces that end inside a line get a prefix of their own; so does the empty piece behind
    a last newline, which reading a map can leave. *)
Theorem C08_prefix_refuted : exists t1 t2,
  t_source t1 = Some (lit "Pab") /\ option_map fst (source_and_line_map true t1) = Some (lit "PaPb") /\
  t_source t2 = Some (lit "Pa" ++ [NL]) /\ option_map fst (source_and_line_map true t2) = Some (lit "Pa" ++ [NL] ++ lit "P").
Proof.
  exists (TPrefix (lit "P") (TConcat [TRaw (lit "a"); TOriginal (lit "b") 50 5])),
    (TPrefix (lit "P") (TSms (sms_new (ln (lit "a")) 50 5 (mk_smc [7]%Z [] [] (lit "AAAA")) None))).
  vm_compute. repeat split.
Qed.
Print Assumptions C08_prefix_refuted.

(** C13 *)
Theorem C13_line_map : forall m v name orig,
  exists mp es, source_and_line_map m (TL2L v name orig) = Some (v, mp) /\
    read_map (map_sources mp) [] (map_mappings mp) = Some es /\
    annotate_bytes es v = mark_lines name 1 v.
Proof.
  intros m v name orig.
  destruct (line_attributed_emits m _ _ (SlmTree.l2l_lines false m v name orig)) as (mp & es & E & R & A).
  rewrite text_mark_lines in *. exists mp, es. split; [exact E|]. split; [exact R|]. rewrite A.
  assert (G : forall l a w, carried a (mark_lines name l w) = mark_lines name l w).
  { intros l a w. revert l a. induction w as [|c w IH]; intros l a; [reflexivity|]. cbn [mark_lines carried]. now rewrite IH. }
  apply G.
Qed.
Print Assumptions C13_line_map.
Example C13_case : mark_lines 5 1 (ln (lit "a") ++ lit "b") =
  mark (Some (5, (1, 0), None))%Z (ln (lit "a")) ++ mark (Some (5, (2, 0), None))%Z (lit "b").
Proof. reflexivity. Qed.

(** C17 *)
Theorem C17_line_map : forall m file, Forall node_ok m ->
  exists code mp es, slm_to_string_with_source_map m file = (code, mp) /\
    code = slm_text m /\ code = text_of (list_marks m) /\
    read_map (map_sources mp) [] (map_mappings mp) = Some es /\
    annotate_bytes es code = carried None (list_marks m) /\ NoDup (map fst es).
Proof. exact list_map_exact. Qed.
Print Assumptions C17_line_map.
Theorem C17_ascii_columns : forall es s, forallb is_ascii s = true -> annotate_bytes es s = annotate es s.
Proof. exact annotate_bytes_ascii. Qed.
Print Assumptions C17_ascii_columns.

Example C17_ascii_columns_case :
  forallb is_ascii (lit "abc") = true /\
  annotate [((1, 1), Some (7, (1, 0), None))]%Z (lit "abc") = mark None (lit "a") ++ mark (Some (7, (1, 0), None))%Z (lit "bc") /\
  annotate_bytes [((1, 2), Some (7, (1, 0), None))]%Z [233; 98]%N <> annotate [((1, 2), Some (7, (1, 0), None))]%Z [233; 98]%N.
Proof. split; [reflexivity|]. split; [vm_compute; reflexivity|vm_compute; discriminate]. Qed.
Example C17_case : Forall node_ok lm1 /\
  carried None (list_marks lm1) =
  mark None (lit "a") ++ mark (Some (7, (4, 0), None))%Z (ln (lit "b")) ++ mark (Some (7, (5, 0), None))%Z (lit "cd" ++ [NL]) ++
  mark None (lit "e") ++ mark (Some (9, (2, 0), None))%Z (ln (lit "f") ++ ln (lit "g")).
Proof. split; [exact lm1_ok|reflexivity]. Qed.

(** C18 *)
Theorem C18_map_code : forall S (f : S -> str -> option (S * str)) st m, Forall node_ok m ->
  match run_fun f st (map snd (list_pieces m)) with
  | None => map_generated_code f st m = None
  | Some (st', outs) =>
      exists m', map_generated_code f st m = Some (st', m') /\ Forall node_ok m' /\
        slm_text m' = concat outs /\
        (Forall2 (fun x y => fst x = None \/ tidy y) (list_pieces m) outs ->
         list_marks m' = mark_pieces (combine (map fst (list_pieces m)) outs))
  end.
Proof. exact (fun S => @map_generated_code_spec S). Qed.
Print Assumptions C18_map_code.
Theorem C18_pieces : forall m, Forall node_ok m ->
  mark_pieces (list_pieces m) = list_marks m /\ concat (map snd (list_pieces m)) = slm_text m.
Proof. intros m H. split; [now apply pieces_marks|now apply pieces_text]. Qed.
Print Assumptions C18_pieces.
Theorem C18_identity : forall m, Forall node_ok m ->
  exists m', map_generated_code (fun (_ : unit) s => Some (tt, s)) tt m = Some (tt, m') /\
    slm_text m' = slm_text m /\
    ((forall p, In (LSingle p) m -> tidy (pc_code p)) -> list_marks m' = list_marks m).
Proof. exact map_identity. Qed.
Print Assumptions C18_identity.

Definition lm18 : slm := [LCode (lit "a"); LCode (lit "b"); LSource (piece_new (ln (lit "c")) (Some 7%Z) None 1); LSource (piece_new (lit "d") (Some 7%Z) None 2)].
Example C18_identity_case : Forall node_ok lm18 /\ exists m', map_generated_code (fun (_ : unit) s => Some (tt, s)) tt lm18 = Some (tt, m') /\
  length m' = 2 /\ list_marks m' = list_marks lm18.
Proof.
  split; [repeat (apply Forall_cons; [exact I || apply counted_new|]); apply Forall_nil|].
  eexists. split; [vm_compute; reflexivity|]. split; [reflexivity|vm_compute; reflexivity].
Qed.
Example C18_case : Forall node_ok lm1 /\ map snd (list_pieces lm1) =
  [lit "a"; ln (lit "b"); lit "c"; ln (lit "d") ++ lit "e"; ln (lit "f") ++ ln (lit "g")] /\
  (forall p, In (LSingle p) lm1 -> tidy (pc_code p)) /\
  run_fun (fun (n : nat) s => Some (S n, s ++ s)) 0 (map snd (list_pieces lm1)) <> None.
Proof.
  split; [exact lm1_ok|]. split; [reflexivity|]. split; [|discriminate].
  intros p H. cbn in H. destruct H as [H|[H|[H|[H|[]]]]]; try discriminate. injection H as <-. intro H. discriminate.
Qed.
(** The merge methods of the nodes (also where mapGeneratedCode does not reach them). *)
Theorem C18_merge : forall a b x, node_ok a -> node_ok b -> node_merge a b = Some x ->
  node_ok x /\ slm_text [x] = slm_text [a] ++ slm_text [b] /\
  ((forall q, b = LSingle q -> tidy (pc_code q)) -> list_marks [x] = list_marks [a] ++ list_marks [b]).
Proof.
  intros a b x Ha Hb H. destruct (merge_spec a b x Ha Hb H) as (H1 & H2 & H3). split; [exact H1|].
  unfold list_marks. cbn [flat_map]. rewrite !app_nil_r. split; [|exact H3].
  rewrite <- !text_list_marks by auto. unfold list_marks. cbn [flat_map]. rewrite !app_nil_r.
  assert (T : forall n, node_ok n -> text_of (node_marks n) = text_node n).
  { intros n Hn. pose proof (text_list_marks [n] (Forall_cons _ Hn (Forall_nil _))) as T. unfold list_marks in T. cbn [flat_map] in T. rewrite app_nil_r in T.
    rewrite T. destruct n; try contradiction; cbn; try apply app_nil_r. }
  now rewrite !T.
Qed.
Print Assumptions C18_merge.
Example C18_merge_case : node_merge (LSource (piece_new (ln (lit "a") ++ ln (lit "b")) (Some 7%Z) None 3)) (LSource (piece_new (lit "c") (Some 7%Z) None 5)) =
  Some (LSource (piece_new (ln (lit "a") ++ ln (lit "b") ++ lit "c") (Some 7%Z) None 3)) /\
  node_ok (LSource (piece_new (ln (lit "a") ++ ln (lit "b")) (Some 7%Z) None 3)) /\ node_ok (LSource (piece_new (lit "c") (Some 7%Z) None 5)).
Proof. split; [reflexivity|]. split; apply counted_new. Qed.
(** Text that breaks a line in the middle of a piece moves to the next line when pieces
    are merged: here even under the identity. *)
Theorem C18_untidy_refuted : exists m m', Forall node_ok m /\
  map_generated_code (fun (_ : unit) s => Some (tt, s)) tt m = Some (tt, m') /\
  list_marks m = mark (Some (7, (1, 0), None))%Z (ln (lit "x")) ++ mark (Some (7, (2, 0), None))%Z (ln (lit "a") ++ lit "b") /\
  list_marks m' = mark (Some (7, (1, 0), None))%Z (ln (lit "x")) ++ mark (Some (7, (2, 0), None))%Z (ln (lit "a")) ++
                  mark (Some (7, (3, 0), None))%Z (lit "b").
Proof.
  exists [LSingle (piece_new (ln (lit "x")) (Some 7%Z) None 1); LSingle (piece_new (ln (lit "a") ++ lit "b") (Some 7%Z) None 2)].
  eexists. split; [repeat (apply Forall_cons; [apply counted_new|]); apply Forall_nil|]. split; [vm_compute; reflexivity|].
  split; vm_compute; reflexivity.
Qed.
Print Assumptions C18_untidy_refuted.

(** The function of the project's own tests, in one pass: a line break is written as such or
    as a semicolon; behind a backslash it becomes a space, behind a dollar sign it goes
    together with it. *)
Definition breaks (c : char) : bool := N.eqb c NL || N.eqb c SEMI.
Fixpoint one_pass (s : str) : str :=
  match s with
  | [] => []
  | c :: r =>
      match r with
      | d :: r' =>
          if breaks d && N.eqb c 92 then 32%N :: one_pass r'
          else if breaks d && N.eqb c 36 then one_pass r'
          else (if N.eqb c SEMI then NL else c) :: one_pass r
      | [] => [if N.eqb c SEMI then NL else c]
      end
  end.
Lemma replace2_two p q b c d r : replace2 p q b (c :: d :: r) = if N.eqb c p && N.eqb d q then b ++ replace2 p q b r else c :: replace2 p q b (d :: r).
Proof. reflexivity. Qed.
Lemma replace2_skip p q b c r : N.eqb c p = false -> replace2 p q b (c :: r) = c :: replace2 p q b r.
Proof. intro H. destruct r as [|d r]; [reflexivity|]. rewrite replace2_two, H. reflexivity. Qed.
Lemma replaced_once : forall s, replace2 36%N NL [] (replace2 92%N NL [32%N] (replace1 SEMI [NL] s)) = one_pass s.
Proof.
  intro s. remember (length s) as n eqn:Hn. revert s Hn. induction n as [n IH] using lt_wf_ind. intros s Hn. destruct s as [|c [|d r]].
  - reflexivity.
  - cbn [replace1 one_pass app]. destruct (N.eqb c SEMI); reflexivity.
  - assert (I1 : forall l, length l < n -> replace2 36%N NL [] (replace2 92%N NL [32%N] (replace1 SEMI [NL] l)) = one_pass l) by (intros l Hl; exact (IH _ Hl l eq_refl)).
    pose proof (I1 r ltac:(cbn in Hn; lia)) as Ir. pose proof (I1 (d :: r) ltac:(cbn in Hn |- *; lia)) as Id. clear IH I1 Hn.
    cbn [one_pass]. cbn [one_pass] in Id. cbn [replace1 app] in Id |- *.
    assert (Hd : (if N.eqb d SEMI then [NL] else [d]) = [if N.eqb d SEMI then NL else d]) by now destruct (N.eqb d SEMI).
    assert (Hc : (if N.eqb c SEMI then [NL] else [c]) = [if N.eqb c SEMI then NL else c]) by now destruct (N.eqb c SEMI).
    rewrite Hd, Hc in *. cbn [app] in *. clear Hd Hc.
    assert (Hb : breaks d = N.eqb (if N.eqb d SEMI then NL else d) NL).
    { unfold breaks. destruct (N.eqb_spec d SEMI) as [->|]; [reflexivity|]. now rewrite orb_false_r. }
    assert (Hx : forall k, k <> NL -> k <> SEMI -> N.eqb (if N.eqb c SEMI then NL else c) k = N.eqb c k).
    { intros k K1 K2. destruct (N.eqb_spec c SEMI) as [->|]; [|reflexivity]. rewrite (proj2 (N.eqb_neq NL k)) by auto. symmetry. apply N.eqb_neq. auto. }
    pose proof (Hx 92%N ltac:(discriminate) ltac:(discriminate)) as X1. pose proof (Hx 36%N ltac:(discriminate) ltac:(discriminate)) as X2. clear Hx.
    remember (if N.eqb d SEMI then NL else d) as d' eqn:Ed. remember (if N.eqb c SEMI then NL else c) as c' eqn:Ec.
    assert (Hb' : breaks d = N.eqb d' NL) by (rewrite Ed; exact Hb). assert (Y1 : N.eqb c 92 = N.eqb c' 92) by (rewrite Ec; symmetry; exact X1).
    assert (Y2 : N.eqb c 36 = N.eqb c' 36) by (rewrite Ec; symmetry; exact X2). rewrite Hb', Y1, Y2. set (R := replace1 SEMI [NL] r) in *. clearbody R.
    rewrite replace2_two, (andb_comm (N.eqb c' 92)). destruct (N.eqb d' NL && N.eqb c' 92) eqn:E1.
    + change ([32%N] ++ replace2 92%N NL [32%N] R) with (32%N :: replace2 92%N NL [32%N] R). rewrite replace2_skip by reflexivity. exact (f_equal (cons 32%N) Ir).
    + destruct (N.eqb d' NL) eqn:E2.
      * apply N.eqb_eq in E2. assert (K : replace2 92%N NL [32%N] (d' :: R) = NL :: replace2 92%N NL [32%N] R).
        { rewrite E2. apply replace2_skip. reflexivity. }
        revert Id. rewrite K. intro Id. rewrite replace2_two, N.eqb_refl, andb_true_r. cbn [andb]. destruct (N.eqb c' 36); [exact Ir|]. exact (f_equal (cons c') Id).
      * destruct (replace2 92%N NL [32%N] (d' :: R)) as [|x R'] eqn:ER; [destruct R as [|y R]; [discriminate ER|rewrite replace2_two in ER; destruct (_ && _); discriminate ER]|].
        assert (NX : N.eqb x NL = false).
        { destruct R as [|y R]; [injection ER as <- _; exact E2|]. rewrite replace2_two in ER. destruct (N.eqb d' 92 && N.eqb y NL); injection ER as <- _; [reflexivity|exact E2]. }
        rewrite replace2_two, NX, andb_false_r. cbn [andb]. exact (f_equal (cons c') Id).
Qed.
Theorem C18_test : forall m, Forall node_ok m ->
  exists m', map_generated_code test_mapfun tt m = Some (tt, m') /\ Forall node_ok m' /\
    slm_text m' = flat_map (fun x => one_pass (snd x)) (list_pieces m) /\
    (Forall (fun x => fst x = None \/ tidy (one_pass (snd x))) (list_pieces m) ->
     list_marks m' = mark_pieces (map (fun x => (fst x, one_pass (snd x))) (list_pieces m))).
Proof.
  intros m H. pose proof (C18_map_code unit test_mapfun tt m H) as K.
  assert (R : run_fun test_mapfun tt (map snd (list_pieces m)) = Some (tt, map one_pass (map snd (list_pieces m)))).
  { generalize (map snd (list_pieces m)). induction l as [|x l IH]; [reflexivity|]. cbn [run_fun map]. unfold test_mapfun at 1. cbn [bind]. now rewrite IH, replaced_once. }
  rewrite R in K. destruct K as (m' & E & W & T & M). exists m'. split; [exact E|]. split; [exact W|]. split.
  - rewrite T, map_map. clear. induction (list_pieces m) as [|x l IH]; [reflexivity|]. cbn [map concat flat_map]. now rewrite IH.
  - intro F. rewrite M.
    + f_equal. clear. induction (list_pieces m) as [|x l IH]; [reflexivity|]. cbn [map combine]. now rewrite IH.
    + clear - F. induction F as [|x l Hx _ IH]; [constructor|]. cbn [map]. constructor; [exact Hx|exact IH].
Qed.
Print Assumptions C18_test.
Definition lm18t : slm := [LCode (lit "a;b$;c"); LSource (piece_new (lit "d\;e;") (Some 7%Z) None 1)].
Example C18_test_case : Forall node_ok lm18t /\ exists m', map_generated_code test_mapfun tt lm18t = Some (tt, m') /\
  Forall (fun x => fst x = None \/ tidy (one_pass (snd x))) (list_pieces lm18t) /\
  slm_text m' = ln (lit "a") ++ lit "bc" ++ ln (lit "d e").
Proof.
  split; [repeat (apply Forall_cons; [exact I || apply counted_new|]); apply Forall_nil|].
  eexists. split; [vm_compute; reflexivity|]. split; [|reflexivity].
  let l := eval vm_compute in (list_pieces lm18t) in change (list_pieces lm18t) with l.
  repeat (apply Forall_cons; [first [left; reflexivity | right; intros _; vm_compute; reflexivity | right; vm_compute; discriminate]|]). apply Forall_nil.
Qed.

(** C19 *)
Theorem C19_read_text : forall sources contents code mappings, well_formed mappings ->
  exists m, slm_from_string code sources contents mappings = Some m /\ Forall node_ok m /\ slm_text m = code.
Proof. exact reader_text. Qed.
Print Assumptions C19_read_text.
Theorem C19_decoding_suffices : forall mappings segs, decode mappings = Some segs -> well_formed mappings.
Proof. exact decode_numbers. Qed.
Print Assumptions C19_decoding_suffices.

Example C19_case : decode (lit "A,CAIA;;ACEE") <> None /\ exists m,
  slm_from_string (ln (lit "ab") ++ ln [] ++ ln [233; 99]%N ++ lit "d") [7; 8]%Z [] (lit "A,CAIA;;ACEE") = Some m /\
  3 <= length m /\ slm_text m = ln (lit "ab") ++ ln [] ++ ln [233; 99]%N ++ lit "d".
Proof. split; [vm_compute; discriminate|]. eexists. split; [vm_compute; reflexivity|]. split; [cbn; lia|vm_compute; reflexivity]. Qed.

(** C20 *)
Theorem C20_read_lines : forall sources contents code mappings segs,
  decode mappings = Some segs -> Forall SpecList.fits segs ->
  exists m, slm_from_string code sources contents mappings = Some m /\ Forall node_ok m /\
    list_marks m = attribute sources segs 0 None (cut_lines code).
Proof. exact reader_attribution. Qed.
Print Assumptions C20_read_lines.
Definition code20 : str := ln (lit "ab") ++ ln [] ++ ln (lit "c") ++ lit "d".
Definition segs20 : list seg := [mk_seg 0 0 None; mk_seg 0 1 (Some (0, 4, 0, None)); mk_seg 2 0 (Some (1, 6, 2, None))]%Z.
Example C20_case : exists mappings, decode mappings = Some segs20 /\ Forall SpecList.fits segs20 /\
  attribute [7; 8]%Z segs20 0 None (cut_lines code20) =
  mark (Some (7, (5, 0), None))%Z (ln (lit "ab")) ++ mark (Some (7, (6, 0), None))%Z [NL] ++
  mark (Some (8, (7, 0), None))%Z (ln (lit "c")) ++ mark None (lit "d").
Proof.
  exists (lit "A,CAIA;;ACEE"). split; [vm_compute; reflexivity|]. split; [|vm_compute; reflexivity].
  repeat constructor; vm_compute; intuition congruence.
Qed.

(** C26 for list maps *)
Theorem C26_list_sources : forall m file, Forall named m ->
  exists code mp, slm_to_string_with_source_map m file = (code, mp) /\
    map_sources mp = firsts (map fst (uses m)) /\ NoDup (map_sources mp).
Proof.
  intros m file H. destruct (list_tables m file H) as (code & mp & E & S & _). exists code, mp. split; [exact E|].
  split; [exact S|]. rewrite S. apply firsts_nodup.
Qed.
Print Assumptions C26_list_sources.

Example C26_list_case :
  let m := [LSource (piece_new (lit "a") (Some 7%Z) (Some 70%Z) 1); LSource (piece_new (lit "b") (Some 5%Z) None 1);
            LCode (lit "x"); LSingle (piece_new (lit "c") (Some 7%Z) (Some 71%Z) 1)] in
  Forall named m /\ map_sources (snd (slm_to_string_with_source_map m None)) = [7; 5]%Z.
Proof. cbn zeta. split; [repeat constructor; discriminate|vm_compute; reflexivity]. Qed.
(** C27 for list maps *)
Theorem C27_list_aligned_partial : forall m file, Forall named m -> (forall x, In x (uses m) -> snd x <> None) ->
  exists code mp, slm_to_string_with_source_map m file = (code, mp) /\
    map Some (map_contents mp) = map (content_of (uses m)) (map_sources mp).
Proof. exact list_tables_aligned. Qed.
Print Assumptions C27_list_aligned_partial.
Definition lm27 : slm := [LSource (piece_new (lit "a") (Some 7%Z) (Some 70%Z) 1); LSource (piece_new (lit "b") (Some 5%Z) (Some 50%Z) 1);
  LSource (piece_new (lit "c") (Some 7%Z) (Some 71%Z) 1)].
Example C27_list_case : Forall named lm27 /\ (forall x, In x (uses lm27) -> snd x <> None) /\
  firsts (map fst (uses lm27)) = [7; 5]%Z /\ map (content_of (uses lm27)) [7; 5]%Z = [Some 70; Some 50]%Z.
Proof. split; [repeat constructor; discriminate|]. split; [|split; reflexivity]. intros x [<-|[<-|[<-|[]]]]; discriminate. Qed.
Theorem C27_list_refuted : exists m code mp, Forall named m /\
  slm_to_string_with_source_map m None = (code, mp) /\
  map_sources mp = [7; 5]%Z /\ content_of (uses m) 7 = None /\ content_of (uses m) 5 = Some 50%Z /\ map_contents mp = [50]%Z.
Proof.
  exists [LSource (piece_new (lit "a") (Some 7%Z) None 1); LSource (piece_new (lit "b") (Some 5%Z) (Some 50%Z) 1)].
  eexists _, _. split; [repeat constructor; discriminate|]. split; [vm_compute; reflexivity|]. vm_compute. repeat split.
Qed.
Print Assumptions C27_list_refuted.

(** C33: the accesses of the reader, including the backward extensions, are the m_view and
    m_offset of ModelString, which fail outside the buffer or inside a character. *)
Theorem C33_reader : forall sources contents code mappings, well_formed mappings ->
  slm_from_string code sources contents mappings <> None.
Proof. intros s c code mp W. destruct (reader_text s c code mp W) as (m & E & _). rewrite E. discriminate. Qed.
Print Assumptions C33_reader.
Example C33_reader_case : well_formed (lit "A,CAIA") /\ exists m,
  slm_from_string (ln (lit "ab") ++ ln [233; 8364]%N ++ ln (lit " ") ++ [128512]%N) [7]%Z [] (lit "A,CAIA") = Some m.
Proof.
  split; [|eexists; vm_compute; reflexivity]. apply (C19_decoding_suffices _ [mk_seg 0 0 None; mk_seg 0 1 (Some (0, 4, 0, None))]%Z).
  vm_compute. reflexivity.
Qed.

(** C38 *)
Theorem C38_mirror_partial : forall m n src orig, is_string n = false ->
  (slm_prepend m n src orig = None <-> slm_add m n src orig = None) /\
  forall m', slm_prepend m n src orig = Some m' ->
    exists x, slm_add [] n src orig = Some x /\ m' = x ++ m /\ slm_add m n src orig = Some (m ++ x).
Proof. exact prepend_mirror. Qed.
Print Assumptions C38_mirror_partial.
Theorem C38_text : forall m s src orig,
  exists m', slm_prepend m (LStr s) src orig = Some m' /\ slm_text m' = s ++ slm_text m.
Proof. exact prepend_text. Qed.
Print Assumptions C38_text.

Example C38_text_case : exists m', slm_prepend lm27 (LStr (lit "x")) (Some 7%Z) None = Some m' /\ slm_text m' = lit "xabc".
Proof. eexists. split; [reflexivity|reflexivity]. Qed.
Example C38_case : is_string (LMap lm1) = false /\ slm_prepend lm27 (LMap lm1) None None = Some (lm1 ++ lm27).
Proof. split; reflexivity. Qed.
(** A string with a source is prepended as plain code, one without source as a source. *)
Theorem C38_mirror_refuted : exists a b,
  slm_add [] (LStr (lit "x")) (Some 7%Z) None = Some a /\ slm_prepend [] (LStr (lit "x")) (Some 7%Z) None = Some b /\
  list_marks a = mark (Some (7, (1, 0), None))%Z (lit "x") /\ list_marks b = mark None (lit "x") /\
  exists a' b', slm_add [] (LStr (lit "x")) None None = Some a' /\ slm_prepend [] (LStr (lit "x")) None None = Some b' /\
    list_marks a' = mark None (lit "x") /\ list_marks b' = mark (Some (-1, (1, 0), None))%Z (lit "x").
Proof. eexists _, _. repeat (split; [vm_compute; reflexivity|]). eexists _, _. repeat (split; [vm_compute; reflexivity|]). reflexivity. Qed.
Print Assumptions C38_mirror_refuted.

(** C39 *)
Theorem C39_to_string_partial : forall m,
  Forall (fun n => match n with LSingle _ => True | _ => False end) m -> slm_to_string m = slm_text m.
Proof. exact to_string_single. Qed.
Print Assumptions C39_to_string_partial.
Example C39_case : slm_to_string [LSingle (piece_new (lit "a") None None 1); LSingle (piece_new (lit "b") None None 5)] = lit "ab".
Proof. reflexivity. Qed.
Theorem C39_to_string_refuted : exists m, Forall node_ok m /\ slm_to_string m = lit "" /\ slm_text m = lit "ab".
Proof.
  exists [LCode (lit "a"); LSource (piece_new (lit "b") (Some 7%Z) None 1)].
  split; [repeat (apply Forall_cons; [exact I || apply counted_new|]); apply Forall_nil|]. split; reflexivity.
Qed.
Print Assumptions C39_to_string_refuted.

(** C41 *)
Theorem C41_prefix_partial : forall p s, In NL s -> wasm_prefix p s = prefixed p s.
Proof. exact wasm_prefix_lines. Qed.
Print Assumptions C41_prefix_partial.
Example C41_case : In NL (ln (lit "a") ++ lit "b") /\ prefixed (lit "P") (ln (lit "a") ++ lit "b") = ln (lit "Pa") ++ lit "Pb".
Proof. split; [cbn; auto|reflexivity]. Qed.
(** Without a newline the prefix comes twice, with a newline in between. *)
Theorem C41_single_line : forall p s, ~ In NL s -> wasm_prefix p s = p ++ NL :: (match s with [] => [] | _ => p ++ s end).
Proof. exact wasm_prefix_single. Qed.
Print Assumptions C41_single_line.

Example C41_single_line_case : ~ In NL (lit "abc") /\ wasm_prefix (lit "P") (lit "abc") = ln (lit "P") ++ lit "Pabc".
Proof. split; [|reflexivity]. intros [H|[H|[H|[]]]]; discriminate. Qed.
Theorem C41_prefix_refuted : exists p s, wasm_prefix p s = ln (lit "P") ++ lit "Pabc" /\ prefixed p s = lit "Pabc".
Proof. exists (lit "P"), (lit "abc"). split; reflexivity. Qed.
Print Assumptions C41_prefix_refuted.

(** C42: line attribution of trees *)
Theorem C42_emitted : forall m t M, line_attributed false m t M ->
  exists mp es, source_and_line_map m t = Some (text_of M, mp) /\
    read_map (map_sources mp) [] (map_mappings mp) = Some es /\
    annotate_bytes es (text_of M) = carried None M.
Proof. exact line_attributed_emits. Qed.
Print Assumptions C42_emitted.
Theorem C42_leaves : forall c m v i n,
  line_attributed c m (TRaw v) (mark None v) /\
  line_attributed c m (TOriginal v i n) (mark_lines n 1 v) /\
  line_attributed c m (TL2L v n i) (mark_lines n 1 v).
Proof. intros. split; [apply raw_lines|]. split; [apply original_lines|apply SlmTree.l2l_lines]. Qed.
Print Assumptions C42_leaves.
Theorem C42_map_source : forall c x,
  line_attributed c false (TSms x) (mark_lines (sms_name x) 1 (sms_value x)) /\
  forall c' d segs, cell_get_data (sms_map x) = Some (c', d) -> decode (sc_mappings d) = Some segs -> Forall SpecList.fits segs ->
    line_attributed c true (TSms x) (attribute (sc_sources d) segs 0 None (cut_lines (sms_value x))).
Proof. intros c x. split; [apply sms_plain_lines|]. exact (sms_module_lines c x). Qed.
Print Assumptions C42_map_source.

Example C42_map_source_case :
  let x := sms_new code20 50 5 (mk_smc [7; 8]%Z [] [] (lit "A,CAIA;;ACEE")) None in
  exists c' d, cell_get_data (sms_map x) = Some (c', d) /\ decode (sc_mappings d) = Some segs20 /\ Forall SpecList.fits segs20.
Proof.
  cbn zeta. eexists _, _. split; [vm_compute; reflexivity|]. split; [vm_compute; reflexivity|].
  repeat constructor; vm_compute; intuition congruence.
Qed.
Theorem C42_concat : forall c m l Ms,
  Forall2 (fun x M => match x with TStr s => M = mark None s | _ => line_attributed c m x M end) l Ms ->
  line_attributed c m (TConcat l) (concat Ms).
Proof. exact concat_lines. Qed.
Print Assumptions C42_concat.
Theorem C42_prefix : forall c m p t M, line_attributed c m t M -> ~ In NL p -> M <> [] ->
  (forall lm, t_list_map c m t = Some lm ->
     at_line_ends (map snd (list_pieces lm)) /\ Forall (fun x => fst x = None \/ tidy (snd x)) (list_pieces lm)) ->
  line_attributed c m (TPrefix p t) (mprefixed p M).
Proof. exact prefix_lines. Qed.
Print Assumptions C42_prefix.
Theorem C42_prefix_whole : forall c p t M, whole false t -> no_prefix t -> ~ In NL p -> M <> [] ->
  line_attributed c false t M -> line_attributed c false (TPrefix p t) (mprefixed p M).
Proof. exact whole_prefix_lines. Qed.
Print Assumptions C42_prefix_whole.
Example C42_case :
  let t := TConcat [TOriginal (ln (lit "a")) 50 5; TL2L (ln (lit "b") ++ lit "c") 6 60] in
  whole false t /\ no_prefix t /\
  line_attributed false false (TPrefix (lit ">") t)
    (mark (Some (5, (1, 0), None))%Z (ln (lit ">a")) ++ mark (Some (6, (1, 0), None))%Z (ln (lit ">b")) ++
     mark (Some (6, (2, 0), None))%Z (lit ">c")).
Proof.
  cbn zeta. assert (W : whole false (TConcat [TOriginal (ln (lit "a")) 50 5; TL2L (ln (lit "b") ++ lit "c") 6 60])).
  { split; [cbn; auto|]. exists [ln (lit "a"); ln (lit "b") ++ lit "c"]. split; [reflexivity|]. cbn. split; [reflexivity|]. split; [discriminate|exact I]. }
  split; [exact W|]. split; [cbn; auto|].
  apply (C42_prefix_whole false (lit ">") _ (concat [mark_lines 5 1 (ln (lit "a")); mark_lines 6 1 (ln (lit "b") ++ lit "c")]) W); [cbn; auto| |discriminate|].
  - intros [H|[]]. discriminate.
  - apply C42_concat. constructor; [apply original_lines|]. constructor; [apply SlmTree.l2l_lines|constructor].
Qed.
