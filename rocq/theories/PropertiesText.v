(** Final theorems about texts: C01 - C06, C33 - C35.  Nothing but statements. *)
From Verif Require Import Base ModelString StringFacts ModelVlq ModelSm ModelSlm ModelSources
  ModelTree SpecText SortFacts TextFacts EditFacts TreeText SliceFacts Utf8.

(** C01: the text of a ConcatSource built by any sequence of add calls. *)
Theorem C01_concat_text : forall (items : list tree) (texts : list str),
  map t_source items = map Some texts ->
  t_source (TConcat (fold_left concat_add items concat_new)) = Some (concat texts).
Proof. intros items texts. exact (concat_adds_source items texts [] [] eq_refl). Qed.
Print Assumptions C01_concat_text.

Theorem C01_nesting : forall (a b c : list tree) (ta tb tc : list str),
  map t_source a = map Some ta -> map t_source b = map Some tb -> map t_source c = map Some tc ->
  t_source (TConcat (a ++ [TConcat b] ++ c)) = Some (concat (ta ++ tb ++ tc)) /\
  t_source (TConcat (a ++ b ++ c)) = Some (concat (ta ++ tb ++ tc)).
Proof. exact concat_nesting. Qed.
Print Assumptions C01_nesting.

Example C01_nesting_case :
  let b := [TConcat [TRaw (lit "b")]; TPrefix (lit "p") (TRaw (lit "c"))] in
  map t_source [TStr (lit "a")] = map Some [lit "a"] /\ map t_source b = map Some [lit "b"; lit "pc"] /\ map t_source [TRaw [233]%N] = map Some [[233]%N] /\
  t_source (TConcat ([TStr (lit "a")] ++ [TConcat b] ++ [TRaw [233]%N])) = Some (lit "abpc" ++ [233]%N).
Proof. repeat split; reflexivity. Qed.

Example C01_case :
  t_source (TConcat (fold_left concat_add
     [TStr (lit "a"); TConcat [TRaw (lit "b"); TConcat [TStr (lit "c")]]; TPrefix (lit ">") (TRaw (lit "d"))]
     concat_new)) = Some (lit "abc>d").
Proof. reflexivity. Qed.

(** C02: the text of a PrefixSource. *)
Theorem C02_prefix_text : forall (p s : str) (t : tree),
  t_source t = Some s -> t_source (TPrefix p t) = Some (prefixed p s).
Proof. exact prefix_text. Qed.
Print Assumptions C02_prefix_text.

Example C02_prefix_text_case :
  let t := TConcat [TRaw [97; NL]%N; TReplace (TRaw (lit "bc")) (run [Replace 0 0 [NL]%N 0 0])] in
  t_source t = Some [97; NL; NL; 99]%N /\ t_source (TPrefix (lit "> ") t) = Some (lit "> a" ++ [NL] ++ lit "> " ++ [NL] ++ lit "> c").
Proof. split; vm_compute; reflexivity. Qed.

(** [prefixed] line by line: the prefix in front of every line, where a final empty
    line is no line. *)
Theorem C02_prefixed_lines : forall (p : str) (body : list str) (last : str),
  (forall x, In x body -> exists a, x = a ++ [NL] /\ ~ In NL a) -> ~ In NL last ->
  prefixed p (concat (body ++ [last])) =
    match body, last with
    | [], _ => p ++ last
    | _, [] => flat_map (fun x => p ++ x) body
    | _, _ => flat_map (fun x => p ++ x) (body ++ [last])
    end.
Proof. exact prefixed_lines. Qed.
Print Assumptions C02_prefixed_lines.

Example C02_prefixed_lines_case : let body := [[97; NL]; [NL]]%N in let last := lit "b" in
  (forall x, In x body -> exists a, x = a ++ [NL] /\ ~ In NL a) /\ ~ In NL last /\
  prefixed (lit "P") (concat (body ++ [last])) = (lit "P" ++ [97; NL]%N) ++ (lit "P" ++ [NL]) ++ lit "Pb".
Proof.
  cbv zeta. split; [|split; [|reflexivity]].
  - intros x [<-|[<-|[]]]; [exists [97]%N|exists []]; (split; [reflexivity|]); cbn; intuition discriminate.
  - cbn. intuition discriminate.
Qed.

Example C02_case : prefixed (lit "P") [97; NL; NL; 98; NL]%N = [80; 97; NL; 80; NL; 80; 98; NL]%N.
Proof. reflexivity. Qed.

(** C03: non-overlapping edits are performed exactly. *)
Theorem C03_edits : forall (t : tree) (s : str) (h : list call),
  t_source t = Some s -> Forall call_ok h -> Forall edit_ok (edits_of h) ->
  Forall forward (edits_of h) -> ForallOrdPairs apart (edits_of h) ->
  t_source (TReplace t (run h)) = Some (edited (edits_of h) s).
Proof. exact replace_source_apart. Qed.
Print Assumptions C03_edits.

Definition C03_history : list call :=
  [Insert 7 (lit "x") 0; Replace 2 4 (lit "AB") 0 0; Insert 0 (lit "<") 0; Read;
   Replace (-5) (-1) (lit "!") 0 0; Insert 99 (lit ">") 0; Replace 6 6 [233]%N 0 0].
Example C03_case :
  Forall call_ok C03_history /\ Forall edit_ok (edits_of C03_history) /\
  Forall forward (edits_of C03_history) /\ ForallOrdPairs apart (edits_of C03_history) /\
  edited (edits_of C03_history) ([233; 49]%N ++ lit "23456789") =
    lit "!<" ++ [233; 49]%N ++ lit "AB5" ++ [233]%N ++ lit "x789>".
Proof.
  unfold C03_history. cbn [edits_of flat_map edit_of app].
  split; [|split; [|split; [|split]]]; [| | | |vm_compute; reflexivity].
  - repeat constructor; cbn; lia.
  - repeat constructor; cbn; lia.
  - repeat constructor; unfold forward; cbn; lia.
  - repeat (apply FOP_cons || apply FOP_nil || apply Forall_cons || apply Forall_nil);
      unfold apart, before, e_hi; cbn; lia.
Qed.

(** C04: reads in between do not matter. *)
Theorem C04_reads : forall (t : tree) (h h' : list call) (c m : bool),
  Forall call_ok h -> Forall call_ok h' -> edits_of h = edits_of h' ->
  t_source (TReplace t (run h)) = t_source (TReplace t (run h')) /\
  t_node c m (TReplace t (run h)) = t_node c m (TReplace t (run h')) /\
  t_list_map c m (TReplace t (run h)) = t_list_map c m (TReplace t (run h')).
Proof. exact reads_do_not_matter. Qed.
Print Assumptions C04_reads.

Example C04_reads_case :
  let h := [Insert 3 (lit "x") 0; Read; Read; Replace 1 2 (lit "y") 0 0; Read] in let h' := [Insert 3 (lit "x") 0; Replace 1 2 (lit "y") 0 0] in
  Forall call_ok h /\ Forall call_ok h' /\ edits_of h = edits_of h' /\ h <> h'.
Proof. cbv zeta. repeat split; try discriminate; repeat constructor; cbn; lia. Qed.

(** C04: the call order does not matter for edits with distinct keys... *)
Theorem C04_order : forall (t : tree) (h h' : list call) (c m : bool),
  Forall call_ok h -> Forall call_ok h' -> Permutation (edits_of h) (edits_of h') ->
  NoDup (map (fun e => (e_hi e, e_lo e)) (edits_of h)) ->
  t_source (TReplace t (run h)) = t_source (TReplace t (run h')) /\
  t_node c m (TReplace t (run h)) = t_node c m (TReplace t (run h')) /\
  t_list_map c m (TReplace t (run h)) = t_list_map c m (TReplace t (run h')).
Proof. exact order_does_not_matter. Qed.
Print Assumptions C04_order.

Example C04_order_case :
  let h := [Insert 3 (lit "x") 0; Read; Replace 1 2 (lit "y") 0 0] in let h' := [Replace 1 2 (lit "y") 0 0; Insert 3 (lit "x") 0] in
  Forall call_ok h /\ Forall call_ok h' /\ Permutation (edits_of h) (edits_of h') /\ NoDup (map (fun e => (e_hi e, e_lo e)) (edits_of h)).
Proof.
  cbv zeta. split; [repeat constructor; cbn; lia|]. split; [repeat constructor; cbn; lia|]. split; [apply perm_swap|].
  repeat constructor; cbn; intuition discriminate.
Qed.

(** ... and the texts of edits with equal keys come out in call order: the source is pieces of the original
    between the texts of the edits, which are arranged in some way [es] that keeps the order of equal keys. *)
Theorem C04_equal_keys : forall (t : tree) (s : str) (h : list call),
  t_source t = Some s -> Forall call_ok h ->
  exists p0 l es,
    t_source (TReplace t (run h)) = Some (firstn p0 s ++ interleave s l) /\ in_order p0 l (length s) /\
    map (fun x => fst (fst x)) l = map e_text es /\ Permutation es (edits_of h) /\
    forall hi lo : Z, let same e := (e_hi e =? hi)%Z && (e_lo e =? lo)%Z in filter same es = filter same (edits_of h).
Proof.
  intros t s h E Hh. destruct (replace_source_pieces t s h E Hh) as (p0 & l & E1 & E2 & E3). exists p0, l, (arrange key_le (edits_of h)).
  split; [exact E1|]. split; [exact E3|]. split; [exact E2|]. split; [symmetry; apply arrange_perm|]. intros hi lo. exact (arrange_stable (hi, lo) (edits_of h)).
Qed.
Print Assumptions C04_equal_keys.

Example C04_equal_keys_case : let h := [Insert 3 (lit "x") 0; Replace 0 0 [] 0 0; Insert 3 (lit "y") 0; Read; Insert 3 (lit "z") 0] in
  Forall call_ok h /\ t_source (TReplace (TRaw (lit "0123")) (run h)) = Some (lit "12xyz3").
Proof. cbv zeta. split; [repeat constructor; cbn; lia|]. vm_compute. reflexivity. Qed.

Example C04_case :
  Permutation (edits_of [Insert 3 (lit "x") 0; Read; Replace 1 2 (lit "y") 0 0])
              (edits_of [Replace 1 2 (lit "y") 0 0; Insert 3 (lit "x") 0]) /\
  t_source (TReplace (TRaw (lit "0123")) (run [Insert 3 (lit "x") 0; Read; Replace 1 2 (lit "y") 0 0]))
    = Some (lit "0yx3") /\
  t_source (TReplace (TRaw (lit "0123")) (run [Insert 3 (lit "x") 0; Insert 3 (lit "y") 0]))
    = Some (lit "012xy3").
Proof. split; [apply perm_swap|split; vm_compute; reflexivity]. Qed.

(** C05: arbitrary edits; every text survives, in order, between pieces of the original. *)
Theorem C05_pieces : forall (t : tree) (s : str) (h : list call),
  t_source t = Some s -> Forall call_ok h ->
  exists p0 l,
    t_source (TReplace t (run h)) = Some (firstn p0 s ++ interleave s l) /\
    map (fun x => fst (fst x)) l = map e_text (arrange key_le (edits_of h)) /\
    in_order p0 l (length s).
Proof. exact replace_source_pieces. Qed.
Print Assumptions C05_pieces.

(** Overlapping, backwards and out of range. *)
Example C05_pieces_case : let h := [Replace 8 2 (lit "A") 0 0; Replace (-9) 3 (lit "B") 0 0; Read; Insert 99 [233]%N 0] in
  Forall call_ok h /\ t_source (TReplace (TRaw (lit "0123456789")) (run h)) = Some (lit "AB456789" ++ [233]%N).
Proof. cbv zeta. split; [repeat constructor; cbn; lia|]. vm_compute. reflexivity. Qed.

(** C05: the exact text for arbitrary edits. *)
Theorem C05_exact : forall (t : tree) (s : str) (h : list call),
  t_source t = Some s -> Forall call_ok h -> Forall edit_ok (edits_of h) ->
  t_source (TReplace t (run h)) = Some (edited_any (edits_of h) s).
Proof. exact replace_source_text. Qed.
Print Assumptions C05_exact.

Example C05_case :
  let h := [Replace 2 8 (lit "A") 0 0; Replace 4 5 (lit "B") 0 0; Replace 7 3 (lit "C") 0 0] in
  Forall call_ok h /\ Forall edit_ok (edits_of h) /\
  t_source (TReplace (TRaw (lit "0123456789")) (run h)) = Some (lit "01CBA9").
Proof.
  cbv zeta. cbn [edits_of flat_map edit_of app].
  split; [|split; [|vm_compute; reflexivity]]; repeat constructor; cbn; lia.
Qed.

(** C06: size is the number of UTF-8 bytes of the text, which always exists. *)
Theorem C06_size : forall t : tree, exists s,
  t_source t = Some s /\ t_size t = Some (length (utf8 s)) /\
  (forallb is_ascii s = true -> t_size t = Some (ulen s)).
Proof. exact size_utf8. Qed.
Print Assumptions C06_size.

Example C06_case :
  t_size (TConcat [TStr [233]%N; TPrefix (lit "  ") (TRaw [97; NL; 8364]%N)]) = Some 11.
Proof. reflexivity. Qed.

(** C33: slices made by the splitting iterator are valid parts of the same buffer and
    show exactly the pieces of the text. *)
Theorem C33_split : forall (pat : char) (keep : bool) (s : str),
  is_ascii pat = true ->
  exists l, msplit_collect (length s + 2) (msplit_new (m_from s) pat keep) = Some l /\
    Forall2 (fun x piece => sl_buf x = s /\ m_view x = Some piece) l
      (if keep then pieces pat s else fields pat s).
Proof. exact msplit_from. Qed.
Print Assumptions C33_split.

(** C33: both halves of a split at a character boundary (or beyond the end) are valid. *)
Theorem C33_split_at : forall (x : slice) (l r : str) (mid : nat),
  m_view x = Some (l ++ r) -> mid = blen l \/ (r = [] /\ blen l <= mid) ->
  m_view (fst (m_split_at x (Z.of_nat mid))) = Some l /\
  m_view (snd (m_split_at x (Z.of_nat mid))) = Some r.
Proof. exact m_split_at_boundary. Qed.
Print Assumptions C33_split_at.

(** In the middle of a buffer, after a character of three bytes; and beyond the end. *)
Example C33_split_at_case : let x := mk_slice [97; 8364; 233; 98]%N 1 5 in
  m_view x = Some ([8364] ++ [233])%N /\ blen [8364]%N = 3 /\
  m_view (fst (m_split_at x 3)) = Some [8364]%N /\ m_view (snd (m_split_at x 3)) = Some [233]%N /\ m_view (snd (m_split_at x 9)) = Some [].
Proof. repeat split; reflexivity. Qed.

Theorem C33_substr : forall (x : slice) (l m r : str),
  m_view x = Some (l ++ m ++ r) ->
  exists y, m_substr x (Z.of_nat (blen l)) (Z.of_nat (blen l + blen m)) = Some y /\
            m_view y = Some m.
Proof. exact m_substr_view. Qed.
Print Assumptions C33_substr.

Example C33_substr_case : let x := mk_slice [97; 8364; 233; 98]%N 1 6 in
  m_view x = Some ([8364] ++ [233] ++ [98])%N /\ option_map m_view (m_substr x 3 5) = Some (Some [233]%N).
Proof. split; reflexivity. Qed.

(** C33: cutting at a character position never cuts a character. *)
Theorem C33_char_split : forall (s : str) (pos : Z),
  (pos < 2147483648)%Z -> split_string_slice s pos false <> None.
Proof. exact split_string_slice_total. Qed.
Print Assumptions C33_char_split.

Example C33_char_split_case : split_string_slice [233; 8364; 97]%N 2 false <> None /\ split_string_slice [233; 8364; 97]%N (-4) false <> None /\
  split_string_slice [233; 8364; 97]%N 9 false <> None.
Proof. repeat split; vm_compute; discriminate. Qed.

(** C33: extending a slice backwards over the text that precedes it in the buffer. *)
Theorem C33_offset_back : forall a b s c : str,
  m_view (m_offset (mk_slice (a ++ b ++ s ++ c) (Z.of_nat (blen (a ++ b))) (Z.of_nat (blen s)))
            (- Z.of_nat (blen b))) = Some (b ++ s).
Proof. exact m_offset_back. Qed.
Print Assumptions C33_offset_back.

Example C33_offset_back_case : m_view (m_offset (mk_slice [97; 8364; 233; 98]%N 4 2) (-3)) = Some [8364; 233]%N.
Proof. reflexivity. Qed.

(** C33: searching and counting bytes is searching and counting characters. *)
Theorem C33_bytes : forall (pat : char) (s : str), is_ascii pat = true ->
  byte_position pat (utf8 s) 0 = find_byte pat s 0 /\
  byte_count pat (utf8 s) = count_char pat s /\ length (utf8 s) = blen s.
Proof. exact bytes_are_chars. Qed.
Print Assumptions C33_bytes.

Example C33_bytes_case : byte_position NL (utf8 [8364; 233; NL; NL]%N) 0 = Some 5 /\ byte_count NL (utf8 [8364; 233; NL; NL]%N) = 2.
Proof. split; reflexivity. Qed.

Example C33_case :
  let s := [233; NL; 8364; 97; NL]%N in
  option_map (map m_view) (msplit_collect (length s + 2) (msplit_new (m_from s) NL true)) =
    Some [Some [233; NL]%N; Some [8364; 97; NL]%N; Some []] /\
  m_view (mk_slice s 1 1) = None.
Proof. split; reflexivity. Qed.

(** C34: splitting is lossless. *)
Theorem C34_keep : forall (pat : char) (s : str), is_ascii pat = true ->
  exists body last,
    split_all (ss_split_keep s pat) = Some (body ++ [last]) /\
    concat (body ++ [last]) = s /\
    (forall x, In x body -> exists a, x = a ++ [pat] /\ ~ In pat a) /\ ~ In pat last /\
    length body = count_char pat s.
Proof. exact split_keep_lossless. Qed.
Print Assumptions C34_keep.

Example C34_keep_case : is_ascii SEMI = true /\ split_all (ss_split_keep ([8364]%N ++ lit ";;B") SEMI) = Some [[8364; SEMI]; [SEMI]; [66]]%N.
Proof. split; reflexivity. Qed.

Theorem C34_drop : forall (pat : char) (s : str), is_ascii pat = true ->
  exists l, split_all (ss_split s pat) = Some l /\ join pat l = s /\
    length l = S (count_char pat s) /\ (forall x, In x l -> ~ In pat x).
Proof. exact split_drop_lossless. Qed.
Print Assumptions C34_drop.

Example C34_case :
  split_all (ss_split_keep [97; NL; NL; 233]%N NL) = Some [[97; NL]; [NL]; [233]]%N /\
  split_all (ss_split (lit "A;;B;") SEMI) = Some [lit "A"; []; lit "B"; []].
Proof. split; reflexivity. Qed.

(** C35: split_str counts characters and reports what is missing. *)
Theorem C35_chars : forall (s : str) (pos : Z), (pos < 2147483648)%Z ->
  exists lf, split_str s pos false =
  Some (if (pos <=? Z.of_nat (length s))%Z
        then SplitOk (firstn (Z.to_nat pos) s) (skipn (Z.to_nat pos) s) lf false
        else SplitErr (pos - Z.of_nat (length s)) s false).
Proof. exact split_str_chars_clean. Qed.
Print Assumptions C35_chars.

(** C35: the fast path on ASCII text cuts at the same place; it reports 0 missing
    characters instead of an empty right half when pos = length. *)
Theorem C35_fast : forall (s : str) (pos : Z), (pos < 2147483648)%Z ->
  forallb is_ascii s = true ->
  split_str s pos true =
  Some (if (pos <=? 0)%Z || (pos <? Z.of_nat (length s))%Z
        then SplitOk (firstn (Z.to_nat pos) s) (skipn (Z.to_nat pos) s) true true
        else SplitErr (pos - Z.of_nat (length s)) s true).
Proof. exact split_str_fast_clean. Qed.
Print Assumptions C35_fast.

Example C35_fast_case : split_str (lit "abc") 3 true = Some (SplitErr 0 (lit "abc") true) /\ split_str (lit "abc") 1 true = Some (SplitOk (lit "a") (lit "bc") true true).
Proof. split; reflexivity. Qed.

(** C35: split_string_slice behaves like split_str. *)
Theorem C35_slice : forall (s : str) (pos : Z) (f : bool), (pos < 2147483648)%Z ->
  (f = true -> forallb is_ascii s = true) ->
  split_string_slice s pos f = split_str s pos f.
Proof. exact split_string_slice_same. Qed.
Print Assumptions C35_slice.

Example C35_slice_case : split_string_slice [233; 98; 8364]%N 2 false = Some (SplitOk [233; 98]%N [8364]%N false false) /\
  split_string_slice (lit "abc") 7 true = Some (SplitErr 4 (lit "abc") true).
Proof. split; reflexivity. Qed.

(** C35: a left half flagged as single-byte by split_str (whatever the position) is
    single-byte, so the fast path is only taken on ASCII text. *)
Theorem C35_flags : forall (s : str) (pos : Z) (f : bool) l r lf rf,
  (pos < 2147483648)%Z -> (f = true -> forallb is_ascii s = true) ->
  split_str s pos f = Some (SplitOk l r lf rf) ->
  (lf = true -> forallb is_ascii l = true) /\ (rf = true -> forallb is_ascii r = true).
Proof. exact split_str_flags. Qed.
Print Assumptions C35_flags.

Example C35_flags_case : split_str [97; 98; 8364]%N 0 false = Some (SplitOk [] [97; 98; 8364]%N true false) /\
  split_str [97; 98]%N 1 true = Some (SplitOk [97]%N [98]%N true true).
Proof. split; reflexivity. Qed.

Example C35_case :
  split_str [233; 98; 8364]%N 2 false = Some (SplitOk [233; 98]%N [8364]%N false false) /\
  split_str [233; 98; 8364]%N 5 false = Some (SplitErr 2 [233; 98; 8364]%N false) /\
  split_str (lit "abc") 2 true = Some (SplitOk (lit "ab") (lit "c") true true) /\
  split_str [233]%N 1 true = None.
Proof. repeat split; reflexivity. Qed.
