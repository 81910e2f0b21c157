(** Model of the individual sources: src/raw_source.rs, src/original_source.rs,
    src/line_to_line_mapped_source.rs, src/prefix_source.rs, src/replace_source.rs,
    src/source_map_source.rs.  Composite sources get the text / node / list map of
    the wrapped source as an argument; the dispatch through Source is in ModelHeap.v. *)
From Verif Require Import Base ModelString ModelVlq ModelSm ModelSlm ModelRegex.

(** * src/raw_source.rs *)

(** RawSource::node, raw_source.rs:28-30. *)
Definition raw_node (value : str) : smnode :=
  sn_new None None None (Some (CNode (SmStr value))).

(** RawSource::list_map, raw_source.rs:32-38. *)
Definition raw_list_map (value : str) : option slm :=
  slm_new (Some (GCode (LStr value))) None None.

(** * src/original_source.rs *)

(** The delimiters of SPLITTER_REGEX, original_source.rs:8. *)
Definition is_delim (c : char) : bool :=
  N.eqb c NL || N.eqb c CR || N.eqb c SEMI || N.eqb c LBRACE || N.eqb c RBRACE.

Definition splitter : regex := RSeq (RStar (RClass (fun c => negb (is_delim c)))) (RStar (RClass is_delim)).

(** SPLITTER_REGEX.find(line).map_or(line.len(), |m| m.end()), original_source.rs:53-55. *)
Definition token_end (line : str) : nat :=
  match regex_find splitter line 0 with
  | Some (_, e) => e
  | None => blen line
  end.

(** The while loop 52-72 on one line: children added to sn2. *)
Fixpoint orig_tokens (fuel : nat) (name : Z) (i pos : N) (line : str) (acc : list smnode)
  : option (list smnode) :=
  match line with
  | [] => Some acc
  | _ =>
      match fuel with
      | O => None
      | S f =>
          let* (item, rest) := ss_split_at line (token_end line) in
          if blank item then
            orig_tokens f name i pos rest (add_chunk acc (CNode (SmStr item)))
          else
            orig_tokens f name i (pos + N.of_nat (blen item)) rest
              (add_chunk acc
                 (CNode (sn_new (Some ((i + 1)%N, pos)) (Some name) None
                           (Some (CNode (SmStr item))))))
      end
  end.

(** The loop over the lines, 40-75; [i] is the enumeration index. *)
Fixpoint orig_lines (columns : bool) (name : Z) (i : N) (lines : list str) (acc : list smnode)
  : option (list smnode) :=
  match lines with
  | [] => Some acc
  | line :: r =>
      if negb columns then
        orig_lines columns name (i + 1) r
          (add_chunk acc
             (CNode (sn_new (Some ((i + 1)%N, 0%N)) (Some name) None
                       (Some (CNode (SmStr line))))))
      else
        let* ch := orig_tokens (length line) name i 0 line [] in
        orig_lines columns name (i + 1) r
          (add_chunk acc (CNode (SmNode None None None ch [])))
  end.

(** OriginalSource::node, 37-78. *)
Definition original_node (value : str) (value_idx name : Z) (columns : bool) : option smnode :=
  let* lines := split_all (ss_split_keep value NL) in
  let* ch := orig_lines columns name 0 lines [] in
  Some (SmNode None None None ch [(name, value_idx)]).

(** OriginalSource::list_map, 80-86. *)
Definition original_list_map (value : str) (value_idx name : Z) : option slm :=
  slm_new (Some (GCode (LStr value))) (Some name) (Some value_idx).

(** * src/line_to_line_mapped_source.rs *)

(** The loop 35-42. *)
Fixpoint l2l_lines (name : Z) (i : N) (lines : list str) : list smnode :=
  match lines with
  | [] => []
  | line :: r =>
      sn_new (Some ((i + 1)%N, 0%N)) (Some name) None (Some (CNode (SmStr line)))
      :: l2l_lines name (i + 1) r
  end.

(** LineToLineMappedSource::node, 32-47. *)
Definition l2l_node (value : str) (name orig : Z) : option smnode :=
  let* lines := split_all (ss_split_keep value NL) in
  Some (SmNode None None None (add_chunk [] (CVec (l2l_lines name 0 lines))) [(name, orig)]).

(** LineToLineMappedSource::list_map, 49-55. *)
Definition l2l_list_map (value : str) (name orig : Z) : option slm :=
  slm_new (Some (GCode (LStr value))) (Some name) (Some orig).

(** * src/prefix_source.rs *)

(** The while loop of make_prefixed_string, 15-22. *)
Fixpoint prefix_loop (fuel : nat) (it : split_it) (prefix : str) : option str :=
  match fuel with
  | O => None
  | S f =>
      let* (it, o) := split_next it in
      match o with
      | None => Some []
      | Some line =>
          let extra :=
            match sp_rest it with
            | Some rest => match rest with [] => [] | _ => prefix end
            | None => []
            end in
          let* rest := prefix_loop f it prefix in
          Some (line ++ extra ++ rest)
      end
  end.

(** make_prefixed_string, 7-24. *)
Definition make_prefixed_string (s prefix : str) (front : bool) : option str :=
  let* body := prefix_loop (length s + 2) (ss_split_keep s NL) prefix in
  Some ((if front then prefix else []) ++ body).

(** clone_and_prefix, 26-52; [append] is the counter passed by reference. *)
Fixpoint clone_and_prefix (n : smnode) (prefix : str) (append : Z) : option (smnode * Z) :=
  match n with
  | SmStr s =>
      let ewnl := ends_with NL s in
      let* (s, append) :=
        (if (0 <? append)%Z then
           let* t := make_prefixed_string s prefix true in Some (t, (append - 1)%Z)
         else
           let* t := make_prefixed_string s prefix false in Some (t, append)) in
      Some (SmStr s, if ewnl then (append + 1)%Z else append)
  | SmNode pos src name children contents =>
      let* (ch, append) :=
        (fix go (l : list smnode) (append : Z) : option (list smnode * Z) :=
           match l with
           | [] => Some ([], append)
           | x :: r =>
               let* (x, append) := clone_and_prefix x prefix append in
               let* (r, append) := go r append in
               Some (x :: r, append)
           end) children append in
      Some (SmNode pos src name ch contents, append)
  end.

(** PrefixSource::source, 67-73. *)
Definition prefix_source (prefix inner : str) : option str :=
  make_prefixed_string inner prefix true.

(** PrefixSource::node, 75-88. *)
Definition prefix_node (prefix : str) (inner : smnode) : option smnode :=
  let* (n, _) := clone_and_prefix inner prefix 1 in
  Some (sn_new None None None (Some (CNode n))).

(** PrefixMappingFunction::map, 99-107. *)
Definition prefix_mapfun (prefix : str) : mapfun unit :=
  fun _ code => let* t := make_prefixed_string code prefix true in Some (tt, t).

(** PrefixSource::list_map, 90-96. *)
Definition prefix_list_map (prefix : str) (inner : slm) : option slm :=
  let* (_, m) := map_generated_code (prefix_mapfun prefix) tt inner in
  Some m.

(** * src/replace_source.rs *)

(** One replacement (start key, end key, text, call index), replace_source.rs:14. *)
Record repl := mk_repl { rp_start : Z; rp_end : Z; rp_text : str; rp_idx : nat }.

(** The fields replacements and is_sorted of struct ReplaceSource, 10-16. *)
Record rstate := mk_rstate { rs_repls : list repl; rs_sorted : bool }.

(** ReplaceSource::new, 19-25. *)
Definition rstate_new : rstate := mk_rstate [] true.

(** ReplaceSource::replace, 27-34. *)
Definition rs_replace (st : rstate) (start end_ : Z) (text : str) (ord_s ord_e : Z) : rstate :=
  mk_rstate
    (rs_repls st ++ [mk_repl (Z.shiftl start 4 + ord_s) (Z.shiftl end_ 4 + ord_e) text
                       (length (rs_repls st))]) false.

(** ReplaceSource::insert, 36-43 ([pos - 1] in i32). *)
Definition rs_insert (st : rstate) (pos : Z) (text : str) (ord : Z) : rstate :=
  mk_rstate
    (rs_repls st ++ [mk_repl (Z.shiftl pos 4 + ord) (Z.shiftl (to_i32 (pos - 1)) 4 + ord) text
                       (length (rs_repls st))]) false.

(** The comparison of sort_replacements, 48-56: descending end, start, index. *)
Definition repl_cmp (a b : repl) : comparison :=
  if negb (rp_end a =? rp_end b)%Z then Z.compare (rp_end b) (rp_end a)
  else if negb (rp_start a =? rp_start b)%Z then Z.compare (rp_start b) (rp_start a)
  else Nat.compare (rp_idx b) (rp_idx a).

(** sort_replacements, 45-58. *)
Definition sort_replacements (st : rstate) : rstate :=
  if rs_sorted st then st else mk_rstate (isort repl_cmp (rs_repls st)) true.

(** (repl.0 >> 4) as i32 and (repl.1 >> 4) as i32 + 1. *)
Definition rp_start_pos (r : repl) : Z := to_i32 (Z.shiftr (rp_start r) 4).
Definition rp_end_pos (r : repl) : Z := to_i32 (to_i32 (Z.shiftr (rp_end r) 4) + 1).

(** split_str with the fallback of lines 69 and 73: (left, right, lflag, rflag). *)
Definition split_str_or_all (s : str) (pos : Z) (sbc : bool)
  : option (str * str * bool * bool) :=
  let* r := split_str s pos sbc in
  match r with
  | SplitOk l r lf rf => Some (l, r, lf, rf)
  | SplitErr _ s sbc => Some (s, [], sbc, true)
  end.

(** The loop 64-78; [results] is the vector in reverse (top of the stack first). *)
Fixpoint replace_loop (repls : list repl) (results : list (str * bool))
  : option (list (str * bool)) :=
  match repls with
  | [] => Some results
  | r :: rest =>
      match results with
      | [] => None
      | (rem, f) :: results =>
          let* (l1, r1, lf1, rf1) := split_str_or_all rem (rp_end_pos r) f in
          let* (l2, _, lf2, _) := split_str_or_all l1 (rp_start_pos r) lf1 in
          replace_loop rest ((l2, lf2) :: (rp_text r, false) :: (r1, rf1) :: results)
      end
  end.

(** replace_string, 60-84: the text for sorted replacements (62, 64-84), and the whole
    method, which sorts as a side effect. *)
Definition replace_text (repls : list repl) (s : str) : option str :=
  let* results := replace_loop repls [(s, false)] in
  Some (flat_map fst results).
Definition replace_string (st : rstate) (s : str) : option (rstate * str) :=
  let st := sort_replacements st in
  let* t := replace_text (rs_repls st) s in
  Some (st, t).

(** split_sourcenode, 247-309: Ok (left, right) or Err (missing, node). *)
Inductive node_split := NOk (l r : smnode) | NErr (missing : Z) (n : smnode).

Fixpoint split_sourcenode (n : smnode) (pos : Z) : option node_split :=
  match n with
  | SmNode p s nm children contents =>
      let* (split, pos, lefts, rights) :=
        (fix go (l : list smnode) (is_split : bool) (pos : Z) (lefts rights : list smnode)
           : option (bool * Z * list smnode * list smnode) :=
           match l with
           | [] => Some (is_split, pos, lefts, rights)
           | x :: r =>
               if negb is_split then
                 let* o := split_sourcenode x pos in
                 match o with
                 | NOk a b => go r true pos (lefts ++ [a]) (rights ++ [b])
                 | NErr pos x => go r false pos (lefts ++ [x]) rights
                 end
               else go r true pos lefts (rights ++ [x])
           end) children false pos [] [] in
      if (split : bool) then
        Some (NOk (SmNode p s nm (add_chunk [] (CVec lefts)) contents)
                  (SmNode p s nm (add_chunk [] (CVec rights)) []))
      else Some (NErr pos (SmNode p s nm (add_chunk [] (CVec lefts)) contents))
  | SmStr s =>
      let* r := split_string_slice s pos false in
      match r with
      | SplitOk l r _ _ => Some (NOk (SmStr l) (SmStr r))
      | SplitErr p s _ => Some (NErr p (SmStr s))
      end
  end.

(** replacement_to_sourcenode, 311-323. *)
Definition replacement_to_sourcenode (old : smnode) (text : str) : option smnode :=
  match old with
  | SmNode _ _ _ _ _ =>
      let* (_, g) := to_string_with_generator old None None in
      let* (_, m) := original_position_for g 1 0 in
      Some (sn_new (m_orig m) (m_src m) None (Some (CNode (SmStr text))))
  | SmStr _ => None
  end.

(** The loop of ReplaceSource::node, 107-133; [result] in reverse. *)
Fixpoint replace_node_loop (repls : list repl) (result : list smnode) : option (list smnode) :=
  match repls with
  | [] => Some result
  | r :: rest =>
      match result with
      | [] => None
      | rem :: result =>
          let* o := split_sourcenode rem (rp_end_pos r) in
          match o with
          | NOk l1 r1 =>
              let* o := split_sourcenode l1 (rp_start_pos r) in
              match o with
              | NOk l2 r2 =>
                  let* x := replacement_to_sourcenode r2 (rp_text r) in
                  replace_node_loop rest (l2 :: x :: r1 :: result)
              | NErr _ l1 =>
                  let* x := replacement_to_sourcenode r1 (rp_text r) in
                  replace_node_loop rest (l1 :: x :: r1 :: result)
              end
          | NErr _ rem =>
              let* o := split_sourcenode rem (rp_start_pos r) in
              match o with
              | NOk l2 r2 =>
                  let* x := replacement_to_sourcenode r2 (rp_text r) in
                  replace_node_loop rest (l2 :: x :: result)
              | NErr _ rem =>
                  replace_node_loop rest (rem :: SmStr (rp_text r) :: result)
              end
          end
      end
  end.

(** ReplaceSource::node, 103-136, for sorted replacements. *)
Definition replace_node (repls : list repl) (inner : smnode) : option smnode :=
  let* result := replace_node_loop repls [inner] in
  Some (sn_new None None None (Some (CVec result))).

(** ReplaceMappingFunction, 157-173.  [rm_k] is replacement_idx + 1. *)
Record rmap_st := mk_rmap { rm_current : Z; rm_k : nat; rm_remove : Z }.

(** str[a..b] with byte positions. *)
Definition str_range (s : str) (a b : nat) : option str :=
  guard* (a <=? b) in
  let* (_, r) := split_at_bytes s a in
  let* (x, _) := split_at_bytes r (b - a) in
  Some x.

(** The closure code_step_n_chars, 181-192, with the iterator state it captures:
    remaining characters, byte position of the next one, code_iter_bound. *)
Record citer := mk_citer { ci_rest : str; ci_p : nat; ci_bound : nat }.
Inductive step_res := StOk (p : nat) (chars : Z) | StErr (n chars : Z).

Fixpoint step_chars (rest : str) (p bound : nat) (n rem : Z) : citer * step_res :=
  if (rem <? n)%Z then
    match rest with
    | c :: r => step_chars r (p + len_utf8 c) (p + len_utf8 c) n (rem + 1)
    | [] => (mk_citer [] p bound, StErr (n - rem) rem)
    end
  else (mk_citer rest p bound, StOk bound rem).

Definition code_step (ci : citer) (n : Z) : citer * step_res :=
  step_chars (ci_rest ci) (ci_p ci) (ci_bound ci) n 0.

(** The while loop 211-241, on [k] = replacement_idx + 1: returns the state, final_str
    and start_bound. *)
Fixpoint rmap_loop (repls : list repl) (code : str) (k : nat) (ci : citer)
    (current : Z) (out : str) (start_bound : nat) : option (rmap_st * str * nat) :=
  match k with
  | O => Some (mk_rmap current 0 0, out, start_bound)
  | S k' =>
      let* r := nth_error repls k' in
      let start := rp_start_pos r in
      let end_ := rp_end_pos r in
      let '(ci, o) := code_step ci (to_i32 (start - current)) in
      match o with
      | StOk p chars =>
          let current := to_i32 (current + chars) in
          let* seg := str_range code start_bound p in
          let out := out ++ seg ++ rp_text r in
          let '(ci, o) := code_step ci (to_i32 (end_ - current)) in
          match o with
          | StOk p chars =>
              rmap_loop repls code k' ci (to_i32 (current + chars)) out p
          | StErr n chars =>
              Some (mk_rmap (to_i32 (current + chars)) k' (Z.max n 0), out, blen code)
          end
      | StErr _ chars => Some (mk_rmap (to_i32 (current + chars)) (S k') 0, out, start_bound)
      end
  end.

(** ReplaceMappingFunction::map, 175-245.  (In the loop remove_chars is 0 until set.)
    Sums and differences of i32 wrap as in a release build. *)
Definition replace_mapfun (repls : list repl) : mapfun rmap_st :=
  fun st code =>
    let ci := mk_citer code 0 0 in
    let main ci current start_bound :=
      let* (st, out, sb) := rmap_loop repls code (rm_k st) ci current [] start_bound in
      let* tail := str_range code sb (blen code) in
      Some (st, out ++ tail) in
    if (0 <? rm_remove st)%Z then
      let '(ci, o) := code_step ci (rm_remove st) in
      match o with
      | StOk p chars => main ci (to_i32 (rm_current st + chars)) p
      | StErr n chars => Some (mk_rmap (to_i32 (rm_current st + chars)) (rm_k st) n, [])
      end
    else main ci (rm_current st) 0.

(** The texts of the replacements not yet applied, 144-148. *)
Fixpoint extra_code (repls : list repl) (k : nat) : option str :=
  match k with
  | O => Some []
  | S k' =>
      let* r := nth_error repls k' in
      let* rest := extra_code repls k' in
      Some (rp_text r ++ rest)
  end.

(** ReplaceSource::list_map, 138-154, for sorted replacements. *)
Definition replace_list_map (repls : list repl) (inner : slm) : option slm :=
  let* (st, m) :=
    map_generated_code (replace_mapfun repls) (mk_rmap 0 (length repls) 0) inner in
  let* extra := extra_code repls (rm_k st) in
  match extra with
  | [] => Some m
  | _ => slm_add m (LStr extra) None None
  end.

(** * src/source_map_source.rs *)

(** struct SourceMapContent, 8-14. *)
Record sm_content := mk_smc {
  sc_sources : list Z; sc_contents : list Z; sc_names : list Z; sc_mappings : str }.

(** struct SourceMap, 16-20. *)
Record sm_cell := mk_cell { ce_data : option sm_content; ce_gen : option generator }.

(** struct SourceMapSource, 76-85. *)
Record sms := mk_sms {
  sms_value : str;
  sms_value_idx : Z;
  sms_name : Z;
  sms_map : sm_cell;
  sms_original : option Z;
  sms_inner : option sm_cell;
  sms_applied : bool }.

(** SourceMapSource::new, 88-113, and new_with_generator, 115-132. *)
Definition sms_new (value : str) (value_idx name : Z) (data : sm_content)
    (g : option generator) : sms :=
  mk_sms value value_idx name (mk_cell (Some data) g) None None false.
Definition sms_new_with_generator (value : str) (value_idx name : Z) (g : generator) : sms :=
  mk_sms value value_idx name (mk_cell None (Some g)) None None false.

(** set_original_source, 134-136. *)
Definition sms_set_original (x : sms) (s : Z) : sms :=
  mk_sms (sms_value x) (sms_value_idx x) (sms_name x) (sms_map x) (Some s)
    (sms_inner x) (sms_applied x).
(** set_inner_source_map, 138-153, and set_inner_source_map_generator, 155-160. *)
Definition sms_set_inner (x : sms) (data : sm_content) (g : option generator) : sms :=
  mk_sms (sms_value x) (sms_value_idx x) (sms_name x) (sms_map x) (sms_original x)
    (Some (mk_cell (Some data) g)) false.
Definition sms_set_inner_generator (x : sms) (g : generator) : sms :=
  mk_sms (sms_value x) (sms_value_idx x) (sms_name x) (sms_map x) (sms_original x)
    (Some (mk_cell None (Some g))) false.

(** SourceMap::get_data, 49-56. *)
Definition cell_get_data (c : sm_cell) : option (sm_cell * sm_content) :=
  match ce_data c with
  | Some d => Some (c, d)
  | None =>
      let* g := ce_gen c in
      let* (g, m) := gen_to_source_map g in
      let d := mk_smc (map_sources m) (map_contents m) (map_names m) (map_mappings m) in
      Some (mk_cell (Some d) (Some g), d)
  end.

(** SourceMap::get_generator, 58-73. *)
Definition cell_get_generator (c : sm_cell) : option (sm_cell * generator) :=
  match ce_gen c with
  | Some g => Some (c, g)
  | None =>
      let* d := ce_data c in
      let* g := from_source_map (sc_sources d) (sc_contents d) (sc_mappings d) (sc_names d)
                  None None true in
      Some (mk_cell (ce_data c) (Some g), g)
  end.

(** SourceMapSource::node, 172-186. *)
Definition sms_node (x : sms) : option (sms * smnode) :=
  let* (c, g) := cell_get_generator (sms_map x) in
  let* (g, inner, applied) :=
    (match sms_inner x with
     | Some ic =>
         let* (ic, ig) := cell_get_generator ic in
         let g := match sms_original x with
                  | Some o => gen_set_source_content g (sms_name x) (Some o)
                  | None => g
                  end in
         if negb (sms_applied x) then
           let* (g, ig) := apply_source_map_generator g ig (Some (sms_name x)) in
           Some (g, Some (mk_cell (ce_data ic) (Some ig)), true)
         else Some (g, Some ic, sms_applied x)
     | None => Some (g, None, sms_applied x)
     end) in
  let* n := sm_from_string (sms_value x) g in
  Some (mk_sms (sms_value x) (sms_value_idx x) (sms_name x) (mk_cell (ce_data c) (Some g))
          (sms_original x) inner applied, n).

(** SourceMapSource::list_map, 188-204. *)
Definition sms_list_map (x : sms) (module : bool) : option (sms * slm) :=
  if negb module then
    let* m := slm_new (Some (GCode (LStr (sms_value x)))) (Some (sms_name x))
                (Some (sms_value_idx x)) in
    Some (x, m)
  else
    let* (c, d) := cell_get_data (sms_map x) in
    let* m := slm_from_string (sms_value x) (sc_sources d) (sc_contents d) (sc_mappings d) in
    Some (mk_sms (sms_value x) (sms_value_idx x) (sms_name x) c (sms_original x)
            (sms_inner x) (sms_applied x), m).
