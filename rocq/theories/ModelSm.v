(** Model of src/source_map/ (SourceMapGenerator, MappingList, SourceNode,
    from_string_with_source_map_generator). *)
From Verif Require Import Base ModelString ModelVlq.

(** * Insertion-ordered / hashed maps keyed by string-cache index *)

(** LinkedHashMap<i32,usize> and HashMap<i32,i32> as association lists. *)
Fixpoint al_get {A} (l : list (Z * A)) (k : Z) : option A :=
  match l with
  | [] => None
  | (k', v) :: r => if Z.eqb k k' then Some v else al_get r k
  end.
(** entry(k).or_insert(v) *)
Definition al_or_insert {A} (l : list (Z * A)) (k : Z) (v : A) : list (Z * A) :=
  match al_get l k with Some _ => l | None => l ++ [(k, v)] end.
(** insert(k, v) *)
Fixpoint al_insert {A} (l : list (Z * A)) (k : Z) (v : A) : list (Z * A) :=
  match l with
  | [] => [(k, v)]
  | (k', v') :: r => if Z.eqb k k' then (k, v) :: r else (k', v') :: al_insert r k v
  end.
(** remove(&k) *)
Fixpoint al_remove {A} (l : list (Z * A)) (k : Z) : list (Z * A) :=
  match l with
  | [] => []
  | (k', v') :: r => if Z.eqb k k' then r else (k', v') :: al_remove r k
  end.

(** * src/source_map/types/mapping.rs *)

Definition pos2 := (N * N)%type.     (* (line, column) *)

(** struct Mapping, mapping.rs:3-10. *)
Record mapping := mk_mapping {
  m_gen : pos2;
  m_src : option Z;
  m_name : option Z;
  m_orig : option pos2 }.

(** Derived Ord of (usize, usize). *)
Definition pos_cmp (a b : pos2) : comparison :=
  cmp_then (N.compare (fst a) (fst b)) (N.compare (snd a) (snd b)).

(** Ord for Mapping, mapping.rs:23-42. *)
Definition mapping_cmp (a b : mapping) : comparison :=
  cmp_then (pos_cmp (m_gen a) (m_gen b))
    (cmp_then (opt_cmp Z.compare (m_src a) (m_src b))
       (cmp_then (opt_cmp pos_cmp (m_orig a) (m_orig b))
          (opt_cmp Z.compare (m_name a) (m_name b)))).

(** * src/source_map/types/mapping_list.rs *)

(** struct MappingList, mapping_list.rs:3-8. *)
Record mapping_list := mk_ml {
  ml_list : list mapping;
  ml_sorted : bool;
  ml_last : option mapping }.

(** MappingList::new, mapping_list.rs:11-17. *)
Definition ml_new : mapping_list := mk_ml [] true None.

(** MappingList::add, mapping_list.rs:19-33. *)
Definition ml_add (ml : mapping_list) (m : mapping) : mapping_list :=
  let is_new_last :=
    match ml_last ml with
    | Some last => match mapping_cmp m last with Lt => false | _ => true end
    | None => true
    end in
  if is_new_last
  then mk_ml (ml_list ml ++ [m]) (ml_sorted ml) (Some m)
  else mk_ml (ml_list ml ++ [m]) false (ml_last ml).

(** MappingList::sort, mapping_list.rs:35-40. *)
Definition ml_sort (ml : mapping_list) : mapping_list :=
  if ml_sorted ml then ml
  else mk_ml (isort mapping_cmp (ml_list ml)) true (ml_last ml).

(** MappingList::set_unsorted, mapping_list.rs:42-45. *)
Definition ml_set_unsorted (ml : mapping_list) : mapping_list :=
  mk_ml (ml_list ml) false None.

(** * src/source_map/source_map_generator.rs *)

(** struct SourceMapGenerator, source_map_generator.rs:10-19. *)
Record generator := mk_gen {
  g_file : option Z;
  g_root : option str;
  g_skip : bool;
  g_sources : list (Z * nat);
  g_names : list (Z * nat);
  g_mappings : mapping_list;
  g_contents : list (Z * Z) }.

(** SourceMapGenerator::new, 22-36. *)
Definition gen_new (file : option Z) (root : option str) (skip : bool) : generator :=
  mk_gen file root skip [] [] ml_new [].

(** add_source / add_name, 38-48. *)
Definition gen_add_source (g : generator) (s : Z) : generator :=
  mk_gen (g_file g) (g_root g) (g_skip g)
    (al_or_insert (g_sources g) s (length (g_sources g)))
    (g_names g) (g_mappings g) (g_contents g).
Definition gen_add_name (g : generator) (s : Z) : generator :=
  mk_gen (g_file g) (g_root g) (g_skip g) (g_sources g)
    (al_or_insert (g_names g) s (length (g_names g)))
    (g_mappings g) (g_contents g).
Definition gen_set_mappings (g : generator) (ml : mapping_list) : generator :=
  mk_gen (g_file g) (g_root g) (g_skip g) (g_sources g) (g_names g) ml (g_contents g).
Definition gen_set_contents (g : generator) (c : list (Z * Z)) : generator :=
  mk_gen (g_file g) (g_root g) (g_skip g) (g_sources g) (g_names g) (g_mappings g) c.
Definition gen_set_sources (g : generator) (s : list (Z * nat)) : generator :=
  mk_gen (g_file g) (g_root g) (g_skip g) s (g_names g) (g_mappings g) (g_contents g).
Definition gen_set_names (g : generator) (s : list (Z * nat)) : generator :=
  mk_gen (g_file g) (g_root g) (g_skip g) (g_sources g) s (g_mappings g) (g_contents g).

(** validate_mapping, 94-108 (true = Ok). *)
Definition validate_mapping (m : mapping) : bool :=
  match m_orig m with
  | Some (ol, _) =>
      match m_src m with Some _ => true | None => false end
      && (0 <? ol)%N && (0 <? fst (m_gen m))%N
  | None =>
      match m_src m with Some _ => false | None => true end
      && match m_name m with Some _ => false | None => true end
      && (0 <? fst (m_gen m))%N
  end.

(** add_mapping, 50-59; the unwrap of a failed validation panics. *)
Definition gen_add_mapping (g : generator) (m : mapping) : option generator :=
  guard* (g_skip g || validate_mapping m) in
  let g := match m_src m with Some s => gen_add_source g s | None => g end in
  let g := match m_name m with Some n => gen_add_name g n | None => g end in
  Some (gen_set_mappings g (ml_add (g_mappings g) m)).

(** set_source_content, 61-67. *)
Definition gen_set_source_content (g : generator) (s : Z) (c : option Z) : generator :=
  match c with
  | Some c => gen_set_contents g (al_or_insert (g_contents g) s c)
  | None => gen_set_contents g (al_remove (g_contents g) s)
  end.

(** Running state of serialize_mappings, 112-116. *)
Record ser_st := mk_ser {
  se_gen : pos2; se_orig : pos2; se_name : nat; se_src : nat }.

(** One iteration of the loop 119-168; [first] is [i == 0].  Underflows of the usize
    subtractions in lines 122 and 154 are panics. *)
Definition serialize_one (sources names : list (Z * nat)) (first : bool)
    (st : ser_st) (m : mapping) : option (ser_st * str) :=
  let '(pl, pc) := se_gen st in
  let '(gl, gc) := m_gen m in
  let* (sep, pc) :=
    (if negb (gl =? pl)%N then
       guard* (pl <=? gl)%N in
       Some (repeat SEMI (N.to_nat (gl - pl)), 0%N)
     else if negb first then Some ([COMMA], pc)
     else Some ([], pc)) in
  let b1 := vlq_encode (Z.of_N gc - Z.of_N pc) in
  match m_src m with
  | None => Some (mk_ser (gl, gc) (se_orig st) (se_name st) (se_src st), sep ++ b1)
  | Some s =>
      let* si := al_get sources s in
      let b2 := vlq_encode (Z.of_nat si - Z.of_nat (se_src st)) in
      let* (ol, oc) := m_orig m in
      let b3 := vlq_encode (Z.of_N ol - 1 - Z.of_N (fst (se_orig st))) in
      guard* (0 <? ol)%N in
      let b4 := vlq_encode (Z.of_N oc - Z.of_N (snd (se_orig st))) in
      match m_name m with
      | None =>
          Some (mk_ser (gl, gc) ((ol - 1)%N, oc) (se_name st) si,
                sep ++ b1 ++ b2 ++ b3 ++ b4)
      | Some n =>
          let* ni := al_get names n in
          Some (mk_ser (gl, gc) ((ol - 1)%N, oc) ni si,
                sep ++ b1 ++ b2 ++ b3 ++ b4
                    ++ vlq_encode (Z.of_nat ni - Z.of_nat (se_name st)))
      end
  end.

Fixpoint serialize_loop (sources names : list (Z * nat)) (first : bool)
    (st : ser_st) (l : list mapping) : option str :=
  match l with
  | [] => Some []
  | m :: r =>
      let* (st, b) := serialize_one sources names first st m in
      let* rest := serialize_loop sources names false st r in
      Some (b ++ rest)
  end.

Definition ser_init : ser_st := mk_ser (1%N, 0%N) (0%N, 0%N) 0 0.

(** serialize_mappings, 110-170 (sorts the list as a side effect). *)
Definition serialize_mappings (g : generator) : option (generator * str) :=
  let g := gen_set_mappings g (ml_sort (g_mappings g)) in
  let* b := serialize_loop (g_sources g) (g_names g) true ser_init
              (ml_list (g_mappings g)) in
  Some (g, b).

(** struct SourceMap, src/types/source_map.rs. *)
Record source_map := mk_map {
  map_file : option Z;
  map_sources : list Z;
  map_contents : list Z;
  map_mappings : str;
  map_names : list Z;
  map_root : option str }.

(** The sourcesContent loop, 78-82: sources without content are skipped. *)
Fixpoint collect_contents (sources : list Z) (contents : list (Z * Z)) : list Z :=
  match sources with
  | [] => []
  | s :: r =>
      match al_get contents s with
      | Some c => c :: collect_contents r contents
      | None => collect_contents r contents
      end
  end.

(** to_source_map, 69-92. *)
Definition gen_to_source_map (g : generator) : option (generator * source_map) :=
  let sources := map fst (g_sources g) in
  let names := map fst (g_names g) in
  let* (g, mappings) := serialize_mappings g in
  Some (g, mk_map (g_file g) sources (collect_contents sources (g_contents g))
             mappings names (g_root g)).

(** slice::binary_search_by of the Rust standard library (2018): the range
    [base, base+size) is halved until one element is left. *)
Inductive search_result := Found (i : nat) | NotFound (i : nat).

Fixpoint bs_loop {A} (fuel : nat) (f : A -> comparison) (l : list A) (base size : nat) : nat :=
  match fuel with
  | O => base
  | S k =>
      if size <=? 1 then base
      else
        let half := size / 2 in
        let mid := base + half in
        let base :=
          match nth_error l mid with
          | Some x => match f x with Gt => base | _ => mid end
          | None => base
          end in
        bs_loop k f l base (size - half)
  end.

Definition binary_search_by {A} (f : A -> comparison) (l : list A) : search_result :=
  match l with
  | [] => NotFound 0
  | _ =>
      let base := bs_loop (length l) f l 0 (length l) in
      match nth_error l base with
      | None => NotFound base
      | Some x =>
          match f x with
          | Eq => Found base
          | Lt => NotFound (base + 1)
          | Gt => NotFound base
          end
      end
  end.

Definition empty_mapping : mapping := mk_mapping (0%N, 0%N) None None None.

(** original_position_for, 173-201 (sorts the list as a side effect). *)
Definition original_position_for (g : generator) (line column : N)
  : option (generator * mapping) :=
  let g := gen_set_mappings g (ml_sort (g_mappings g)) in
  let l := ml_list (g_mappings g) in
  let pick (i : nat) :=
    let* m := nth_error l i in
    if (fst (m_gen m) =? line)%N then Some (g, m) else Some (g, empty_mapping) in
  match binary_search_by (fun p => pos_cmp (m_gen p) (line, column)) l with
  | Found i => pick i
  | NotFound O => Some (g, empty_mapping)
  | NotFound (S i) => pick i
  end.

(** The loop of apply_source_map_generator, 221-236: new mappings; the inner
    generator is threaded because queries sort it. *)
Fixpoint apply_loop (inner : generator) (file : option Z) (l : list mapping)
  : option (generator * list mapping) :=
  match l with
  | [] => Some (inner, [])
  | m :: r =>
      let* (inner, m') :=
        (match m_orig m with
         | Some (line, column) =>
             if optZ_eqb (m_src m) file then
               let* (inner, o) := original_position_for inner line column in
               match m_src o with
               | Some _ =>
                   Some (inner,
                         mk_mapping (m_gen m) (m_src o)
                           (match m_name o with Some _ => m_name o | None => m_name m end)
                           (m_orig o))
               | None => Some (inner, m)
               end
             else Some (inner, m)
         | None => Some (inner, m)
         end) in
      let* (inner, r') := apply_loop inner file r in
      Some (inner, m' :: r')
  end.

Definition opt_list {A} (o : option A) : list A :=
  match o with Some x => [x] | None => [] end.

(** apply_source_map_generator, 203-251. *)
Definition apply_source_map_generator (g inner : generator) (source_file : option Z)
  : option (generator * generator) :=
  let* file :=
    (match source_file with
     | None => match g_file inner with None => None | Some f => Some (Some f) end
     | Some f => Some (Some f)
     end) in
  let ml := ml_set_unsorted (g_mappings g) in
  let* (inner, l) := apply_loop inner file (ml_list ml) in
  let new_sources := flat_map (fun m => opt_list (m_src m)) l in
  let new_names := flat_map (fun m => opt_list (m_name m)) l in
  let g := gen_set_mappings g (mk_ml l (ml_sorted ml) (ml_last ml)) in
  let g := match l with [] => g | _ => gen_set_sources g [] end in
  let g := fold_left gen_add_source new_sources g in
  let g := gen_set_names g [] in
  let g := fold_left gen_add_name new_names g in
  let g := fold_left (fun g '(s, c) => gen_set_source_content g s (Some c))
             (g_contents inner) g in
  Some (g, inner).

(** The filter with a HashSet, 266-273 and 283-284: keep first occurrences. *)
Fixpoint dedup (seen : list Z) (l : list Z) : list Z :=
  match l with
  | [] => []
  | x :: r => if existsb (Z.eqb x) seen then dedup seen r else x :: dedup (x :: seen) r
  end.

(** The side effects of the filter/map closures over [sources], 265-281. *)
Fixpoint load_sources (check_dup : bool) (g : generator) (sources contents : list Z)
  : generator :=
  match sources with
  | [] => g
  | s :: r =>
      let g := if check_dup then gen_add_source g s else g in
      let g := gen_set_source_content g s (hd_error contents) in
      load_sources check_dup g r (tl contents)
  end.

(** The loop over the parsed mappings, 291-316; out-of-range indices panic. *)
Fixpoint load_mappings (g : generator) (sources names : list Z) (l : list raw_mapping)
  : option generator :=
  match l with
  | [] => Some g
  | rm :: r =>
      let gen := ((rm_line rm + 1)%N, rm_col rm) in
      let* m :=
        (match rm_orig rm with
         | Some (si, ol, oc, no) =>
             let* name :=
               (match no with
                | Some ni => let* n := nth_error names (N.to_nat ni) in Some (Some n)
                | None => Some None
                end) in
             let* s := nth_error sources (N.to_nat si) in
             Some (mk_mapping gen (Some s) name (Some ((ol + 1)%N, oc)))
         | None => Some (mk_mapping gen None None None)
         end) in
      let* g := gen_add_mapping g m in
      load_mappings g sources names r
  end.

(** from_source_map, 253-318. *)
Definition from_source_map (sources contents : list Z) (mappings : str) (names : list Z)
    (file : option Z) (root : option str) (check_dup : bool) : option generator :=
  let g := load_sources check_dup (gen_new file root true) sources contents in
  let sources := if check_dup then dedup [] sources else sources in
  let names := if check_dup then dedup [] names else names in
  let* l := parse_mappings mappings in
  load_mappings g sources names l.

(** * src/source_map/source_node.rs *)

(** enum Node (source_map/types/mod.rs:10-15) with struct SourceNode
    (source_node.rs:7-15) inlined.  Simplification: the variant NNodeVec only ever
    occurs as the argument of SourceNode::add / new, so it is the separate type
    [chunk] instead of a possible child. *)
Inductive smnode :=
| SmStr (s : str)
| SmNode (position : option pos2) (source name : option Z)
         (children : list smnode) (contents : list (Z * Z)).

Inductive chunk :=
| CNode (n : smnode)
| CVec (l : list smnode).

(** SourceNode::add, 37-51, on the list of children: an empty string is dropped,
    but not one inside a vector. *)
Definition add_chunk (children : list smnode) (c : chunk) : list smnode :=
  match c with
  | CVec nv => children ++ nv
  | CNode (SmStr []) => children
  | CNode n => children ++ [n]
  end.

(** SourceNode::new, 18-35. *)
Definition sn_new (position : option pos2) (source name : option Z) (c : option chunk) : smnode :=
  SmNode position source name
    (match c with Some c => add_chunk [] c | None => [] end) [].

(** struct ToSourceMapContext, 135-143. *)
Record ctx := mk_ctx {
  cx_map : generator;
  cx_active : bool;
  cx_last_src : option Z;
  cx_last_pos : option pos2;
  cx_last_name : option Z;
  cx_code : str;
  cx_pos : pos2 }.

(** ToSourceMapContext::new, 146-160. *)
Definition ctx_new (file : option Z) (root : option str) (skip : bool) : ctx :=
  mk_ctx (gen_new file root skip) false None None None [] (1%N, 0%N).

Definition optpos_eqb (a b : option pos2) : bool :=
  match a, b with
  | None, None => true
  | Some (l1, c1), Some (l2, c2) => (l1 =? l2)%N && (c1 =? c2)%N
  | _, _ => false
  end.

Definition is_some {A} (o : option A) : bool :=
  match o with Some _ => true | None => false end.

(** The loop over chunk.char_indices(), 199-219; [b] is the byte position. *)
Fixpoint chunk_loop (cx : ctx) (src : option Z) (pos : option pos2) (name : option Z)
    (chunk_len b : nat) (s : str) : option ctx :=
  match s with
  | [] => Some cx
  | c :: r =>
      let* cx :=
        (if N.eqb c NL then
           let gp := ((fst (cx_pos cx) + 1)%N, 0%N) in
           if b + 1 =? chunk_len then
             Some (mk_ctx (cx_map cx) false None (cx_last_pos cx) (cx_last_name cx)
                     (cx_code cx) gp)
           else if cx_active cx then
             let* g := gen_add_mapping (cx_map cx) (mk_mapping gp src name pos) in
             Some (mk_ctx g (cx_active cx) (cx_last_src cx) (cx_last_pos cx)
                     (cx_last_name cx) (cx_code cx) gp)
           else
             Some (mk_ctx (cx_map cx) (cx_active cx) (cx_last_src cx) (cx_last_pos cx)
                     (cx_last_name cx) (cx_code cx) gp)
         else
           Some (mk_ctx (cx_map cx) (cx_active cx) (cx_last_src cx) (cx_last_pos cx)
                   (cx_last_name cx) (cx_code cx)
                   (fst (cx_pos cx), (snd (cx_pos cx) + 1)%N))) in
      chunk_loop cx src pos name chunk_len (b + len_utf8 c) r
  end.

(** process_chunk, 164-220. *)
Definition process_chunk (cx : ctx) (chunk : str) (src : option Z) (pos : option pos2)
    (name : option Z) : option ctx :=
  let code := cx_code cx ++ chunk in
  let* cx :=
    (if is_some src && is_some pos then
       let* g :=
         (if negb (optZ_eqb (cx_last_src cx) src)
             || negb (optpos_eqb (cx_last_pos cx) pos)
             || negb (optZ_eqb (cx_last_name cx) name)
          then gen_add_mapping (cx_map cx) (mk_mapping (cx_pos cx) src name pos)
          else Some (cx_map cx)) in
       Some (mk_ctx g true src pos name code (cx_pos cx))
     else if cx_active cx then
       let* g := gen_add_mapping (cx_map cx) (mk_mapping (cx_pos cx) None None None) in
       Some (mk_ctx g false None (cx_last_pos cx) (cx_last_name cx) code (cx_pos cx))
     else
       Some (mk_ctx (cx_map cx) (cx_active cx) (cx_last_src cx) (cx_last_pos cx)
               (cx_last_name cx) code (cx_pos cx))) in
  chunk_loop cx src pos name (blen chunk) 0 chunk.

(** process_source_content, 222-224. *)
Definition process_source_content (cx : ctx) (s c : Z) : ctx :=
  mk_ctx (gen_set_source_content (cx_map cx) s (Some c)) (cx_active cx) (cx_last_src cx)
    (cx_last_pos cx) (cx_last_name cx) (cx_code cx) (cx_pos cx).

Definition process_contents (cx : ctx) (l : list (Z * Z)) : ctx :=
  fold_left (fun cx '(s, c) => process_source_content cx s c) l cx.

(** SourceNode::walk, 99-114.  [walk_node psrc ppos pname n] processes [n] as a child
    of a node with the given source, position and name. *)
Fixpoint walk_node (psrc : option Z) (ppos : option pos2) (pname : option Z)
    (n : smnode) (cx : ctx) : option ctx :=
  match n with
  | SmStr s => process_chunk cx s psrc ppos pname
  | SmNode pos src name children contents =>
      let* cx :=
        (fix go (l : list smnode) (cx : ctx) : option ctx :=
           match l with
           | [] => Some cx
           | x :: r => let* cx := walk_node src pos name x cx in go r cx
           end) children cx in
      Some (process_contents cx contents)
  end.

(** A SourceNode walked at the root (its own parent attributes are irrelevant). *)
Definition walk (n : smnode) (cx : ctx) : option ctx := walk_node None None None n cx.

(** to_string_with_source_map_generator, 72-85 (and to_source_map_generator, 87-97). *)
Definition to_string_with_generator (n : smnode) (file : option Z) (root : option str)
  : option (str * generator) :=
  let* cx := walk n (ctx_new file root true) in
  Some (cx_code cx, cx_map cx).

(** to_string_with_source_map, 57-70. *)
Definition to_string_with_source_map (n : smnode) (file : option Z) (root : option str)
  : option (str * source_map) :=
  let* cx := walk n (ctx_new file root true) in
  let* (_, m) := gen_to_source_map (cx_map cx) in
  Some (cx_code cx, m).

(** SourceNode::add_mapping_with_code, 116-132, on the list of children. *)
Definition add_mapping_with_code (children : list smnode) (m : option mapping) (code : str)
  : list smnode :=
  match m with
  | Some m =>
      match m_src m with
      | Some _ =>
          add_chunk children
            (CNode (sn_new (m_orig m) (m_src m) (m_name m) (Some (CNode (SmStr code)))))
      | None => add_chunk children (CNode (SmStr code))
      end
  | None => add_chunk children (CNode (SmStr code))
  end.

(** * src/source_map/from_string_with_source_map.rs *)

(** substr on texts, src/types/string_slice.rs:25-33. *)
Definition ss_substr (s : str) (start stop : nat) : option str :=
  let start := Nat.min start (blen s) in
  let stop := Nat.min stop (blen s) in
  guard* (start <=? stop) in
  let* (_, r) := split_at_bytes s start in
  let* (a, _) := split_at_bytes r (stop - start) in
  Some a.

(** A line with the flags is_existing and single_byte_char_only. *)
Definition fline := (str * bool * bool)%type.

(** The loop collecting the lines, 15-41: [p] byte position of the next character. *)
Fixpoint lines_loop (code rest : str) (p line_start : nat) (sbc : bool)
  : option (list fline) :=
  match rest with
  | [] =>
      if line_start =? blen code then Some []
      else let* l := ss_substr code line_start (blen code) in Some [(l, true, sbc)]
  | c :: r =>
      let sbc := if 1 <? len_utf8 c then false else sbc in
      if N.eqb c NL then
        let line_end := p + 1 in
        let* l := ss_substr code line_start line_end in
        let* ls := lines_loop code r (p + len_utf8 c) line_end true in
        Some ((l, true, sbc) :: ls)
      else lines_loop code r (p + len_utf8 c) line_start sbc
  end.

Definition no_line : fline := ([], false, true).
(** line_iter.next().unwrap_or(...) *)
Definition next_of (it : list fline) : fline * list fline :=
  match it with [] => (no_line, []) | x :: r => (x, r) end.

(** State of the main loop, 43-51. *)
Record fs_st := mk_fs {
  fs_children : list smnode;
  fs_pos : pos2;                    (* last_generated_position *)
  fs_last : option mapping;
  fs_line : fline;                  (* next_line *)
  fs_iter : list fline }.

(** The while loop 84-90 iterated [k] times. *)
Fixpoint skip_lines (k : nat) (st : fs_st) : fs_st :=
  match k with
  | O => st
  | S k =>
      let '(nl, it) := next_of (fs_iter st) in
      skip_lines k
        (mk_fs (add_chunk (fs_children st) (CNode (SmStr (fst (fst (fs_line st))))))
           ((fst (fs_pos st) + 1)%N, snd (fs_pos st)) (fs_last st) nl it)
  end.

(** split_string_slice with the fallback of lines 71-74 and 97-100:
    (code, rest, flag of rest). *)
Definition split_or_all (s : str) (pos : Z) (sbc : bool) : option (str * str * bool) :=
  let* r := split_string_slice s pos sbc in
  match r with
  | SplitOk l r _ rf => Some (l, r, rf)
  | SplitErr _ s _ => Some (s, [], true)
  end.

(** The part of the loop body after the first [if], 84-108. *)
Definition fs_tail (st : fs_st) (m : mapping) : option fs_st :=
  let '(gl, gc) := m_gen m in
  let st := skip_lines (N.to_nat (gl - fst (fs_pos st))) st in
  let* st :=
    (if (snd (fs_pos st) <? gc)%N then
       let '(txt, ex, sbc) := fs_line st in
       let* (l, r, rf) := split_or_all txt (to_i32 (Z.of_N gc)) sbc in
       Some (mk_fs (add_chunk (fs_children st) (CNode (SmStr l)))
               (fst (fs_pos st), gc) (fs_last st) (r, ex, rf) (fs_iter st))
     else Some st) in
  Some (mk_fs (fs_children st) (fs_pos st) (Some m) (fs_line st) (fs_iter st)).

(** One iteration of the loop over generator.mappings.list, 51-109. *)
Definition fs_step (st : fs_st) (m : mapping) : option fs_st :=
  let '(gl, gc) := m_gen m in
  match fs_last st with
  | Some _ =>
      let '(txt, ex, sbc) := fs_line st in
      if (fst (fs_pos st) <? gl)%N then
        let '(nl, it) := next_of (fs_iter st) in
        fs_tail (mk_fs (add_mapping_with_code (fs_children st) (fs_last st) txt)
                   ((fst (fs_pos st) + 1)%N, 0%N) (fs_last st) nl it) m
      else
        let* (l, r, rf) :=
          split_or_all txt (to_i32 (to_i32 (Z.of_N gc) - to_i32 (Z.of_N (snd (fs_pos st))))) sbc in
        Some (mk_fs (add_mapping_with_code (fs_children st) (fs_last st) l)
                (fst (fs_pos st), gc) (Some m) (r, ex, rf) (fs_iter st))
  | None => fs_tail st m
  end.

Fixpoint fs_loop (st : fs_st) (l : list mapping) : option fs_st :=
  match l with
  | [] => Some st
  | m :: r => let* st := fs_step st m in fs_loop st r
  end.

(** The collection of the remaining lines, 117-123. *)
Definition fs_remaining (nl : fline) (it : list fline) : str :=
  flat_map (fun x : fline => fst (fst x))
    ((if snd (fst nl) then [nl] else []) ++ (if snd (fst nl) then it else [])).

(** from_string_with_source_map_generator, 6-123.  (All lines in the iterator have
    is_existing = true, so the loop of line 118 runs to the end of the iterator.) *)
Definition sm_from_string (code : str) (g : generator) : option smnode :=
  let* lines := lines_loop code code 0 0 true in
  let '(nl, it) := next_of lines in
  let* st := fs_loop (mk_fs [] (1%N, 0%N) None nl it) (ml_list (g_mappings g)) in
  let children :=
    if snd (fst (fs_line st)) then
      let '(children, nl, it) :=
        match fs_last st with
        | Some _ =>
            let '(nl, it) := next_of (fs_iter st) in
            (add_mapping_with_code (fs_children st) (fs_last st) (fst (fst (fs_line st))),
             nl, it)
        | None => (fs_children st, fs_line st, fs_iter st)
        end in
      add_chunk children (CNode (SmStr (fs_remaining nl it)))
    else fs_children st in
  Some (SmNode None None None children (g_contents g)).
