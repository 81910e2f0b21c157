(** Model of src/source_list_map/. *)
From Verif Require Import Base ModelString ModelVlq ModelSm.

(** * src/source_list_map/utils.rs *)

(** number_of_lines, utils.rs:3-6. *)
Definition number_of_lines (s : str) : nat := count_char NL s.

(** s.rfind('\n') as a byte position. *)
Fixpoint rfind_nl (s : str) (off : nat) (best : option nat) : option nat :=
  match s with
  | [] => best
  | c :: r => rfind_nl r (off + len_utf8 c) (if N.eqb c NL then Some off else best)
  end.

(** get_unfinished_lines, utils.rs:8-12: bytes after the last newline. *)
Definition get_unfinished_lines (s : str) : nat :=
  match rfind_nl s 0 None with
  | None => blen s
  | Some res => blen s - res - 1
  end.

(** * Nodes *)

(** struct SourceNode (source_node.rs:7-15; [pc_line] is starting_line) and
    struct SingleLineNode (single_line_node.rs:7-15; [pc_line] is line). *)
Record piece := mk_piece {
  pc_code : str;
  pc_orig : option Z;
  pc_src : option Z;
  pc_line : N;
  pc_n : nat;                 (* number_of_lines *)
  pc_nl : bool }.             (* ends_with_new_line *)

(** enum Node, mod.rs:22-30.  NCodeNode holds only its text (code_node.rs:6-9). *)
Inductive slm_node :=
| LStr (s : str)
| LCode (s : str)
| LSource (p : piece)
| LSingle (p : piece)
| LMap (children : list slm_node)
| LIdx (i : Z).

(** struct SourceListMap, source_list_map.rs:6-9. *)
Definition slm := list slm_node.

(** SourceNode::new, source_node.rs:18-32; SingleLineNode::new, single_line_node.rs:18-32. *)
Definition piece_new (code : str) (src orig : option Z) (line : N) : piece :=
  mk_piece code orig src line (number_of_lines code) (ends_with NL code).

(** SourceNode::add_generated_code, source_node.rs:34-38. *)
Definition piece_add_code (p : piece) (code : str) : piece :=
  mk_piece (pc_code p ++ code) (pc_orig p) (pc_src p) (pc_line p)
    (pc_n p + number_of_lines code) (ends_with NL code).

(** A mapping function (mapping_function.rs) with its mutable state. *)
Definition mapfun (S : Type) := S -> str -> option (S * str).

(** Appending another piece: code, number_of_lines and ends_with_new_line are taken
    over (source_node.rs:56-58 and 78-83, single_line_node.rs:54-56). *)
Definition piece_append (p q : piece) : piece :=
  mk_piece (pc_code p ++ pc_code q) (pc_orig p) (pc_src p) (pc_line p)
    (pc_n p + pc_n q) (pc_nl q).

(** SourceNode::merge_source_node, source_node.rs:51-63. *)
Definition source_merge_source (p q : piece) : option slm_node :=
  if optZ_eqb (pc_src p) (pc_src q) && pc_nl p
     && (pc_line p + N.of_nat (pc_n p) =? pc_line q)%N
  then Some (LSource (piece_append p q)) else None.

(** SourceNode::merge_single_line_node, source_node.rs:65-76. *)
Definition source_merge_single (p q : piece) : option slm_node :=
  if optZ_eqb (pc_src p) (pc_src q) && pc_nl p
     && (pc_line p + N.of_nat (pc_n p) =? pc_line q)%N && (pc_n q <=? 1)
  then Some (LSource (piece_append p q)) else None.

(** SingleLineNode::merge_single_line_node, single_line_node.rs:51-76. *)
Definition single_merge_single (p q : piece) : option slm_node :=
  if optZ_eqb (pc_src p) (pc_src q) && optZ_eqb (pc_orig p) (pc_orig q) then
    if (pc_line p =? pc_line q)%N then Some (LSingle (piece_append p q))
    else if (pc_line p + 1 =? pc_line q)%N && pc_nl p && (pc_n p =? 1) && (pc_n q <=? 1)
    then Some (LSource (piece_new (pc_code p ++ pc_code q) (pc_src p) (pc_orig p) (pc_line p)))
    else None
  else None.

(** The merge methods (code_node.rs:27-35, source_node.rs:43-49,
    single_line_node.rs:44-49) as dispatched in source_list_map.rs:149-163;
    [None] is Err (the node is kept as it is). *)
Definition node_merge (last n : slm_node) : option slm_node :=
  match last, n with
  | LCode a, LCode b => Some (LCode (a ++ b))
  | LSource p, LSource q => source_merge_source p q
  | LSource p, LSingle q => source_merge_single p q
  | LSingle p, LSingle q => single_merge_single p q
  | _, _ => None
  end.

(** * src/source_list_map/mappings_context.rs *)

(** struct MappingsContext, 4-11.  [mc_sources]: keys with (index, original source).
    [mc_line] is current_original_line; it is transiently decremented (source_node.rs:118),
    on Z instead of wrapping at zero. *)
Record mctx := mk_mctx {
  mc_sources : list (option Z * (nat * option Z));
  mc_has_content : bool;
  mc_line : Z;
  mc_source : nat;
  mc_unfinished : nat }.

(** MappingsContext::new, 14-22. *)
Definition mctx_new : mctx := mk_mctx [] false 1 0 0.

Fixpoint ol_get {A} (l : list (option Z * A)) (k : option Z) : option A :=
  match l with
  | [] => None
  | (k', v) :: r => if optZ_eqb k k' then Some v else ol_get r k
  end.

(** ensure_source, 24-43. *)
Definition ensure_source (mc : mctx) (src : option Z) (orig : option Z) : mctx * nat :=
  match ol_get (mc_sources mc) src with
  | Some (i, _) => (mc, i)
  | None =>
      let n := length (mc_sources mc) in
      (mk_mctx (mc_sources mc ++ [(src, (n, orig))])
         (mc_has_content mc || is_some orig)
         (mc_line mc) (mc_source mc) (mc_unfinished mc), n)
  end.

(** get_arrays, 45-55. *)
Definition get_arrays (mc : mctx) : list (option Z) * list Z :=
  (map fst (mc_sources mc),
   flat_map (fun e : option Z * (nat * option Z) => opt_list (snd (snd e))) (mc_sources mc)).

(** * get_mappings *)

(** CodeNode::get_mappings, code_node.rs:41-65. *)
Definition code_get_mappings (code : str) (mc : mctx) : mctx * str :=
  let set u := mk_mctx (mc_sources mc) (mc_has_content mc) (mc_line mc) (mc_source mc) u in
  let lines := number_of_lines code in
  if 0 <? lines then
    let u := get_unfinished_lines code in
    (set u, repeat SEMI lines ++ (if 0 <? u then lit "A" else []))
  else
    let prev := mc_unfinished mc in
    let u := prev + get_unfinished_lines code in
    (set u, if (prev =? 0) && (0 <? u) then lit "A" else []).

(** The generated column / source / line fields pushed at the start of a piece,
    source_node.rs:100-114 and single_line_node.rs:101-115. *)
Definition piece_head (mc : mctx) (source_index : nat) (line : N) : str :=
  (if negb (mc_unfinished mc =? 0)
   then COMMA :: vlq_encode (Z.of_nat (mc_unfinished mc))
   else lit "A")
  ++ vlq_encode (Z.of_nat source_index - Z.of_nat (mc_source mc))
  ++ vlq_encode (Z.of_N line - mc_line mc)
  ++ lit "A".

Definition rep_str (n : nat) (s : str) : str := concat (repeat s n).

(** SourceNode::get_mappings, source_node.rs:89-136. *)
Definition source_get_mappings (p : piece) (mc : mctx) : mctx * str :=
  match pc_code p with
  | [] => (mc, [])
  | _ =>
      let lines := pc_n p in
      let '(mc, si) := ensure_source mc (pc_src p) (pc_orig p) in
      let head := piece_head mc si (pc_line p) in
      let u := get_unfinished_lines (pc_code p) in
      let line := (Z.of_N (pc_line p) + Z.of_nat lines - 1)%Z in
      let body := rep_str (lines - 1) (lit ";AACA") in
      if u =? 0 then
        (mk_mctx (mc_sources mc) (mc_has_content mc) line si u,
         head ++ body ++ lit ";")
      else
        (mk_mctx (mc_sources mc) (mc_has_content mc) (line + 1) si u,
         head ++ body ++ (if negb (lines =? 0) then lit ";AACA" else []))
  end.

(** SingleLineNode::get_mappings, single_line_node.rs:89-133. *)
Definition single_get_mappings (p : piece) (mc : mctx) : mctx * str :=
  match pc_code p with
  | [] => (mc, [])
  | _ =>
      let lines := pc_n p in
      let '(mc, si) := ensure_source mc (pc_src p) (pc_orig p) in
      let head := piece_head mc si (pc_line p) in
      let u := get_unfinished_lines (pc_code p) in
      let body := rep_str (lines - 1) (lit ";AAAA") in
      (mk_mctx (mc_sources mc) (mc_has_content mc) (Z.of_N (pc_line p)) si u,
       head ++ body ++
       (if u =? 0 then lit ";" else if negb (lines =? 0) then lit ";AAAA" else []))
  end.

(** get_normalized_nodes of SourceNode, source_node.rs:138-156: one single-line node
    per line; a final empty line is dropped when ends_with_new_line. *)
Fixpoint normalize_loop (fuel : nat) (it : split_it) (p : piece) (line : N)
  : option (list slm_node) :=
  match fuel with
  | O => None
  | S f =>
      let* (it, o) := split_next it in
      match o with
      | None => Some []
      | Some l =>
          if negb (sp_is_next it) && pc_nl p then Some []
          else
            let* rest := normalize_loop f it p (line + 1) in
            Some (LSingle (piece_new l (pc_src p) (pc_orig p) line) :: rest)
      end
  end.

Definition source_normalized (p : piece) : option (list slm_node) :=
  normalize_loop (length (pc_code p) + 2) (ss_split_keep (pc_code p) NL) p (pc_line p).

(** * src/source_list_map/source_list_map.rs *)

(** Appending to the last node if it is a CodeNode, 48-60. *)
Fixpoint add_code_text (children : slm) (s : str) : slm :=
  match children with
  | [] => [LCode s]
  | [LCode t] => [LCode (t ++ s)]
  | x :: r => x :: add_code_text r s
  end.

(** SourceListMap::add, 32-80. *)
Definition slm_add (m : slm) (n : slm_node) (src orig : option Z) : option slm :=
  match n with
  | LStr s =>
      if is_some src then Some (m ++ [LSource (piece_new s src orig 1)])
      else Some (add_code_text m s)
  | LCode _ | LSource _ | LSingle _ => Some (m ++ [n])
  | LMap children => Some (m ++ children)
  | LIdx _ => None
  end.

(** SourceListMap::prepend, 82-113 (the source test is inverted w.r.t. add). *)
Definition slm_prepend (m : slm) (n : slm_node) (src orig : option Z) : option slm :=
  match n with
  | LStr s =>
      if negb (is_some src) then Some (LSource (piece_new s src orig 1) :: m)
      else Some (LCode s :: m)
  | LCode _ | LSource _ | LSingle _ => Some (n :: m)
  | LMap children => Some (children ++ m)
  | LIdx _ => None
  end.

(** GenCode (mod.rs:32-36) and SourceListMap::new, 12-30. *)
Inductive gen_code := GCode (n : slm_node) | GVec (l : list slm_node).
Definition slm_new (g : option gen_code) (src orig : option Z) : option slm :=
  match g with
  | Some (GCode n) => slm_add [] n src orig
  | Some (GVec l) => Some l
  | None => Some []
  end.

(** Normalisation, 119-132: other children are dropped. *)
Fixpoint normalize_all (m : slm) : option slm :=
  match m with
  | [] => Some []
  | LCode s :: r => let* r := normalize_all r in Some (LCode s :: r)
  | LSource p :: r =>
      let* a := source_normalized p in
      let* r := normalize_all r in Some (a ++ r)
  | LSingle p :: r => let* r := normalize_all r in Some (LSingle p :: r)
  | _ :: r => normalize_all r
  end.

(** map_generated_code of the nodes (code_node.rs:22-25, single_line_node.rs:34-42;
    source_list_map.rs:136-141). *)
Definition node_map {S} (f : mapfun S) (st : S) (n : slm_node) : option (S * option slm_node) :=
  match n with
  | LCode s => let* (st, t) := f st s in Some (st, Some (LCode t))
  | LSingle p =>
      let* (st, t) := f st (pc_code p) in
      Some (st, Some (LSingle (piece_new t (pc_src p) (pc_orig p) (pc_line p))))
  | _ => Some (st, None)
  end.

(** Pushing onto the optimized nodes, 143-176.  [acc] is optimized_nodes in reverse. *)
Definition push_merge (acc : list slm_node) (o : option slm_node) : list slm_node :=
  match o with
  | None => acc
  | Some n =>
      match acc with
      | [] => [n]
      | last :: rest =>
          match node_merge last n with
          | Some x => x :: rest
          | None => n :: last :: rest
          end
      end
  end.

Fixpoint map_loop {S} (f : mapfun S) (st : S) (l : slm) (acc : list slm_node)
  : option (S * list slm_node) :=
  match l with
  | [] => Some (st, acc)
  | n :: r =>
      let* (st, o) := node_map f st n in
      map_loop f st r (push_merge acc o)
  end.

(** map_generated_code, 115-179. *)
Definition map_generated_code {S} (f : mapfun S) (st : S) (m : slm) : option (S * slm) :=
  let* l := normalize_all m in
  let* (st, acc) := map_loop f st l [] in
  Some (st, rev acc).

(** to_string, 181-189. *)
Definition slm_to_string (m : slm) : str :=
  flat_map (fun n => match n with LSingle p => pc_code p | _ => [] end) m.

(** The source of to_string_with_source_map, 194-203. *)
Definition slm_text (m : slm) : str :=
  flat_map (fun n => match n with
                     | LCode s => s
                     | LSource p => pc_code p
                     | LSingle p => pc_code p
                     | LStr s => s
                     | _ => []
                     end) m.

Definition node_get_mappings (n : slm_node) (mc : mctx) : mctx * str :=
  match n with
  | LSource p => source_get_mappings p mc
  | LCode s => code_get_mappings s mc
  | LSingle p => single_get_mappings p mc
  | _ => (mc, [])
  end.

(** The mappings loop, 205-217. *)
Fixpoint mappings_loop (m : slm) (mc : mctx) : mctx * str :=
  match m with
  | [] => (mc, [])
  | n :: r =>
      let '(mc, a) := node_get_mappings n mc in
      let '(mc, b) := mappings_loop r mc in
      (mc, a ++ b)
  end.

(** to_string_with_source_map, 191-233. *)
Definition slm_to_string_with_source_map (m : slm) (file : option Z) : str * source_map :=
  let '(mc, mappings) := mappings_loop m mctx_new in
  let '(sources, contents) := get_arrays mc in
  (slm_text m,
   mk_map (Some (match file with Some f => f | None => (-1)%Z end))
     (map (fun s => match s with Some i => i | None => (-1)%Z end) sources)
     contents mappings [] None).

(** * src/source_list_map/from_string_with_source_map.rs *)

(** Vec::get with a usize index. *)
Definition get_idx (l : list Z) (i : N) : option Z :=
  if (i <? N.of_nat (length l))%N then nth_error l (N.to_nat i) else None.

(** Replacing the last element. *)
Fixpoint set_last {A} (l : list A) (x : A) : list A :=
  match l with
  | [] => []
  | [_] => [x]
  | y :: r => y :: set_last r x
  end.
Fixpoint last_opt {A} (l : list A) : option A :=
  match l with
  | [] => None
  | [x] => Some x
  | _ :: r => last_opt r
  end.

(** Reader state: nodes, current_source_node_line. *)
Definition rd := (list slm_node * N)%type.

(** add_code, 107-128. *)
Definition rd_add_code (st : rd) (code : str) : rd :=
  let '(nodes, csnl) := st in
  match last_opt nodes with
  | Some (LCode t) => (set_last nodes (LCode (t ++ code)), csnl)
  | Some (LSource p) =>
      if blank code then (set_last nodes (LSource (piece_add_code p code)), (csnl + 1)%N)
      else (nodes ++ [LCode code], csnl)
  | _ => (nodes ++ [LCode code], csnl)
  end.

(** add_source, 130-153. *)
Definition rd_add_source (st : rd) (code : str) (src orig : option Z) (line : N) : rd :=
  let '(nodes, csnl) := st in
  let fresh := (nodes ++ [LSource (piece_new code src orig line)], (line + 1)%N) in
  match last_opt nodes with
  | Some (LSource p) =>
      if optZ_eqb (pc_src p) src && (csnl =? line)%N
      then (set_last nodes (LSource (piece_add_code p code)), (csnl + 1)%N)
      else fresh
  | _ => fresh
  end.

(** The bytes up to the next comma are skipped, 57-63. *)
Fixpoint skip_to_comma (s : str) : str :=
  match s with
  | [] => []
  | c :: r => if N.eqb c COMMA then s else skip_to_comma r
  end.

(** Variables of the segment loop: nodes, current_line, current_source_index. *)
Record rdst := mk_rdst { rs_rd : rd; rs_line : Z; rs_src : N }.

(** One iteration of the loop over the segments of a line, 25-82.  Returns the new
    state, the remaining bytes and the value of the block (before [|| line_added]).
    [value as usize + index] is computed modulo 2^32 (release wasm32 build). *)
Definition segment_step (sources contents : list Z) (line : str) (st : rdst)
    (rest : str) (line_added : bool) : option (rdst * str * bool) :=
  let* rest :=
    (match rest with
     | c :: _ => if negb (N.eqb c COMMA) then let* (_, r) := vlq_decode rest in Some r
                 else Some rest
     | [] => Some rest
     end) in
  match rest with
  | [] => Some (st, [], false)
  | c :: r =>
      if N.eqb c COMMA then Some (st, r, false)
      else
        let* (value, rest) := vlq_decode rest in
        let source_index := to_usize (value + Z.of_N (rs_src st)) in
        let* (line_position, rest) :=
          (match rest with
           | c :: _ =>
               if negb (N.eqb c COMMA) then
                 let* (value, r) := vlq_decode rest in
                 Some ((value + rs_line st)%Z, r)
               else Some (rs_line st, rest)
           | [] => Some (rs_line st, rest)
           end) in
        let rest := skip_to_comma rest in
        if negb line_added then
          Some (mk_rdst
                  (rd_add_source (rs_rd st) line (get_idx sources source_index)
                     (get_idx contents source_index) (to_usize line_position))
                  line_position source_index, rest, true)
        else Some (mk_rdst (rs_rd st) line_position source_index, rest, false)
  end.

(** The segment loop; every iteration consumes at least one byte. *)
Fixpoint segment_loop (fuel : nat) (sources contents : list Z) (line : str) (st : rdst)
    (rest : str) (line_added : bool) : option (rdst * bool) :=
  match rest with
  | [] => Some (st, line_added)
  | _ =>
      match fuel with
      | O => None
      | S f =>
          let* (st, rest, b) := segment_step sources contents line st rest line_added in
          segment_loop f sources contents line st rest (b || line_added)
      end
  end.

(** The body of the loop over mappings.split(';'), 20-89, for one mapping line and
    one code line. *)
Definition reader_line (sources contents : list Z) (mapping line : str) (st : rdst)
  : option rdst :=
  match mapping with
  | [] => Some (mk_rdst (rd_add_code (rs_rd st) line) (rs_line st) (rs_src st))
  | _ =>
      let* (st, added) :=
        segment_loop (length mapping) sources contents line st mapping false in
      if added then Some st
      else Some (mk_rdst (rd_add_code (rs_rd st) line) (rs_line st) (rs_src st))
  end.

(** The loop over the mapping lines, 19-90, pulling code lines from [it]. *)
Fixpoint reader_loop (sources contents : list Z) (mappings : list str) (it : msplit)
    (st : rdst) : option (msplit * rdst) :=
  match mappings with
  | [] => Some (it, st)
  | mp :: r =>
      let* (it, o) := msplit_next it in
      match o with
      | None => reader_loop sources contents r it st
      | Some x =>
          let* line := m_view x in
          let* st := reader_line sources contents mp line st in
          reader_loop sources contents r it st
      end
  end.

(** The loop over the remaining code lines, 92-103, with its pointer arithmetic. *)
Fixpoint reader_rest (fuel : nat) (it : msplit) (st : rd) : option rd :=
  match fuel with
  | O => None
  | S f =>
      let* (it, o) := msplit_next it in
      match o with
      | None => Some st
      | Some x =>
          let* back := m_view (m_offset x (-1)) in
          if blank back then
            let* line := m_view x in
            reader_rest f it (rd_add_code st line)
          else
            let '(it, r) := msplit_take_rest it in
            let* last :=
              (match r with
               | Some last => m_view (m_offset last (- sl_len x))
               | None => m_view x
               end) in
            reader_rest f it (rd_add_code st last)
      end
  end.

(** from_string_with_source_map, 6-105. *)
Definition slm_from_string (code : str) (sources contents : list Z) (mappings : str)
  : option slm :=
  let* mls := split_all (ss_split mappings SEMI) in
  let* (it, st) :=
    reader_loop sources contents mls (msplit_new (m_from code) NL true)
      (mk_rdst ([], 0%N) 1 0) in
  let* (nodes, _) := reader_rest (length code + 3) it (rs_rd st) in
  slm_new (Some (GVec nodes)) None None.
