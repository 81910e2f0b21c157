(** Model of the two third-party codecs the library relies on: crate [vlq] 0.5
    (encode/decode) and crate [source_map_mappings] 0.5 (parse_mappings).  Their
    sources are not in /repo; the definitions follow their documentation and the
    Source Map v3 format.  Uses in /repo: src/source_map/source_map_generator.rs:138-164
    and 289-290, src/source_list_map/*_node.rs get_mappings,
    src/source_list_map/from_string_with_source_map.rs:29-47. *)
From Verif Require Import Base.

(** Base64 digit table of vlq: A-Z a-z 0-9 + / *)
Definition encode64 (d : N) : char :=
  (if d <? 26 then 65 + d
   else if d <? 52 then 97 + (d - 26)
   else if d <? 62 then 48 + (d - 52)
   else if d =? 62 then 43 else 47)%N.

Definition decode64 (c : char) : option N :=
  (if (65 <=? c) && (c <=? 90) then Some (c - 65)
   else if (97 <=? c) && (c <=? 122) then Some (c - 97 + 26)
   else if (48 <=? c) && (c <=? 57) then Some (c - 48 + 52)
   else if c =? 43 then Some 62
   else if c =? 47 then Some 63
   else None)%N.

(** The digit loop of vlq::encode: five bits per digit, least significant first,
    bit 5 set on all digits but the last. *)
Fixpoint vlq_digits (fuel : nat) (v : N) : str :=
  match fuel with
  | O => []
  | S f =>
      let d := (v mod 32)%N in
      let v' := (v / 32)%N in
      if (v' =? 0)%N then [encode64 d]
      else encode64 (d + 32) :: vlq_digits f v'
  end.

(** vlq::encode(value, &mut buf): sign in the lowest bit.
    Simplification: unbounded integers instead of i64. *)
Definition vlq_encode (z : Z) : str :=
  let v := if (z <? 0)%Z then (2 * Z.to_N (- z) + 1)%N else (2 * Z.to_N z)%N in
  vlq_digits (S (N.size_nat v)) v.

(** The digit loop of vlq::decode. *)
Fixpoint vlq_accum (s : str) (shift acc : N) : option (N * str) :=
  match s with
  | [] => None
  | c :: r =>
      let* d := decode64 c in
      let acc := (acc + (d mod 32) * 2 ^ shift)%N in
      if (32 <=? d)%N then vlq_accum r (shift + 5) acc else Some (acc, r)
  end.

(** vlq::decode(&mut input).unwrap(): the number and the remaining input; [None] on
    end of input or a non-base64 byte.  Simplification: no 64-bit overflow error. *)
Definition vlq_decode (s : str) : option (Z * str) :=
  let* (v, r) := vlq_accum s 0 0 in
  Some (if N.odd v then (- Z.of_N (v / 2))%Z else Z.of_N (v / 2), r).

(** * source_map_mappings::parse_mappings *)

(** Mapping / OriginalLocation of the crate: zero-based lines, all fields u32. *)
Record raw_mapping := mk_raw {
  rm_line : N;
  rm_col : N;
  rm_orig : option (N * N * N * option N) }.   (* source, line, column, name *)

Definition u32_max : Z := 4294967295.

(** read_relative_vlq of the crate: errors on a negative or too big result. *)
Definition read_relative (prev : N) (s : str) : option (N * str) :=
  let* (d, r) := vlq_decode s in
  let x := (Z.of_N prev + d)%Z in
  guard* ((0 <=? x)%Z && (x <=? u32_max)%Z) in Some (Z.to_N x, r).

Definition is_sep (c : char) : bool := N.eqb c COMMA || N.eqb c SEMI.
Definition at_sep (s : str) : bool :=
  match s with [] => true | c :: _ => is_sep c end.

(** Comparison of mappings of one line in the crate (ByGeneratedLocation): column,
    then original location with None first. *)
Definition cmp_then (a b : comparison) : comparison :=
  match a with Eq => b | _ => a end.
Definition opt_cmp {A} (f : A -> A -> comparison) (a b : option A) : comparison :=
  match a, b with
  | None, None => Eq
  | None, Some _ => Lt
  | Some _, None => Gt
  | Some x, Some y => f x y
  end.
Definition raw_orig_cmp (a b : N * N * N * option N) : comparison :=
  let '(s1, l1, c1, n1) := a in
  let '(s2, l2, c2, n2) := b in
  cmp_then (N.compare s1 s2)
    (cmp_then (N.compare l1 l2)
       (cmp_then (N.compare c1 c2) (opt_cmp N.compare n1 n2))).
Definition raw_cmp (a b : raw_mapping) : comparison :=
  cmp_then (N.compare (rm_line a) (rm_line b))
    (cmp_then (N.compare (rm_col a) (rm_col b))
       (opt_cmp raw_orig_cmp (rm_orig a) (rm_orig b))).

(** Stable sorting ([slice::sort] in Rust): insertion sort. *)
Section Sort.
  Context {A : Type}.
  Variable cmp : A -> A -> comparison.
  Fixpoint insert_sorted (x : A) (l : list A) : list A :=
    match l with
    | [] => [x]
    | y :: r => match cmp x y with Gt => y :: insert_sorted x r | _ => x :: l end
    end.
  Fixpoint isort (l : list A) : list A :=
    match l with [] => [] | x :: r => insert_sorted x (isort r) end.
End Sort.

(** One segment: column, then optionally source, line, column and optionally name. *)
Record parse_st := mk_ps {
  ps_line : N; ps_col : N; ps_src : N; ps_oline : N; ps_ocol : N; ps_name : N }.

Definition parse_segment (st : parse_st) (s : str) : option (parse_st * raw_mapping * str) :=
  let* (col, s) := read_relative (ps_col st) s in
  if at_sep s then
    Some (mk_ps (ps_line st) col (ps_src st) (ps_oline st) (ps_ocol st) (ps_name st),
          mk_raw (ps_line st) col None, s)
  else
    let* (src, s) := read_relative (ps_src st) s in
    let* (ol, s) := read_relative (ps_oline st) s in
    let* (oc, s) := read_relative (ps_ocol st) s in
    if at_sep s then
      Some (mk_ps (ps_line st) col src ol oc (ps_name st),
            mk_raw (ps_line st) col (Some (src, ol, oc, None)), s)
    else
      let* (nm, s) := read_relative (ps_name st) s in
      Some (mk_ps (ps_line st) col src ol oc nm,
            mk_raw (ps_line st) col (Some (src, ol, oc, Some nm)), s).

(** The main loop; [fuel] = length of the input is enough as every step consumes. *)
Fixpoint parse_loop (fuel : nat) (st : parse_st) (s : str) : option (list raw_mapping) :=
  match s with
  | [] => Some []
  | c :: r =>
      match fuel with
      | O => None
      | S f =>
          if N.eqb c SEMI then
            parse_loop f (mk_ps (ps_line st + 1) 0 (ps_src st) (ps_oline st)
                            (ps_ocol st) (ps_name st)) r
          else if N.eqb c COMMA then parse_loop f st r
          else
            let* (st', m, s') := parse_segment st s in
            let* l := parse_loop f st' s' in
            Some (m :: l)
      end
  end.

(** parse_mappings(...).unwrap().by_generated_location(): the mappings, each line
    sorted (sorting everything by line first is the same, as lines only grow). *)
Definition parse_mappings (s : str) : option (list raw_mapping) :=
  let* l := parse_loop (length s) (mk_ps 0 0 0 0 0 0) s in
  Some (isort raw_cmp l).

Example vlq_ex1 : vlq_encode 16 = lit "gB". Proof. reflexivity. Qed.
Example vlq_ex2 : vlq_encode (-1) = lit "D". Proof. reflexivity. Qed.
Example vlq_ex3 : vlq_decode (lit "gB,A") = Some (16%Z, lit ",A"). Proof. reflexivity. Qed.
