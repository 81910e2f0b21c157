(** Model of src/utils.rs and src/types/string_slice.rs. *)
From Verif Require Import Base.

(** * src/utils.rs *)

(** The Result of split_str / split_string_slice, src/utils.rs:3-7 and 40-44:
    Ok (left, right, left flag, right flag) or Err (missing, text, flag). *)
Inductive split_result :=
| SplitOk (l r : str) (lflag rflag : bool)
| SplitErr (missing : Z) (s : str) (flag : bool).

(** The loop over s.char_indices(), src/utils.rs:22-28 (and 59-65).
    [bp] is the byte position of the next character; returns (pos, split_pos). *)
Fixpoint char_step (s : str) (bp : nat) (pos : Z) : Z * nat :=
  match s with
  | [] => (pos, 0)
  | c :: r =>
      let pos := (pos - 1)%Z in
      if (pos =? 0)%Z then (pos, bp + len_utf8 c)
      else char_step r (bp + len_utf8 c) pos
  end.

(** split_str, src/utils.rs:3-37.  str::split_at panics off a character boundary. *)
Definition split_str (s : str) (pos : Z) (sbc : bool) : option split_result :=
  if (pos <=? 0)%Z then Some (SplitOk [] s true sbc)
  else
    let s_bytes := blen s in
    if sbc then
      if (pos <? Z.of_nat s_bytes)%Z then
        let split_pos := Z.to_nat pos in
        let* (ls, rs) := split_at_bytes s split_pos in
        Some (SplitOk ls rs (Z.of_nat split_pos =? pos)%Z sbc)
      else Some (SplitErr (to_i32 (pos - Z.of_nat s_bytes)) s sbc)
    else
      let '(pos, split_pos) := char_step s 0 pos in
      if (0 <? pos)%Z then Some (SplitErr (to_i32 pos) s sbc)
      else
        let* (ls, rs) := split_at_bytes s split_pos in
        Some (SplitOk ls rs (Z.of_nat split_pos =? pos)%Z sbc).

(** StringSlice::split_at on the text of a slice, src/types/string_slice.rs:35-43:
    the position is clamped; cutting through a character (undefined behaviour in
    Rust, as the result is used as a str) is [None]. *)
Definition ss_split_at (s : str) (mid : nat) : option (str * str) :=
  split_at_bytes s (Nat.min mid (blen s)).

(** split_string_slice, src/utils.rs:40-74. *)
Definition split_string_slice (s : str) (pos : Z) (sbc : bool) : option split_result :=
  if (pos <=? 0)%Z then Some (SplitOk [] s true sbc)
  else
    let s_bytes := blen s in
    if sbc then
      if (pos <? Z.of_nat s_bytes)%Z then
        let split_pos := Z.to_nat pos in
        let* (ls, rs) := ss_split_at s split_pos in
        Some (SplitOk ls rs (Z.of_nat split_pos =? pos)%Z sbc)
      else Some (SplitErr (to_i32 (pos - Z.of_nat s_bytes)) s sbc)
    else
      let '(pos, split_pos) := char_step s 0 pos in
      if (0 <? pos)%Z then Some (SplitErr (to_i32 pos) s sbc)
      else
        let* (ls, rs) := ss_split_at s split_pos in
        Some (SplitOk ls rs (Z.of_nat split_pos =? pos)%Z sbc).

(** * src/types/string_slice.rs, the iterator [Split] on texts *)

(** as_bytes().iter().position(|&b| b == pat), string_slice.rs:199.
    Simplification: searched on characters instead of bytes; for an ASCII [pat]
    this is the same position (see Utf8.v). *)
Fixpoint find_byte (pat : char) (s : str) (off : nat) : option nat :=
  match s with
  | [] => None
  | c :: r => if N.eqb c pat then Some off else find_byte pat r (off + len_utf8 c)
  end.

(** struct Split, string_slice.rs:167-172. *)
Record split_it := mk_split {
  sp_is_next : bool;
  sp_rest : option str;
  sp_pat : char;
  sp_keep : bool }.

(** Split::new, string_slice.rs:175-182; StringSlice::split / split_keep_seperator,
    string_slice.rs:45-51. *)
Definition split_new (s : str) (pat : char) (keep : bool) : split_it :=
  mk_split true (Some s) pat keep.
Definition ss_split (s : str) (pat : char) : split_it := split_new s pat false.
Definition ss_split_keep (s : str) (pat : char) : split_it := split_new s pat true.

(** Iterator::next for Split, string_slice.rs:194-217.  The inner option is Rust's
    Option; the outer one is the panic of [rest.unwrap()]. [offset(1)] on the text
    after the separator drops the (one byte long) separator. *)
Definition split_next (it : split_it) : option (split_it * option str) :=
  if sp_is_next it then
    let* s := sp_rest it in
    match find_byte (sp_pat it) s 0 with
    | Some pos =>
        if sp_keep it then
          let* (l, r) := ss_split_at s (pos + 1) in
          Some (mk_split true (Some r) (sp_pat it) (sp_keep it), Some l)
        else
          let* (l, sep_r) := ss_split_at s pos in
          let* (_, r) := split_at_bytes sep_r 1 in
          Some (mk_split true (Some r) (sp_pat it) (sp_keep it), Some l)
    | None => Some (mk_split false None (sp_pat it) (sp_keep it), Some s)
    end
  else Some (it, None).

(** A [for] loop over a Split: the list of all items.  [fuel] bounds the number of
    calls of next; [split_all] supplies enough (proved in StringFacts.v). *)
Fixpoint split_collect (fuel : nat) (it : split_it) : option (list str) :=
  match fuel with
  | O => None
  | S f =>
      let* (it, o) := split_next it in
      match o with
      | None => Some []
      | Some x => let* l := split_collect f it in Some (x :: l)
      end
  end.
Definition split_all (it : split_it) : option (list str) :=
  split_collect (length (match sp_rest it with Some s => s | None => [] end) + 2) it.

(** * src/types/string_slice.rs at the level of memory

    A slice is a byte range of an owned buffer (string_slice.rs:13).  [m_view] is
    what as_str returns (string_slice.rs:62-65): it is only defined when the range
    lies inside the buffer and on character boundaries; otherwise the unsafe code
    would read outside the buffer or build an invalid str. *)
Record slice := mk_slice { sl_buf : str; sl_off : Z; sl_len : Z }.

Definition m_view (x : slice) : option str :=
  if (0 <=? sl_off x)%Z && (0 <=? sl_len x)%Z then
    match split_at_bytes (sl_buf x) (Z.to_nat (sl_off x)) with
    | Some (_, r) =>
        match split_at_bytes r (Z.to_nat (sl_len x)) with
        | Some (a, _) => Some a
        | None => None
        end
    | None => None
    end
  else None.

(** From<String>, string_slice.rs:132-137. *)
Definition m_from (s : str) : slice := mk_slice s 0 (Z.of_nat (blen s)).

(** StringSlice::substr, string_slice.rs:25-33; [stop - start] underflows (panic in
    debug builds) when start > stop after clamping. *)
Definition m_substr (x : slice) (start stop : Z) : option slice :=
  let start := Z.min start (sl_len x) in
  let stop := Z.min stop (sl_len x) in
  if (start <=? stop)%Z
  then Some (mk_slice (sl_buf x) (sl_off x + start) (stop - start))
  else None.

(** StringSlice::split_at, string_slice.rs:35-43. *)
Definition m_split_at (x : slice) (mid : Z) : slice * slice :=
  let mid := Z.min mid (sl_len x) in
  (mk_slice (sl_buf x) (sl_off x) mid,
   mk_slice (sl_buf x) (sl_off x + mid) (sl_len x - mid)).

(** StringSlice::offset, string_slice.rs:53-55 (no check of any kind). *)
Definition m_offset (x : slice) (l : Z) : slice :=
  mk_slice (sl_buf x) (sl_off x + l) (sl_len x - l).

(** struct Split over slices, string_slice.rs:167-190. *)
Record msplit := mk_msplit {
  ms_is_next : bool;
  ms_rest : option slice;
  ms_pat : char;
  ms_keep : bool }.

Definition msplit_new (x : slice) (pat : char) (keep : bool) : msplit :=
  mk_msplit true (Some x) pat keep.

(** Split::rest, string_slice.rs:184-189. *)
Definition msplit_take_rest (it : msplit) : msplit * option slice :=
  (mk_msplit false None (ms_pat it) (ms_keep it), ms_rest it).

(** Iterator::next, string_slice.rs:194-217. *)
Definition msplit_next (it : msplit) : option (msplit * option slice) :=
  if ms_is_next it then
    let* x := ms_rest it in
    let* s := m_view x in
    match find_byte (ms_pat it) s 0 with
    | Some pos =>
        if ms_keep it then
          let '(l, r) := m_split_at x (Z.of_nat pos + 1) in
          Some (mk_msplit true (Some r) (ms_pat it) (ms_keep it), Some l)
        else
          let '(l, sep_r) := m_split_at x (Z.of_nat pos) in
          Some (mk_msplit true (Some (m_offset sep_r 1)) (ms_pat it) (ms_keep it), Some l)
    | None => Some (mk_msplit false None (ms_pat it) (ms_keep it), Some x)
    end
  else Some (it, None).
