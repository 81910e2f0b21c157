(** Source Map v3 mappings strings, decoded by the rules of the format; independent of
    the model's codecs. *)
From Verif Require Import Base.

(** ** Separating by a character *)
Fixpoint fields_of (sep : char) (s : str) : list str :=
  match s with
  | [] => [[]]
  | c :: r =>
      if N.eqb c sep then [] :: fields_of sep r
      else match fields_of sep r with
           | [] => [[c]]
           | x :: l => (c :: x) :: l
           end
  end.

(** ** Base64 VLQ *)
Definition alphabet : str :=
  lit "ABCDEFGHIJKLMNOPQRSTUVWXYZabcdefghijklmnopqrstuvwxyz0123456789+/".
Fixpoint index_in (c : char) (l : str) : option Z :=
  match l with
  | [] => None
  | d :: r =>
      if N.eqb c d then Some 0%Z
      else match index_in c r with Some i => Some (i + 1)%Z | None => None end
  end.

(** The sign is in the lowest bit. *)
Definition signed (a : Z) : Z := if Z.odd a then (- (a / 2))%Z else (a / 2)%Z.

(** All numbers of a segment; [acc] are the digits read so far of the current number,
    [w] the weight of the next digit. *)
Fixpoint numbers (s : str) (acc w : Z) : option (list Z) :=
  match s with
  | [] => if (w =? 1)%Z then Some [] else None
  | c :: r =>
      let* d := index_in c alphabet in
      if (d <? 32)%Z then
        let* l := numbers r 0 1 in Some (signed (acc + d * w) :: l)
      else numbers r (acc + (d - 32) * w) (w * 32)
  end.

(** ** Segments *)
Record seg := mk_seg {
  sg_line : Z;                                   (* zero-based *)
  sg_col : Z;
  sg_orig : option (Z * Z * Z * option Z) }.     (* source, line, column, name *)

(** Running sums over the whole string; the column restarts on each line. *)
Record sums := mk_sums { su_col : Z; su_src : Z; su_line : Z; su_ocol : Z; su_name : Z }.

(** One segment: 1, 4 or 5 numbers; an empty segment says nothing. *)
Definition decode_seg (line : Z) (st : sums) (x : str) : option (sums * list seg) :=
  let* l := numbers x 0 1 in
  match l with
  | [] => Some (st, [])
  | [c] =>
      let col := (su_col st + c)%Z in
      Some (mk_sums col (su_src st) (su_line st) (su_ocol st) (su_name st),
            [mk_seg line col None])
  | [c; s; ol; oc] =>
      let st := mk_sums (su_col st + c) (su_src st + s) (su_line st + ol) (su_ocol st + oc)
                  (su_name st) in
      Some (st, [mk_seg line (su_col st) (Some (su_src st, su_line st, su_ocol st, None))])
  | [c; s; ol; oc; n] =>
      let st := mk_sums (su_col st + c) (su_src st + s) (su_line st + ol) (su_ocol st + oc)
                  (su_name st + n) in
      Some (st, [mk_seg line (su_col st)
                   (Some (su_src st, su_line st, su_ocol st, Some (su_name st)))])
  | _ => None
  end.

Fixpoint decode_line (line : Z) (st : sums) (l : list str) : option (sums * list seg) :=
  match l with
  | [] => Some (st, [])
  | x :: r =>
      let* (st, a) := decode_seg line st x in
      let* (st, b) := decode_line line st r in
      Some (st, a ++ b)
  end.

Fixpoint decode_lines (line : Z) (st : sums) (l : list (list str)) : option (list seg) :=
  match l with
  | [] => Some []
  | x :: r =>
      let* (st, a) := decode_line line st x in
      let* b := decode_lines (line + 1)
                  (mk_sums 0 (su_src st) (su_line st) (su_ocol st) (su_name st)) r in
      Some (a ++ b)
  end.

Definition cells (s : str) : list (list str) := map (fields_of COMMA) (fields_of SEMI s).
Definition decode (s : str) : option (list seg) := decode_lines 0 (mk_sums 0 0 0 0 0) (cells s).

Fixpoint all_some {A} (l : list (option A)) : option (list A) :=
  match l with
  | [] => Some []
  | x :: r => let* x := x in let* r := all_some r in Some (x :: r)
  end.

(** An array entry by a (possibly negative) index. *)
Definition entry (l : list Z) (i : Z) : option Z :=
  if (i <? 0)%Z then None else nth_error l (Z.to_nat i).

(** A segment with indices resolved and one-based lines:
    generated line, column, and source, line, column, name. *)
Definition place := (Z * Z)%type.
Definition target := (Z * place * option Z)%type.
Definition resolve (sources names : list Z) (s : seg) : option (place * option target) :=
  match sg_orig s with
  | None => Some ((sg_line s + 1, sg_col s)%Z, None)
  | Some (si, ol, oc, ni) =>
      let* src := entry sources si in
      let* nm := (match ni with
                  | None => Some None
                  | Some i => let* n := entry names i in Some (Some n)
                  end) in
      Some ((sg_line s + 1, sg_col s)%Z, Some (src, (ol + 1, oc)%Z, nm))
  end.

(** What a consumer of the map reads. *)
Definition read_map (sources names : list Z) (mappings : str) : option (list (place * option target)) :=
  let* l := decode mappings in all_some (map (resolve sources names) l).

(** The answer of a consumer for a position: of the entries on the same line at or
    before it, one with the greatest column; the last one if there are several. *)
Definition better (line col : Z) (best : option (place * option target))
    (e : place * option target) : option (place * option target) :=
  if ((fst (fst e) =? line) && (snd (fst e) <=? col))%Z then
    match best with
    | None => Some e
    | Some b => if (snd (fst b) <=? snd (fst e))%Z then Some e else best
    end
  else best.
Definition find_entry (l : list (place * option target)) (line col : Z)
  : option (place * option target) := fold_left (better line col) l None.
Definition lookup (l : list (place * option target)) (line col : Z) : option target :=
  match find_entry l line col with Some (_, t) => t | None => None end.

Example decode_ex : decode (lit "AAAA;AACA,CAAC;;GAED") =
  Some [mk_seg 0 0 (Some (0, 0, 0, None)); mk_seg 1 0 (Some (0, 1, 0, None));
        mk_seg 1 1 (Some (0, 1, 1, None)); mk_seg 3 3 (Some (0, 3, 0, None))]%Z.
Proof. reflexivity. Qed.

(** Distinct elements in order of first occurrence. *)
Fixpoint firsts (l : list Z) : list Z :=
  match l with
  | [] => []
  | x :: r => x :: filter (fun y => negb (y =? x)%Z) (firsts r)
  end.
Example firsts_ex : firsts [3; 1; 3; 2; 1]%Z = [3; 1; 2]%Z. Proof. reflexivity. Qed.
