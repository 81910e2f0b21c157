(** What a consumer reads for texts written chunk by chunk when chunks may be empty: the
    entry of an empty chunk stands at the same place as that of the next chunk, and of
    several entries at one place the greatest is written last and read. *)
From Verif Require Import Base SpecMap SpecAttr.

(** The order of entries at one place: nothing, then by source, original line, original
    column, and name (absent first). *)
Definition name_above (a b : option Z) : bool :=
  match a, b with
  | Some x, Some y => (y <? x)%Z
  | Some _, None => true
  | None, _ => false
  end.
Definition above (a b : option target) : bool :=
  match a, b with
  | None, _ => false
  | Some _, None => true
  | Some (s, (l, c), n), Some (s', (l', c'), n') =>
      ((s' <? s) || ((s' =? s) && ((l' <? l) || ((l' =? l) && ((c' <? c) ||
        ((c' =? c) && name_above n n'))))))%Z
  end.
Definition greater (a b : option target) : option target := if above a b then a else b.

(** Writing a chunk: [cur] is what is read at the current place, [fresh] says whether an
    entry stands exactly at this place, [last] is the target of the chunk before (of none
    if that chunk ended its line). *)
Record pen := mk_pen { p_cur : option target; p_fresh : bool; p_last : option target }.

Definition same_target (a b : option target) : bool := negb (above a b) && negb (above b a).

(** A chunk adds an entry only if its target differs from that of the chunk before. *)
Definition aim (a : option target) (p : pen) : pen :=
  if same_target a (p_last p) then p
  else mk_pen (if p_fresh p then greater (p_cur p) a else a) true a.

(** On a new line within the chunk its target is stated again; after a chunk that ends
    its line nothing is in effect. *)
Fixpoint ink (a : option target) (s : str) (p : pen) : marked * pen :=
  match s with
  | [] => ([], p)
  | c :: r =>
      let p' :=
        if N.eqb c NL then
          match r with
          | [] => mk_pen None false None
          | _ => mk_pen a false a
          end
        else mk_pen (p_cur p) false (p_last p) in
      let (m, p'') := ink a r p' in
      ((c, p_cur p) :: m, p'')
  end.
Fixpoint write (l : list (option target * str)) (p : pen) : marked * pen :=
  match l with
  | [] => ([], p)
  | (a, s) :: r =>
      let (m1, p1) := ink a s (aim a p) in
      let (m2, p2) := write r p1 in
      (m1 ++ m2, p2)
  end.
Definition effective (l : list (option target * str)) : marked :=
  fst (write l (mk_pen None false None)).

(** The attributed characters come in the order of their targets (whatever their names). *)
Definition below (a b : option target) : Prop :=
  b <> None -> above (drop_name a) (drop_name b) = false.
Definition rising (M : marked) : Prop := ForallOrdPairs (fun x y => below (snd x) (snd y)) M.

(** An attributed character is read with its own source, line and column. *)
Definition agrees (x y : char * option target) : Prop :=
  fst x = fst y /\ (snd x <> None -> drop_name (snd y) = drop_name (snd x)).

Example effective_ex :
  effective [(Some (7, (1, 0), None)%Z, []); (Some (4, (1, 0), None)%Z, lit "ab"); (None, lit "c")] =
  mark (Some (7, (1, 0), None))%Z (lit "ab") ++ mark None (lit "c").
Proof. reflexivity. Qed.
