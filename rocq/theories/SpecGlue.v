(** What is asked of the allocator and of the functions of the wasm module, and what it
    means that an argument or a result has crossed the boundary. *)
From Verif Require Import Base ModelString ModelVlq ModelSm ModelSlm ModelSources ModelTree ModelJs ModelJsApi Utf8 ModelGlue.

(** Blocks lie in the memory and do not overlap, nor do they overlap the place for the
    address and length of results. *)
Definition apart (a b : block) : Prop := fst a + snd a <= fst b \/ fst b + snd b <= fst a.
Definition blocks (s : glue) : list block := (gm_args s, 8) :: gm_js s ++ gm_rust s.
Definition sane (s : glue) : Prop :=
  ForallOrdPairs apart (blocks s) /\
  Forall (fun b => 0 < snd b /\ fst b + snd b <= length (gm_bytes s)) (blocks s) /\
  (exists k, length (gm_bytes s) = 4 * k) /\ (exists k, gm_args s = 4 * k) /\
  (gv_arg s = None \/ gv_arg s = Some (gm_args s)).

(** An allocator gives out free memory, beginning at a multiple of 4; it may let the memory
    grow first. *)
Definition honest (al : allocator) : Prop := forall s n, sane s ->
  (exists k, length (snd (al s n)) = 4 * k) /\
  fst (al s n) + n <= length (gm_bytes s) + length (snd (al s n)) /\
  (0 < n -> (exists k, fst (al s n) = 4 * k) /\ Forall (apart (fst (al s n), n)) (blocks s)).

(** A function of the module may do anything to the memory, its own blocks and the size of
    the memory, but leaves alone which blocks the caller has. *)
Definition tame (f : body) : Prop := forall s l, sane s -> sane (fst (f s l)) /\ gm_js (fst (f s l)) = gm_js s.

(** The parameter is what the module finds at the place. *)
Definition arrives (s : glue) (p : param) (x : slot) : Prop :=
  match p, x with
  | PStr v, SStr a n => bytes_at (gm_bytes s) a n = utf8 (from_js v) /\ n = length (utf8 (from_js v))
  | PInts l, SInts a n => words (bytes_at (gm_bytes s) a (4 * n)) = map to_i32 l /\ n = length l
  | _, _ => False
  end.
Definition data (ps : list param) : list param := filter (fun p => match p with PMoved _ => false | _ => true end) ps.
Definition passable (p : param) : Prop := match p with PNoArray | PMoved false => False | _ => True end.

(** The block of a parameter; what lies in allocated blocks stays. *)
Definition opt_block (p n : nat) : list block := match n with O => [] | _ => [(p, n)] end.
Definition slot_block (x : slot) : list block := match x with SStr p n => opt_block p n | SInts p n => opt_block p (n * 4) end.
Definition keeps (s s' : glue) : Prop := forall b, In b (blocks s) -> In b (blocks s') /\ bytes_at (gm_bytes s') (fst b) (snd b) = bytes_at (gm_bytes s) (fst b) (snd b).

(** A function of the module that returns a text or numbers: they are in a new block that
    becomes the caller's, with address and length where the caller looks. *)
Definition scalars (v : str) : Prop := Forall (fun c => c < 1114112)%N v.
Definition same_memory (s s1 : glue) : Prop :=
  gm_bytes s1 = gm_bytes s /\ gm_args s1 = gm_args s /\ gm_js s1 = gm_js s /\ gm_rust s1 = gm_rust s.
Definition hands (f : body) (s : glue) (size : nat) (content : list N) : Prop := forall s1, sane s1 -> same_memory s s1 ->
  exists s' p n, f s1 [] = (s', false) /\ sane s' /\ gm_args s' = gm_args s /\ n * size = length content /\
    bytes_at (gm_bytes s') (gm_args s') 8 = le32 (Z.of_nat p) ++ le32 (Z.of_nat n) /\ (Z.of_nat p < 4294967296)%Z /\ (Z.of_nat n < 4294967296)%Z /\
    p + n * size <= length (gm_bytes s') /\ (exists k, p = k * size) /\
    bytes_at (gm_bytes s') p (n * size) = content /\
    gm_js s' = match n * size with O => gm_js s | _ => (p, n * size) :: gm_js s end.

(** Histories of calls. *)
Inductive gstep := GCall (f : body) (ps : list param) | GString (f : body) | GInts (f : body).
Inductive seen := SawCall (o : outcome) | SawString (v : option jstr) | SawInts (a : option jarray).
Definition gdo (al : allocator) (s : glue) (x : gstep) : glue * seen :=
  match x with
  | GCall f ps => let '(s, o) := glue_call al f s ps in (s, SawCall o)
  | GString f => let '(s, v) := get_string f s in (s, SawString v)
  | GInts f => let '(s, v) := get_ints f s in (s, SawInts v)
  end.
Fixpoint gdo_all (al : allocator) (s : glue) (l : list gstep) : glue * list seen :=
  match l with
  | [] => (s, [])
  | x :: r => let '(s, o) := gdo al s x in let '(s, os) := gdo_all al s r in (s, o :: os)
  end.
(** The steps go with these results: functions do as asked, texts and numbers are the ones
    handed out. *)
Inductive expected := XCall | XString (v : str) | XInts (l : list Z).
Definition goes (s : glue) (x : gstep) (e : expected) : Prop :=
  match x, e with
  | GCall f ps, XCall => tame f /\ Forall passable ps
  | GString f, XString v => scalars v /\ hands f s 1 (utf8 v)
  | GInts f, XInts l => Forall (fun z => -2147483648 <= z < 2147483648)%Z l /\ hands f s 4 (flat_map le32 l)
  | _, _ => False
  end.
Fixpoint all_go (al : allocator) (s : glue) (l : list gstep) (es : list expected) : Prop :=
  match l, es with
  | [], [] => True
  | x :: r, e :: es => goes s x e /\ all_go al (fst (gdo al s x)) r es
  | _, _ => False
  end.
Definition as_expected (e : expected) (o : seen) : Prop :=
  match e, o with
  | XCall, SawCall o => o = Returned \/ o = Threw
  | XString v, SawString w => w = Some (to_js v)
  | XInts l, SawInts a => exists a', a = Some a' /\ forall s, elements s a' = l
  | _, _ => False
  end.
