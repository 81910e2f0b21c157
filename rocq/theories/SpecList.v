(** Specification of line maps: what the nodes of a SourceListMap say about each character
    of their text, and what a consumer of the emitted map reads (columns in bytes). *)
From Verif Require Import Base ModelSlm SpecMap SpecAttr.

(** Every character of [s], which starts at place [p], with the answer of the map [l] for
    its place; [adv] says how columns are counted. *)
Fixpoint annotate_by (adv : place -> char -> place) (l : list (place * option target)) (p : place)
    (s : str) : marked :=
  match s with
  | [] => []
  | c :: r => (c, lookup l (fst p) (snd p)) :: annotate_by adv l (adv p c) r
  end.
Definition annotate_bytes (l : list (place * option target)) (s : str) : marked :=
  annotate_by advance_bytes l (1, 0)%Z s.

(** The source of a piece; a piece without source is listed as -1. *)
Definition source_of (p : piece) : Z := match pc_src p with Some s => s | None => -1 end%Z.

(** What a node says about its characters: plain code nothing; a source piece its own
    line, counted from its starting line; a single-line piece always its line. *)
Definition node_marks (n : slm_node) : marked :=
  match n with
  | LCode s => mark None s
  | LSource p => mark_lines (source_of p) (Z.of_N (pc_line p)) (pc_code p)
  | LSingle p => mark (Some (source_of p, (Z.of_N (pc_line p), 0%Z), None)) (pc_code p)
  | _ => []
  end.
Definition list_marks (m : slm) : marked := flat_map node_marks m.

(** Plain code behind source text on the same line has no segment of its own, so a
    consumer takes it for source text. *)
Fixpoint carried (a : option target) (l : marked) : marked :=
  match l with
  | [] => []
  | (c, t) :: r =>
      let t := match t with Some _ => t | None => a end in
      (c, t) :: carried (if N.eqb c NL then None else t) r
  end.

(** The nodes that API calls build: the text nodes, with their line counts right. *)
Definition counted (p : piece) : Prop :=
  pc_n p = count_char NL (pc_code p) /\ (pc_nl p = true -> ends_with NL (pc_code p) = true).
Definition node_ok (n : slm_node) : Prop :=
  match n with
  | LCode _ => True
  | LSource p | LSingle p => counted p
  | _ => False
  end.

(** The pieces handed to a mapping function, with what they say: a source piece is cut
    into its lines (an empty last line only counts if the node is not known to end with a
    newline). *)
Fixpoint cut_lines (s : str) : list str :=
  match s with
  | [] => [[]]
  | c :: r =>
      if N.eqb c NL then [c] :: cut_lines r
      else match cut_lines r with
           | [] => [[c]]
           | x :: l => (c :: x) :: l
           end
  end.
Fixpoint number_lines (src line : Z) (l : list str) : list (option target * str) :=
  match l with
  | [] => []
  | x :: r => (Some (src, (line, 0%Z), None), x) :: number_lines src (line + 1) r
  end.
Definition node_pieces (n : slm_node) : list (option target * str) :=
  match n with
  | LCode s => [(None, s)]
  | LSource p => number_lines (source_of p) (Z.of_N (pc_line p))
                   (if pc_nl p then removelast (cut_lines (pc_code p)) else cut_lines (pc_code p))
  | LSingle p => [(Some (source_of p, (Z.of_N (pc_line p), 0%Z), None), pc_code p)]
  | _ => []
  end.
Definition list_pieces (m : slm) : list (option target * str) := flat_map node_pieces m.

(** A function with state applied to texts one after the other. *)
Fixpoint run_fun {S} (f : S -> str -> option (S * str)) (st : S) (l : list str) : option (S * list str) :=
  match l with
  | [] => Some (st, [])
  | x :: r =>
      let* (st, y) := f st x in
      let* (st, ys) := run_fun f st r in
      Some (st, y :: ys)
  end.

(** A newline, if there is just one, stands at the end. *)
Definition tidy (s : str) : Prop := count_char NL s = 1 -> ends_with NL s = true.

(** Pieces that end where lines end: all but the last one end with a newline, and the last
    one is not empty, unless it is the only one. *)
Fixpoint at_line_ends (l : list str) : Prop :=
  match l with
  | [] => False
  | x :: r =>
      match r with
      | [] => True
      | _ => ends_with NL x = true /\ concat r <> [] /\ at_line_ends r
      end
  end.

Definition mark_pieces (l : list (option target * str)) : marked :=
  flat_map (fun x => mark (fst x) (snd x)) l.

(** ** Reading a line map *)

(** All numbers of the mappings string decode. *)
Definition well_formed (mappings : str) : Prop :=
  Forall (Forall (fun x => exists l, numbers x 0 1 = Some l)) (cells mappings).

(** Source and one-based line of the first segment on generated line [k] (zero-based)
    that names a source; -1 if its index is not in the array. *)
Definition first_on (sources : list Z) (segs : list seg) (k : Z) : option (Z * Z) :=
  match find (fun s => (sg_line s =? k)%Z && match sg_orig s with Some _ => true | None => false end) segs with
  | Some s =>
      match sg_orig s with
      | Some (si, ol, _, _) =>
          Some (match entry sources si with Some i => i | None => (-1)%Z end, (ol + 1)%Z)
      | None => None
      end
  | None => None
  end.

(** The lines of a text with their attribution: [prev] is the source line that follows
    the line before, if that one was attributed; blank lines continue it. *)
Fixpoint attribute (sources : list Z) (segs : list seg) (k : Z) (prev : option (Z * Z))
    (lines : list str) : marked :=
  match lines with
  | [] => []
  | x :: r =>
      match first_on sources segs k, prev with
      | Some (s, l), _ =>
          mark (Some (s, (l, 0%Z), None)) x
          ++ attribute sources segs (k + 1) (Some (s, (l + 1)%Z)) r
      | None, Some (s, l) =>
          if blank x then
            mark (Some (s, (l, 0%Z), None)) x
            ++ attribute sources segs (k + 1) (Some (s, (l + 1)%Z)) r
          else mark None x ++ attribute sources segs (k + 1) None r
      | None, None => mark None x ++ attribute sources segs (k + 1) None r
      end
  end.

(** Source indices and lines fit 32 bits. *)
Definition fits (s : seg) : Prop :=
  match sg_orig s with
  | None => True
  | Some (si, ol, _, _) => (0 <= si < 2 ^ 32 /\ 0 <= ol + 1 < 2 ^ 32)%Z
  end.

Example carried_ex :
  carried None (list_marks [LCode (lit "a"); LSource (piece_new (lit "b" ++ [NL] ++ lit "c") (Some 7%Z) None 4);
    LCode (lit "d" ++ [NL] ++ lit "e")]) =
  mark None (lit "a") ++ mark (Some (7, (4, 0), None))%Z (lit "b" ++ [NL]) ++
  mark (Some (7, (5, 0), None))%Z (lit "cd" ++ [NL]) ++ mark None (lit "e").
Proof. reflexivity. Qed.
