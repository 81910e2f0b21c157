(** What programs that make line maps by hand mean: every object is a text with an
    attribution, a value that is copied when it is added to another one. *)
From Verif Require Import Base SpecText SpecMap SpecAttr SpecList ModelJs ModelJsApi SpecJs ModelEnd SpecEnd ModelJsList.

(** [sd_list]: a SourceListMap rather than a node.  [sd_uses]: the source of each attributed
    character with the content given with it.  [sd_tidy]: no single-line piece breaks a
    line in its middle.  [sd_parts]: the texts it was put together from; [sd_lines]: each of
    them consists of whole lines but perhaps for its end. *)
Record said := mk_said {
  sd_list : bool;
  sd_marks : marked;
  sd_uses : list (Z * option jstr);
  sd_tidy : bool;
  sd_parts : list jstr;
  sd_lines : Prop }.
Definition join (x y : said) : said :=
  mk_said true (sd_marks x ++ sd_marks y) (sd_uses x ++ sd_uses y) (sd_tidy x && sd_tidy y)
    (sd_parts x ++ sd_parts y) (sd_lines x /\ sd_lines y).
Definition nothing : said := mk_said true [] [] true [] True.
Definition as_list_of (x : said) : said := mk_said true (sd_marks x) (sd_uses x) (sd_tidy x) (sd_parts x) (sd_lines x).
(** Put together from whole lines. *)
Definition whole_lines (x : said) : Prop :=
  sd_lines x /\ at_line_ends (sd_parts x) /\ ends_with NL (text_of (sd_marks x)) = true.
(** No newline is followed by a character of the same line of the same source. *)
Definition same_line (a b : option target) : bool :=
  match a, b with
  | Some (s, (l, _), _), Some (s', (l', _), _) => (l =? l')%Z && (s =? s')%Z
  | _, _ => false
  end.
Fixpoint flows (M : marked) : bool :=
  match M with
  | (c, t) :: r =>
      match r with
      | (_, u) :: _ => negb (N.eqb c NL && same_line t u) && flows r
      | [] => true
      end
  | [] => true
  end.

Definition tidy_text (s : jstr) : bool := negb (count_char NL s =? 1) || ends_with NL s.
Definition from_marks (g : Z -> option jstr) (M : marked) (t : bool) : said := mk_said false M (used g M) t [text_of M] (M <> []).

(** A string, or a string with a source, or the object itself. *)
Definition value_of (nu : jstr -> Z) (T : list (option said)) (g : larg) (src orig : jstr) : option said :=
  match g with
  | GStr s =>
      Some (match src with
            | [] => from_marks (fun _ => None) (mark None s) true
            | _ => from_marks (fun _ => Some orig) (mark_lines (nu src) 1 s) true
            end)
  | GObj v => match nth_error T v with Some (Some x) => Some x | _ => None end
  end.
(** A SourceListMap that is still there. *)
Definition usable (T : list (option said)) (v : nat) : option said :=
  match nth_error T v with
  | Some (Some x) => if sd_list x then Some x else None
  | _ => None
  end.
(** No PrefixSource (or ReplaceSource) in an expression: their line maps have single-line pieces. *)
Fixpoint no_prefix (e : jexpr) : bool :=
  match e with
  | XPrefix _ _ | XEdit _ _ => false
  | XConcat l => forallb no_prefix l
  | _ => true
  end.
Definition content_in (nu : jstr -> Z) (m : jmap) (z : Z) : option jstr :=
  option_map snd (find (fun x => (nu (fst x) =? z)%Z) (zip (jm_sources m) (jm_contents m))).

(** The objects after a call, and whether the call succeeds. *)
Definition lsays (nu : jstr -> Z) (T : list (option said)) (op : lop) : list (option said) * bool :=
  match op with
  | LNewCode code =>
      (T ++ [match code with [] => None | _ => Some (from_marks (fun _ => None) (mark None code) true) end], true)
  | LNewSource code src orig line =>
      (T ++ [match code with
             | [] => None
             | _ => Some (from_marks (fun _ => Some orig) (mark_lines (nu src) (Z.of_N (N.max 1 line)) code) true)
             end], true)
  | LNewSingle code src orig line =>
      match code, src with
      | [], _ => (T ++ [None], true)
      | _, [] => (T, false)
      | _, _ =>
          (T ++ [Some (from_marks (fun _ => Some orig) (mark (Some (nu src, (Z.of_N (N.max 1 line), 0%Z), None)) code)
                         (tidy_text code))], true)
      end
  | LNewList None src _ => match src with [] => (T ++ [Some nothing], true) | _ => (T, false) end
  | LNewList (Some g) src orig =>
      match value_of nu T g src orig with
      | Some y => (T ++ [Some (as_list_of y)], true)
      | None => (T, false)
      end
  | LNewArray l =>
      if forallb (fun g => match value_of nu T g [] [] with Some _ => true | None => false end) l
      then (T ++ [None], true) else (T, false)
  | LFrom code m =>
      match line_says nu m code with
      | Some M => (T ++ [Some (mk_said true M (used (content_in nu m) M) true [code] False)], true)
      | None => (T, false)
      end
  | LOf (XStr _) _ _ | LOf (XRaw _) _ _ => (T, false)
  | LOf e _ md =>
      match line_marks nu md e with
      | Some M => (T ++ [Some (mk_said true M (line_uses nu md e) (no_prefix e) (leaf_texts e) (on_lines md e /\ leaf_texts e <> []))], true)
      | None => (T, false)
      end
  | LAdd v g src orig =>
      match usable T v, value_of nu T g src orig with
      | Some x, Some y => (set_nth v T (Some (join x y)), true)
      | _, _ => (T, false)
      end
  | LPrepend v g src orig =>
      match usable T v, value_of nu T g src orig with
      | Some x, Some y => (set_nth v T (Some (join y x)), true)
      | _, _ => (T, false)
      end
  | LMapCode v f =>
      match usable T v, f with
      | Some x, MReplace => (T, false)
      | Some x, MPrefix p =>
          (set_nth v T None ++
           [Some (mk_said true (mprefixed p (sd_marks x)) (sd_uses x) true [prefixed p (text_of (sd_marks x))] True)], true)
      | Some x, _ =>
          (set_nth v T None ++
           [Some (mk_said true (sd_marks x) (sd_uses x) false [text_of (sd_marks x)] (whole_lines x))], true)
      | None, _ => (T, false)
      end
  | LFree v => match nth_error T v with Some (Some _) => (set_nth v T None, true) | _ => (T, false) end
  | LClone _ => (T, false)
  | LString v | LResult v => (T, match usable T v with Some _ => true | None => false end)
  | LOther _ _ => (T, true)
  end.
Fixpoint lsays_all (nu : jstr -> Z) (T : list (option said)) (l : list lop) : list (option said) * list bool :=
  match l with
  | [] => (T, [])
  | op :: r =>
      let '(T, b) := lsays nu T op in
      let '(T, bs) := lsays_all nu T r in
      (T, b :: bs)
  end.

(** The calls covered: texts without surrogates, maps that can be read in one way, source
    nodes with a source, expressions for which line maps are exact, no string prepended,
    mapGeneratedCode with a prefix on lists of whole lines, or with the identity on such
    lists, on tidy ones and on those whose lines each come from another one (or without
    success). *)
Definition plain_arg (g : larg) : Prop := match g with GStr s => plain s | GObj _ => True end.
Definition covered (nu : jstr -> Z) (T : list (option said)) (op : lop) : Prop :=
  match op with
  | LNewCode code => plain code
  | LNewSource code src _ _ => plain code /\ src <> []
  | LNewSingle code _ _ _ => plain code
  | LNewList g _ _ => match g with Some g => plain_arg g | None => True end
  | LFrom code m => plain code /\ sound_map m /\ forall segs, decode (jm_mappings m) = Some segs -> Forall fits segs
  | LOf e _ md => (exists v, e = XRaw v) \/ line_expr md e
  | LAdd _ g _ _ => plain_arg g
  | LPrepend _ g _ _ => match g with GStr _ => False | GObj _ => True end
  | LMapCode v f =>
      match usable T v, f with
      | Some x, MIdentical => sd_tidy x = true \/ flows (sd_marks x) = true \/ whole_lines x
      | Some x, MPrefix p => plain p /\ ~ In NL p /\ whole_lines x
      | Some x, MReplace => True
      | Some x, _ => False
      | None, _ => True
      end
  | LNewArray _ | LClone _ | LFree _ | LString _ | LResult _ | LOther _ _ => True
  end.
Fixpoint all_covered (nu : jstr -> Z) (T : list (option said)) (l : list lop) : Prop :=
  match l with
  | [] => True
  | op :: r => covered nu T op /\ all_covered nu (fst (lsays nu T op)) r
  end.
Definition succeeds (o : lout) : bool := match o with OError => false | _ => true end.

(** Calls of methods of the object [v], or with it as an argument. *)
Definition uses_object (v : nat) (op : lop) : Prop :=
  match op with
  | LAdd u g _ _ | LPrepend u g _ _ => u = v \/ g = GObj v
  | LMapCode u _ | LClone u | LFree u | LString u | LResult u => u = v
  | LNewList (Some g) _ _ => g = GObj v
  | LNewArray l => In (GObj v) l
  | _ => False
  end.
