(** A map by lines next to a map by columns. *)
From Verif Require Import Base SpecText SpecMap SpecAttr ModelJs ModelJsApi SpecJs ModelEnd SpecEnd SpecSplit SpecJsListEdit.

(** The same character; a place that the first map gives has the source and the line that the second one gives. *)
Definition coarser (x y : char * option target) : Prop :=
  fst x = fst y /\ match snd x with Some (s, (l, _), _) => snd y = Some (s, (l, 0%Z), None) | None => True end.
(** The same or the line after it. *)
Definition line_before (y : char * option target) : char * option target :=
  (fst y, match snd y with Some (s, (l, k), n) => Some (s, ((l - 1)%Z, k), n) | None => None end).
Definition nearly_coarser (x y : char * option target) : Prop := coarser x y \/ coarser x (line_before y).

(** A line of generated text comes from one line of one source. *)
Definition one_line_each (es : list (place * option target)) : Prop :=
  forall p p' s l c n s' l' c' n', In (p, Some (s, (l, c), n)) es -> In (p', Some (s', (l', c'), n')) es -> fst p = fst p' -> s = s' /\ l = l'.

(** SourceMapSources have such maps, and their modules are asked for. *)
Fixpoint by_lines (nu : jstr -> Z) (md : bool) (e : jexpr) : Prop :=
  match e with
  | XStr _ | XRaw _ | XOriginal _ _ | XL2L _ _ _ => True
  | XPrefix _ e | XEdit e _ => by_lines nu md e
  | XConcat l => (fix all l := match l with [] => True | x :: r => by_lines nu md x /\ all r end) l
  | XSms _ _ m _ i => md = true /\ i = None /\ forall es, map_says nu m = Some es -> one_line_each es
  end.

(** Bundles of edited modules: the characters that are kept, with their places, and the new ones with none. *)
Inductive keeps (nu : jstr -> Z) : jexpr -> marked -> Prop :=
| keeps_all e M : marks nu e = Some M -> keeps nu e M
| keeps_edit e h M : marks nu e = Some M -> keeps nu (XEdit e h) (kept_marked (jedits h) M)
| keeps_nil : keeps nu (XConcat []) []
| keeps_cons e l M N : keeps nu e M -> keeps nu (XConcat l) N -> keeps nu (XConcat (e :: l)) (M ++ N).
(** No edit brings in a newline, none is around a PrefixSource. *)
Fixpoint edits_in_lines (e : jexpr) : Prop :=
  match e with
  | XEdit e h => Forall (fun x => ~ In NL (e_text x)) (jedits h) /\ unwrapped e
  | XPrefix _ e => edits_in_lines e
  | XConcat l => (fix all l := match l with [] => True | x :: r => edits_in_lines x /\ all r end) l
  | _ => True
  end.

(** The same with PrefixSources around them; prefixes have no places. *)
Fixpoint blank_prefix (p : jstr) (b : bool) (K : marked) : marked :=
  match K with
  | [] => []
  | (c, a) :: K => (if b then mark None p else []) ++ (c, a) :: blank_prefix p (N.eqb c NL) K
  end.
Inductive keeps_below (nu : jstr -> Z) : jexpr -> marked -> Prop :=
| below_all e M : marks nu e = Some M -> keeps_below nu e M
| below_edit e h M : marks nu e = Some M -> keeps_below nu (XEdit e h) (kept_marked (jedits h) M)
| below_prefix p e M : keeps_below nu e M -> keeps_below nu (XPrefix p e) (blank_prefix p true M)
| below_nil : keeps_below nu (XConcat []) []
| below_cons e l M N : keeps_below nu e M -> keeps_below nu (XConcat l) N -> keeps_below nu (XConcat (e :: l)) (M ++ N).
(** No PrefixSource around edits that leave a newline at the end, or nothing. *)
Fixpoint unended (e : jexpr) : Prop :=
  match e with
  | XPrefix _ e => unended e /\ (has_edit e = false \/ ends_with NL (concat (leaf_texts e)) = false /\ concat (leaf_texts e) <> [])
  | XConcat l => (fix all l := match l with [] => True | x :: r => unended x /\ all r end) l
  | _ => True
  end.
