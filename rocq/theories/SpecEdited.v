(** What an expression of JavaScript sources with ReplaceSources says about its characters. *)
From Verif Require Import Base SpecText SpecMap SpecAttr SpecEdit SpecEffect ModelJs ModelJsApi SpecJs ModelEnd SpecEnd.

(** The expression without its edits. *)
Fixpoint unedited (e : jexpr) : jexpr :=
  match e with
  | XStr _ | XRaw _ | XOriginal _ _ | XL2L _ _ _ | XSms _ _ _ _ _ => e
  | XPrefix p e => XPrefix p (unedited e)
  | XEdit e _ => unedited e
  | XConcat l => XConcat (map unedited l)
  end.

(** Expressions with edits: those of C52, ConcatSources, PrefixSources and ReplaceSources of them; the
    edits are at ordinary positions, do not end before they begin, and their texts have no
    surrogates. *)
Definition plain_call (c : jcall) : Prop :=
  match c with JReplace _ _ t | JInsert _ t => plain t | JRead => True end.
Fixpoint edit_expr (e : jexpr) : Prop :=
  match e with
  | XEdit e h => edit_expr e /\ Forall ordinary_call h /\ Forall plain_call h /\ Forall forward (jedits h)
  | XPrefix p e => plain p /\ edit_expr e
  | XConcat l =>
      (fix all l :=
         match l with
         | [] => True
         | x :: r => (match x with XStr s => s <> [] /\ plain s | _ => edit_expr x end) /\ all r
         end) l
  | _ => exact_expr e
  end.

(** A prefix in front of every line, with any attribution; edits may also leave one behind
    the last newline. *)
Inductive prefixed_at (p : jstr) : bool -> marked -> marked -> Prop :=
| prefixed_end b : prefixed_at p b [] []
| prefixed_more a : prefixed_at p true [] (mark a p)
| prefixed_char b c a a' M M' : prefixed_at p (N.eqb c NL) M M' ->
    prefixed_at p b ((c, a) :: M) ((if b then mark a' p else []) ++ (c, a) :: M').

(** Attributed texts: kept characters keep their attribution.  What is known of the
    attribution of new texts: see [new_target]. *)
Inductive reading (nu : jstr -> Z) : jexpr -> marked -> Prop :=
| reading_exact e M : marks nu e = Some M -> reading nu e M
| reading_edit e h M ts : reading nu e M -> length ts = length (jedits h) ->
    (marks nu e <> None -> ForallOrdPairs apart (jedits h) -> Forall2 (new_target M) (arrange key_le (jedits h)) ts) ->
    reading nu (XEdit e h) (edited_marked (jedits h) ts M)
| reading_prefix p e M M' : marks nu e = None -> reading nu e M -> prefixed_at p true M M' -> reading nu (XPrefix p e) M'
| reading_nil : reading nu (XConcat []) []
| reading_cons e l M N : reading nu e M -> reading nu (XConcat l) N -> reading nu (XConcat (e :: l)) (M ++ N).

(** A place that [E] mentions, or none. *)
Definition within (E : marked) (a : option target) : Prop :=
  a = None \/ exists x, In x E /\ drop_name (snd x) = drop_name a.

(** The order in which StringCache numbers strings. *)
Definition number (c : cache) (s : jstr) : nat := snd (cache_add c s).
(** The characters come in the order of their places, sources counting in that order. *)
Definition in_order (c : cache) (e : jexpr) : Prop :=
  exists nu E, numbering nu /\ marks nu (unedited e) = Some E /\ rising E /\
    forall s s', In s (sources_in e) -> In s' (sources_in e) -> number c s < number c s' -> (nu s < nu s')%Z.

(** No ReplaceSource is around a ConcatSource. *)
Fixpoint lone (e : jexpr) : Prop :=
  match e with
  | XConcat _ => False
  | XPrefix _ e | XEdit e _ => lone e
  | _ => True
  end.
Fixpoint lone_edits (e : jexpr) : Prop :=
  match e with
  | XEdit e _ => lone e /\ lone_edits e
  | XPrefix _ e => lone_edits e
  | XConcat l => (fix all l := match l with [] => True | x :: r => lone_edits x /\ all r end) l
  | _ => True
  end.

(** A content that is given for [s] somewhere, or none. *)
Definition given_for (e : jexpr) (s : jstr) (k : option jstr) : Prop := match k with Some t => In (s, t) (contents_given e) | None => True end.

(** The strings that get numbers, in the order in which they are passed. *)
Fixpoint strings_of (e : jexpr) : list jstr :=
  match e with
  | XStr _ | XRaw _ => []
  | XOriginal _ n | XL2L _ n _ => [n]
  | XPrefix _ e | XEdit e _ => strings_of e
  | XConcat l => flat_map strings_of l
  | XSms _ n m _ i => n :: jm_sources m ++ jm_names m ++ match i with Some i => jm_sources i ++ jm_names i | None => [] end
  end.
Definition comes_first (l : list jstr) (s s' : jstr) : Prop := exists a b, l = a ++ s :: b /\ ~ In s' a.

(** Modules: texts and single sources, edited and prefixed any number of times. *)
Fixpoint module_of (e : jexpr) : Prop :=
  match e with
  | XOriginal v _ => forallb is_ascii v = true /\ crlf_only v = true
  | XL2L v _ _ | XRaw v => plain v
  | XPrefix p e => plain p /\ module_of e
  | XEdit e h => module_of e /\ Forall ordinary_call h /\ Forall plain_call h /\ Forall forward (jedits h)
  | _ => False
  end.
Definition piece (e : jexpr) : Prop := match e with XStr s => s <> [] /\ plain s | _ => module_of e end.
(** StringCache.indexOf gives nothing. *)
Definition unseen (c : cache) (s : jstr) : Prop := cache_index_of c s = None.
