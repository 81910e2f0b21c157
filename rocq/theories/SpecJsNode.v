(** What programs that make source nodes by hand mean: every object is a text with an
    attribution, which goes into the object it is added to and is gone afterwards. *)
From Verif Require Import Base SpecText SpecMap SpecAttr ModelJs ModelJsApi SpecJs ModelEnd SpecEnd ModelJsList ModelJsNode.

(** [ns_at]: the attribution of the strings added to it.  [ns_inner], [ns_own]: contents
    given for sources; those of an OriginalSource, LineToLineMappedSource or SourceMapSource
    itself come after those of everything added to it later. *)
Record nsaid := mk_nsaid {
  ns_at : option target;
  ns_marks : marked;
  ns_inner : list (jstr * jstr);
  ns_own : list (jstr * jstr) }.
Definition ns_contents (x : nsaid) : list (jstr * jstr) := ns_inner x ++ ns_own x.
Definition with_text (x : nsaid) (s : jstr) : nsaid :=
  mk_nsaid (ns_at x) (ns_marks x ++ mark (ns_at x) s) (ns_inner x) (ns_own x).
Definition with_node (x y : nsaid) : nsaid :=
  mk_nsaid (ns_at x) (ns_marks x ++ ns_marks y) (ns_inner x ++ ns_contents y) (ns_own x).

(** [x], the object [self], takes what is given, until something cannot be taken: [self] itself,
    which is lost then, something that is gone, something that is neither a string nor a node. *)
Fixpoint takes (self : option nat) (x : nsaid) (T : list (option nsaid)) (l : list qarg)
    : option nsaid * list (option nsaid) * bool :=
  match l with
  | [] => (Some x, T, true)
  | AStr s :: r => takes self (with_text x s) T r
  | AObj u :: r =>
      if (match self with Some v => Nat.eqb u v | None => false end) then (None, T, false)
      else
        match nth_error T u with
        | Some (Some y) => takes self (with_node x y) (set_nth u T None) r
        | _ => (Some x, T, false)
        end
  | ABad :: _ => (Some x, T, false)
  end.

(** What node({columns: columns}) makes of an expression: without columns, an OriginalSource
    is attributed line by line, as a LineToLineMappedSource with its text as the original is. *)
Fixpoint roughly (columns : bool) (e : jexpr) : jexpr :=
  match e with
  | XOriginal v n => if columns then e else XL2L v n v
  | XPrefix p e => XPrefix p (roughly columns e)
  | XEdit e h => XEdit (roughly columns e) h
  | XConcat l => XConcat (map (roughly columns) l)
  | _ => e
  end.

(** The objects after a call, and whether the call succeeds. *)
Definition nsays (nu : jstr -> Z) (T : list (option nsaid)) (op : qop) : list (option nsaid) * bool :=
  match op with
  | QNew line column src chunks =>
      let a := match src with [] => None | _ => Some (nu src, (Z.of_N line, Z.of_N column), None) end in
      match takes None (mk_nsaid a [] [] []) T chunks with
      | (Some x, T, true) => (T ++ [Some x], true)
      | (_, T, _) => (T, false)
      end
  | QOf (XStr _) _ _ | QOf (XRaw _) _ _ => (T, false)
  | QOf e columns _ =>
      match marks nu (roughly columns e) with
      | Some M =>
          (T ++ [Some (match e with
                       | XConcat _ | XPrefix _ _ => mk_nsaid None M (contents_given e) []
                       | _ => mk_nsaid None M [] (contents_given e)
                       end)], true)
      | None => (T, false)
      end
  | QAdd v chunks =>
      match nth_error T v with
      | Some (Some x) => let '(x, T, ok) := takes (Some v) x T chunks in (set_nth v T x, ok)
      | Some None => (T, match chunks with [] => true | _ => false end)
      | None => (T, false)
      end
  | QFree v => match nth_error T v with Some (Some _) => (set_nth v T None, true) | _ => (T, false) end
  | QResult v => (T, match nth_error T v with Some (Some _) => true | _ => false end)
  | QOther _ _ => (T, true)
  end.
Fixpoint nsays_all (nu : jstr -> Z) (T : list (option nsaid)) (l : list qop) : list (option nsaid) * list bool :=
  match l with
  | [] => (T, [])
  | op :: r =>
      let '(T, b) := nsays nu T op in
      let '(T, bs) := nsays_all nu T r in
      (T, b :: bs)
  end.

(** The calls covered: texts without surrogates, lines that exist, expressions for which
    column maps are exact (without columns, original sources need not be ASCII). *)
Definition plain_chunk (g : qarg) : Prop := match g with AStr s => plain s | _ => True end.
Definition node_call (op : qop) : Prop :=
  match op with
  | QNew line _ src chunks => Forall plain_chunk chunks /\ (src <> [] -> (0 < line)%N)
  | QOf e columns _ => match e with XStr _ | XRaw _ => True | _ => exact_expr (roughly columns e) end
  | QAdd _ chunks => Forall plain_chunk chunks
  | QFree _ | QResult _ | QOther _ _ => True
  end.
Definition works (o : qout) : bool := match o with QError => false | _ => true end.

(** Calls of methods of the object [v] that look at it, or with it as an argument. *)
Definition touches (v : nat) (op : qop) : Prop :=
  match op with
  | QNew _ _ _ l => In (AObj v) l
  | QAdd u l => u = v /\ l <> [] \/ In (AObj v) l
  | QFree u | QResult u => u = v
  | _ => False
  end.
