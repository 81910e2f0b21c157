(** Specification of JavaScript strings and positions: UTF-16, numbers, and the texts a
    JavaScript programmer expects from the classes. *)
From Verif Require Import Base SpecText SpecMap SpecAttr ModelJsApi.

(** ** UTF-16 *)
Definition scalar (c : char) : Prop := (c < 55296 \/ 57344 <= c < 1114112)%N.
(** The code units of a scalar value: itself, or the pair with
    c = 65536 + 1024 * a + b. *)
Inductive units_of (c : char) : list N -> Prop :=
| one_unit : (c < 65536)%N -> units_of c [c]
| two_units a b : (a < 1024)%N -> (b < 1024)%N -> c = (65536 + 1024 * a + b)%N ->
    units_of c [(55296 + a)%N; (56320 + b)%N].
(** [u] is UTF-16 for the scalar values [s]. *)
Inductive utf16 : str -> list N -> Prop :=
| utf16_nil : utf16 [] []
| utf16_cons c s x u : scalar c -> units_of c x -> utf16 s u -> utf16 (c :: s) (x ++ u).
Definition well_formed (u : list N) : Prop := exists s, utf16 s u.
Definition starts_with (c : char) (u : list N) : Prop := exists r, u = c :: r.
(** No surrogates: every unit is a character. *)
Definition plain (u : list N) : Prop := Forall (fun c => scalar c /\ (c < 65536)%N) u.

(** ** Positions *)

(** Sixteenths of a position, rounded down; positions that behave: non-negative or whole,
    within 32 bits. *)
Definition sixteenths (p : jnum) : Z :=
  match p with Fin z k => (16 * z) / 2 ^ Z.of_nat k | _ => 0 end.
Definition ordinary (p : jnum) : Prop :=
  match p with
  | Fin z k => ((0 <= z \/ exists q, z = q * 2 ^ Z.of_nat k) /\
                -2147483648 * 2 ^ Z.of_nat k < z /\ z < 2147483647 * 2 ^ Z.of_nat k)%Z
  | _ => False
  end.
Definition ordinary_call (c : jcall) : Prop :=
  match c with
  | JReplace a b _ => ordinary a /\ ordinary b
  | JInsert p _ => ordinary p
  | JRead => True
  end.
(** The edit meant by a call: an insertion at p replaces the empty range that ends at
    p - 1. *)
Definition jedit (lo hi : Z) (text : list N) : edit :=
  mk_edit (lo / 16) (lo mod 16) (hi / 16) (hi mod 16) text.
Definition jedit_of (c : jcall) : list edit :=
  match c with
  | JReplace a b t => [jedit (sixteenths a) (sixteenths b) t]
  | JInsert p t => [jedit (sixteenths p) (sixteenths p - 16) t]
  | JRead => []
  end.
(** The same edit with its text in another form. *)
Definition set_text (f : list N -> str) (e : edit) : edit :=
  mk_edit (e_from e) (e_subf e) (e_to e) (e_subt e) (f (e_text e)).
Definition jedits (h : list jcall) : list edit := flat_map jedit_of h.

(** ** Texts: JavaScript strings are lists of units throughout. *)
Fixpoint js_text (t : jtree) : list N :=
  match t with
  | JStr v | JRaw v | JOriginal v _ _ | JL2L v _ _ _ | JSms v _ _ _ _ _ => v
  | JPrefix p t => prefixed p (js_text t)
  | JEdit t h => edited_any (jedits h) (js_text t)
  | JConcat l => flat_map js_text l
  end.

(** All strings are well-formed. *)
Definition call_formed (c : jcall) : Prop :=
  match c with
  | JReplace _ _ t | JInsert _ t => well_formed t
  | JRead => True
  end.
Fixpoint formed (t : jtree) : Prop :=
  match t with
  | JStr v | JRaw v | JOriginal v _ _ | JL2L v _ _ _ | JSms v _ _ _ _ _ => well_formed v
  | JPrefix p t => well_formed p /\ formed t
  | JEdit t h => formed t /\ Forall call_formed h
  | JConcat l => (fix all l := match l with [] => True | x :: r => formed x /\ all r end) l
  end.
(** ReplaceSources are used at ordinary positions of texts without surrogates. *)
Fixpoint ordinary_edits (t : jtree) : Prop :=
  match t with
  | JStr _ | JRaw _ | JOriginal _ _ _ | JL2L _ _ _ _ | JSms _ _ _ _ _ _ => True
  | JPrefix _ t => ordinary_edits t
  | JEdit t h => ordinary_edits t /\ Forall ordinary_call h /\ plain (js_text t)
  | JConcat l => (fix all l := match l with [] => True | x :: r => ordinary_edits x /\ all r end) l
  end.
(** The value is returned by JavaScript itself. *)
Definition is_leaf (t : jtree) : Prop :=
  match t with JPrefix _ _ | JEdit _ _ | JConcat _ => False | _ => True end.
