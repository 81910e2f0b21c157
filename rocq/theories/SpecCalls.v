(** Histories of calls to a StringCache and to a CachedSource. *)
From Verif Require Import Base ModelJs.

(** ** StringCache *)
(** Calls between two clear()s; the answers are indices. *)
Inductive cache_call := CAdd (s : jstr) | CAddUnchecked (s : jstr).
Definition cache_do (c : cache) (o : cache_call) : cache * nat :=
  match o with CAdd s => cache_add c s | CAddUnchecked s => cache_add_unchecked c s end.
Fixpoint cache_run (c : cache) (l : list cache_call) : cache * list nat :=
  match l with
  | [] => (c, [])
  | o :: r => let '(c, i) := cache_do c o in let '(c, is) := cache_run c r in (c, i :: is)
  end.
Definition call_str (o : cache_call) : jstr := match o with CAdd s | CAddUnchecked s => s end.

(** ** CachedSource *)
Section Cached.
  Context {M : Type} (w : wrapped M).

  Inductive cs_call := QSource | QSize | QMap (o : jopt) | QBoth (o : jopt).
  Inductive cs_answer := AText (s : jstr) | ASize (n : nat) | AMap (m : M) | ABoth (s : jstr) (m : M).

  (** What the wrapped source answers. *)
  Definition direct (q : cs_call) : cs_answer :=
    match q with
    | QSource => AText (w_source w)
    | QSize => ASize (w_size w)
    | QMap o => AMap (w_map w o)
    | QBoth o => ABoth (fst (w_source_and_map w o)) (snd (w_source_and_map w o))
    end.
  Definition ask (c : cached M) (q : cs_call) : cached M * cs_answer :=
    match q with
    | QSource => let '(c, s) := cached_source w c in (c, AText s)
    | QSize => let '(c, n) := cached_size w c in (c, ASize n)
    | QMap o => let '(c, m) := cached_map w c o in (c, AMap m)
    | QBoth o => let '(c, (s, m)) := cached_source_and_map w c o in (c, ABoth s m)
    end.
  Fixpoint ask_all (c : cached M) (l : list cs_call) : cached M * list cs_answer :=
    match l with
    | [] => (c, [])
    | q :: r => let '(c, a) := ask c q in let '(c, l) := ask_all c r in (c, a :: l)
    end.

  (** The wrapped source is consistent with itself; undefined options are {}. *)
  Definition consistent : Prop :=
    (forall o, w_source_and_map w o = (w_source w, w_map w o)) /\ w_map w JUndef = w_map w (JObj None None).
  (** The questions that are answered correctly: map with options that do not matter,
      size if bytes and UTF-16 units agree. *)
  Definition harmless (q : cs_call) : Prop :=
    match q with
    | QMap o => w_map w o = w_map w JUndef
    | QSize => w_size w = length (w_source w)
    | _ => True
    end.
End Cached.
