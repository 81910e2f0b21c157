(** Maps, as data, that a reader can read. *)
From Verif Require Import Base ModelSources SpecMap SpecAttr SpecSmall.

Definition unambiguous (es : list (place * option target)) : Prop :=
  forall e e', In e es -> In e' es -> fst e = fst e' -> snd e = snd e'.

Definition retarget (F : option target -> option target) (m : marked) : marked :=
  map (fun x => (fst x, F (snd x))) m.

(** A map as data that a consumer can read: entries [es]; numbers in the range of the
    reader; no index ambiguity (see C29); columns below 2^31. *)
Definition readable (d : sm_content) (es : list (place * option target)) : Prop :=
  NoDup (sc_sources d) /\ NoDup (sc_names d) /\
  read_map (sc_sources d) (sc_names d) (sc_mappings d) = Some es /\
  (exists segs, decode (sc_mappings d) = Some segs /\ Forall small segs) /\
  unambiguous es /\ Forall (fun e => (snd (fst e) < 2147483648)%Z) es.
