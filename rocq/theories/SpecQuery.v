(** Questions to a generator and their answers. *)
From Verif Require Import Base ModelSm SpecMap SpecGen.

Definition place_le (a b : place) : Prop :=
  (fst a < fst b)%Z \/ (fst a = fst b /\ (snd a <= snd b)%Z).

Definition history (file : option Z) (root : option str) (skip : bool) (h : list gop) (g : generator) : Prop :=
  grun (gen_new file root skip) h = Some g /\ Forall op_ok h.

(** C24 *)
Definition closest (l : list mapping) (line column : N) (m : mapping) : Prop :=
  (In m l /\ fst (m_gen m) = line /\ (snd (m_gen m) <= column)%N /\
   forall m', In m' l -> fst (m_gen m') = line -> (snd (m_gen m') <= column)%N ->
     (snd (m_gen m') <= snd (m_gen m))%N) \/
  (m = empty_mapping /\ forall m', In m' l -> fst (m_gen m') = line -> (column < snd (m_gen m'))%N).

(** C25 *)
Definition answer (g : generator) (line column : N) : option mapping :=
  option_map snd (original_position_for g line column).

Definition emitted (g : generator) : option (list (place * option target)) :=
  let* (_, m) := gen_to_source_map g in read_map (map_sources m) (map_names m) (map_mappings m).
