(** Generators as lists of entries: well-formed ones and the reading of a mapping. *)
From Verif Require Import Base ModelSm SpecMap SpecSort.

Notation msorted := (StronglySorted (cle mapping_cmp)).

Definition tbl_ok (t : list (Z * nat)) : Prop :=
  NoDup (map fst t) /\ map snd t = seq 0 (length t).

Definition valid (m : mapping) : Prop := validate_mapping m = true.

Definition mapping_ok (g : generator) (m : mapping) : Prop :=
  valid m /\
  (forall s, m_src m = Some s -> In s (map fst (g_sources g))) /\
  (forall n, m_name m = Some n -> In n (map fst (g_names g))).

Definition ml_ok (ml : mapping_list) : Prop := ml_sorted ml = true -> msorted (ml_list ml).

Definition gen_wf (g : generator) : Prop :=
  tbl_ok (g_sources g) /\ tbl_ok (g_names g) /\
  Forall (mapping_ok g) (ml_list (g_mappings g)) /\ ml_ok (g_mappings g).

Definition view (m : mapping) : place * option target :=
  ((Z.of_N (fst (m_gen m)), Z.of_N (snd (m_gen m))),
   match m_src m, m_orig m with
   | Some s, Some (ol, oc) => Some (s, (Z.of_N ol, Z.of_N oc), m_name m)
   | _, _ => None
   end).
