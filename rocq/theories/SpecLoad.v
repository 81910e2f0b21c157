(** Generators whose numbers fit the types of the reader. *)
From Verif Require Import Base ModelVlq ModelSm.

Definition srcs (l : list mapping) : list Z := flat_map (fun m => opt_list (m_src m)) l.

Definition nams (l : list mapping) : list Z := flat_map (fun m => opt_list (m_name m)) l.

Definition fits (m : mapping) : Prop :=
  (Z.of_N (snd (m_gen m)) <= u32_max)%Z /\
  match m_orig m with
  | Some (l, c) => (Z.of_N l <= u32_max)%Z /\ (Z.of_N c <= u32_max)%Z
  | None => True
  end.

Definition gen_fits (g : generator) : Prop :=
  Forall fits (ml_list (g_mappings g)) /\
  (Z.of_nat (length (g_sources g)) <= u32_max)%Z /\ (Z.of_nat (length (g_names g)) <= u32_max)%Z.
