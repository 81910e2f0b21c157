(** Segments whose numbers fit the reader. *)
From Verif Require Import Base ModelVlq SpecMap.

Definition u32 (z : Z) : Prop := (0 <= z <= u32_max)%Z.

Definition small (s : seg) : Prop :=
  u32 (sg_col s) /\
  match sg_orig s with
  | None => True
  | Some (a, b, c, n) =>
      u32 a /\ u32 b /\ u32 c /\ match n with Some n => u32 n | None => True end
  end.
