(** What it is for a map to list contents. *)
From Verif Require Import Base ModelSm.

(** Specification: the contents listed are, for each source, the first one given for it;
    sources without one are left out. *)
Definition first_given (ps : list (Z * Z)) (s : Z) : option Z := option_map snd (find (fun p => Z.eqb s (fst p)) ps).

Definition lists_contents (mp : source_map) (ps : list (Z * Z)) : Prop :=
  map_contents mp = flat_map (fun s => match first_given ps s with Some c => [c] | None => [] end) (map_sources mp).
