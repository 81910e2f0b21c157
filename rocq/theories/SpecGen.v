(** Histories of a SourceMapGenerator. *)
From Verif Require Import Base ModelSm SpecView.

Inductive gop :=
| OAdd (m : mapping)
| OQuery (line column : N)
| OMap
| OContent (s : Z) (c : option Z)
| OApply (inner : generator) (file : option Z).

Definition gstep (g : generator) (o : gop) : option generator :=
  match o with
  | OAdd m => gen_add_mapping g m
  | OQuery l c => let* (g, _) := original_position_for g l c in Some g
  | OMap => let* (g, _) := gen_to_source_map g in Some g
  | OContent s c => Some (gen_set_source_content g s c)
  | OApply inner f => let* (g, _) := apply_source_map_generator g inner f in Some g
  end.

Fixpoint grun (g : generator) (h : list gop) : option generator :=
  match h with [] => Some g | o :: r => let* g := gstep g o in grun g r end.

Definition added (h : list gop) : list mapping :=
  flat_map (fun o => match o with OAdd m => [m] | _ => [] end) h.

Definition plain (o : gop) : Prop := match o with OApply _ _ => False | _ => True end.

(** Added mappings are valid (always so when the generator validates), applied
    generators well-formed. *)
Definition op_ok (o : gop) : Prop :=
  match o with OAdd m => valid m | OApply inner _ => gen_wf inner | _ => True end.

(** No mapping is added after another generator was applied. *)
Fixpoint orderly (applied : bool) (h : list gop) : Prop :=
  match h with
  | [] => True
  | OAdd _ :: r => applied = false /\ orderly applied r
  | OApply _ _ :: r => orderly true r
  | _ :: r => orderly applied r
  end.
