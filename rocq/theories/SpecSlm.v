(** What a line map uses. *)
From Verif Require Import Base ModelSlm ModelTree.

(** The sources of the pieces that have text, with the content given there. *)
Definition node_uses (n : slm_node) : list (Z * option Z) :=
  match n with
  | LSource p | LSingle p =>
      match pc_code p, pc_src p with [], _ => [] | _, Some s => [(s, pc_orig p)] | _, None => [] end
  | _ => []
  end.

Definition uses (m : slm) : list (Z * option Z) := flat_map node_uses m.

Definition named (n : slm_node) : Prop :=
  match n with LSource p | LSingle p => pc_code p <> [] -> pc_src p <> None | _ => True end.

(** The content given with the first use of a source. *)
Definition content_of (u : list (Z * option Z)) (s : Z) : option Z :=
  match find (fun x => (fst x =? s)%Z) u with Some (_, o) => o | None => None end.

Definition is_string (n : slm_node) : bool := match n with LStr _ => true | _ => false end.

Fixpoint no_prefix (t : tree) : Prop :=
  match t with
  | TPrefix _ _ | TReplace _ _ => False
  | TConcat l =>
      (fix all (l : list tree) : Prop := match l with [] => True | x :: r => no_prefix x /\ all r end) l
  | _ => True
  end.
