(** A source node as a list of chunks, and as a marked text. *)
From Verif Require Import Base ModelSm SpecMap SpecAttr.

Definition ple (a b : place) : Prop := (fst a < fst b \/ (fst a = fst b /\ snd a <= snd b))%Z.

Definition attr_of (src : option Z) (pos : option pos2) (name : option Z) : option target :=
  match src, pos with
  | Some s, Some (l, c) => Some (s, (Z.of_N l, Z.of_N c), name)
  | _, _ => None
  end.

(** A leaf: its text and the source, position and name of its parent. *)
Definition leaf := (str * option Z * option pos2 * option Z)%type.

Fixpoint leaves_in (src : option Z) (pos : option pos2) (name : option Z) (n : smnode) : list leaf :=
  match n with
  | SmStr s => [(s, src, pos, name)]
  | SmNode pos src name ch _ => flat_map (leaves_in src pos name) ch
  end.

Definition leaves (n : smnode) : list leaf := leaves_in None None None n.

Definition flat_leaf (x : leaf) : marked :=
  match x with (s, src, pos, name) => mark (attr_of src pos name) s end.

Definition flat_leaves (l : list leaf) : marked := flat_map flat_leaf l.

Definition flat (n : smnode) : marked := flat_leaves (leaves n).

Definition leaf_ok (x : leaf) : Prop :=
  match x with
  | (s, Some _, Some (l, _), _) => s <> [] /\ (0 < l)%N
  | _ => True
  end.
