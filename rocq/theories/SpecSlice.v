(** All items of a loop over slices. *)
From Verif Require Import Base ModelString.

(** All items of a [for] loop over slices. *)
Fixpoint msplit_collect (fuel : nat) (it : msplit) : option (list slice) :=
  match fuel with
  | O => None
  | S f =>
      let* (it, o) := msplit_next it in
      match o with
      | None => Some []
      | Some x => let* l := msplit_collect f it in Some (x :: l)
      end
  end.
