(** Small proof automation shared by the proof files. *)
From Verif Require Import Base.
From Coq Require Export ZifyBool ZifyNat ZifyN.

Ltac inv H := inversion H; subst; clear H.

(** Case analysis on the discriminee of the first [match]/[if] found in the goal. *)
Ltac case_match :=
  match goal with
  | |- context [match ?x with _ => _ end] =>
      lazymatch x with
      | context [match _ with _ => _ end] => fail
      | _ => destruct x eqn:?
      end
  end.
Ltac case_match_in H :=
  match type of H with
  | context [match ?x with _ => _ end] =>
      lazymatch x with
      | context [match _ with _ => _ end] => fail
      | _ => destruct x eqn:?
      end
  end.

Lemma bind_some {A B} (m : option A) (f : A -> option B) b :
  bind m f = Some b -> exists a, m = Some a /\ f a = Some b.
Proof. destruct m; simpl; [eauto|discriminate]. Qed.

(** Destructs hypotheses of the form [let* p := m in k = Some _]. *)
Ltac unbind H :=
  let a := fresh "v" in let E := fresh "E" in
  apply bind_some in H; destruct H as (a & E & H).
Ltac unbinds := repeat match goal with
  | H : bind _ _ = Some _ |- _ => unbind H
  | p : _ * _ |- _ => destruct p
  end.

#[global] Arguments Z.shiftl : simpl never.
#[global] Arguments Z.shiftr : simpl never.
#[global] Arguments Z.mul : simpl never.
#[global] Arguments Z.add : simpl never.
#[global] Arguments Z.sub : simpl never.
#[global] Arguments N.add : simpl never.
#[global] Arguments N.sub : simpl never.
#[global] Arguments N.mul : simpl never.
