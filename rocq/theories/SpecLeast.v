(** The least list of segments for an attributed text: a segment where the attribution
    changes along a line, lines starting without one. *)
From Verif Require Import Base SpecMap SpecAttr ModelJs ModelJsApi ModelJsResult.

Definition same_target (a b : option target) : {a = b} + {a <> b}.
Proof. repeat decide equality. Defined.

(** [cur] is what is known to the left of the place [p]. *)
Fixpoint changes (p : place) (cur : option target) (M : marked) : list (place * option target) :=
  match M with
  | [] => []
  | (c, a) :: r =>
      (if same_target a cur then [] else [(p, a)])
      ++ changes (advance p c) (if N.eqb c NL then None else a) r
  end.
Definition least (M : marked) : list (place * option target) := changes (1, 0)%Z None M.

(** Sources and names of the characters. *)
Definition srcs_of (M : marked) : list Z :=
  flat_map (fun x : char * option target => match snd x with Some (s, _, _) => [s] | None => [] end) M.
Definition names_of (M : marked) : list Z :=
  flat_map (fun x : char * option target => match snd x with Some (_, _, Some n) => [n] | _ => [] end) M.

Example least_ex :
  least (mark None (lit "x") ++ mark (Some (7, (3, 2), None))%Z (lit "ab" ++ NL :: lit "c")
         ++ mark None (lit "d" ++ [NL]) ++ mark (Some (7, (3, 2), None))%Z (lit "e")) =
  [((1, 1), Some (7, (3, 2), None)); ((2, 0), Some (7, (3, 2), None)); ((2, 1), None);
   ((3, 0), Some (7, (3, 2), None))]%Z.
Proof. reflexivity. Qed.

(** An array property of a result that is left out if it has no elements. *)
Definition list_value (l : list jstr) : jval := match l with [] => VUndef | _ => VArr (map Some l) end.
