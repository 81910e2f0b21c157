(** The contents given in a history of a generator. *)
From Verif Require Import Base ModelSm SpecGen.

(** The contents given for [s] in a history, since the last removal, first ones first. *)
Definition given_since (h : list gop) (s : Z) : list Z :=
  fold_left (fun l o =>
    match o with
    | OContent s' (Some c) => if Z.eqb s s' then l ++ [c] else l
    | OContent s' None => if Z.eqb s s' then [] else l
    | OApply inner _ => l ++ opt_list (al_get (g_contents inner) s)
    | _ => l
    end) h [].
