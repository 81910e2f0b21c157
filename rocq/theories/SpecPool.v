(** Vocabulary for the ownership of wasm objects. *)
From Verif Require Import Base ModelJs ModelPool.

(** The sources handed to a call. *)
Definition handed (op : pop) : list nat :=
  match op with
  | PNewPooled args | PNewConcat args | PCall _ args => args
  | _ => []
  end.
(** A step that neither frees a RawSource by hand nor hands over a RawSource made before the
    last clear(), i.e. one with a number below base. *)
Definition careful (base : nat) (s : pstate) (op : pop) : Prop :=
  Forall (fun o => kind_of s o = KRaw -> base <= o) (handed op) /\
  match op with PFree o => kind_of s o <> KRaw | _ => True end.
Definition next_base (base : nat) (s : pstate) (op : pop) : nat :=
  match op with PClear => length (ps_objs s) | _ => base end.
Fixpoint careful_run (base : nat) (s : pstate) (l : list pop) : Prop :=
  match l with
  | [] => True
  | op :: r => careful base s op /\ forall s' e, pstep s op = Some (s', e) -> careful_run (next_base base s op) s' r
  end.

(** The texts of the RawSources made in a history. *)
Definition raw_values (l : list pop) : list jstr :=
  flat_map (fun op => match op with PNewRaw v => [v] | _ => [] end) l.

(** No exception, and no node() or listMap() by the user. *)
Fixpoint plain_run (s : pstate) (l : list pop) : Prop :=
  match l with
  | [] => True
  | op :: r => (forall o, op <> PNode o) /\ forall s' e, pstep s op = Some (s', e) -> e = Done /\ plain_run s' r
  end.
