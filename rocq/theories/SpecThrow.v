(** Which calls of a program throw: by what its objects hold. *)
From Verif Require Import Base ModelString ModelVlq ModelSm ModelSlm ModelSources ModelTree ModelWasm
  ModelJs ModelJsApi ModelJsResult ModelEnd SpecEnd ModelJsProg SpecProg.
Require Import Relations.

(** Object [i] has [a] as a part. *)
Definition holds (vs : list sobj) (i : nat) (a : jarg) : Prop :=
  match nth_error vs i with
  | Some (VPrefix _ b) | Some (VEdit b _) => a = b
  | Some (VConcat l _) => In a l
  | Some (VSame j) => a = ArgObj j
  | Some (VLeaf _) | None => False
  end.
Definition part (vs : list sobj) (i j : nat) : Prop := holds vs i (ArgObj j).
(** It, or a part of it at any depth, is a part of itself. *)
Definition contains_itself (vs : list sobj) (i : nat) : Prop :=
  exists j, clos_refl_trans nat (part vs) i j /\ clos_trans nat (part vs) j j.

Definition given (vs : list sobj) (a : jarg) : Prop := match a with ArgStr _ => True | ArgObj i => i < length vs end.
(** [a] is object [i], or a CachedSource around it, or one around that, and so on. *)
Definition is_object (vs : list sobj) (i : nat) (a : jarg) : Prop :=
  match a with ArgStr _ => False | ArgObj k => wraps vs k i end.

Definition allowed (vs : list sobj) (op : jop) : Prop :=
  match op with
  | ONewRaw _ | ONewOriginal _ _ | ONewL2L _ _ _ | ONewSms _ _ _ _ _ | OIntern _ _ => True
  | ONewPrefix _ a | ONewReplace a => given vs a
  | ONewConcat l => Forall (given vs) l
  | ONewCached j => j < length vs
  | OAdd i a => (exists l g, nth_error vs i = Some (VConcat l g)) /\ given vs a /\ ~ is_object vs i a
  | OReplaceAt i _ _ _ | OInsertAt i _ _ => exists a l, nth_error vs i = Some (VEdit a l)
  | OSource i | OSize i => i < length vs /\ ~ contains_itself vs i
  | OMap i _ _ => i < length vs /\ ~ contains_itself vs i /\ fresh_reads vs i
  | OHash _ _ => False
  end.

(** Calls after which maps can be asked for: no string directly in a PrefixSource or
    ReplaceSource, sound maps. *)
Definition good_op (op : jop) : Prop :=
  match op with
  | ONewPrefix _ (ArgStr _) | ONewReplace (ArgStr _) => False
  | ONewSms _ _ m _ inner => sound_map m /\ match inner with Some i => sound_map i | None => True end
  | _ => True
  end.

(** Every call is allowed when it comes. *)
Fixpoint allowed_run (vs : list sobj) (ops : list jop) : Prop :=
  match ops with
  | [] => True
  | op :: r => allowed vs op /\ allowed_run (spec_step vs op) r
  end.
(** The same by the kinds of the objects alone, if what is added never contains what it is
    added to. *)
Definition proper (vs : list sobj) (op : jop) : Prop :=
  match op with
  | OAdd i a => (exists l g, nth_error vs i = Some (VConcat l g)) /\ given vs a /\
      forall k, a = ArgObj k -> ~ clos_refl_trans nat (part vs) k i
  | OSource i | OSize i => i < length vs
  | OMap i _ _ => i < length vs /\ fresh_reads vs i
  | _ => allowed vs op
  end.
Fixpoint proper_run (vs : list sobj) (ops : list jop) : Prop :=
  match ops with
  | [] => True
  | op :: r => proper vs op /\ proper_run (spec_step vs op) r
  end.
(** Not a call whose answer a CachedSource may remember; not updateHash. *)
Definition unremembered (vs : list sobj) (op : jop) : Prop :=
  match op with
  | OHash _ _ => False
  | OSource i | OSize i => fresh_reads vs i
  | _ => True
  end.

(** updateHash of object [i] calls updateHash of [a]: a sequence has not forgotten the sequences
    it was given. *)
Definition feeds (vs : list sobj) (i : nat) (a : jarg) : Prop :=
  match nth_error vs i with
  | Some (VPrefix _ b) => a = b
  | Some (VConcat _ g) => In a g
  | Some (VSame j) => a = ArgObj j
  | Some (VEdit _ _) | Some (VLeaf _) | None => False
  end.
Definition fed (vs : list sobj) (i j : nat) : Prop := feeds vs i (ArgObj j).
(** It comes to itself, or to a ReplaceSource, whose text it needs, that contains itself. *)
Definition hash_loops (vs : list sobj) (i : nat) : Prop :=
  exists j, clos_refl_trans nat (fed vs) i j /\
    (clos_trans nat (fed vs) j j \/ (exists a l, nth_error vs j = Some (VEdit a l)) /\ contains_itself vs j).
(** What is added to a sequence does not feed that sequence. *)
Definition unfed (vs : list sobj) (op : jop) : Prop :=
  match op with OAdd i a => forall k, a = ArgObj k -> ~ clos_refl_trans nat (fed vs) k i | _ => True end.
Fixpoint unfed_run (vs : list sobj) (ops : list jop) : Prop :=
  match ops with
  | [] => True
  | op :: r => unfed vs op /\ unfed_run (spec_step vs op) r
  end.
