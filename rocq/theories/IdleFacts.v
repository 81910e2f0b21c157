(** Nodes up to nesting of nodes that say nothing. *)
From Verif Require Import Base Tactics ModelString ModelSm ModelSources ModelTree NodeFacts.

Definition hollow (p : option pos2) (s n : option Z) (ct : list (Z * Z)) : bool :=
  match p, s, n, ct with None, None, None, [] => true | _, _, _, _ => false end.
Lemma hollow_inv p s n ct : hollow p s n ct = true -> p = None /\ s = None /\ n = None /\ ct = [].
Proof. destruct p, s, n, ct; try discriminate. auto. Qed.
Fixpoint melt (n : smnode) : list smnode :=
  match n with
  | SmStr s => [SmStr s]
  | SmNode p s nm ch ct => if hollow p s nm ct then flat_map melt ch else [SmNode p s nm ch ct]
  end.
Lemma melt_melt n : flat_map melt (melt n) = melt n.
Proof.
  induction n as [s|p s nm ch ct IH] using smnode_ind'; [reflexivity|]. cbn [melt]. destruct (hollow p s nm ct) eqn:H; [|cbn [flat_map melt]; now rewrite H].
  induction IH as [|x l Hx _ IHl]; [reflexivity|]. cbn [flat_map]. now rewrite flat_map_app, Hx, IHl.
Qed.

(** ** Walking *)
Fixpoint walks (l : list smnode) (cx : ctx) : option ctx :=
  match l with [] => Some cx | x :: r => let* cx := walk_node None None None x cx in walks r cx end.
Lemma walks_app a b cx : walks (a ++ b) cx = let* cx := walks a cx in walks b cx.
Proof. revert cx. induction a as [|x a IH]; intro cx; [reflexivity|]. cbn [app walks]. destruct (walk_node None None None x cx); [apply IH|reflexivity]. Qed.
Lemma walk_melt n : forall cx, walk_node None None None n cx = walks (melt n) cx.
Proof.
  induction n as [s|p s nm ch ct IH] using smnode_ind'; intro cx; [cbn [melt walks]; now destruct (walk_node None None None (SmStr s) cx)|].
  cbn [melt]. destruct (hollow p s nm ct) eqn:H; [|cbn [walks]; now destruct (walk_node _ _ _ _ cx)].
  apply hollow_inv in H as (-> & -> & -> & ->). cbn [walk_node].
  assert (G : forall cx, (fix go (l : list smnode) (cx : ctx) : option ctx :=
           match l with [] => Some cx | x :: r => let* cx := walk_node None None None x cx in go r cx end) ch cx = walks (flat_map melt ch) cx).
  { induction IH as [|x l Hx _ IHl]; intro c; [reflexivity|]. cbn [flat_map]. rewrite walks_app, Hx. destruct (walks (melt x) c) as [c1|]; [apply IHl|reflexivity]. }
  rewrite G. destruct (walks (flat_map melt ch) cx); reflexivity.
Qed.
Lemma walk_like n n' cx : melt n = melt n' -> walk n cx = walk n' cx.
Proof. intro H. unfold walk. now rewrite !walk_melt, H. Qed.

(** ** Prefixing *)
Fixpoint clones (p : str) (l : list smnode) (a : Z) : option (list smnode * Z) :=
  match l with
  | [] => Some ([], a)
  | x :: r => let* (x, a) := clone_and_prefix x p a in let* (r, a) := clones p r a in Some (x :: r, a)
  end.
Lemma clone_node pos s nm ch ct p a : clone_and_prefix (SmNode pos s nm ch ct) p a = let* (ch, a) := clones p ch a in Some (SmNode pos s nm ch ct, a).
Proof.
  cbn [clone_and_prefix]. assert (G : forall l a, (fix go (l : list smnode) (append : Z) : option (list smnode * Z) :=
           match l with [] => Some ([], append) | x :: r => let* (x, append) := clone_and_prefix x p append in let* (r, append) := go r append in Some (x :: r, append) end) l a = clones p l a).
  { induction l as [|x l IH]; intro b; [reflexivity|]. cbn [clones]. destruct (clone_and_prefix x p b) as [[x' b']|]; [|reflexivity]. cbn [bind]. now rewrite IH. }
  now rewrite G.
Qed.
Lemma clones_app p x y a : clones p (x ++ y) a = let* (x, a) := clones p x a in let* (y, a) := clones p y a in Some (x ++ y, a).
Proof.
  revert a. induction x as [|n x IH]; intro a; cbn [app clones bind]; [destruct (clones p y a) as [[? ?]|]; reflexivity|].
  destruct (clone_and_prefix n p a) as [[n' a1]|]; [|reflexivity]. cbn [bind]. rewrite IH. destruct (clones p x a1) as [[x' a2]|]; [|reflexivity]. cbn [bind].
  destruct (clones p y a2) as [[? ?]|]; reflexivity.
Qed.
Lemma clone_melt n p : forall a, clones p (melt n) a = let* (n, a) := clone_and_prefix n p a in Some (melt n, a).
Proof.
  induction n as [s|pos s nm ch ct IH] using smnode_ind'; intro a.
  - cbn [melt clones]. cbn [clone_and_prefix]. destruct (0 <? a)%Z; destruct (make_prefixed_string s p _); reflexivity.
  - rewrite clone_node. cbn [melt]. destruct (hollow pos s nm ct) eqn:H.
    + assert (G : forall a, clones p (flat_map melt ch) a = let* (ch, a) := clones p ch a in Some (flat_map melt ch, a)).
      { induction IH as [|x l Hx _ IHl]; intro b; [reflexivity|]. cbn [flat_map clones]. rewrite clones_app, Hx. destruct (clone_and_prefix x p b) as [[x' b']|]; [|reflexivity].
        cbn [bind]. rewrite IHl. destruct (clones p l b') as [[? ?]|]; reflexivity. }
      rewrite G. destruct (clones p ch a) as [[ch' a']|]; [|reflexivity]. cbn [bind melt]. now rewrite H.
    + cbn [clones]. rewrite clone_node. destruct (clones p ch a) as [[ch' a']|]; [|reflexivity]. cbn [bind melt]. now rewrite H.
Qed.
Definition option_rel {A} (R : A -> A -> Prop) (o o' : option A) : Prop :=
  match o, o' with Some x, Some y => R x y | None, None => True | _, _ => False end.
Lemma clone_like n n' p a : melt n = melt n' -> option_rel (fun x y => melt (fst x) = melt (fst y) /\ snd x = snd y) (clone_and_prefix n p a) (clone_and_prefix n' p a).
Proof.
  intro H. pose proof (clone_melt n p a) as E. pose proof (clone_melt n' p a) as E'. rewrite H in E. rewrite E in E'.
  destruct (clone_and_prefix n p a) as [[x b]|], (clone_and_prefix n' p a) as [[x' b']|]; try discriminate; [|exact I]. cbn [bind] in E'. injection E' as E1 E2. split; [exact E1|exact E2].
Qed.

(** ** Cutting *)
Fixpoint splits (l : list smnode) (s : bool) (pos : Z) (L R : list smnode) : option (bool * Z * list smnode * list smnode) :=
  match l with
  | [] => Some (s, pos, L, R)
  | x :: r =>
      if negb s then
        let* o := split_sourcenode x pos in
        match o with
        | NOk a b => splits r true pos (L ++ [a]) (R ++ [b])
        | NErr pos x => splits r false pos (L ++ [x]) R
        end
      else splits r true pos L (R ++ [x])
  end.
Lemma split_node p s nm ch ct pos : split_sourcenode (SmNode p s nm ch ct) pos =
  let* (sp, pos, L, R) := splits ch false pos [] [] in
  if (sp : bool) then Some (NOk (SmNode p s nm L ct) (SmNode p s nm R [])) else Some (NErr pos (SmNode p s nm L ct)).
Proof.
  cbn [split_sourcenode].
  assert (G : forall l s pos L R, (fix go (l : list smnode) (is_split : bool) (pos : Z) (lefts rights : list smnode)
           : option (bool * Z * list smnode * list smnode) :=
           match l with
           | [] => Some (is_split, pos, lefts, rights)
           | x :: r =>
               if negb is_split then
                 let* o := split_sourcenode x pos in
                 match o with
                 | NOk a b => go r true pos (lefts ++ [a]) (rights ++ [b])
                 | NErr pos x => go r false pos (lefts ++ [x]) rights
                 end
               else go r true pos lefts (rights ++ [x])
           end) l s pos L R = splits l s pos L R).
  { induction l as [|x l IH]; intros s0 q L R; [reflexivity|]. cbn [splits]. destruct s0; cbn [negb]; [apply IH|]. destruct (split_sourcenode x q) as [[?|?]|]; cbn [bind]; [apply IH|apply IH|reflexivity]. }
  rewrite G. destruct (splits ch false pos [] []) as [[[[sp q] L] R]|]; reflexivity.
Qed.
Lemma splits_true l pos L R : splits l true pos L R = Some (true, pos, L, R ++ l).
Proof. revert R. induction l as [|x l IH]; intro R; cbn [splits negb]; [now rewrite app_nil_r|]. rewrite IH, <- app_assoc. reflexivity. Qed.
Lemma splits_acc l s pos L R : splits l s pos L R = let* (s, pos, A, B) := splits l s pos [] [] in Some (s, pos, L ++ A, R ++ B).
Proof.
  assert (G : forall l s pos L R L0 R0, splits l s pos (L0 ++ L) (R0 ++ R) = let* (s, pos, A, B) := splits l s pos L R in Some (s, pos, L0 ++ A, R0 ++ B)).
  { clear. induction l as [|x l IH]; intros s pos L R L0 R0; [reflexivity|]. cbn [splits]. destruct s; cbn [negb].
    - rewrite <- app_assoc. apply IH.
    - destruct (split_sourcenode x pos) as [[a b|q y]|]; cbn [bind]; [|..|reflexivity]; rewrite <- !app_assoc; apply IH. }
  pose proof (G l s pos [] [] L R) as H. now rewrite !app_nil_r in H.
Qed.
Lemma splits_app a b s pos L R : splits (a ++ b) s pos L R = let* (s, pos, L, R) := splits a s pos L R in splits b s pos L R.
Proof.
  revert s pos L R. induction a as [|x a IH]; intros s pos L R; [reflexivity|]. cbn [app splits]. destruct s; cbn [negb]; [apply IH|].
  destruct (split_sourcenode x pos) as [[u v|q y]|]; cbn [bind]; [apply IH|apply IH|reflexivity].
Qed.
Definition cut_rel (o : option node_split) (o' : option (bool * Z * list smnode * list smnode)) : Prop :=
  match o, o' with
  | Some (NOk l r), Some (true, _, L, R) => melt l = flat_map melt L /\ melt r = flat_map melt R
  | Some (NErr q x), Some (false, q', L, R) => q = q' /\ melt x = flat_map melt L /\ R = []
  | None, None => True
  | _, _ => False
  end.
Lemma split_melt n : forall pos, cut_rel (split_sourcenode n pos) (splits (melt n) false pos [] []).
Proof.
  assert (One : forall x pos, cut_rel (split_sourcenode x pos) (splits [x] false pos [] [])).
  { intros x pos. cbn [splits negb]. destruct (split_sourcenode x pos) as [[a b|q y]|]; cbn [bind cut_rel app flat_map]; rewrite ?app_nil_r; auto. }
  induction n as [s|p s nm ch ct IH] using smnode_ind'; intro pos; [apply One|]. cbn [melt]. destruct (hollow p s nm ct) eqn:H; [|apply One].
  apply hollow_inv in H as (-> & -> & -> & ->). rewrite split_node.
  assert (G : forall s pos pos' L R L' R', (s = false -> pos = pos') -> (s = false -> R = [] /\ R' = []) -> flat_map melt L = flat_map melt L' -> flat_map melt R = flat_map melt R' ->
    match splits ch s pos L R, splits (flat_map melt ch) s pos' L' R' with
    | Some (s, p, L, R), Some (s', p', L', R') => s = s' /\ (s = false -> p = p') /\ (s = false -> R = [] /\ R' = []) /\ flat_map melt L = flat_map melt L' /\ flat_map melt R = flat_map melt R'
    | None, None => True | _, _ => False end).
  { induction IH as [|x l Hx _ IHl]; intros s q q' L R L' R' Ep Er EL ER; [cbn [splits flat_map]; auto|].
    cbn [flat_map]. rewrite splits_app. cbn [splits]. destruct s; cbn [negb].
    - rewrite (splits_true (melt x)). cbn [bind]. apply IHl; try discriminate; [exact EL|]. rewrite !flat_map_app, ER, melt_melt. cbn [flat_map]. now rewrite app_nil_r.
    - rewrite (splits_acc (melt x)). rewrite <- (Ep eq_refl). destruct (Er eq_refl) as [-> ->]. specialize (Hx q). 
      destruct (split_sourcenode x q) as [[a b|q1 y]|], (splits (melt x) false q [] []) as [[[[sp q2] A] B]|]; cbn [cut_rel bind] in *; try contradiction; try exact I.
      + destruct sp; [|contradiction]. destruct Hx as [Ha Hb]. apply IHl; try discriminate; rewrite !flat_map_app; cbn [flat_map app]; rewrite app_nil_r; congruence.
      + destruct sp; [contradiction|]. destruct Hx as (Eq & Hy & ->). apply IHl; [intros _; exact Eq|auto| |reflexivity]. rewrite !flat_map_app. cbn [flat_map]. rewrite app_nil_r. congruence. }
  specialize (G false pos pos [] [] [] [] (fun _ => eq_refl) (fun _ => conj eq_refl eq_refl) eq_refl eq_refl).
  destruct (splits ch false pos [] []) as [[[[sp q] L] R]|], (splits (flat_map melt ch) false pos [] []) as [[[[sp' q'] L'] R']|]; cbn [bind]; try contradiction; [|exact I].
  destruct G as (<- & Eq & Er & EL & ER). destruct sp; cbn [cut_rel melt hollow]; [auto|]. split; [auto|]. split; [exact EL|]. now apply Er.
Qed.
Lemma split_like n n' pos : melt n = melt n' ->
  match split_sourcenode n pos, split_sourcenode n' pos with
  | Some (NOk l r), Some (NOk l' r') => melt l = melt l' /\ melt r = melt r'
  | Some (NErr q x), Some (NErr q' x') => melt x = melt x'
  | None, None => True
  | _, _ => False
  end.
Proof.
  intro H. pose proof (split_melt n pos) as E. pose proof (split_melt n' pos) as E'. rewrite H in E.
  destruct (split_sourcenode n pos) as [[l r|q x]|], (split_sourcenode n' pos) as [[l' r'|q' x']|], (splits (melt n') false pos [] []) as [[[[[|] q0] L] R]|]; cbn [cut_rel] in *; try contradiction; try exact I.
  - destruct E, E'. split; congruence.
  - destruct E as (_ & E & _), E' as (_ & E' & _). congruence.
Qed.
