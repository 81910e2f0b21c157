(** Regrouped expressions are the same objects on the side of wasm. *)
From Verif Require Import Base Tactics ModelString ModelSm ModelSources ModelTree ModelJs ModelJsApi ModelJsResult ModelEnd SpecRegroup.

Fixpoint build_all (c : cache) (l : list jexpr) : cache * list jtree :=
  match l with
  | [] => (c, [])
  | x :: r => let '(c, t) := build c x in let '(c, ts) := build_all c r in (c, t :: ts)
  end.
Lemma build_concat c l : build c (XConcat l) = (fst (build_all c l), JConcat (snd (build_all c l))).
Proof.
  cbn [build]. assert (E : forall l c, (fix go c l := match l with [] => (c, []) | x :: r => let '(c, t) := build c x in let '(c, ts) := go c r in (c, t :: ts) end) c l = build_all c l).
  { clear. induction l as [|x l IH]; intro c; [reflexivity|]. cbn [build_all]. destruct (build c x) as [c1 t]. now rewrite IH. }
  rewrite E. now destruct (build_all c l).
Qed.
Lemma build_all_app a b : forall c, build_all c (a ++ b) = (fst (build_all (fst (build_all c a)) b), snd (build_all c a) ++ snd (build_all (fst (build_all c a)) b)).
Proof.
  induction a as [|x a IH]; intro c; cbn [app build_all fst snd]; [now destruct (build_all c b)|].
  destruct (build c x) as [c1 t]. rewrite IH. destruct (build_all c1 a) as [c2 ts]. reflexivity.
Qed.

(** The objects: the same, or both made by wasm and the same there. *)
Definition compound (t : jtree) : Prop := match t with JPrefix _ _ | JEdit _ _ | JConcat _ => True | _ => False end.
Definition same_object (t t' : jtree) : Prop := t = t' \/ compound t /\ compound t' /\ import t = import t' /\ js_hash t = js_hash t'.
Lemma same_import t t' : same_object t t' -> import t = import t'.
Proof. intros [->|(_ & _ & H & _)]; auto. Qed.
Lemma same_hash t t' : same_object t t' -> js_hash t = js_hash t'.
Proof. intros [->|(_ & _ & _ & H)]; auto. Qed.

Definition hash_all : list jtree -> option jstr := fix go l := match l with [] => Some [] | x :: r => let* h := js_hash x in let* rest := go r in Some (h ++ rest) end.
Lemma hash_concat l : js_hash (JConcat l) = hash_all l.
Proof. reflexivity. Qed.
Lemma hash_app a b : hash_all (a ++ b) = let* x := hash_all a in let* y := hash_all b in Some (x ++ y).
Proof.
  induction a as [|t a IH]; [cbn [app hash_all bind]; now destruct (hash_all b)|]. cbn [app]. change (hash_all (t :: a ++ b)) with (let* h := js_hash t in let* rest := hash_all (a ++ b) in Some (h ++ rest)).
  change (hash_all (t :: a)) with (let* h := js_hash t in let* rest := hash_all a in Some (h ++ rest)). rewrite IH.
  destruct (js_hash t) as [h|]; [|reflexivity]. destruct (hash_all a) as [x|]; [|reflexivity]. destruct (hash_all b) as [y|]; [|reflexivity]. cbn [bind]. now rewrite app_assoc.
Qed.
Definition parts_of (t : tree) : list tree := match t with TConcat l => l | _ => [t] end.
Lemma added l : forall acc, fold_left concat_add l acc = acc ++ flat_map parts_of l.
Proof.
  induction l as [|t l IH]; intro acc; cbn [fold_left flat_map]; [now rewrite app_nil_r|]. rewrite IH.
  destruct t; cbn [concat_add parts_of]; now rewrite <- app_assoc.
Qed.
Lemma import_concat l : import (JConcat l) = TConcat (flat_map parts_of (map import l)).
Proof. cbn [import]. now rewrite added. Qed.

Lemma regrouped_built e e' : regrouped e e' -> forall c, fst (build c e) = fst (build c e') /\ same_object (snd (build c e)) (snd (build c e')).
Proof.
  induction 1 as [e|e e' _ IH|e e1 e2 _ IH1 _ IH2|a m b|a e e' b _ IH|p e e' _ IH|e e' h _ IH]; intro c.
  - split; [reflexivity|now left].
  - destruct (IH c) as [E S]. split; [now symmetry|]. destruct S as [->|(A & B & C & D)]; [now left|right; auto].
  - destruct (IH1 c) as [E1 S1]. destruct (IH2 c) as [E2 S2]. split; [congruence|]. destruct S1 as [->|(A & B & C & D)]; [exact S2|].
    destruct S2 as [<-|(A' & B' & C' & D')]; [right; auto|]. right. repeat (split; [assumption|]). split; congruence.
  - rewrite !build_concat. cbn [fst snd]. rewrite !build_all_app. cbn [fst snd build_all]. rewrite build_concat.
    destruct (build_all (fst (build_all c a)) m) as [c1 ms] eqn:Em. cbn [fst snd]. destruct (build_all c1 b) as [c2 bs]. cbn [fst snd].
    split; [reflexivity|]. right. split; [exact I|]. split; [exact I|]. split.
    + rewrite !import_concat, !map_app, !flat_map_app. cbn [map flat_map]. rewrite import_concat. cbn [parts_of]. reflexivity.
    + rewrite !hash_concat, !hash_app. destruct (hash_all (snd (build_all c a))) as [x|]; [|reflexivity]. cbn [bind].
      change (hash_all (JConcat ms :: bs)) with (let* h := js_hash (JConcat ms) in let* rest := hash_all bs in Some (h ++ rest)). now rewrite hash_concat.
  - rewrite !build_concat. cbn [fst snd]. rewrite !build_all_app. cbn [fst snd build_all]. destruct (IH (fst (build_all c a))) as [E S].
    destruct (build (fst (build_all c a)) e) as [c1 t]. destruct (build (fst (build_all c a)) e') as [c1' t']. cbn [fst snd] in E, S. subst c1'.
    destruct (build_all c1 b) as [c2 bs]. cbn [fst snd]. split; [reflexivity|]. right. split; [exact I|]. split; [exact I|]. split.
    + rewrite !import_concat, !map_app. cbn [map]. now rewrite (same_import t t' S).
    + rewrite !hash_concat, !hash_app. destruct (hash_all (snd (build_all c a))) as [x|]; [|reflexivity]. cbn [bind].
      change (hash_all (t :: bs)) with (let* h := js_hash t in let* rest := hash_all bs in Some (h ++ rest)).
      change (hash_all (t' :: bs)) with (let* h := js_hash t' in let* rest := hash_all bs in Some (h ++ rest)). now rewrite (same_hash t t' S).
  - destruct (IH c) as [E S]. cbn [build]. destruct (build c e) as [c1 t], (build c e') as [c1' t']. cbn [fst snd] in *. subst c1'. split; [reflexivity|].
    right. split; [exact I|]. split; [exact I|]. split; [cbn [import]; now rewrite (same_import t t' S)|cbn [js_hash]; now rewrite (same_hash t t' S)].
  - destruct (IH c) as [E S]. cbn [build]. destruct (build c e) as [c1 t], (build c e') as [c1' t']. cbn [fst snd] in *. subst c1'. split; [reflexivity|].
    assert (Ei : import (JEdit t h) = import (JEdit t' h)) by (cbn [import]; now rewrite (same_import t t' S)).
    right. split; [exact I|]. split; [exact I|]. split; [exact Ei|]. cbn [js_hash js_source]. now rewrite Ei.
Qed.

Theorem regrouped_same c e e' c1 c1' t t' : regrouped e e' -> build c e = (c1, t) -> build c e' = (c1', t') ->
  c1 = c1' /\ js_source t = js_source t' /\ js_size t = js_size t' /\ js_hash t = js_hash t' /\
  forall columns module, js_source_and_map columns module t = js_source_and_map columns module t'.
Proof.
  intros R B B'. destruct (regrouped_built e e' R c) as [E S]. rewrite B, B' in E, S. cbn [fst snd] in E, S. split; [exact E|].
  destruct S as [->|(C & C' & Ei & Eh)]; [repeat split|].
  destruct t; destruct C; destruct t'; destruct C'; cbn [js_source js_size js_source_and_map]; rewrite ?Ei; repeat (split; [first [reflexivity|exact Eh]|]); reflexivity.
Qed.
