(** The contents of a source over a history of a generator: the first one since the last removal. *)
From Verif Require Import Base Tactics ModelString ModelVlq ModelSm GenFacts NodeFacts IdxFacts ContentFacts.
From Verif Require Export SpecGiven.

(** ** Histories *)
Lemma remove_same {A} (l : list (Z * A)) k : NoDup (map fst l) -> al_get (al_remove l k) k = None.
Proof.
  induction l as [|[k' v] l IH]; intro N; [reflexivity|]. inversion N as [|? ? N1 N2]; subst. cbn [al_remove]. destruct (Z.eqb_spec k k') as [->|Hk].
  - clear - N1. induction l as [|[a b] l IH]; [reflexivity|]. cbn [al_get map fst In] in *. destruct (Z.eqb_spec k' a) as [->|]; [exfalso; apply N1; now left|]. apply IH. tauto.
  - cbn [al_get]. apply Z.eqb_neq in Hk. rewrite Hk. auto.
Qed.
Lemma remove_nodup {A} (l : list (Z * A)) k : NoDup (map fst l) -> NoDup (map fst (al_remove l k)).
Proof.
  assert (I : forall (l : list (Z * A)) x, In x (map fst (al_remove l k)) -> In x (map fst l)).
  { clear. induction l as [|[a b] l IH]; intros x H; [destruct H|]. cbn [al_remove] in H. destruct (Z.eqb k a); [now right|]. destruct H as [<-|H]; [now left|right; auto]. }
  induction l as [|[a b] l IH]; intro N; [constructor|]. inversion N as [|? ? N1 N2]; subst. cbn [al_remove]. destruct (Z.eqb k a); [exact N2|].
  cbn [map fst]. constructor; [intro H; apply N1; now apply I|auto].
Qed.
Lemma get_none {A} (l : list (Z * A)) k : al_get l k = None <-> ~ In k (map fst l).
Proof.
  induction l as [|[a b] l IH]; cbn [al_get map fst In]; [tauto|]. destruct (Z.eqb_spec k a) as [->|N]; [|rewrite IH; intuition congruence].
  split; [discriminate|]. intro H. exfalso. apply H. now left.
Qed.
Lemma insert_nodup {A} (l : list (Z * A)) k v : NoDup (map fst l) -> NoDup (map fst (al_or_insert l k v)).
Proof.
  intro N. unfold al_or_insert. destruct (al_get l k) eqn:E; [exact N|]. rewrite map_app. cbn [map fst]. apply get_none in E.
  apply NoDup_Add with (a := k) (l := map fst l); [|split; [exact N|exact E]]. pose proof (Add_app k (map fst l) []) as Ad. now rewrite app_nil_r in Ad.
Qed.
Lemma insert_all_nodup ct : forall g, NoDup (map fst (g_contents g)) -> NoDup (map fst (g_contents (fold_left (fun g '(s, c) => gen_set_source_content g s (Some c)) ct g))).
Proof. induction ct as [|[s c] ct IH]; intros g N; [exact N|]. cbn [fold_left]. apply IH. cbn. now apply insert_nodup. Qed.
Lemma apply_nodup g inner file g' inner' : apply_source_map_generator g inner file = Some (g', inner') -> NoDup (map fst (g_contents g)) -> NoDup (map fst (g_contents g')).
Proof.
  intros E N. unfold apply_source_map_generator in E. unb E as f Ef. unb E as [inner2 l] El. injection E as <- _. apply insert_all_nodup.
  rewrite fold_name_contents. cbn [gen_set_names g_contents]. rewrite fold_source_contents. destruct l; exact N.
Qed.
Lemma map_keeps_contents g g' m : gen_to_source_map g = Some (g', m) -> g_contents g' = g_contents g /\ map_contents m = collect_contents (map_sources m) (g_contents g).
Proof. unfold gen_to_source_map, serialize_mappings. intro E. cbv zeta in E. unb E as [g1 b] E1. unb E1 as x E2. injection E1 as <- <-. injection E as <- <-. split; reflexivity. Qed.
Lemma query_keeps_contents g l c g' m : original_position_for g l c = Some (g', m) -> g_contents g' = g_contents g.
Proof.
  unfold original_position_for. intro E. cbv zeta in E. destruct (binary_search_by _ _) as [i|[|i]]; [|now injection E as <- _|];
    (unb E as x Ex; destruct (_ =? _)%N; injection E as <- _; reflexivity).
Qed.
Lemma history_contents h : forall g g' (R : Z -> list Z), grun g h = Some g' -> NoDup (map fst (g_contents g)) ->
  (forall s, al_get (g_contents g) s = hd_error (R s)) ->
  forall s, al_get (g_contents g') s = hd_error (fold_left (fun l o =>
    match o with
    | OContent s' (Some c) => if Z.eqb s s' then l ++ [c] else l
    | OContent s' None => if Z.eqb s s' then [] else l
    | OApply inner _ => l ++ opt_list (al_get (g_contents inner) s)
    | _ => l
    end) h (R s)).
Proof.
  assert (Hd : forall (l k : list Z), hd_error (l ++ k) = match hd_error l with Some v => Some v | None => hd_error k end) by (intros [|x l] k; reflexivity).
  induction h as [|o h IH]; intros g g' R E N H; cbn [grun] in E; [injection E as <-; exact H|]. unb E as g1 E1. cbn [fold_left].
  destruct o as [m|l c| |z [c|]|inner f]; cbn [gstep] in E1.
  - apply (IH g1 g' R E); rewrite (add_mapping_contents _ _ _ E1); auto.
  - unb E1 as [g2 x] E2. injection E1 as <-. apply (IH g2 g' R E); rewrite (query_keeps_contents _ _ _ _ _ E2); auto.
  - unb E1 as [g2 x] E2. injection E1 as <-. apply (IH g2 g' R E); rewrite (proj1 (map_keeps_contents _ _ _ E2)); auto.
  - injection E1 as <-. apply (IH _ g' (fun s => if Z.eqb s z then R s ++ [c] else R s) E); cbn [gen_set_source_content gen_set_contents g_contents]; [now apply insert_nodup|].
    intro s. rewrite or_insert_get, al_get_app, H. cbn [al_get]. destruct (Z.eqb_spec s z) as [->|Hs]; [now rewrite Hd|]. destruct (hd_error (R s)); reflexivity.
  - injection E1 as <-. apply (IH _ g' (fun s => if Z.eqb s z then [] else R s) E); cbn [gen_set_source_content gen_set_contents g_contents]; [now apply remove_nodup|].
    intro s. destruct (Z.eqb_spec s z) as [->|Hs]; [now apply remove_same|]. now rewrite remove_get.
  - unb E1 as [g2 x] E2. injection E1 as <-. apply (IH g2 g' (fun s => R s ++ opt_list (al_get (g_contents inner) s)) E); [eapply apply_nodup; eauto|].
    intro s. rewrite (apply_contents_get _ _ _ _ _ E2), al_get_app, H, Hd. destruct (hd_error (R s)); [reflexivity|]. destruct (al_get (g_contents inner) s); reflexivity.
Qed.
Theorem contents_given_since file root skip h g g' m : grun (gen_new file root skip) h = Some g -> gen_to_source_map g = Some (g', m) ->
  map_contents m = flat_map (fun s => opt_list (hd_error (given_since h s))) (map_sources m).
Proof.
  intros Eh Em. rewrite (proj2 (map_keeps_contents _ _ _ Em)). pose proof (history_contents h _ _ (fun _ => []) Eh (NoDup_nil _) (fun _ => eq_refl)) as C.
  induction (map_sources m) as [|s l IH]; [reflexivity|]. cbn [collect_contents flat_map]. unfold given_since at 1. rewrite <- C, IH. destruct (al_get (g_contents g) s); reflexivity.
Qed.
