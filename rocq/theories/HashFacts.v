(** Proofs about updateHash. *)
From Verif Require Import Base Tactics ModelString ModelSm ModelSources ModelTree ModelJs ModelJsApi SpecText SpecMap SpecAttr SpecHash.

Fixpoint hash_all (l : list jtree) : option jstr :=
  match l with
  | [] => Some []
  | x :: r => let* h := js_hash x in let* rest := hash_all r in Some (h ++ rest)
  end.
Lemma hash_concat l : js_hash (JConcat l) = hash_all l.
Proof.
  cbn [js_hash]. induction l as [|x r IH]; [reflexivity|]. cbn [hash_all]. rewrite <- IH. reflexivity.
Qed.
Lemma hash_all_app l r : hash_all (l ++ r) = let* a := hash_all l in let* b := hash_all r in Some (a ++ b).
Proof.
  induction l as [|x l IH]; cbn [hash_all app].
  - cbn. now destruct (hash_all r).
  - rewrite IH. destruct (js_hash x); cbn; [|reflexivity]. destruct (hash_all l); cbn; [|reflexivity].
    destruct (hash_all r); cbn; [|reflexivity]. now rewrite app_assoc.
Qed.
Lemma hash_edit t h : js_hash (JEdit t h) = js_source (JEdit t h).
Proof. reflexivity. Qed.

Lemma hash_notices t t' : one_change t t' ->
  forall h h', js_hash t = Some h -> js_hash t' = Some h' -> h <> h'.
Proof.
  induction 1 as [s s' N|s s' N|s s' i i' n N|s s' n i o N|s n i i' o o' N|s s' i i' n d o m N|s i n d o o' m N|p p' t N|t c t' c' N|p t t' C IH|l t t' r C IH];
    intros h h' E E'.
  1-7: cbn [js_hash] in E, E'; injection E as <-; injection E' as <-; try exact N.
  1-4: intro Q; first [apply app_inv_tail in Q; exact (N Q)|apply app_inv_head in Q; exact (N Q)].
  - cbn [js_hash] in E, E'. destruct (js_hash t) as [a|]; cbn in E, E'; [|discriminate].
    injection E as <-. injection E' as <-. intro Q. apply app_inv_head in Q. now apply N.
  - rewrite hash_edit in E, E'. rewrite E, E' in N. intro Q. apply N. now rewrite Q.
  - cbn [js_hash] in E, E'. destruct (js_hash t) as [a|]; cbn in E; [|discriminate].
    destruct (js_hash t') as [b|]; cbn in E'; [|discriminate].
    injection E as <-. injection E' as <-. intro Q. apply app_inv_tail in Q. now apply (IH a b).
  - rewrite hash_concat, hash_all_app in E, E'. cbn [hash_all] in E, E'.
    destruct (hash_all l) as [a|]; cbn in E, E'; [|discriminate].
    destruct (js_hash t) as [b|]; cbn in E; [|discriminate].
    destruct (js_hash t') as [b'|]; cbn in E'; [|discriminate].
    destruct (hash_all r) as [c|]; cbn in E, E'; [|discriminate].
    injection E as <-. injection E' as <-. intro Q. apply app_inv_head in Q. apply app_inv_tail in Q. now apply (IH b b').
Qed.

Fixpoint hash_unseen t t' (U : unseen t t') {struct U} : js_hash t = js_hash t'.
Proof.
  destruct U as [s|s|s i i' n n'|s n n' i i' o|s i i' n n' d d' o o' m m' E|p t t' U|t t' h h' E|l l' F].
  - reflexivity.
  - reflexivity.
  - reflexivity.
  - reflexivity.
  - change (Some (s ++ given_text o) = Some (s ++ given_text o')). now rewrite E.
  - cbn [js_hash]. now rewrite (hash_unseen t t' U).
  - exact E.
  - rewrite !hash_concat. induction F as [|x y r r' U F IH]; [reflexivity|]. cbn [hash_all].
    now rewrite (hash_unseen x y U), IH.
Qed.
