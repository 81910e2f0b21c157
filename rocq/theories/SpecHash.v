(** What a hash is expected to notice, over the trees of JavaScript sources. *)
From Verif Require Import Base SpecText SpecMap SpecAttr ModelSm ModelJs ModelJsApi.

(** The text of the original, none if there is none. *)
Definition given_text (o : option (jstr * Z)) : jstr := match o with Some (s, _) => s | None => [] end.

(** [one_change t t']: the two trees differ in a single text - the text of a leaf, the
    original handed to it, a prefix, or what an edited source reads as - and this not
    below an edit. *)
Inductive one_change : jtree -> jtree -> Prop :=
| oc_str s s' : s <> s' -> one_change (JStr s) (JStr s')
| oc_raw s s' : s <> s' -> one_change (JRaw s) (JRaw s')
| oc_original s s' i i' n : s <> s' -> one_change (JOriginal s i n) (JOriginal s' i' n)
| oc_l2l_value s s' n i o : s <> s' -> one_change (JL2L s n i o) (JL2L s' n i o)
| oc_l2l_orig s n i i' o o' : o <> o' -> one_change (JL2L s n i o) (JL2L s n i' o')
| oc_sms_value s s' i i' n d o m : s <> s' -> one_change (JSms s i n d o m) (JSms s' i' n d o m)
| oc_sms_orig s i n d o o' m : given_text o <> given_text o' -> one_change (JSms s i n d o m) (JSms s i n d o' m)
| oc_prefix p p' t : p <> p' -> one_change (JPrefix p t) (JPrefix p' t)
| oc_edit t h t' h' : js_source (JEdit t h) <> js_source (JEdit t' h') -> one_change (JEdit t h) (JEdit t' h')
| oc_below p t t' : one_change t t' -> one_change (JPrefix p t) (JPrefix p t')
| oc_child l t t' r : one_change t t' -> one_change (JConcat (l ++ t :: r)) (JConcat (l ++ t' :: r)).

(** [unseen t t']: the same texts with other names, maps and string indices. *)
Inductive unseen : jtree -> jtree -> Prop :=
| un_str s : unseen (JStr s) (JStr s)
| un_raw s : unseen (JRaw s) (JRaw s)
| un_original s i i' n n' : unseen (JOriginal s i n) (JOriginal s i' n')
| un_l2l s n n' i i' o : unseen (JL2L s n i o) (JL2L s n' i' o)
| un_sms s i i' n n' d d' o o' m m' : given_text o = given_text o' ->
    unseen (JSms s i n d o m) (JSms s i' n' d' o' m')
| un_prefix p t t' : unseen t t' -> unseen (JPrefix p t) (JPrefix p t')
| un_edit t t' h h' : js_source (JEdit t h) = js_source (JEdit t' h') -> unseen (JEdit t h) (JEdit t' h')
| un_concat l l' : Forall2 unseen l l' -> unseen (JConcat l) (JConcat l').
