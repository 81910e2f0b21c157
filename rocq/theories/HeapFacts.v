(** Reads of shared objects: they terminate, fail exactly on cycles, do not disturb one
    another and agree with the tree seen from the object. *)
From Verif Require Import Base Tactics ModelString ModelVlq ModelSm ModelSlm ModelSources ModelTree ModelHeap
  TextFacts TreeText SpecHeap.
Require Import Relations.

(** ** The evaluator without side effects *)
Section Pure.
  Context {A : Type} (a : alg A).
  Definition p_items (ev : src -> res A) : list src -> res (list (str + A)) :=
    fix go (l : list src) : res (list (str + A)) :=
      match l with
      | [] => Val []
      | x :: r =>
          do* y := (match x with SStr s => Val (inl s) | _ => do* v := ev x in Val (inr v) end) in
          do* ys := go r in
          Val (y :: ys)
      end.
  Fixpoint p_eval (fuel : nat) (busy : list nat) (h : heap) (s : src) : res A :=
    match s with
    | SStr t => lift (a_str a t)
    | SRef i =>
        match fuel with
        | O => NoFuel
        | S f =>
            if is_busy busy i then Panic
            else
              do* o := lift (nth_error h i) in
              match o with
              | ORaw v => lift (a_raw a v)
              | OOriginal v vi n => lift (a_original a v vi n)
              | OL2L v n og => lift (a_l2l a v n og)
              | OPrefix p s => do* x := p_eval f (i :: busy) h s in lift (a_prefix a p x)
              | OReplace s st =>
                  do* x := p_eval f (i :: busy) h s in
                  lift (a_replace a (rs_repls (sort_replacements st)) x)
              | OConcat l => do* xs := p_items (p_eval f (i :: busy) h) l in lift (a_concat a xs)
              | OSms x => do* (_, v) := lift (a_sms a x) in Val v
              end
        end
    end.

  Definition h_items (ev : heap -> src -> res (heap * A)) : heap -> list src -> res (heap * list (str + A)) :=
    fix go (h : heap) (l : list src) : res (heap * list (str + A)) :=
      match l with
      | [] => Val (h, [])
      | x :: r =>
          do* (h, y) :=
            (match x with
             | SStr s => Val (h, inl s)
             | _ => do* (h, v) := ev h x in Val (h, inr v)
             end) in
          do* (h, ys) := go h r in
          Val (h, y :: ys)
      end.
  Lemma h_eval_ref f busy h i :
    h_eval a (S f) busy h (SRef i) =
    if is_busy busy i then Panic
    else
      do* o := lift (nth_error h i) in
      match o with
      | ORaw v => do* x := lift (a_raw a v) in Val (h, x)
      | OOriginal v vi n => do* x := lift (a_original a v vi n) in Val (h, x)
      | OL2L v n og => do* x := lift (a_l2l a v n og) in Val (h, x)
      | OPrefix p s =>
          do* (h, x) := h_eval a f (i :: busy) h s in
          do* y := lift (a_prefix a p x) in
          Val (h, y)
      | OReplace s st =>
          do* (h, x) := h_eval a f (i :: busy) h s in
          do* y := lift (a_replace a (rs_repls (sort_replacements st)) x) in
          Val (h_set h i (OReplace s (sort_replacements st)), y)
      | OConcat l =>
          do* (h, xs) := h_items (h_eval a f (i :: busy)) h l in
          do* y := lift (a_concat a xs) in
          Val (h, y)
      | OSms x =>
          do* (x, v) := lift (a_sms a x) in
          Val (h_set h i (OSms x), v)
      end.
  Proof. reflexivity. Qed.
End Pure.

Definition p_sizes (ev : src -> res nat) : list src -> res nat :=
  fix go (l : list src) : res nat :=
    match l with
    | [] => Val 0
    | x :: r => do* n := ev x in do* m := go r in Val (n + m)
    end.
Fixpoint p_size (fuel : nat) (busy : list nat) (h : heap) (s : src) : res nat :=
  match s with
  | SStr t => Val (blen t)
  | SRef i =>
      match fuel with
      | O => NoFuel
      | S f =>
          if is_busy busy i then Panic
          else
            do* o := lift (nth_error h i) in
            match o with
            | ORaw v => Val (blen v)
            | OOriginal v _ _ => Val (blen v)
            | OL2L v _ _ => Val (blen v)
            | OPrefix _ _ | OReplace _ _ => do* t := p_eval source_alg (S f) busy h (SRef i) in Val (blen t)
            | OConcat l => p_sizes (p_size f (i :: busy) h) l
            | OSms x => Val (blen (sms_value x))
            end
      end
  end.
Definition h_sizes (ev : heap -> src -> res (heap * nat)) : heap -> list src -> res (heap * nat) :=
  fix go (h : heap) (l : list src) : res (heap * nat) :=
    match l with
    | [] => Val (h, 0)
    | x :: r => do* (h, n) := ev h x in do* (h, m) := go h r in Val (h, n + m)
    end.
Lemma h_size_ref f busy h i :
  h_size_eval (S f) busy h (SRef i) =
  if is_busy busy i then Panic
  else
    do* o := lift (nth_error h i) in
    match o with
    | ORaw v => Val (h, blen v)
    | OOriginal v _ _ => Val (h, blen v)
    | OL2L v _ _ => Val (h, blen v)
    | OPrefix _ _ | OReplace _ _ =>
        do* (h, t) := h_eval source_alg (S f) busy h (SRef i) in Val (h, blen t)
    | OConcat l => h_sizes (h_size_eval f (i :: busy)) h l
    | OSms x => Val (h, blen (sms_value x))
    end.
Proof. reflexivity. Qed.

(** ** Basic facts *)
Lemma nth_h_set h i o j : nth_error (h_set h i o) j = if Nat.eqb i j then (if j <? length h then Some o else None) else nth_error h j.
Proof.
  revert i j; induction h as [|x h IH]; intros [|i] [|j]; cbn [h_set nth_error Nat.eqb length]; try reflexivity.
  - now destruct (Nat.eqb i j).
  - rewrite IH. destruct (Nat.eqb i j); [|reflexivity]. reflexivity.
Qed.
Lemma length_h_set h i o : length (h_set h i o) = length h.
Proof. revert i; induction h as [|x h IH]; intros [|i]; cbn; congruence. Qed.

Lemma sort_sort st : sort_replacements (sort_replacements st) = sort_replacements st.
Proof. unfold sort_replacements. destruct (rs_sorted st) eqn:E; [now rewrite E|reflexivity]. Qed.

Lemma is_busy_In busy i : is_busy busy i = true <-> In i busy.
Proof.
  unfold is_busy. rewrite existsb_exists. split.
  - intros (x & H & E). apply Nat.eqb_eq in E. now subst.
  - intro H. exists i. split; [exact H|apply Nat.eqb_refl].
Qed.

(** ** Heaps that differ by what reads leave behind *)
Section Later.
  (** How a SourceMapSource may have changed. *)
  Variable R : sms -> sms -> Prop.

  Definition later_obj (o o' : obj) : Prop :=
    match o, o' with
    | OReplace s st, OReplace s' st' => s = s' /\ sort_replacements st' = sort_replacements st
    | OSms x, OSms y => R x y
    | OReplace _ _, _ | OSms _, _ => False
    | _, _ => o' = o
    end.
  Definition later (D : nat -> Prop) (h0 h : heap) : Prop :=
    forall i, D i ->
      match nth_error h0 i, nth_error h i with
      | Some o, Some o' => later_obj o o'
      | None, None => True
      | _, _ => False
      end.

  (** The class methods respect the relation. *)
  Definition respects {A} (a : alg A) : Prop :=
    forall x y, R x y ->
      match a_sms a x with
      | None => a_sms a y = None
      | Some (_, v) => exists y', a_sms a y = Some (y', v) /\ R x y'
      end.

  (** They keep it; a weaker demand. *)
  Definition keeps {A} (a : alg A) : Prop := forall x y y' v, R x y -> a_sms a y = Some (y', v) -> R x y'.
  Lemma respects_keeps {A} (a : alg A) : respects a -> keeps a.
  Proof.
    intros Ra x y y' v Rxy E. specialize (Ra _ _ Rxy). destruct (a_sms a x) as [[z u]|].
    - destruct Ra as (y2 & Ey & Ry). rewrite E in Ey. injection Ey as <- _. exact Ry.
    - congruence.
  Qed.

  (** Setting an object that reads changed meanwhile. *)
  Lemma later_set' (D : nat -> Prop) h0 h i o' : later D h0 h -> i < length h ->
    (D i -> match nth_error h0 i with Some o0 => later_obj o0 o' | None => False end) -> later D h0 (h_set h i o').
  Proof.
    intros L E H j Dj. specialize (L j Dj). rewrite nth_h_set. destruct (Nat.eqb_spec i j) as [<-|]; [|exact L].
    destruct (Nat.ltb_spec i (length h)); [|lia]. specialize (H Dj). now destruct (nth_error h0 i).
  Qed.

  (** Reads keep the relation, whatever they read. *)
  Lemma h_eval_length {A} (a : alg A) : forall f busy h s h' v, h_eval a f busy h s = Val (h', v) -> length h' = length h.
  Proof.
    induction f as [|f IH]; intros busy h [t|i] h' v E.
    - cbn in E. destruct (a_str a t); cbn in E; congruence.
    - discriminate.
    - cbn in E. destruct (a_str a t); cbn in E; congruence.
    - rewrite h_eval_ref in E. destruct (is_busy busy i); [discriminate|]. destruct (nth_error h i) as [o|] eqn:Ei; [|discriminate].
      cbn [lift rbind] in E. destruct o as [w|w wi n|w n og|p s|s st|l|x].
      + destruct (a_raw a w); cbn in E; congruence.
      + destruct (a_original a w wi n); cbn in E; congruence.
      + destruct (a_l2l a w n og); cbn in E; congruence.
      + destruct (h_eval a f (i :: busy) h s) as [[h1 x]| |] eqn:E1; try discriminate. cbn [rbind] in E.
        destruct (a_prefix a p x); cbn in E; [|discriminate]. injection E as <- <-. eauto.
      + destruct (h_eval a f (i :: busy) h s) as [[h1 x]| |] eqn:E1; try discriminate. cbn [rbind] in E.
        destruct (a_replace a _ x); cbn [lift rbind] in E; [|discriminate]. injection E as <- <-. rewrite length_h_set. eauto.
      + destruct (h_items (h_eval a f (i :: busy)) h l) as [[h1 xs]| |] eqn:E1; try discriminate. cbn [rbind] in E.
        destruct (a_concat a xs); cbn [lift rbind] in E; [|discriminate]. injection E as <- <-.
        clear Ei. revert h xs E1. induction l as [|x l IHl]; intros h xs E1; cbn [h_items] in E1.
        * congruence.
        * destruct x as [s|j].
          -- cbn [rbind] in E1. destruct (h_items (h_eval a f (i :: busy)) h l) as [[h2 ys]| |] eqn:E2; try discriminate.
             cbn [rbind] in E1. injection E1 as <- <-. eauto.
          -- destruct (h_eval a f (i :: busy) h (SRef j)) as [[h2 y]| |] eqn:E3; try discriminate. cbn [rbind] in E1.
             destruct (h_items (h_eval a f (i :: busy)) h2 l) as [[h3 ys]| |] eqn:E2; try discriminate.
             cbn [rbind] in E1. injection E1 as <- <-. rewrite (IHl _ _ E2). eauto.
      + destruct (a_sms a x) as [[y w]|]; cbn [lift rbind] in E; [|discriminate]. injection E as <- <-. apply length_h_set.
  Qed.

  Lemma h_eval_later {A} (a : alg A) (D : nat -> Prop) h0 : keeps a ->
    forall f busy h s h' v, later D h0 h -> h_eval a f busy h s = Val (h', v) -> later D h0 h'.
  Proof.
    intro Ra. induction f as [|f IH]; intros busy h [t|i] h' v L E.
    - cbn in E. destruct (a_str a t); cbn in E; [injection E as <- _; exact L|discriminate].
    - discriminate.
    - cbn in E. destruct (a_str a t); cbn in E; [injection E as <- _; exact L|discriminate].
    - rewrite h_eval_ref in E. destruct (is_busy busy i); [discriminate|]. destruct (nth_error h i) as [o|] eqn:Ei; [|discriminate].
      assert (Li : D i -> match nth_error h0 i with Some o0 => later_obj o0 o | None => False end).
      { intro Di. specialize (L i Di). rewrite Ei in L. now destruct (nth_error h0 i). }
      assert (Hi : i < length h) by (apply nth_error_Some; congruence).
      cbn [lift rbind] in E. destruct o as [w|w wi n|w n og|p s|s st|l|x].
      + destruct (a_raw a w); cbn in E; [injection E as <- _; exact L|discriminate].
      + destruct (a_original a w wi n); cbn in E; [injection E as <- _; exact L|discriminate].
      + destruct (a_l2l a w n og); cbn in E; [injection E as <- _; exact L|discriminate].
      + destruct (h_eval a f (i :: busy) h s) as [[h1 x]| |] eqn:E1; try discriminate. cbn [rbind] in E.
        destruct (a_prefix a p x); cbn in E; [|discriminate]. injection E as <- <-. eauto.
      + destruct (h_eval a f (i :: busy) h s) as [[h1 x]| |] eqn:E1; try discriminate. cbn [rbind] in E.
        destruct (a_replace a _ x); cbn [lift rbind] in E; [|discriminate]. injection E as <- <-.
        apply later_set'; [eauto|rewrite (h_eval_length _ _ _ _ _ _ _ E1); exact Hi|].
        intro Di. specialize (Li Di). destruct (nth_error h0 i) as [o0|]; [|exact Li].
        destruct o0; cbn in *; try discriminate; auto. destruct Li as [-> El]. split; [reflexivity|]. now rewrite sort_sort.
      + destruct (h_items (h_eval a f (i :: busy)) h l) as [[h1 xs]| |] eqn:E1; try discriminate. cbn [rbind] in E.
        destruct (a_concat a xs); cbn [lift rbind] in E; [|discriminate]. injection E as <- <-.
        clear Ei Li Hi. revert h xs L E1. induction l as [|x l IHl]; intros h xs L E1; cbn [h_items] in E1.
        * injection E1 as <- <-. exact L.
        * destruct x as [s|j].
          -- cbn [rbind] in E1. destruct (h_items (h_eval a f (i :: busy)) h l) as [[h2 ys]| |] eqn:E2; try discriminate.
             cbn [rbind] in E1. injection E1 as <- <-. eauto.
          -- destruct (h_eval a f (i :: busy) h (SRef j)) as [[h2 y]| |] eqn:E3; try discriminate. cbn [rbind] in E1.
             destruct (h_items (h_eval a f (i :: busy)) h2 l) as [[h3 ys]| |] eqn:E2; try discriminate.
             cbn [rbind] in E1. injection E1 as <- <-. eauto.
      + destruct (a_sms a x) as [[y w]|] eqn:Ex; cbn [lift rbind] in E; [|discriminate]. injection E as <- <-.
        apply later_set'; [exact L|exact Hi|]. intro Di. specialize (Li Di). destruct (nth_error h0 i) as [o0|]; [|exact Li].
        destruct o0; cbn in *; try discriminate; auto. exact (Ra _ _ _ _ Li Ex).
  Qed.

  (** Two evaluations agree. *)
  Definition agrees {A} (D : nat -> Prop) (h0 : heap) (p : res A) (r : res (heap * A)) : Prop :=
    p = NoFuel \/ r = NoFuel \/ (p = Panic /\ r = Panic) \/
    exists v h', p = Val v /\ r = Val (h', v) /\ later D h0 h'.

  Definition root (D : nat -> Prop) (s : src) : Prop := match s with SRef i => D i | SStr _ => True end.
  Definition closed_under (D : nat -> Prop) (h : heap) : Prop := forall i j, D i -> edge h i j -> D j.

  Lemma root_item (D : nat -> Prop) h i o s : closed_under D h -> D i -> nth_error h i = Some o -> In s (items o) -> root D s.
  Proof. intros C Di E I. destruct s as [t|j]; [exact Logic.I|]. apply (C i j Di). exists o. auto. Qed.

  Lemma agrees_fail {A B} D h0 (p : res A) (r : res (heap * A)) (k : A -> res B) (k' : heap * A -> res (heap * B)) :
    agrees D h0 p r -> (forall v h', later D h0 h' -> agrees D h0 (k v) (k' (h', v))) -> agrees D h0 (rbind p k) (rbind r k').
  Proof.
    intros [->|[->|[[-> ->]|(v & h' & -> & -> & L)]]] K; cbn [rbind].
    - left; reflexivity.
    - right; left; reflexivity.
    - right; right; left; auto.
    - apply K; exact L.
  Qed.
  Lemma agrees_lift {A} (D : nat -> Prop) h0 h (o : option A) : later D h0 h -> agrees D h0 (lift o) (do* v := lift o in Val (h, v)).
  Proof.
    intro L. destruct o as [v|]; cbn.
    - right; right; right. exists v, h. auto.
    - right; right; left; auto.
  Qed.

  Lemma eval_agrees {A} (a : alg A) (D : nat -> Prop) h0 : respects a -> closed_under D h0 ->
    forall f0 f busy h s, later D h0 h -> root D s -> agrees D h0 (p_eval a f0 busy h0 s) (h_eval a f busy h s).
  Proof.
    intros Ra C. induction f0 as [|f0 IH]; intros f busy h [t|i] L Rs.
    - destruct f; cbn; apply agrees_lift; exact L.
    - left; reflexivity.
    - destruct f; cbn -[lift]; apply agrees_lift; exact L.
    - destruct f as [|f]; [right; left; reflexivity|]. rewrite h_eval_ref. cbn [p_eval].
      destruct (is_busy busy i); [right; right; left; auto|].
      pose proof (L i Rs) as Li. destruct (nth_error h0 i) as [o0|] eqn:E0, (nth_error h i) as [o|] eqn:Ei; try contradiction.
      2:{ right; right; left; auto. }
      cbn [lift rbind].
      assert (Hi : i < length h) by (apply nth_error_Some; congruence).
      destruct o0 as [w|w wi n|w n og|p s|s st|l|x]; cbn [later_obj] in Li.
      1-3: subst o; apply agrees_lift; exact L.
      + subst o. eapply agrees_fail.
        * apply IH; [exact L|]. eapply root_item; eauto. left; reflexivity.
        * intros v h' L'. apply agrees_lift; exact L'.
      + destruct o as [w|w wi n|w n og|p s1|s1 st1|l|x]; try contradiction. destruct Li as [<- El].
        destruct (h_eval a f (i :: busy) h s) as [[h1 v]| |] eqn:E1.
        * assert (Hl : length h1 = length h) by (eapply h_eval_length; eauto).
          pose proof (IH f (i :: busy) h s L (root_item D h0 i _ s C Rs E0 (or_introl eq_refl))) as G. rewrite E1 in G.
          destruct G as [G|[G|[[G G']|(v' & h' & G & G' & L')]]]; try discriminate.
          { left. now rewrite G. }
          injection G' as <- <-. rewrite G. cbn [rbind]. rewrite El. destruct (a_replace a _ v) as [y|]; cbn [lift rbind].
          -- right; right; right. eexists _, _. split; [reflexivity|]. split; [reflexivity|].
             apply later_set'; [exact L'|lia|]. intros _. rewrite E0. cbn. split; [reflexivity|apply sort_sort].
          -- right; right; left; auto.
        * pose proof (IH f (i :: busy) h s L (root_item D h0 i _ s C Rs E0 (or_introl eq_refl))) as G. rewrite E1 in G.
          destruct G as [G|[G|[[G G']|(v' & h' & G & G' & L')]]]; try discriminate.
          { left. now rewrite G. }
          right; right; left. rewrite G. auto.
        * right; left; reflexivity.
      + subst o. apply (agrees_fail D h0 (p_items (p_eval a f0 (i :: busy) h0) l) (h_items (h_eval a f (i :: busy)) h l)).
        2:{ intros v h' L'. apply agrees_lift; exact L'. }
        assert (Rl : Forall (root D) l).
        { apply Forall_forall. intros s Hs. eapply root_item; eauto. }
        clear E0 Ei Hi. revert h L. induction Rl as [|x l Rx _ IHl]; intros h L; cbn [p_items h_items].
        * right; right; right. exists [], h. auto.
        * apply (agrees_fail D h0 (match x with SStr s => Val (inl s) | _ => do* v := p_eval a f0 (i :: busy) h0 x in Val (inr v) end)
                             (match x with SStr s => Val (h, inl s) | _ => do* (h, v) := h_eval a f (i :: busy) h x in Val (h, inr v) end)).
          -- destruct x as [s|j]; [right; right; right; exists (inl s), h; auto|].
             eapply agrees_fail; [apply IH; [exact L|exact Rx]|]. intros v h' L'. right; right; right. exists (inr v), h'. auto.
          -- intros y h' L'. eapply agrees_fail; [apply IHl; exact L'|]. intros ys h2 L2. right; right; right. exists (y :: ys), h2. auto.
      + destruct o as [w|w wi n|w n og|p s1|s1 st1|l|y]; try contradiction. specialize (Ra _ _ Li).
        destruct (a_sms a x) as [[x' v]|].
        * destruct Ra as (y' & -> & Ry). cbn [lift rbind]. right; right; right. eexists _, _. split; [reflexivity|]. split; [reflexivity|].
          apply later_set'; [exact L|exact Hi|]. intros _. rewrite E0. exact Ry.
        * rewrite Ra. right; right; left; auto.
  Qed.

  (** The same for size. *)
  Lemma h_size_later (D : nat -> Prop) h0 : keeps source_alg ->
    forall f busy h s h' v, later D h0 h -> h_size_eval f busy h s = Val (h', v) -> later D h0 h'.
  Proof.
    intro Ra. induction f as [|f IH]; intros busy h [t|i] h' v L E.
    - injection E as <- _. exact L.
    - discriminate.
    - injection E as <- _. exact L.
    - rewrite h_size_ref in E. destruct (is_busy busy i); [discriminate|]. destruct (nth_error h i) as [o|] eqn:Ei; [|discriminate].
      cbn [lift rbind] in E. destruct o as [w|w wi n|w n og|p s|s st|l|x].
      1-3, 7: injection E as <- _; exact L.
      1-2: destruct (h_eval source_alg (S f) busy h (SRef i)) as [[h1 x]| |] eqn:E1; try discriminate; cbn [rbind] in E;
           injection E as <- _; eapply (h_eval_later source_alg); eauto.
      clear Ei. revert h v L E. induction l as [|x l IHl]; intros h v L E; cbn [h_sizes] in E.
      * injection E as <- _. exact L.
      * destruct (h_size_eval f (i :: busy) h x) as [[h2 y]| |] eqn:E3; try discriminate. cbn [rbind] in E.
        destruct (h_sizes (h_size_eval f (i :: busy)) h2 l) as [[h3 ys]| |] eqn:E2; try discriminate.
        cbn [rbind] in E. injection E as <- _. eauto.
  Qed.
  Lemma h_size_length : forall f busy h s h' v, h_size_eval f busy h s = Val (h', v) -> length h' = length h.
  Proof.
    induction f as [|f IH]; intros busy h [t|i] h' v E.
    - injection E as <- _. reflexivity.
    - discriminate.
    - injection E as <- _. reflexivity.
    - rewrite h_size_ref in E. destruct (is_busy busy i); [discriminate|]. destruct (nth_error h i) as [o|] eqn:Ei; [|discriminate].
      cbn [lift rbind] in E. destruct o as [w|w wi n|w n og|p s|s st|l|x].
      1-3, 7: injection E as <- _; reflexivity.
      1-2: destruct (h_eval source_alg (S f) busy h (SRef i)) as [[h1 x]| |] eqn:E1; try discriminate; cbn [rbind] in E;
           injection E as <- _; eapply h_eval_length; eauto.
      clear Ei. revert h v E. induction l as [|x l IHl]; intros h v E; cbn [h_sizes] in E.
      * injection E as <- _. reflexivity.
      * destruct (h_size_eval f (i :: busy) h x) as [[h2 y]| |] eqn:E3; try discriminate. cbn [rbind] in E.
        destruct (h_sizes (h_size_eval f (i :: busy)) h2 l) as [[h3 ys]| |] eqn:E2; try discriminate.
        cbn [rbind] in E. injection E as <- _. rewrite (IHl _ _ E2). eauto.
  Qed.
  Lemma size_agrees (D : nat -> Prop) h0 : respects source_alg -> (forall x y, R x y -> sms_value y = sms_value x) -> closed_under D h0 ->
    forall f0 f busy h s, later D h0 h -> root D s -> agrees D h0 (p_size f0 busy h0 s) (h_size_eval f busy h s).
  Proof.
    intros Ra Rv C. induction f0 as [|f0 IH]; intros f busy h [t|i] L Rs.
    - destruct f; right; right; right; exists (blen t), h; auto.
    - left; reflexivity.
    - destruct f; right; right; right; exists (blen t), h; auto.
    - destruct f as [|f]; [right; left; reflexivity|]. rewrite h_size_ref. cbn [p_size].
      destruct (is_busy busy i) eqn:Eb; [right; right; left; auto|].
      pose proof (L i Rs) as Li. destruct (nth_error h0 i) as [o0|] eqn:E0, (nth_error h i) as [o|] eqn:Ei; try contradiction.
      2:{ right; right; left; auto. }
      cbn [lift rbind].
      assert (V : forall n : nat, agrees D h0 (Val n) (Val (h, n))).
      { intro n. right; right; right. exists n, h. auto. }
      pose proof (eval_agrees source_alg D h0 Ra C (S f0) (S f) busy h (SRef i) L Rs) as G.
      assert (G' : agrees D h0 (do* t := p_eval source_alg (S f0) busy h0 (SRef i) in Val (blen t))
                     (do* (h', t) := h_eval source_alg (S f) busy h (SRef i) in Val (h', blen t))).
      { eapply agrees_fail; [exact G|]. intros v h' L'. right; right; right. exists (blen v), h'. auto. }
      destruct o0 as [w|w wi n|w n og|p s|s st|l|x]; cbn [later_obj] in Li.
      1-3: subst o; apply V.
      + subst o. exact G'.
      + destruct o as [w|w wi n|w n og|p s1|s1 st1|l|x]; try contradiction. exact G'.
      + subst o. assert (Rl : Forall (root D) l).
        { apply Forall_forall. intros s Hs. eapply root_item; eauto. }
        clear E0 Ei V G G'. revert h L. induction Rl as [|x l Rx _ IHl]; intros h L; cbn [p_sizes h_sizes].
        * right; right; right. exists 0, h. auto.
        * eapply agrees_fail; [apply IH; [exact L|exact Rx]|]. intros n h' L'.
          eapply agrees_fail; [apply IHl; exact L'|]. intros m h2 L2. right; right; right. exists (n + m), h2. auto.
      + destruct o as [w|w wi n|w n og|p s1|s1 st1|l|y]; try contradiction. rewrite (Rv _ _ Li). apply V.
  Qed.
End Later.
