(** The insertion sort used for Rust's stable sorts returns the sorted permutation, which
    is unique when only equal elements compare equal. *)
From Coq Require Export Permutation Sorted.
From Verif Require Import Base Tactics ModelVlq.
From Verif Require Export SpecSort.

Section SortFacts.
  Context {A : Type} (cmp : A -> A -> comparison).
  Local Notation cle := (cle cmp).
  Hypothesis cmp_sym : forall x y, cmp y x = CompOpp (cmp x y).
  Hypothesis cmp_trans : forall x y z, cle x y -> cle y z -> cle x z.

  Lemma cle_total x y : cle x y \/ cle y x.
  Proof.
    unfold cle. rewrite (cmp_sym x y). destruct (cmp x y); simpl; intuition discriminate.
  Qed.

  Lemma insert_perm x l : Permutation (x :: l) (insert_sorted cmp x l).
  Proof.
    induction l as [|y l IH]; simpl; auto.
    destruct (cmp x y); auto.
    rewrite perm_swap. now constructor.
  Qed.
  Lemma isort_perm l : Permutation l (isort cmp l).
  Proof.
    induction l as [|x l IH]; simpl; auto. rewrite <- insert_perm. now constructor.
  Qed.
  Lemma isort_length l : length (isort cmp l) = length l.
  Proof. apply Permutation_length. symmetry. apply isort_perm. Qed.

  Lemma insert_sorted_sorted x l :
    StronglySorted cle l -> StronglySorted cle (insert_sorted cmp x l).
  Proof.
    induction l as [|y l IH]; simpl; intro H.
    - repeat constructor.
    - inv H. destruct (cmp x y) eqn:E.
      + constructor; [constructor; auto|]. constructor; [unfold cle; congruence|].
        eapply Forall_impl; [|eauto]. intros z Hz. eapply cmp_trans; eauto. unfold cle; congruence.
      + constructor; [constructor; auto|]. constructor; [unfold cle; congruence|].
        eapply Forall_impl; [|eauto]. intros z Hz. eapply cmp_trans; eauto. unfold cle; congruence.
      + constructor; auto.
        assert (Hyx : cle y x) by (unfold cle; rewrite (cmp_sym x y), E; simpl; discriminate).
        rewrite <- insert_perm. constructor; auto.
  Qed.
  Lemma isort_sorted l : StronglySorted cle (isort cmp l).
  Proof. induction l; simpl; [constructor|]. now apply insert_sorted_sorted. Qed.

  Lemma isort_id l : StronglySorted cle l -> isort cmp l = l.
  Proof.
    induction l as [|x l IH]; simpl; auto. intro H. inv H. rewrite IH by auto.
    destruct l as [|y l]; simpl; auto.
    inv H3. unfold cle in H1. destruct (cmp x y); auto. congruence.
  Qed.

  Lemma sorted_perm_unique l1 l2 :
    (forall x y, In x l1 -> In y l1 -> cmp x y = Eq -> x = y) ->
    StronglySorted cle l1 -> StronglySorted cle l2 -> Permutation l1 l2 -> l1 = l2.
  Proof.
    revert l2; induction l1 as [|x l1 IH]; intros l2 Heq H1 H2 Hp.
    - now apply Permutation_nil in Hp.
    - destruct l2 as [|y l2]; [now apply Permutation_sym, Permutation_nil in Hp|].
      inv H1. inv H2.
      assert (x = y).
      { assert (Hx : In x (y :: l2)) by (eapply Permutation_in; [eauto|left; auto]).
        assert (Hy : In y (x :: l1)) by (eapply Permutation_in; [symmetry; eauto|left; auto]).
        destruct Hx as [->|Hx]; auto. destruct Hy as [->|Hy]; auto.
        repeat match goal with H : Forall _ _ |- _ => rewrite Forall_forall in H end.
        assert (L1 : cle x y) by auto. assert (L2 : cle y x) by auto.
        unfold cle in L1, L2. rewrite (cmp_sym x y) in L2.
        apply Heq; simpl; auto. destruct (cmp x y); simpl in *; congruence. }
      subst y. f_equal. apply IH; auto.
      + intros; apply Heq; simpl; auto.
      + now apply Permutation_cons_inv in Hp.
  Qed.

  Lemma isort_unique l l' :
    (forall x y, In x l -> In y l -> cmp x y = Eq -> x = y) ->
    Permutation l l' -> isort cmp l = isort cmp l'.
  Proof.
    intros Heq Hp. apply sorted_perm_unique; auto using isort_sorted.
    - intros x y Hx Hy. apply Heq; (eapply Permutation_in; [symmetry; apply isort_perm|auto]).
    - rewrite <- !isort_perm. auto.
  Qed.

  Lemma isort_idem l : isort cmp (isort cmp l) = isort cmp l.
  Proof. apply isort_id, isort_sorted. Qed.

  Lemma Forall_isort P l : Forall P l -> Forall P (isort cmp l).
  Proof. intro. now rewrite <- isort_perm. Qed.

  (** Filtering a sorted list. *)
  Lemma sorted_filter (R : A -> A -> Prop) P l :
    StronglySorted R l -> StronglySorted R (filter P l).
  Proof.
    induction 1 as [|x l H1 IH H2]; simpl; [constructor|].
    destruct (P x); auto. constructor; auto.
    rewrite Forall_forall in *. intros y Hy. apply filter_In in Hy as [Hy _]. auto.
  Qed.
  Lemma perm_filter (P : A -> bool) l l' : Permutation l l' -> Permutation (filter P l) (filter P l').
  Proof.
    induction 1; simpl; auto.
    - destruct (P x); auto.
    - destruct (P x), (P y); auto. apply perm_swap.
    - etransitivity; eauto.
  Qed.
End SortFacts.

(** Generic lemmas on lexicographic comparison. *)
Lemma cmp_then_eq a b : cmp_then a b = Eq <-> a = Eq /\ b = Eq.
Proof. destruct a; simpl; intuition congruence. Qed.
Lemma cmp_then_opp a b : CompOpp (cmp_then a b) = cmp_then (CompOpp a) (CompOpp b).
Proof. destruct a; reflexivity. Qed.

(** A comparison function that behaves like a total order. *)
Record good {A} (f : A -> A -> comparison) : Prop := {
  good_sym : forall x y, f y x = CompOpp (f x y);
  good_eq : forall x y, f x y = Eq -> x = y;
  good_refl : forall x, f x x = Eq;
  good_lt : forall x y z, f x y = Lt -> f y z = Lt -> f x z = Lt }.

Lemma good_le {A} (f : A -> A -> comparison) : good f ->
  forall x y z, cle f x y -> cle f y z -> cle f x z.
Proof.
  intros G x y z. unfold cle.
  destruct (f x y) eqn:E1; intros H1 H2; try congruence.
  - apply (good_eq f G) in E1. now subst.
  - destruct (f y z) eqn:E2; try congruence.
    + apply (good_eq f G) in E2. subst. congruence.
    + rewrite (good_lt f G x y z); congruence.
Qed.

Lemma good_N : good N.compare.
Proof.
  split.
  - intros. apply N.compare_antisym.
  - intros. now apply N.compare_eq.
  - apply N.compare_refl.
  - intros x y z. rewrite !N.compare_lt_iff. lia.
Qed.
Lemma good_Z : good Z.compare.
Proof.
  split.
  - intros. apply Z.compare_antisym.
  - intros. now apply Z.compare_eq.
  - apply Z.compare_refl.
  - intros x y z. rewrite !Z.compare_lt_iff. lia.
Qed.
Lemma good_opt {A} (f : A -> A -> comparison) : good f -> good (opt_cmp f).
Proof.
  intro G. split.
  - intros [x|] [y|]; simpl; auto. apply (good_sym f G).
  - intros [x|] [y|]; simpl; try congruence. intro E. now apply (good_eq f G) in E as ->.
  - intros [x|]; simpl; auto. apply (good_refl f G).
  - intros [x|] [y|] [z|]; simpl; try congruence. apply (good_lt f G).
Qed.
(** Lexicographic product along two projections that determine the element. *)
Lemma good_lex {A B C} (p : A -> B) (q : A -> C) (f : B -> B -> comparison)
    (g : C -> C -> comparison) :
  good f -> good g -> (forall x y, p x = p y -> q x = q y -> x = y) ->
  good (fun x y => cmp_then (f (p x) (p y)) (g (q x) (q y))).
Proof.
  intros F G I. split.
  - intros x y. rewrite cmp_then_opp. now rewrite (good_sym f F), (good_sym g G).
  - intros x y H. apply cmp_then_eq in H as [H1 H2]. apply I.
    + now apply (good_eq f F). + now apply (good_eq g G).
  - intro x. now rewrite (good_refl f F), (good_refl g G).
  - intros x y z H1 H2.
    destruct (f (p x) (p y)) eqn:E1; simpl in H1; try congruence.
    + apply (good_eq f F) in E1. rewrite E1.
      destruct (f (p y) (p z)) eqn:E2; simpl in *; try congruence.
      now rewrite (good_lt g G _ _ _ H1 H2).
    + destruct (f (p y) (p z)) eqn:E2; simpl in H2; try congruence.
      * apply (good_eq f F) in E2. rewrite <- E2, E1. reflexivity.
      * now rewrite (good_lt f F _ _ _ E1 E2).
Qed.
