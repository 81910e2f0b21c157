(** Several more edits on an edited text. *)
From Coq Require Import Permutation.
From Verif Require Import Base Tactics SpecText SpecMap SpecAttr SpecEdit EditFacts TextFacts SpecSplit SplitFacts SpecStages StageFacts.

Section Later.
  Context {A : Type} (f : str -> list A).
  Definition glater (es : list edit) (s : list A) (r : edit) : edit :=
    at_pos (length (gedited f (earlier_of es r) (firstn (Z.to_nat (e_from r)) s))) r.
  Definition in_text (s : list A) (r : edit) : Prop := (0 <= e_from r <= e_to r + 1 /\ e_to r < Z.of_nat (length s))%Z.
  Definition fits (es : list edit) (s : list A) (r : edit) : Prop := whole r /\ in_text s r /\ Forall (apart r) es.

  Lemma whole_fracs r : whole r -> fracs r.
  Proof. unfold whole, fracs. lia. Qed.
  Lemma front_end es s r : Forall fracs es -> Forall forward es -> fits es s r ->
    let k := length (gedited f (earlier_of es r) (firstn (Z.to_nat (e_from r)) s)) in
    in_text (gedited f es s) (glater es s r) /\ firstn k (gedited f es s) = gedited f (earlier_of es r) (firstn (Z.to_nat (e_from r)) s).
  Proof.
    intros Hf Hw (Hr & Hi & Ha) k. pose proof (stage_one f es r s Hf (whole_fracs r Hr) Ha Hw Hi) as E. destruct (stage_sizes f es r s Hi) as (_ & L2 & _ & _).
    rewrite E. split.
    - unfold in_text, glater, at_pos in *. cbn [e_from e_to]. rewrite !app_length, L2. lia.
    - unfold k. rewrite firstn_app, Nat.sub_diag, firstn_all. cbn [firstn]. apply app_nil_r.
  Qed.
  Lemma key_trans' x y z : key_le x y = true -> key_le y z = true -> key_le x z = true.
  Proof. exact (key_trans x (@nil A) x y z). Qed.
  Lemma earlier_twice es x r : key_le x r = true -> earlier_of (earlier_of es r) x = earlier_of es x.
  Proof.
    intro K. unfold earlier_of. induction es as [|y es IH]; [reflexivity|]. cbn [filter]. destruct (key_le y r) eqn:E; cbn [filter]; [now rewrite IH|]. rewrite IH.
    destruct (key_le y x) eqn:E'; [|reflexivity]. rewrite (key_trans' y x r E' K) in E. discriminate.
  Qed.
  Lemma earlier_all (P : edit -> Prop) es r : Forall P es -> Forall P (earlier_of es r).
  Proof. intro H. apply Forall_forall. intros x I. apply filter_In in I. exact (proj1 (Forall_forall _ _) H x (proj1 I)). Qed.
  (** An edit in front of another one: also in the edited text. *)
  Lemma later_order es s x r : Forall fracs es -> Forall forward es -> fits es s x -> fits es s r -> apart x r -> key_le x r = true ->
    glater (earlier_of es r) (firstn (Z.to_nat (e_from r)) s) x = glater es s x /\ fits (earlier_of es r) (firstn (Z.to_nat (e_from r)) s) x /\
    (e_to (glater es s x) < e_from (glater es s r))%Z /\ apart (glater es s r) (glater es s x) /\ key_le (glater es s x) (glater es s r) = true.
  Proof.
    intros Hf Hw (Wx & Ix & Ax) (Wr & Ir & Ar) Ap K.
    assert (O : (e_to x < e_from r /\ anchor x <= e_from r)%Z).
    { apply (key_first [x] r s); [| | | |now left|exact K].
      - constructor; [now apply whole_fracs|constructor].
      - now apply whole_fracs.
      - constructor; [|constructor]. destruct Ap as [Ap|Ap]; [now right|now left].
      - constructor; [|constructor]. unfold forward, in_text in *. lia. }
    assert (F1 : firstn (Z.to_nat (e_from x)) (firstn (Z.to_nat (e_from r)) s) = firstn (Z.to_nat (e_from x)) s).
    { rewrite firstn_firstn. f_equal. unfold in_text, anchor in *. lia. }
    assert (G : glater (earlier_of es r) (firstn (Z.to_nat (e_from r)) s) x = glater es s x) by (unfold glater; now rewrite F1, earlier_twice).
    assert (Fi : fits (earlier_of es r) (firstn (Z.to_nat (e_from r)) s) x).
    { split; [exact Wx|]. split; [|now apply earlier_all]. unfold in_text in *. rewrite firstn_length_le by lia. lia. }
    pose proof (proj1 (front_end _ _ x (earlier_all _ _ r Hf) (earlier_all _ _ r Hw) Fi)) as I2. rewrite G in I2.
    assert (T : (e_to (glater es s x) < e_from (glater es s r))%Z) by (unfold in_text, glater, at_pos in *; cbn [e_from e_to] in *; lia).
    split; [exact G|]. split; [exact Fi|]. split; [exact T|].
    assert (H : (e_hi (glater es s x) <= e_hi (glater es s r))%Z).
    { unfold e_hi, whole, in_text, glater, at_pos in *. cbn [e_from e_to e_subf e_subt] in *. lia. }
    split; [right; split; assumption|]. unfold key_le. apply orb_true_iff. rewrite andb_true_iff, Z.ltb_lt, Z.eqb_eq, Z.leb_le.
    assert (H' : (e_lo (glater es s x) <= e_lo (glater es s r))%Z).
    { unfold e_lo, whole, in_text, glater, at_pos in *. cbn [e_from e_to e_subf e_subt] in *. lia. }
    lia.
  Qed.
  Lemma earlier_eq es r : Forall (fun x => key_le x r = true) es -> earlier_of es r = es.
  Proof. unfold earlier_of. induction 1 as [|x es H _ IH]; [reflexivity|]. cbn [filter]. now rewrite H, IH. Qed.
  Lemma pairs_snoc {B} (R : B -> B -> Prop) l x : ForallOrdPairs R (l ++ [x]) -> ForallOrdPairs R l /\ Forall (fun y => R y x) l.
  Proof.
    induction l as [|y l IH]; intro H; [split; constructor|]. inversion H as [|? ? H1 H2]; subst. destruct (IH H2) as [I1 I2]. apply Forall_app in H1. destruct H1 as [H1 H1'].
    split; constructor; auto. now inversion H1'.
  Qed.
  Theorem stages es R : forall s, Forall fracs es -> Forall forward es -> Forall (fits es s) R -> front_to_back R ->
    gedited f (map (glater es s) R) (gedited f es s) = gedited f (es ++ R) s.
  Proof.
    revert es. induction R as [|r R IH] using rev_ind; intros es s Hf Hw HR [HO HW].
    - cbn [map]. rewrite app_nil_r. unfold gedited at 1, woven. cbn [arrange fold_left map gplaces texts_at flat_map]. rewrite app_nil_r. apply (weave_plain [] _ true). intros j _. split; reflexivity.
    - apply Forall_app in HR. destruct HR as [HR Hr]. apply Forall_inv in Hr. apply Forall_app in HW. destruct HW as [HW Wr]. apply pairs_snoc in HO. destruct HO as [HO Hx].
      assert (FB : front_to_back R) by (split; assumption).
      assert (OR : forall x, In x R -> fits es s x /\ apart x r /\ key_le x r = true).
      { intros x I. split; [exact (proj1 (Forall_forall _ _) HR x I)|exact (proj1 (Forall_forall _ _) Hx x I)]. }
      assert (LO := fun x (I : In x R) => later_order es s x r Hf Hw (proj1 (OR x I)) Hr (proj1 (proj2 (OR x I))) (proj2 (proj2 (OR x I)))).
      rewrite map_app. cbn [map]. rewrite app_assoc.
      destruct (front_end es s r Hf Hw Hr) as [I1 I2].
      rewrite <- (stage_two f (map (glater es s) R) (glater es s r) (gedited f es s)).
      + rewrite (IH es s Hf Hw HR FB). rewrite <- (stage_two f (es ++ R) r s).
        * assert (K : gedited f (earlier_of (map (glater es s) R) (glater es s r)) (firstn (Z.to_nat (e_from (glater es s r))) (gedited f es s)) =
            gedited f (earlier_of (es ++ R) r) (firstn (Z.to_nat (e_from r)) s)).
          { rewrite (earlier_eq (map (glater es s) R)) by (apply Forall_forall; intros y I; apply in_map_iff in I; destruct I as (x & <- & I); apply (LO x I)).
            replace (Z.to_nat (e_from (glater es s r))) with (length (gedited f (earlier_of es r) (firstn (Z.to_nat (e_from r)) s))) by (unfold glater, at_pos; cbn [e_from]; lia).
            rewrite I2. replace (earlier_of (es ++ R) r) with (earlier_of es r ++ R).
            - rewrite <- (IH (earlier_of es r)); [|now apply earlier_all|now apply earlier_all|apply Forall_forall; intros x I; apply (LO x I)|exact FB].
              f_equal; apply map_ext_in; intros x I; symmetry; apply (LO x I).
            - unfold earlier_of at 2. rewrite filter_app. fold (earlier_of es r). fold (earlier_of R r). now rewrite (earlier_eq R) by (apply Forall_forall; intros x I; apply (OR x I)). }
          rewrite K. do 2 f_equal. unfold at_pos, glater. cbn [e_from e_to e_subf e_subt e_text at_pos]. f_equal. lia.
        * apply Forall_app. split; [exact Hf|]. eapply Forall_impl; [|exact HW]. apply whole_fracs.
        * now apply whole_fracs, Hr.
        * apply Forall_app. split; [apply Hr|]. apply Forall_forall. intros x I. destruct (OR x I) as (_ & [P|P] & _); [now right|now left].
        * apply Forall_app. split; [exact Hw|]. apply Forall_forall. intros x I. destruct (OR x I) as ((_ & Q & _) & _). unfold in_text, forward in *. lia.
        * apply Hr.
      + apply Forall_forall. intros y I. apply in_map_iff in I. destruct I as (x & <- & I). destruct (OR x I) as ((Q & _) & _). unfold whole, fracs, glater, at_pos in *. cbn. lia.
      + destruct Hr as (Q & _). unfold whole, fracs, glater, at_pos in *. cbn. lia.
      + apply Forall_forall. intros y I. apply in_map_iff in I. destruct I as (x & <- & I). apply (LO x I).
      + apply Forall_forall. intros y I. apply in_map_iff in I. destruct I as (x & <- & I). destruct (OR x I) as ((_ & Q & _) & _). unfold in_text, forward, glater, at_pos in *. cbn [e_from e_to]. lia.
      + exact I1.
  Qed.
End Later.
