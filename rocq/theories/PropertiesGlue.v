(** Property C64: strings and arrays of numbers cross the memory of the wasm module
    unchanged, and every block that is allocated for them is freed exactly once. *)
From Coq Require Import Sorting.Permutation.
From Verif Require Import Base ModelString ModelVlq ModelSm ModelSlm ModelSources ModelTree ModelJs ModelJsApi Utf8 ModelGlue SpecGlue GlueFacts GlueProps.

(** * A memory to look at: an allocator that always grows, and functions of a module *)
Definition bump : allocator := fun s n => (length (gm_bytes s), repeat 0%N (4 * ((n + 3) / 4))).
Lemma bump_honest : honest bump.
Proof.
  intros s n (_ & H2 & (k & H3) & _). unfold bump. cbn [fst snd]. rewrite repeat_length. assert (n <= 4 * ((n + 3) / 4)) by (pose proof (Nat.div_mod (n + 3) 4); pose proof (Nat.mod_upper_bound (n + 3) 4); lia).
  split; [eauto|]. split; [lia|]. intros _. split; [eauto|]. revert H2. apply Forall_impl. intros b [_ Hb]. right. exact Hb.
Qed.
Definition glue0 : glue := mk_glue (repeat 0%N 16) 0 0 [] [(8, 4)] None None None None.
Ltac pairs_now := vm_compute; repeat first [apply FOP_nil|apply FOP_cons|apply Forall_nil|apply Forall_cons|cbn; lia].
Ltac sane_now := unfold sane; split; [pairs_now|split; [pairs_now|split; [|split; [now exists 0|cbn; auto]]]].
Lemma glue0_sane : sane glue0.
Proof. sane_now. now exists 4. Qed.
(** A function that lets the memory grow and throws or not. *)
Definition grower (threw : bool) : body := fun s _ => (g_grow s (repeat 0%N 8), threw).
Lemma grower_tame b : tame (grower b).
Proof.
  intros s l (H1 & H2 & (k & H3) & H4 & H5). split; [|reflexivity]. unfold grower. cbn [fst g_grow repeat]. split; [exact H1|]. split; [|split; [|split; [exact H4|exact H5]]].
  - revert H2. apply Forall_impl. intros b0 [Hb Hc]. split; [exact Hb|]. cbn [gm_bytes]. rewrite app_length. cbn [length]. lia.
  - exists (k + 2). cbn [gm_bytes]. rewrite app_length. cbn [length]. lia.
Qed.
(** A function that hands out n elements. *)
Definition giver (n : nat) (content : list N) : body := fun s _ =>
  let p := length (gm_bytes s) in
  let s1 := g_grow s (content ++ repeat 0%N (4 * ((length content + 3) / 4) - length content)) in
  (set_blocks (set_bytes s1 (patch (gm_bytes s1) (gm_args s1) (le32 (Z.of_nat p) ++ le32 (Z.of_nat n))))
     (match length content with O => gm_js s | _ => (p, length content) :: gm_js s end) (gm_rust s), false).

Definition WORD : jstr := [104; 233; 55357; 56832]%N.  (* "hé" and a pair of surrogates *)
Definition MARKS : list param := [PStr WORD; PInts [1; -2]%Z; PMoved true; PInts []; PStr [97]%N].

(** * Arguments *)

(** Every string and every array of a call is found by the module at the address and with
    the length it is given: UTF-8 of the string, the numbers as 32 bit integers.  What else
    is in allocated blocks is not touched, though the memory may have grown in between. *)
Theorem C64_arguments al ps : honest al -> Forall passable ps -> forall s, sane s -> exists s' slots, pass_all al s ps = (s', Some slots) /\ sane s' /\ keeps s s' /\
  Permutation (gm_js s') (flat_map slot_block slots ++ gm_js s) /\ Forall2 (arrives s') (data ps) slots.
Proof. exact (pass_all_spec al ps). Qed.
Print Assumptions C64_arguments.
Example C64_arguments_example : honest bump /\ Forall passable MARKS /\ sane glue0 /\
  snd (pass_all bump glue0 MARKS) = Some [SStr 16 7; SInts 24 2; SInts 32 0; SStr 32 1] /\
  skipn 16 (gm_bytes (fst (pass_all bump glue0 MARKS))) = [104; 195; 169; 240; 159; 152; 128; 0; 1; 0; 0; 0; 254; 255; 255; 255; 97; 0; 0; 0]%N.
Proof. split; [exact bump_honest|]. split; [repeat constructor|]. split; [exact glue0_sane|]. now vm_compute. Qed.

(** * A whole call *)

(** The module is called with the arguments in place.  Afterwards, whether it throws or
    not, the caller has the blocks it had before: those of arrays are freed, those of
    strings belong to the module; nothing is freed that is not allocated. *)
Theorem C64_call al s ps : honest al -> sane s -> Forall passable ps -> exists s0 slots, sane s0 /\ Forall2 (arrives s0) (data ps) slots /\
  forall f, tame f -> exists s', glue_call al f s ps = (s', if snd (f s0 slots) then Threw else Returned) /\
    sane s' /\ Permutation (gm_js s') (gm_js s) /\ gm_bytes s' = gm_bytes (fst (f s0 slots)).
Proof. exact (call_spec al s ps). Qed.
Print Assumptions C64_call.
Example C64_call_example : honest bump /\ sane glue0 /\ Forall passable MARKS /\ tame (grower true) /\
  snd (glue_call bump (grower true) glue0 MARKS) = Threw /\ gm_js (fst (glue_call bump (grower true) glue0 MARKS)) = [] /\
  gm_rust (fst (glue_call bump (grower true) glue0 MARKS)) = [(32, 1); (16, 7); (8, 4)].
Proof. split; [exact bump_honest|]. split; [exact glue0_sane|]. split; [repeat constructor|]. split; [apply grower_tame|]. now vm_compute. Qed.

(** * Results *)

(** A string the module hands out is the string the caller gets (but for a byte order mark
    at its start, see C45), and its block is freed. *)
Theorem C64_string f v s : sane s -> scalars v -> hands f s 1 (utf8 v) ->
  exists s', get_string f s = (s', Some (to_js v)) /\ sane s' /\ Permutation (gm_js s') (gm_js s).
Proof. exact (get_string_spec f v s). Qed.
Print Assumptions C64_string.
Tactic Notation "hands_now" constr(p) constr(n) constr(k) constr(m) := intros s1 Hs (B & A & J & R); destruct s1 as [b g a j r u8 u32 i32 arg];
  cbn [gm_bytes gm_args gm_js gm_rust] in B, A, J, R; vm_compute in B, A, J, R; subst; destruct Hs as (_ & _ & _ & _ & Ha); cbn in Ha;
  eexists _, p, n; split; [reflexivity|split; [sane_now; now exists m|split; [reflexivity|split; [reflexivity|split; [reflexivity|split; [reflexivity|split; [reflexivity|split; [vm_compute; lia|split; [now exists k|split; reflexivity]]]]]]]]].
Example C64_string_example : sane glue0 /\ scalars (from_js WORD) /\ hands (giver 7 (utf8 (from_js WORD))) glue0 1 (utf8 (from_js WORD)) /\
  snd (get_string (giver 7 (utf8 (from_js WORD))) glue0) = Some WORD /\ gm_js (fst (get_string (giver 7 (utf8 (from_js WORD))) glue0)) = [].
Proof.
  split; [exact glue0_sane|]. split; [repeat constructor|]. split; [|now vm_compute].
  hands_now 16 7 16 6.
Qed.

(** An array of 32 bit integers the module hands out is the array the caller gets.  It does
    not change any more, whatever happens to the memory afterwards. *)
Theorem C64_ints f l s : sane s -> Forall (fun z => -2147483648 <= z < 2147483648)%Z l -> hands f s 4 (flat_map le32 l) ->
  exists s' a, get_ints f s = (s', Some a) /\ sane s' /\ Permutation (gm_js s') (gm_js s) /\ forall s2, elements s2 a = l.
Proof. exact (get_ints_spec f l s). Qed.
Print Assumptions C64_ints.
Definition SOME : list Z := [-7; 0; 2147483647; -2147483648]%Z.
Example C64_ints_example : sane glue0 /\ Forall (fun z => -2147483648 <= z < 2147483648)%Z SOME /\ hands (giver 4 (flat_map le32 SOME)) glue0 4 (flat_map le32 SOME) /\
  snd (get_ints (giver 4 (flat_map le32 SOME)) glue0) = Some (Copy SOME) /\ gm_js (fst (get_ints (giver 4 (flat_map le32 SOME)) glue0)) = [].
Proof.
  split; [exact glue0_sane|]. split; [repeat constructor; vm_compute; congruence|]. split; [|now vm_compute].
  hands_now 16 4 4 8.
Qed.

(** * Any number of calls *)

(** Calls one after the other, with views of the memory kept from one to the next: no call
    frees what is not allocated, every text and array arrives, and in the end the caller
    has the blocks it had in the beginning. *)
Theorem C64_history al : honest al -> forall l s es, sane s -> all_go al s l es -> exists s' os, gdo_all al s l = (s', os) /\
  sane s' /\ Permutation (gm_js s') (gm_js s) /\ Forall2 as_expected es os.
Proof. exact (history_spec al). Qed.
Print Assumptions C64_history.
Definition STEPS : list gstep :=
  [GCall (grower false) MARKS; GString (giver 7 (utf8 (from_js WORD))); GInts (giver 4 (flat_map le32 SOME)); GCall (grower true) MARKS; GString (giver 0 [])].
Example C64_history_example : honest bump /\ sane glue0 /\ all_go bump glue0 STEPS [XCall; XString (from_js WORD); XInts SOME; XCall; XString []] /\
  snd (gdo_all bump glue0 STEPS) = [SawCall Returned; SawString (Some WORD); SawInts (Some (Copy SOME)); SawCall Threw; SawString (Some [])].
Proof.
  split; [exact bump_honest|]. split; [exact glue0_sane|]. split; [|now vm_compute].
  cbn [all_go STEPS]. split; [split; [apply grower_tame|repeat constructor]|].
  split; [split; [repeat constructor|]|].
  { match goal with |- hands _ ?s _ _ => let s' := eval vm_compute in s in change s with s' end. hands_now 44 7 44 13. }
  split; [split; [repeat constructor; vm_compute; congruence|]|].
  { match goal with |- hands _ ?s _ _ => let s' := eval vm_compute in s in change s with s' end. hands_now 52 4 13 17. }
  split; [split; [apply grower_tame|repeat constructor]|].
  split; [|exact I]. split; [constructor|].
  match goal with |- hands _ ?s _ _ => let s' := eval vm_compute in s in change s with s' end. hands_now 96 0 96 24.
Qed.

(** * What is not freed *)

(** A parameter that makes the glue throw before the module is called (an object that has
    been moved, or something that is not an array): exactly the blocks of the parameters
    before it stay allocated. *)
Theorem C64_leak al f : honest al -> forall ps q rest s, sane s -> Forall passable ps -> ~ passable q ->
  exists s' slots, glue_call al f s (ps ++ q :: rest) = (s', Threw) /\ sane s' /\ Forall2 (arrives s') (data ps) slots /\ Permutation (gm_js s') (flat_map slot_block slots ++ gm_js s).
Proof. exact (leak_spec al f). Qed.
Print Assumptions C64_leak.
(** _new_string_sidx_string_wasmmap with a map that has been moved. *)
Theorem C64_leak_refuted : exists al f s ps, honest al /\ tame f /\ sane s /\ gm_js s = [] /\ ps = [PStr [97; 98]%N; PMoved false] /\
  snd (glue_call al f s ps) = Threw /\ gm_js (fst (glue_call al f s ps)) = [(16, 2)].
Proof.
  exists bump, (grower false), glue0, [PStr [97; 98]%N; PMoved false]. split; [exact bump_honest|]. split; [apply grower_tame|]. split; [exact glue0_sane|]. now vm_compute.
Qed.
Print Assumptions C64_leak_refuted.
