(** Final theorems about VLQ, generators and reading maps: C09, C10, C24 - C29. *)
From Verif Require Import ContentHist.
From Verif Require Import Base ModelString ModelVlq ModelSm SpecMap SortFacts VlqFacts MapFacts
  ParseFacts GenFacts LoadFacts MapProps.

(** C09 *)
Theorem C09_vlq_round_trip : forall (z : Z) (rest : str),
  vlq_decode (vlq_encode z ++ rest) = Some (z, rest).
Proof. exact vlq_roundtrip. Qed.
Print Assumptions C09_vlq_round_trip.

Theorem C09_alphabet : forall (z : Z) (c : char),
  In c (vlq_encode z) -> In c alphabet /\ c <> COMMA /\ c <> SEMI.
Proof.
  intros z c H. apply vlq_encode_alphabet in H. split; [exact H|].
  destruct alphabet_no_sep as [A B]. split; intros ->; contradiction.
Qed.
Print Assumptions C09_alphabet.

Example C09_alphabet_case : In 118%N (vlq_encode (-1234567)%Z) /\ nth_error alphabet 47 = Some 118%N.
Proof. split; [left|]; reflexivity. Qed.

(** Also the independent reader of the format reads the number back. *)
Theorem C09_format : forall (z : Z) (rest : str),
  numbers (vlq_encode z ++ rest) 0 1 = (let* l := numbers rest 0 1 in Some (z :: l)).
Proof. exact numbers_encode. Qed.
Print Assumptions C09_format.

Example C09_format_case : numbers (vlq_encode (-1234567)%Z ++ vlq_encode 0 ++ vlq_encode 16) 0 1 = Some [-1234567; 0; 16]%Z.
Proof. vm_compute. reflexivity. Qed.

Example C09_case : vlq_encode (-1234567)%Z = lit "vorrC" /\
  vlq_decode (lit "vorrC,A") = Some ((-1234567)%Z, lit ",A").
Proof. split; reflexivity. Qed.

(** Sample mappings and histories. *)
Definition mp (gl gc : N) (s : Z) (ol oc : N) (n : option Z) : mapping :=
  mk_mapping (gl, gc) (Some s) n (Some (ol, oc)).
Definition mp0 (gl gc : N) : mapping := mk_mapping (gl, gc) None None None.
Definition sample : list gop :=
  [OAdd (mp 3 2 7 1 0 (Some 20%Z)); OAdd (mp 1 0 5 9 4 None); OMap; OAdd (mp0 1 6);
   OQuery 1 3; OContent 7 (Some 70%Z); OAdd (mp 1 6 7 40 0 (Some 21%Z)); OContent 5 (Some 50%Z)].
Definition inner : generator :=
  match grun (gen_new None None true) [OAdd (mp 9 0 8 1 1 None); OAdd (mp 1 0 9 2 0 None)] with
  | Some g => g | None => gen_new None None true end.
Definition sample_gen : generator :=
  match grun (gen_new None None false) sample with Some g => g | None => inner end.

Lemma sample_history : history None None false sample sample_gen /\ Forall plain sample.
Proof.
  split; [split; [vm_compute; reflexivity|]|];
    repeat (apply Forall_cons || apply Forall_nil); exact I || reflexivity.
Qed.

(** C10 *)
Theorem C10_mappings_string : forall file root skip h g,
  history file root skip h g -> Forall plain h ->
  exists g' m es, gen_to_source_map g = Some (g', m) /\
    read_map (map_sources m) (map_names m) (map_mappings m) = Some es /\
    Permutation es (map view (added h)) /\
    StronglySorted (fun a b => place_le (fst a) (fst b)) es.
Proof. exact mappings_string. Qed.
Print Assumptions C10_mappings_string.

(** With applySourceMap in the history: the string holds the mappings as rewritten. *)
Theorem C10_after_apply : forall file root skip h g,
  history file root skip h g -> orderly false h ->
  exists g' m es, gen_to_source_map g = Some (g', m) /\
    read_map (map_sources m) (map_names m) (map_mappings m) = Some es /\
    Permutation es (map view (ml_list (g_mappings g))) /\
    StronglySorted (fun a b => place_le (fst a) (fst b)) es.
Proof. exact mappings_string_apply. Qed.
Print Assumptions C10_after_apply.

(** An inner map for source 5 is applied and another mapping read afterwards. *)
Lemma inner_wf : gen_wf inner.
Proof.
  apply (history_wf None None true [OAdd (mp 9 0 8 1 1 None); OAdd (mp 1 0 9 2 0 None)]).
  - split; [vm_compute; reflexivity|repeat constructor].
  - repeat constructor.
Qed.
Example C10_after_apply_case : exists g g' m, history None None false (sample ++ [OApply inner (Some 5%Z); OQuery 1 3]) g /\
  orderly false (sample ++ [OApply inner (Some 5%Z); OQuery 1 3]) /\ gen_to_source_map g = Some (g', m) /\
  read_map (map_sources m) (map_names m) (map_mappings m) =
  Some [((1, 0), Some (8, (1, 1), None)); ((1, 6), None);
        ((1, 6), Some (7, (40, 0), Some 21)); ((3, 2), Some (7, (1, 0), Some 20))]%Z.
Proof.
  eexists _, _, _. split; [split; [vm_compute; reflexivity|]|].
  - repeat (apply Forall_cons || apply Forall_nil); try exact inner_wf; exact I || reflexivity.
  - split; [repeat split|]. split; [vm_compute; reflexivity|vm_compute; reflexivity].
Qed.

Example C10_case : exists g' m, gen_to_source_map sample_gen = Some (g', m) /\
  map_mappings m = lit "ACQI,M,AD+BJC;;EAvCAD" /\
  map_sources m = [7; 5]%Z /\ map_names m = [20; 21]%Z /\
  read_map (map_sources m) (map_names m) (map_mappings m) =
  Some [((1, 0), Some (5, (9, 4), None)); ((1, 6), None);
        ((1, 6), Some (7, (40, 0), Some 21)); ((3, 2), Some (7, (1, 0), Some 20))]%Z.
Proof. eexists _, _. repeat (apply conj; [vm_compute; reflexivity|]); vm_compute; reflexivity. Qed.

(** C24 *)
Theorem C24_closest : forall file root skip h g line column,
  history file root skip h g -> Forall plain h ->
  exists g' m, original_position_for g line column = Some (g', m) /\
    closest (added h) line column m.
Proof.
  intros file root skip h g line column H P.
  destruct (history_wf1 _ _ _ _ _ H P) as [[W _] Pm].
  destruct (query_closest g line column) as (g' & m & E & C); [apply W|].
  exists g', m. split; [exact E|]. exact (closest_perm _ _ _ _ _ Pm C).
Qed.
Print Assumptions C24_closest.

Theorem C24_after_apply : forall file root skip h g line column,
  history file root skip h g -> orderly false h ->
  exists g' m, original_position_for g line column = Some (g', m) /\
    closest (ml_list (g_mappings g)) line column m.
Proof.
  intros file root skip h g line column H P. apply query_closest.
  apply (history_wf _ _ _ _ _ H P).
Qed.
Print Assumptions C24_after_apply.

Example C24_after_apply_case : exists g, history None None false (sample ++ [OApply inner (Some 5%Z)]) g /\
  orderly false (sample ++ [OApply inner (Some 5%Z)]) /\ answer g 1 5 = Some (mp 1 0 8 1 1 None).
Proof.
  eexists. split; [split; [vm_compute; reflexivity|]|].
  - repeat (apply Forall_cons || apply Forall_nil); try exact inner_wf; exact I || reflexivity.
  - split; [repeat split|]. vm_compute. reflexivity.
Qed.

Example C24_case :
  answer sample_gen 1 5 = Some (mp 1 0 5 9 4 None) /\
  answer sample_gen 3 1 = Some empty_mapping /\ answer sample_gen 2 8 = Some empty_mapping /\
  answer sample_gen 3 2 = Some (mp 3 2 7 1 0 (Some 20%Z)).
Proof. repeat (apply conj; [vm_compute; reflexivity|]); vm_compute; reflexivity. Qed.

(** C25 *)
Theorem C25_order_independent : forall f1 r1 s1 h1 g1 f2 r2 s2 h2 g2,
  history f1 r1 s1 h1 g1 -> history f2 r2 s2 h2 g2 -> Forall plain h1 -> Forall plain h2 ->
  Permutation (added h1) (added h2) ->
  emitted g1 = emitted g2 /\ (forall line column, answer g1 line column = answer g2 line column).
Proof. exact order_independent. Qed.
Print Assumptions C25_order_independent.

Definition sample2 : list gop :=
  [OAdd (mp 1 6 7 40 0 (Some 21%Z)); OQuery 4 4; OAdd (mp0 1 6); OMap; OAdd (mp 1 0 5 9 4 None);
   OAdd (mp 3 2 7 1 0 (Some 20%Z))].
Example C25_case : Permutation (added sample) (added sample2) /\ Forall plain sample2 /\
  exists g, history None None true sample2 g.
Proof.
  split; [exact (Permutation_rev (added sample))|].
  split; [repeat constructor|]. eexists; split; [vm_compute; reflexivity|repeat constructor].
Qed.

(** After applySourceMap the cached maximum is lost: reads in between change the result
    (here: serializing afterwards panics, without the read it does not). *)
Theorem C25_after_apply_refuted : exists m1 m2 g1 g2,
  history None None true [OAdd m1; OApply inner (Some 5%Z); OMap; OAdd m2] g1 /\
  history None None true [OAdd m1; OApply inner (Some 5%Z); OAdd m2] g2 /\
  emitted g1 = None /\ emitted g2 <> None.
Proof.
  exists (mp 3 2 7 1 0 None), (mp 1 0 5 9 4 None). eexists _, _.
  assert (W : gen_wf inner).
  { apply (history_wf None None true [OAdd (mp 9 0 8 1 1 None); OAdd (mp 1 0 9 2 0 None)]).
    - split; [vm_compute; reflexivity|repeat constructor].
    - repeat constructor. }
  split; [split; [vm_compute; reflexivity|repeat (apply Forall_cons || apply Forall_nil); try exact W; exact I || reflexivity]|].
  split; [split; [vm_compute; reflexivity|repeat (apply Forall_cons || apply Forall_nil); try exact W; exact I || reflexivity]|].
  split; vm_compute; [reflexivity|discriminate].
Qed.
Print Assumptions C25_after_apply_refuted.

(** C26 *)
Theorem C26_no_duplicates_complete : forall file root skip h g g' m,
  history file root skip h g -> gen_to_source_map g = Some (g', m) ->
  NoDup (map_sources m) /\ NoDup (map_names m) /\
  forall x, In x (ml_list (g_mappings g)) ->
    (forall s, m_src x = Some s -> In s (map_sources m)) /\
    (forall n, m_name x = Some n -> In n (map_names m)).
Proof. exact tables_all. Qed.
Print Assumptions C26_no_duplicates_complete.

Theorem C26_first_use_order : forall file root skip h g,
  history file root skip h g -> Forall plain h ->
  exists g' m, gen_to_source_map g = Some (g', m) /\
    map_sources m = firsts (srcs (added h)) /\ map_names m = firsts (nams (added h)).
Proof. exact tables_order. Qed.
Print Assumptions C26_first_use_order.

Example C26_first_use_order_case : history None None false sample sample_gen /\ Forall plain sample /\
  firsts (srcs (added sample)) = [7; 5]%Z /\ firsts (nams (added sample)) = [20; 21]%Z.
Proof. split; [apply sample_history|]. split; [apply sample_history|]. split; vm_compute; reflexivity. Qed.

Theorem C26_order_after_apply : forall g inner file g1 inner' h g2 g3 m,
  apply_source_map_generator g inner file = Some (g1, inner') -> ml_list (g_mappings g1) <> [] ->
  Forall plain h -> grun g1 h = Some g2 -> gen_to_source_map g2 = Some (g3, m) ->
  map_sources m = firsts (srcs (ml_list (g_mappings g1) ++ added h)) /\
  map_names m = firsts (nams (ml_list (g_mappings g1) ++ added h)).
Proof. exact tables_order_apply. Qed.
Print Assumptions C26_order_after_apply.

(** Source 5 is mapped through [inner] to source 8; 7 stays. *)
Example C26_case : exists g g' m,
  grun sample_gen [OApply inner (Some 5%Z)] = Some g /\ gen_to_source_map g = Some (g', m) /\
  map_sources m = [8; 7]%Z /\ map_names m = [20; 21]%Z.
Proof. eexists _, _, _. repeat (apply conj; [vm_compute; reflexivity|]); vm_compute; reflexivity. Qed.

(** C27 *)
Theorem C27_aligned_partial : forall g g' m, gen_to_source_map g = Some (g', m) ->
  (forall s, In s (map_sources m) -> exists c, al_get (g_contents g) s = Some c) ->
  length (map_contents m) = length (map_sources m) /\
  forall i s, nth_error (map_sources m) i = Some s ->
    nth_error (map_contents m) i = al_get (g_contents g) s.
Proof. exact contents_aligned. Qed.
Print Assumptions C27_aligned_partial.

Example C27_case : exists g' m, gen_to_source_map sample_gen = Some (g', m) /\
  map_sources m = [7; 5]%Z /\ map_contents m = [70; 50]%Z.
Proof. eexists _, _. repeat (apply conj; [vm_compute; reflexivity|]); vm_compute; reflexivity. Qed.

(** The contents listed: for each source the first one given since the last removal, by
    setSourceContent or with an applied map; sources without one are left out. *)
Theorem C27_contents : forall file root skip h g g' m, grun (gen_new file root skip) h = Some g -> gen_to_source_map g = Some (g', m) ->
  map_contents m = flat_map (fun s => match given_since h s with c :: _ => [c] | [] => [] end) (map_sources m).
Proof.
  intros file root skip h g g' m H E. rewrite (contents_given_since _ _ _ _ _ _ _ H E). apply flat_map_ext. intro s. now destruct (given_since h s).
Qed.
Print Assumptions C27_contents.
Example C27_contents_case : exists g g' m h,
  h = sample ++ [OContent 7 (Some 71%Z); OContent 5 None; OMap; OContent 5 (Some 51%Z); OContent 5 (Some 52%Z)] /\
  grun (gen_new None None false) h = Some g /\ gen_to_source_map g = Some (g', m) /\
  map_sources m = [7; 5]%Z /\ map_contents m = [70; 51]%Z /\ given_since h 5 = [51; 52]%Z.
Proof. eexists _, _, _, _. split; [reflexivity|]. repeat (apply conj; [vm_compute; reflexivity|]); vm_compute; reflexivity. Qed.

(** Only source 5 has a content, and it is emitted as that of source 7. *)
Theorem C27_aligned_refuted : exists h g g' m,
  history None None false h g /\ gen_to_source_map g = Some (g', m) /\
  nth_error (map_sources m) 0 = Some 7%Z /\ al_get (g_contents g) 7 = None /\
  nth_error (map_contents m) 0 = Some 50%Z /\ al_get (g_contents g) 5 = Some 50%Z.
Proof.
  exists [OAdd (mp 1 0 7 1 0 None); OAdd (mp 1 1 5 1 0 None); OContent 5 (Some 50%Z)].
  eexists _, _, _. split; [split; [vm_compute; reflexivity|repeat constructor]|].
  repeat (apply conj; [vm_compute; reflexivity|]); vm_compute; reflexivity.
Qed.
Print Assumptions C27_aligned_refuted.

(** C28: contents survive when every source has one (see C27). *)
Theorem C28_write_read : forall file root skip h g check,
  history file root skip h g -> orderly false h -> gen_fits g ->
  exists g1 m g2,
    gen_to_source_map g = Some (g1, m) /\
    from_source_map (map_sources m) (map_contents m) (map_mappings m) (map_names m)
      (map_file m) (map_root m) check = Some g2 /\
    Permutation (ml_list (g_mappings g2)) (ml_list (g_mappings g)) /\
    emitted g2 = emitted g /\
    (forall line column, answer g2 line column = answer g line column) /\
    g_file g2 = g_file g /\ g_root g2 = g_root g /\
    (check = true -> map fst (g_sources g2) = map fst (g_sources g)) /\
    ((forall s, In s (map fst (g_sources g)) -> exists c, al_get (g_contents g) s = Some c) ->
     forall s, In s (map fst (g_sources g)) -> al_get (g_contents g2) s = al_get (g_contents g) s).
Proof. exact roundtrip. Qed.
Print Assumptions C28_write_read.

Example C28_case : orderly false sample /\ gen_fits sample_gen /\
  (forall s, In s (map fst (g_sources sample_gen)) -> exists c, al_get (g_contents sample_gen) s = Some c) /\
  emitted sample_gen <> None.
Proof.
  split; [repeat split|]. split; [|split].
  - split; [|split; vm_compute; discriminate]. repeat constructor; vm_compute; discriminate.
  - vm_compute. intros s [<-|[<-|[]]]; eauto.
  - vm_compute. discriminate.
Qed.

(** C29 *)
Theorem C29_indices_partial : forall sources contents mappings names file root check segs es,
  (check = true -> NoDup sources /\ NoDup names) ->
  decode mappings = Some segs -> Forall small segs ->
  all_some (map (resolve sources names) segs) = Some es ->
  exists g, from_source_map sources contents mappings names file root check = Some g /\
    Permutation (map view (ml_list (g_mappings g))) es /\
    (NoDup sources -> forall i s, nth_error sources i = Some s ->
       al_get (g_contents g) s = nth_error contents i).
Proof. exact index_resolution. Qed.
Print Assumptions C29_indices_partial.

Example C29_case : decode (lit "AAAA;AEEAA,CDAEC") =
    Some [mk_seg 0 0 (Some (0, 0, 0, None)); mk_seg 1 0 (Some (2, 2, 0, Some 0));
          mk_seg 1 1 (Some (1, 2, 2, Some 1))]%Z /\
  read_map [10; 11; 12]%Z [30; 31]%Z (lit "AAAA;AEEAA,CDAEC") =
    Some [((1, 0), Some (10, (1, 0), None)); ((2, 0), Some (12, (3, 0), Some 30));
          ((2, 1), Some (11, (3, 2), Some 31))]%Z.
Proof. split; vm_compute; reflexivity. Qed.

(** With a repeated source index 1 denotes the wrong file and index 2 none (panic). *)
Theorem C29_indices_refuted : exists sources mappings es g,
  read_map sources [] mappings = Some es /\
  from_source_map sources [] mappings [] None None true = Some g /\
  map snd es = [Some (10, (1, 0), None)]%Z /\
  map (fun m => snd (view m)) (ml_list (g_mappings g)) = [Some (11, (1, 0), None)]%Z /\
  from_source_map sources [] (lit "AEAA") [] None None true = None.
Proof.
  exists [10; 10; 11]%Z, (lit "ACAA"). eexists _, _. repeat (apply conj; [vm_compute; reflexivity|]); vm_compute; reflexivity.
Qed.
Print Assumptions C29_indices_refuted.
