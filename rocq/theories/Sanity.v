(** Checks of the model against the expected values in the project's own test suites
    (tests/source_map.rs, test-js/).  These are tests of the transcription, not proofs of
    properties. *)
From Verif Require Import Base ModelString ModelVlq ModelSm ModelSlm ModelSources ModelTree
  ModelJs.

(** Text with '|' standing for a newline. *)
Definition ml (s : String.string) : str :=
  map (fun c => if N.eqb c 124 then NL else c) (lit s).
Arguments ml s%string_scope.

(** test-js/ConcatSource.js:7-66 *)
Definition cs_tree :=
  TConcat [TRaw (ml "Hello World|");
           TOriginal (ml "console.log('test');|console.log('test2');|") 100 1;
           TOriginal (ml "Hello2|") 101 2].
Example concat_text : t_source cs_tree =
  Some (ml "Hello World|console.log('test');|console.log('test2');|Hello2|").
Proof. vm_compute. reflexivity. Qed.
Example concat_size : t_size cs_tree = Some 62.
Proof. vm_compute. reflexivity. Qed.
Example concat_line_map : option_map snd (source_and_line_map true cs_tree) =
  Some (mk_map (Some (-1)%Z) [1; 2]%Z [100; 101]%Z (lit ";AAAA;AACA;ACDA;") [] None).
Proof. vm_compute. reflexivity. Qed.
Example concat_column_map : option_map snd (source_and_column_map true cs_tree) =
  Some (mk_map None [1; 2]%Z [100; 101]%Z (lit ";AAAA;AACA;ACDA") [] None).
Proof. vm_compute. reflexivity. Qed.

(** test-js/ConcatSource.js:67-112 *)
Definition cs_tree2 :=
  TConcat [TRaw (ml "Hello World|");
           TOriginal (ml "console.log('test');|console.log('test2');|") 100 1;
           TStr (lit "console.log('string')")].
Example concat2_line_map : option_map snd (source_and_line_map true cs_tree2) =
  Some (mk_map (Some (-1)%Z) [1]%Z [100]%Z (lit ";AAAA;AACA;A") [] None).
Proof. vm_compute. reflexivity. Qed.
Example concat2_size : t_size cs_tree2 = Some 76.
Proof. vm_compute. reflexivity. Qed.

(** test-js/PrefixSource.js:8-60 *)
Definition pf_tree :=
  TPrefix [9%N]
    (TOriginal (ml "console.log('test');console.log('test2');|console.log('test22');|") 100 1).
Example prefix_size : t_size pf_tree = Some 67.
Proof. vm_compute. reflexivity. Qed.
Example prefix_line_map : option_map (fun p => map_mappings (snd p)) (source_and_line_map true pf_tree)
  = Some (lit "AAAA;AACA;").
Proof. vm_compute. reflexivity. Qed.
Example prefix_column_map :
  option_map (fun p => map_mappings (snd p)) (source_and_column_map true pf_tree)
  = Some (lit "AAAA,qBAAoB;AACpB").
Proof. vm_compute. reflexivity. Qed.

(** test-js/PrefixSource.js:62-90 *)
Definition pf_tree2 :=
  TPrefix [9%N]
    (TConcat [TOriginal (ml "console.log('test');|") 100 1;
              TOriginal (ml "|console.log('test1');||") 101 2;
              TOriginal (ml "|console.log('test2');|") 102 3;
              TOriginal (ml "console.log('test3');") 103 4;
              TOriginal (ml "|") 104 5;
              TOriginal (ml "console.log('test4');") 105 6]).
Example prefix2_consistent :
  option_map fst (source_and_column_map true pf_tree2) = t_source pf_tree2.
Proof. vm_compute. reflexivity. Qed.

(** test-js/ReplaceSource.js:7-65 *)
Definition rp_state :=
  let st := rstate_new in
  let st := rs_replace st 16 36 [] 0 0 in
  let st := rs_replace st 1 4 (lit "i ") 0 0 in
  let st := rs_replace st 1 4 (lit "bye") 0 0 in
  let st := rs_replace st 7 7 (lit "0000") 0 0 in
  let st := rs_insert st 14 (ml "| Multi Line|") 0 in
  rs_replace st 41 41 (lit " ") 0 0.
Definition rp_tree :=
  TReplace (TOriginal (ml "Hello World!|{}|Line 3|Line 4|Line 5|Last|Line") 100 1) rp_state.
Example replace_source_text : t_source rp_tree = Some (ml "Hi bye W0000rld!|{| Multi Line|}|Last Line").
Proof. vm_compute. reflexivity. Qed.
Example replace_column_text : option_map fst (source_and_column_map true rp_tree) = t_source rp_tree.
Proof. vm_compute. reflexivity. Qed.
Example replace_line_text : option_map fst (source_and_line_map true rp_tree) = t_source rp_tree.
Proof. vm_compute. reflexivity. Qed.
Example replace_line_map : option_map (fun p => map_mappings (snd p)) (source_and_line_map true rp_tree)
  = Some (lit "AAAA;AACA;AAAA;AAAA;AAIA,KACA").
Proof. vm_compute. reflexivity. Qed.

(** test-js/ReplaceSource.js:67-94 *)
Definition rp_tree2 :=
  TReplace (TOriginal (ml "Hello|World!") 100 1)
    (rs_replace (rs_insert rstate_new 0 (lit "Message: ") 0) 2 9 (lit "y A") 0 0).
Example replace2_source_text : t_source rp_tree2 = Some (lit "Message: Hey Ad!").
Proof. vm_compute. reflexivity. Qed.
Example replace2_column_text : option_map fst (source_and_column_map true rp_tree2) = t_source rp_tree2.
Proof. vm_compute. reflexivity. Qed.
Example replace2_line_map : option_map (fun p => map_mappings (snd p)) (source_and_line_map true rp_tree2)
  = Some (lit "AAAA,cACA").
Proof. vm_compute. reflexivity. Qed.

(** test-js/source-list-map/MappingGeneration.js:8-20 *)
Definition mg_map : option slm :=
  let* m := slm_add [] (LStr (ml "Gen|Code ")) None None in
  let* m := slm_add m (LStr (ml "Source|Code|")) (Some 1%Z) (Some 100%Z) in
  let* m := slm_add m (LStr (ml "Gen ")) None None in
  let* m := slm_add m (LStr (ml "Code ")) None None in
  slm_add m (LStr (ml "Source|Code")) (Some 1%Z) (Some 101%Z).
Example mapping_generation :
  option_map (fun m => let '(t, sm) := slm_to_string_with_source_map m None in
                       (t, map_mappings sm)) mg_map
  = Some (ml "Gen|Code Source|Code|Gen Code Source|Code", lit ";A,KAAA;AACA;A,SADA;AACA").
Proof. vm_compute. reflexivity. Qed.

(** test-js/source-list-map/mapGeneratedCode.js:5-62 *)
Definition mgc_src := ml "Normal Line 1|Normal Line 2|$|Normal Line 3|Line A;Line B;Line C|Line A;Line B;Line C|No\|New\|Line 1|No\|$|New\|$|$|Line 2|End Line".
Definition mgc_map : option slm :=
  let* m := slm_add [] (LStr (mgc_src ++ [NL])) (Some 1%Z) (Some 100%Z) in
  let* m := slm_add m (LStr (mgc_src ++ [NL])) (Some 1%Z) (Some 100%Z) in
  let* m := slm_add m (LStr (mgc_src ++ [NL])) None None in
  let* m := slm_add m (LStr mgc_src) (Some 1%Z) (Some 101%Z) in
  let* (_, m) := map_generated_code test_mapfun tt m in
  Some m.
Definition mgc_part := lit "AACA;AAEA;AACA;AAAA;AAAA;AACA;AAAA;AAAA;AACA,GACA,IACA;AACA,GAEA,IAGA;AACA".
Example map_generated_code_test :
  option_map (fun m => map_mappings (snd (slm_to_string_with_source_map m None))) mgc_map
  = Some (lit "AAAA;" ++ mgc_part ++ lit ";AAfA;" ++ mgc_part ++ lit ";;;;;;;;;;;;;AAfA;" ++ mgc_part).
Proof. vm_compute. reflexivity. Qed.

(** test-js/source-list-map/fromStringWithSourceMapTest.js fixtures *)
Definition slm_rt (code mappings : str) (n : nat) : option (str * str) :=
  let* m := slm_from_string code (map Z.of_nat (seq 1 n)) (map Z.of_nat (seq 100 n)) mappings in
  let '(t, sm) := slm_to_string_with_source_map m None in
  Some (t, map_mappings sm).
Example slm_rt1 : slm_rt (ml "aaa|bbb|") (lit "CAAA;CACA;") 1
  = Some (ml "aaa|bbb|", lit "AAAA;AACA;").
Proof. vm_compute. reflexivity. Qed.
Example slm_rt2 : slm_rt (ml "aaa||bbb||") (lit "CAAA;;AAEA;;") 1
  = Some (ml "aaa||bbb||", lit "AAAA;AACA;AACA;AACA;").
Proof. vm_compute. reflexivity. Qed.
Example slm_rt3 : slm_rt (ml "aaa|bbb|ccc") (lit "CACA;CCAA;CAEA") 2
  = Some (ml "aaa|bbb|ccc", lit "AACA;ACAA;AAEA").
Proof. vm_compute. reflexivity. Qed.
Example slm_rt4 : slm_rt (ml " aaa| bbb|") (lit "A,CAAA;A,CACA;A") 1
  = Some (ml " aaa| bbb|", lit "AAAA;AACA;").
Proof. vm_compute. reflexivity. Qed.

(** tests/source_map.rs:75-140 *)
Definition src_node (p : option pos2) (s : option Z) (t : str) : smnode :=
  sn_new p s None (Some (CNode (SmStr t))).
Definition sn_tree : smnode :=
  SmNode None None None
    [src_node (Some (1, 0)%N) (Some 1%Z) (ml "(function() {|var nextLine = 1;|anotherLine();|");
     src_node (Some (2, 2)%N) (Some 2%Z) (ml "Test.call(this, 123);|");
     src_node (Some (2, 2)%N) (Some 2%Z) (ml "this['stuff'] = 'v';|");
     src_node (Some (2, 2)%N) (Some 2%Z) (ml "anotherLine();|");
     SmStr (ml "/*|Generated|Source|*/|");
     src_node (Some (3, 4)%N) (Some 3%Z) (ml "anotherLine();|");
     SmStr (ml "/*|Generated|Source|*/")] [].
Example multi_line_source_nodes :
  option_map (fun p => map_mappings (snd p)) (to_string_with_source_map sn_tree None None)
  = Some (lit "AAAA;AAAA;AAAA;ACCE;AAAA;AAAA;;;;;ACCE").
Proof. vm_compute. reflexivity. Qed.

(** tests/source_map.rs with_set_source_content *)
Example with_set_source_content :
  option_map snd (to_string_with_source_map
    (SmNode None None None
       [SmStr (ml "(function () {|"); SmStr (lit "  ");
        SmNode (Some (1, 1)%N) (Some 1%Z) None [SmStr (lit "a")] [(1, 100)%Z];
        SmStr (lit "  "); src_node (Some (1, 1)%N) (Some 2%Z) (lit "b"); SmStr (lit "}());")]
       [(2, 101)%Z]) None None)
  = Some (mk_map None [1; 2]%Z [100; 101]%Z (lit ";EAAC,C,ECAA,C") [] None).
Proof. vm_compute. reflexivity. Qed.

(** tests/source_map.rs from_source_map *)
Definition min_mappings :=
  lit "CAAC,IAAI,IAAM,SAAUA,GAClB,OAAOC,IAAID;CCDb,IAAI,IAAM,SAAUE,GAClB,OAAOA".
Example from_source_map_round_trip :
  option_map snd
    (let* g := from_source_map [1; 2]%Z [100; 101]%Z min_mappings [10; 11; 12]%Z
                 (Some 5%Z) None true in gen_to_source_map g)
  = Some (mk_map (Some 5%Z) [1; 2]%Z [100; 101]%Z min_mappings [10; 11; 12]%Z None).
Proof. vm_compute. reflexivity. Qed.

(** A SourceMapSource with that map reproduces it. *)
Definition min_code := ml " ONE.foo=function(a){return baz(a);};| TWO.inc=function(a){return a+1;};".
Example sms_round_trip :
  option_map (fun p => (fst p, map_mappings (snd p)))
    (source_and_column_map true
       (TSms (sms_new min_code 50 5 (mk_smc [1; 2]%Z [100; 101]%Z [10; 11; 12]%Z min_mappings) None)))
  = Some (min_code, min_mappings).
Proof. vm_compute. reflexivity. Qed.
