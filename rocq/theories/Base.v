(** Basic vocabulary shared by the model, the specifications and the proofs. *)
From Coq Require Export List Arith NArith ZArith Lia Bool.
From Coq Require Import Ascii String.
Export String.StringSyntax.
Export ListNotations.
#[global] Open Scope list_scope.

(** ** Panics
    A Rust computation that may panic (panic!, unwrap on None/Err, unreachable!,
    index out of range, arithmetic underflow, access outside a buffer or through a
    character) is a value of type [option A]; [None] is the panic. *)
Definition bind {A B} (m : option A) (f : A -> option B) : option B :=
  match m with Some a => f a | None => None end.

Notation "'let*' p ':=' m 'in' k" := (bind m (fun p => k))
  (at level 200, p pattern, m at level 100, k at level 200, right associativity).
Notation "'guard*' b 'in' k" := (if b then k else None)
  (at level 200, b at level 100, k at level 200, right associativity).

(** ** Text
    A Rust string is a list of Unicode scalar values. *)
Definition char := N.
Definition str := list char.

Definition NL : char := 10%N.       (* '\n' *)
Definition CR : char := 13%N.       (* '\r' *)
Definition SEMI : char := 59%N.     (* ';' *)
Definition COMMA : char := 44%N.    (* ',' *)
Definition LBRACE : char := 123%N.  (* '{' *)
Definition RBRACE : char := 125%N.  (* '}' *)

(** char::len_utf8 (Rust core). *)
Definition len_utf8 (c : char) : nat :=
  if (c <? 128)%N then 1
  else if (c <? 2048)%N then 2
  else if (c <? 65536)%N then 3
  else 4.

(** str::len, in bytes (Rust core). *)
Fixpoint blen (s : str) : nat :=
  match s with [] => 0 | c :: r => len_utf8 c + blen r end.

(** Number of UTF-16 code units of a character (JavaScript's String length). *)
Definition len_utf16 (c : char) : nat := if (c <? 65536)%N then 1 else 2.
Fixpoint ulen (s : str) : nat :=
  match s with [] => 0 | c :: r => len_utf16 c + ulen r end.

Definition is_ascii (c : char) : bool := (c <? 128)%N.

(** str::split_at with a byte position; [None] if it is not a character boundary
    or lies outside the string (Rust core panics there). *)
Fixpoint split_at_bytes (s : str) (n : nat) : option (str * str) :=
  match n with
  | O => Some ([], s)
  | _ => match s with
         | [] => None
         | c :: r =>
             if n <? len_utf8 c then None
             else match split_at_bytes r (n - len_utf8 c) with
                  | Some (a, b) => Some (c :: a, b)
                  | None => None
                  end
         end
  end.

(** str::ends_with(char) (Rust core). *)
Fixpoint ends_with (c : char) (s : str) : bool :=
  match s with
  | [] => false
  | [d] => N.eqb d c
  | _ :: r => ends_with c r
  end.

(** The White_Space property used by str::trim (Rust core / Unicode). *)
Definition is_ws (c : char) : bool :=
  ((9 <=? c) && (c <=? 13))%N || (c =? 32)%N || (c =? 133)%N || (c =? 160)%N
  || (c =? 5760)%N || ((8192 <=? c) && (c <=? 8202))%N || (c =? 8232)%N
  || (c =? 8233)%N || (c =? 8239)%N || (c =? 8287)%N || (c =? 12288)%N.

(** s.trim().is_empty() *)
Definition blank (s : str) : bool := forallb is_ws s.

(** byte counting (crate bytecount): number of occurrences of an ASCII character. *)
Fixpoint count_char (c : char) (s : str) : nat :=
  match s with
  | [] => 0
  | d :: r => (if N.eqb d c then 1 else 0) + count_char c r
  end.

(** [x as i32] for an integer [x]: wrap-around in two's complement. *)
Definition to_i32 (x : Z) : Z := ((x + 2147483648) mod 4294967296 - 2147483648)%Z.

(** [x as usize] for an i64 on wasm32 (32-bit usize). *)
Definition to_usize (x : Z) : N := Z.to_N (x mod 4294967296)%Z.

(** Equality tests on the option types used for string-cache indices. *)
Definition optZ_eqb (a b : option Z) : bool :=
  match a, b with
  | None, None => true
  | Some x, Some y => Z.eqb x y
  | _, _ => false
  end.

(** Literals: an ASCII Coq string as model text (used only in examples and for
    fixed literals of the code). *)
Fixpoint lit (s : string) : str :=
  match s with
  | EmptyString => []
  | String a r => N_of_ascii a :: lit r
  end.
Fixpoint unlit (s : str) : string :=
  match s with
  | [] => EmptyString
  | c :: r => String (ascii_of_N c) (unlit r)
  end.
Arguments lit s%string_scope.
