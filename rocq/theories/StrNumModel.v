(** Model of number->string and string->number on exact integers,
    src/c/string.cc 384-611.  Strings are byte lists (bytes as [Z], 0..255). *)
From Verif Require Import Base NumModel.

Notation byte := Z (only parsing).

(* (int)(int64_t)v : implementation-defined before C++20, modulo 2^32 since
   (and in gcc/clang always) *)
(* string.cc 400-413, 535-548: the radix as an int *)
Definition to_int32 (z : Z) : Z := (z + 2 ^ 31) mod 2 ^ 32 - 2 ^ 31.

(* optional radix argument: string.cc 400-413 and 535-548 *)
Definition get_radix (r : option nval) : res Z :=
  match r with
  | None => Ok 10
  | Some (VInt z) =>
      let radix := to_int32 z in
      if (radix <? 2) || (radix >? 36) then Err else Ok radix
  | Some _ => Err
  end.

(** ** int_to_string_radix, string.cc 471-519 *)
Definition digit_char (d : Z) : byte := if d <? 10 then 48 + d else 97 + (d - 10).
(* first loop, 490-495: number of digits.  At most 63 iterations for an
   int64; the fuel is 64. *)
(* string.cc int_to_string_radix 490-495 *)
Fixpoint count_loop (fuel : nat) (radix temp : Z) (len : Z) : res Z :=
  match fuel with
  | O => Fuel
  | S k => if temp >? 0 then count_loop k radix (Z.quot temp radix) (len + 1) else Ok len
  end.
(* second loop, 502-512: writes the digits right to left; [acc] is what has
   been written so far *)
(* string.cc int_to_string_radix 502-512 *)
Fixpoint fill_loop (fuel : nat) (radix temp : Z) (acc : list byte) : res (list byte) :=
  match fuel with
  | O => Fuel
  | S k =>
      if temp >? 0
      then fill_loop k radix (Z.quot temp radix) (digit_char (Z.rem temp radix) :: acc)
      else Ok acc
  end.
(* string.cc int_to_string_radix 471-519 *)
Definition int_to_string_radix (val radix : Z) : res (list byte) :=
  if val =? 0 then Ok [48]
  else
    let negative := val <? 0 in
    do uval <- (if negative then i64 (- val) else Ok val);
    do len <- count_loop 64 radix uval 0;
    do ds <- fill_loop 64 radix uval [];
    (* writing outside the buffer of [len] characters would be UB *)
    if Z.of_nat (length ds) =? len
    then Ok (if negative then 45 :: ds else ds)
    else UB.

(* scm_c_number_to_string restricted to SCM::NUM, string.cc 523-556, 601-611
   (floats and ratios go through snprintf and are not modelled) *)
Definition number_to_string (v : nval) (radix : option nval) : res (list byte) :=
  match v with
  | VInt z => do r <- get_radix radix; int_to_string_radix z r
  | _ => Err
  end.

(** ** string->number, string.cc 386-468 *)
Definition is_space (c : byte) : bool := (c =? 32) || ((9 <=? c) && (c <=? 13)).
(* libc strtol, called in string.cc 386-468 *)
Definition digit_val (c : byte) : Z :=
  if (48 <=? c) && (c <=? 57) then c - 48
  else if (97 <=? c) && (c <=? 122) then c - 87
  else if (65 <=? c) && (c <=? 90) then c - 55
  else 99.
(* libc strtol, called in string.cc 386-468 *)
Fixpoint skip_space (s : list byte) : list byte :=
  match s with
  | c :: r => if is_space c then skip_space r else s
  | [] => []
  end.
(* the digit loop of strtol: value so far, were there any digits, rest *)
(* libc strtol, called in string.cc 386-468 *)
Fixpoint strtol_digits (radix acc : Z) (any : bool) (s : list byte) : Z * bool * list byte :=
  match s with
  | c :: r =>
      if digit_val c <? radix
      then strtol_digits radix (acc * radix + digit_val c) true r
      else (acc, any, s)
  | [] => (acc, any, s)
  end.
(* libc strtol, called in string.cc 386-468: ERANGE saturates *)
Definition clamp64 (z : Z) : Z := Z.max i64_min (Z.min i64_max z).
(* optional sign *)
(* libc strtol, called in string.cc 386-468 *)
Definition strip_sign (s : list byte) : bool * list byte :=
  match s with
  | c :: r => if c =? 45 then (true, r) else if c =? 43 then (false, r) else (false, s)
  | [] => (false, s)
  end.
(* optional 0x for radix 16, only when a hexadecimal digit follows *)
(* libc strtol, called in string.cc 386-468 *)
Definition strip_0x (radix : Z) (s : list byte) : list byte :=
  match s with
  | z :: x :: h :: r =>
      if (radix =? 16) && (z =? 48) && ((x =? 120) || (x =? 88)) && (digit_val h <? 16)
      then h :: r else s
  | _ => s
  end.
(* strtol(str, &endptr, radix) per ISO C 7.22.1.4: white space, sign, for
   radix 16 an optional 0x, digits; out of range values saturate.  [None] =
   no conversion (endptr == str). *)
(* libc strtol, called in string.cc 386-468 *)
Definition strtol (s : list byte) (radix : Z) : option (Z * list byte) :=
  let '(neg, s2) := strip_sign (skip_space s) in
  let '(v, any, rest) := strtol_digits radix 0 false (strip_0x radix s2) in
  if any then Some (clamp64 (if neg then - v else v), rest) else None.

(* string.cc scm_c_string_to_number 386-468: number, #f, or left to strtod *)
Inductive sn_result :=
| SNInt (z : Z)      (* an exact integer *)
| SNFalse            (* #f *)
| SNStrtod.          (* decided by the C library's strtod; not modelled *)

(* string.cc scm_c_string_to_number 386-468 *)
Definition string_to_number (s : list byte) (radix : option nval) : res sn_result :=
  do r <- get_radix radix;
  if (length s =? 0)%nat then Ok SNFalse
  else
    let is_float_str := existsb (fun c => (c =? 46) || (c =? 101) || (c =? 69)) s in
    if is_float_str && (r =? 10) then Ok SNStrtod
    else
      match strtol (s ++ [0]) r with
      | Some (v, 0 :: _) => Ok (SNInt v)
      | _ => Ok SNFalse
      end.
