(** Model of the C side's conversions between C values and Scheme values: pscm.h 229-336,
    symbol.cc 53-64, 84-113, string.cc 1032-1105.

    A C buffer is the list of the bytes that may be read from its address on; reading
    beyond them is undefined.  char is signed, size_t has 64 bits, int 32.  assert is
    compiled in.  Allocation succeeds. *)
From Coq Require Import SpecFloat.
From Verif Require Import Base NumModel.
Local Open Scope list_scope.
Local Open Scope Z_scope.

(* model only: the Scheme values the conversions look at *)
Inductive cval :=
| CNum (z : Z)            (* a 64-bit integer *)
| CFlo (d : dbl)
| CRat (n m : Z)
| CChr (b : Z)            (* the byte, 0..255 *)
| CBoo (b : bool)
| CStr (s : list Z)
| CSym (s : list Z)
| CEls (n : nat).         (* any other object *)

(* C's conversion to int: wraps around *)
(* pscm.h 270; string.cc 1061; symbol.cc 95, 111 *)
Definition to_int (z : Z) : Z := (z + 2 ^ 31) mod 2 ^ 32 - 2 ^ 31.
(* the value of a char with this byte *)
(* pscm.h ptr_to_char 315-317 *)
Definition signed_char (b : Z) : Z := if b <? 128 then b else b - 256.

(* pscm.h bool_to_scm 229-231, scm_to_bool 233-236 *)
Definition bool_to_scm (b : bool) : cval := CBoo b.
(* pscm.h scm_to_bool 233-236 *)
Definition scm_to_bool (v : cval) : res bool := match v with CBoo b => Ok b | _ => Abort end.
(* pscm.h int_to_scm 260-266; the argument is an int *)
Definition int_to_scm (z : Z) : cval := CNum z.
(* pscm.h scm_to_int 268-271 *)
Definition scm_to_int (v : cval) : res Z := match v with CNum z => Ok (to_int z) | _ => Abort end.
(* pscm.h long_to_scm 273-279 *)
Definition long_to_scm (z : Z) : cval := CNum z.
(* pscm.h scm_from_double 282-288 *)
Definition scm_from_double (d : dbl) : cval := CFlo d.
(* pscm.h scm_to_double 295-307 *)
Definition scm_to_double (v : cval) : dbl :=
  match v with
  | CFlo d => d
  | CNum z => d_of_Z z
  | CRat n m => ddiv (d_of_Z n) (d_of_Z m)
  | _ => dzero
  end.
(* pscm.h char_to_ptr 311-313, scm_from_char 320-326; the argument is a signed char *)
Definition scm_from_char (c : Z) : cval := CChr (c mod 256).
(* pscm.h scm_to_char 329-334 *)
Definition scm_to_char (v : cval) : Z := match v with CChr b => signed_char b | _ => 0 end.

(* libc strlen *)
(* libc, called in string.cc 1058, 1095; symbol.cc 95, 108 *)
Fixpoint strlen (buf : list Z) : res Z :=
  match buf with
  | [] => UB
  | c :: r => if c =? 0 then Ok 0 else do n <- strlen r; Ok (n + 1)
  end.
(* new char[len + 1] and memcpy of len bytes; len is an int.  A negative size makes new throw
   std::bad_array_new_length (and -1 a zero-sized block whose terminator is out of bounds,
   after a memcpy of 2^64-1 bytes) *)
(* string.cc scm_from_c_string 1034-1049; symbol.cc create_sym 53-64 *)
Definition copy (buf : list Z) (len : Z) : res (list Z) :=
  if len =? -1 then UB
  else if len <? 0 then Abort
  else if Z.of_nat (length buf) <? len then UB
  else Ok (firstn (Z.to_nat len) buf).
(* string.cc scm_from_c_string 1034-1049; None: a null pointer *)
Definition scm_from_c_string (buf : option (list Z)) (len : Z) : res cval :=
  match buf with None => Err | Some b => do s <- copy b len; Ok (CStr s) end.
(* (size_t)-1 *)
(* string.cc 1057; symbol.cc 107 *)
Definition size_max : Z := 2 ^ 64 - 1.
(* string.cc scm_from_locale_stringn 1052-1064 *)
Definition scm_from_locale_stringn (buf : option (list Z)) (len : Z) : res cval :=
  match buf with
  | None => Err
  | Some b => do n <- (if len =? size_max then strlen b else Ok len); scm_from_c_string buf (to_int n)
  end.
(* string.cc scm_to_locale_stringn 1067-1105: the bytes of the new buffer; [want]: lenp is not null,
   and then the length stored there *)
Definition scm_to_locale_stringn (v : option cval) (want : bool) : res (list Z * option Z) :=
  match v with
  | Some (CStr s) =>
      if want then Ok (s, Some (Z.of_nat (length s)))
      else do n <- strlen (s ++ [0]);
           if negb (n =? Z.of_nat (length s)) then Err else Ok (s ++ [0], None)
  | _ => Err
  end.
(* symbol.cc scm_from_locale_symbol 91-97 *)
Definition scm_from_locale_symbol (buf : option (list Z)) : res cval :=
  match buf with
  | None => Err
  | Some b => do n <- strlen b; do s <- copy b (to_int n); Ok (CSym s)
  end.
(* symbol.cc scm_from_locale_symboln 100-112 *)
Definition scm_from_locale_symboln (buf : option (list Z)) (len : Z) : res cval :=
  match buf with
  | None => Err
  | Some b => do n <- (if len =? size_max then strlen b else Ok len); do s <- copy b (to_int n); Ok (CSym s)
  end.
(* symbol.cc scm_symbol_to_string 86-88 *)
Definition scm_symbol_to_string (v : cval) : res cval := match v with CSym s => Ok (CStr s) | _ => Err end.
