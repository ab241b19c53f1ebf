(** Model of the string primitives (src/c/string.cc) and of src/c/char.cc on the
    heap of HeapModel.v.  A string is its byte list (0..255); a character object
    holds a C [char] (-128..127, the target's char is signed).  SCM_String.len
    is a C int: loops that count past INT_MAX are undefined behaviour.
    toupper/tolower/is* are those of the "C" locale (the program never calls
    setlocale).  Allocation is assumed to succeed. *)
From Verif Require Import Base NumModel HeapModel EqModel ListModel VectorModel.

(* char <-> unsigned char *)
(* the cast (unsigned char)c of char.cc 9-195 and string.cc 894-1031 *)
Definition uchar (c : Z) : Z := c mod 256.
(* the cast (char)b of char.cc 22-53 and string.cc 72-118 *)
Definition schar (b : Z) : Z := if b <? 128 then b else b - 256.
(* INT_MAX: the int counters of string.cc 22-57, 656-710, 740-794 *)
Definition int_max : Z := 2 ^ 31 - 1.

(* the check is_str, pscm.h 10-12, before every string procedure of string.cc *)
Definition get_str (a : addr) : M (list Z) :=
  let! o := get a in match o with OStr s => ret s | _ => fail Err end.
(* the check is_num, pscm.h 22-24, of the index arguments of string.cc
   72-118, 614-653 *)
Definition get_int (a : addr) : M Z :=
  let! o := get a in match o with ONum z => ret z | _ => fail Err end.
(* the check is_char, pscm.h 34-36, of char.cc 9-241 *)
Definition get_chr (a : addr) : M Z :=
  let! o := get a in match o with OChar c => ret c | _ => fail Err end.
(* pscm.h bool_to_scm 229-231 *)
Definition bool_res (b : bool) : M addr := ret (bool_a b).

(* string.cc scm_c_string_length 7-18 *)
Definition string_length (s : addr) : M addr :=
  let! bs := get_str s in alloc (ONum (Z.of_nat (length bs))).
(* string.cc scm_c_make_string_impl 22-57, scm_c_make_string 60-69.  The loop counter is
   a C int (44), so lengths above INT_MAX overflow it *)
Definition make_string (len : addr) (chr : option addr) : M addr :=
  let! z := get_int len in
  if z <? 0 then fail Err
  else
    let! c := (match chr with None => ret 32 | Some c => get_chr c end) in
    if int_max <? z then fail UB
    else alloc (OStr (repeat (uchar c) (Z.to_nat z))).
(* string.cc scm_c_string_ref 72-91 *)
Definition string_ref (s k : addr) : M addr :=
  let! bs := get_str s in
  let! idx := get_int k in
  if (idx <? 0) || (Z.of_nat (length bs) <=? idx) then fail Err
  else match nth_error bs (Z.to_nat idx) with
       | Some b => alloc (OChar (schar b))
       | None => fail UB
       end.
(* string.cc scm_c_string_set 94-118: s->data[k] = c *)
Fixpoint set_byte (bs : list Z) (i : nat) (x : Z) : list Z :=
  match bs, i with
  | [], _ => []
  | _ :: r, O => x :: r
  | e :: r, S j => e :: set_byte r j x
  end.
(* string.cc scm_c_string_set 94-118 *)
Definition string_set (s k c : addr) : M addr :=
  let! bs := get_str s in
  let! idx := get_int k in
  let! ch := get_chr c in
  if (idx <? 0) || (Z.of_nat (length bs) <=? idx) then fail Err
  else if (Z.to_nat idx <? length bs)%nat
       then let! _ := seto s (OStr (set_byte bs (Z.to_nat idx) (uchar ch))) in ret none_a
       else fail UB.
(* string.cc scm_c_substring 614-653 *)
Definition substring (s st en : addr) : M addr :=
  let! bs := get_str s in
  let! i := get_int st in
  let! j := get_int en in
  if (i <? 0) || (Z.of_nat (length bs) <? i) then fail Err
  else if (j <? i) || (Z.of_nat (length bs) <? j) then fail Err
  else alloc (OStr (firstn (Z.to_nat (j - i)) (skipn (Z.to_nat i) bs))).
(* string.cc scm_c_string_append 656-710, first loop: types and total length *)
Fixpoint append_total (args : list addr) (total : Z) : M Z :=
  match args with
  | [] => ret total
  | a :: r =>
      let! bs := get_str a in
      let t := total + Z.of_nat (length bs) in
      if int_max <? t then fail UB else append_total r t
  end.
(* second loop: memcpy to position [pos]; stops when everything is copied *)
(* string.cc scm_c_string_append 656-710, second loop *)
Fixpoint append_copy (args : list addr) (total : Z) (out : list Z) : M (list Z) :=
  match args with
  | [] => ret out
  | a :: r =>
      if Z.of_nat (length out) <? total
      then let! bs := get_str a in append_copy r total (out ++ bs)
      else ret out
  end.
(* string.cc scm_c_string_append 656-710 *)
Definition string_append (args : list addr) : M addr :=
  match args with
  | [] => alloc (OStr [])
  | _ =>
      let! total := append_total args 0 in
      let! out := append_copy args total [] in
      alloc (OStr out)
  end.
(* string.cc scm_c_string 332-382: from evaluated arguments (simplification: the length
   check comes after the type checks, in the code they are interleaved) *)
Fixpoint chars_of (args : list addr) : M (list Z) :=
  match args with
  | [] => ret []
  | a :: r =>
      let! c := get_chr a in
      let! cs := chars_of r in
      ret (uchar c :: cs)
  end.
(* string.cc scm_c_string 332-382 *)
Definition string_of_chars (args : list addr) : M addr :=
  let! bs := chars_of args in
  if int_max <? Z.of_nat (length bs) then fail UB else alloc (OStr bs).
(* string.cc scm_c_string_to_list 713-737: last character first *)
Fixpoint stl_loop (bs_rev : list Z) (result : option addr) : M (option addr) :=
  match bs_rev with
  | [] => ret result
  | b :: r =>
      let! ch := alloc (OChar (schar b)) in
      let! c := alloc_cell (mkCell ch result false) in
      stl_loop r (Some c)
  end.
(* string.cc scm_c_string_to_list 713-737 *)
Definition string_to_list (s : addr) : M addr :=
  let! bs := get_str s in
  let! l := stl_loop (rev bs) None in
  wrap l.
(* string.cc scm_c_list_to_string 740-794 *)
Definition list_to_string (fuel : nat) (l : addr) : M addr :=
  let! o := get l in
  match o with
  | ONil => alloc (OStr [])
  | OList c =>
      let! es := elems_loop fuel (Some c) in
      string_of_chars es
  | _ => fail Err
  end.

(** strncmp on byte lists: unsigned bytes, stops at a NUL *)
(* libc strncmp as used by string.cc 308-329, 797-891 *)
Fixpoint strncmp (n : nat) (a b : list Z) : comparison :=
  match n with
  | O => Eq
  | S k =>
      match a, b with
      | x :: a', y :: b' =>
          match x ?= y with
          | Eq => if x =? 0 then Eq else strncmp k a' b'
          | r => r
          end
      | _, _ => Eq           (* not reached: both have at least n bytes *)
      end
  end.
(* string.cc 797-891: strncmp over the shorter length *)
Definition cmp_min (a b : list Z) : comparison := strncmp (Nat.min (length a) (length b)) a b.
(* string.cc scm_c_string_eq 308-329 *)
Definition str_eq_b (a b : list Z) : bool :=
  if Nat.eqb (length a) (length b) then match strncmp (length a) a b with Eq => true | _ => false end else false.
(* string.cc scm_c_string_lt 797-819 *)
Definition str_lt (a b : list Z) : bool :=
  match cmp_min a b with Lt => true | Gt => false | Eq => (length a <? length b)%nat end.
(* string.cc scm_c_string_gt 821-843 *)
Definition str_gt (a b : list Z) : bool :=
  match cmp_min a b with Gt => true | Lt => false | Eq => (length b <? length a)%nat end.
(* string.cc scm_c_string_le 845-867 *)
Definition str_le (a b : list Z) : bool :=
  match cmp_min a b with Lt => true | Gt => false | Eq => (length a <=? length b)%nat end.
(* string.cc scm_c_string_ge 869-891 *)
Definition str_ge (a b : list Z) : bool :=
  match cmp_min a b with Gt => true | Lt => false | Eq => (length b <=? length a)%nat end.

(** toupper / tolower on an unsigned char *)
(* libc toupper in the C locale, char.cc 35-43, string.cc 894-1031 *)
Definition toupper (c : Z) : Z := if (97 <=? c) && (c <=? 122) then c - 32 else c.
(* libc tolower in the C locale, char.cc 45-53 *)
Definition tolower (c : Z) : Z := if (65 <=? c) && (c <=? 90) then c + 32 else c.
(* the loops 910-917, 936-946 ...: [char c1 = toupper((unsigned char)..)],
   a signed comparison *)
(* string.cc 894-1031 *)
Definition ci (c : Z) : Z := schar (toupper c).
(* string.cc 894-1031: the loop of each string-ci procedure *)
Fixpoint ci_loop (n : nat) (a b : list Z) : comparison :=
  match n with
  | O => Eq
  | S k =>
      match a, b with
      | x :: a', y :: b' =>
          match ci x ?= ci y with
          | Eq => ci_loop k a' b'
          | r => r
          end
      | _, _ => Eq
      end
  end.
(* string.cc 921-1031: the loop over the shorter length *)
Definition ci_min (a b : list Z) : comparison := ci_loop (Nat.min (length a) (length b)) a b.
(* string.cc scm_c_string_ci_eq 894-919 *)
Definition ci_eq (a b : list Z) : bool :=
  if Nat.eqb (length a) (length b) then match ci_loop (length a) a b with Eq => true | _ => false end else false.
(* string.cc scm_c_string_ci_lt 921-947, _gt 949-975, _le 977-1003, _ge 1005-1031 *)
Definition ci_lt (a b : list Z) : bool :=
  match ci_min a b with Lt => true | Gt => false | Eq => (length a <? length b)%nat end.
(* string.cc scm_c_string_ci_gt 949-975 *)
Definition ci_gt (a b : list Z) : bool :=
  match ci_min a b with Gt => true | Lt => false | Eq => (length b <? length a)%nat end.
(* string.cc scm_c_string_ci_le 977-1003 *)
Definition ci_le (a b : list Z) : bool :=
  match ci_min a b with Lt => true | Gt => false | Eq => (length a <=? length b)%nat end.
(* string.cc scm_c_string_ci_ge 1005-1031 *)
Definition ci_ge (a b : list Z) : bool :=
  match ci_min a b with Gt => true | Lt => false | Eq => (length b <=? length a)%nat end.

(* the two-argument comparison procedures: both arguments are type checked *)
(* string.cc 308-329, 797-1031 *)
Definition str_pred (f : list Z -> list Z -> bool) (a b : addr) : M addr :=
  let! x := get_str a in
  let! y := get_str b in
  bool_res (f x y).

(** char.cc *)
(* char.cc scm_c_char_to_integer 9-20 *)
Definition char_to_integer (a : addr) : M addr :=
  let! c := get_chr a in alloc (ONum (uchar c)).
(* char.cc scm_c_integer_to_char 22-33 *)
Definition integer_to_char (a : addr) : M addr :=
  let! z := get_int a in
  if (z <? 0) || (255 <? z) then fail Err else alloc (OChar (schar z)).
(* char.cc scm_c_char_upcase 35-43, scm_c_char_downcase 45-53 *)
Definition char_upcase (a : addr) : M addr :=
  let! c := get_chr a in alloc (OChar (schar (toupper (uchar c)))).
(* char.cc scm_c_char_downcase 45-53 *)
Definition char_downcase (a : addr) : M addr :=
  let! c := get_chr a in alloc (OChar (schar (tolower (uchar c)))).
(* char.cc 56-195: the argument checks *)
Definition chr_pred (f : Z -> Z -> bool) (a b : addr) : M addr :=
  let! x := get_chr a in
  let! y := get_chr b in
  bool_res (f x y).
(* 55-124: = on char, the others on unsigned char *)
(* char.cc scm_c_char_eq 56-68 *)
Definition chr_eq (x y : Z) : bool := x =? y.
(* char.cc scm_c_char_lt 70-82 *)
Definition chr_lt (x y : Z) : bool := uchar x <? uchar y.
(* char.cc scm_c_char_gt 84-96 *)
Definition chr_gt (x y : Z) : bool := uchar x >? uchar y.
(* char.cc scm_c_char_le 98-110 *)
Definition chr_le (x y : Z) : bool := uchar x <=? uchar y.
(* char.cc scm_c_char_ge 112-124 *)
Definition chr_ge (x y : Z) : bool := uchar x >=? uchar y.
(* 126-195 *)
(* char.cc scm_c_char_ci_eq 127-139 *)
Definition chr_ci_eq (x y : Z) : bool := toupper (uchar x) =? toupper (uchar y).
(* char.cc scm_c_char_ci_lt 141-153 *)
Definition chr_ci_lt (x y : Z) : bool := toupper (uchar x) <? toupper (uchar y).
(* char.cc scm_c_char_ci_gt 155-167 *)
Definition chr_ci_gt (x y : Z) : bool := toupper (uchar x) >? toupper (uchar y).
(* char.cc scm_c_char_ci_le 169-181 *)
Definition chr_ci_le (x y : Z) : bool := toupper (uchar x) <=? toupper (uchar y).
(* char.cc scm_c_char_ci_ge 183-195 *)
Definition chr_ci_ge (x y : Z) : bool := toupper (uchar x) >=? toupper (uchar y).
(* 197-241 *)
(* char.cc scm_c_char_upper_case 225-232 *)
Definition isupper (c : Z) : bool := (65 <=? c) && (c <=? 90).
(* char.cc scm_c_char_lower_case 234-241 *)
Definition islower (c : Z) : bool := (97 <=? c) && (c <=? 122).
(* char.cc scm_c_char_alphabetic 198-205 *)
Definition isalpha (c : Z) : bool := isupper c || islower c.
(* char.cc scm_c_char_numeric 207-214 *)
Definition isdigit (c : Z) : bool := (48 <=? c) && (c <=? 57).
(* char.cc scm_c_char_whitespace 216-223 *)
Definition isspace (c : Z) : bool := (c =? 32) || ((9 <=? c) && (c <=? 13)).
(* char.cc 198-241: the argument check *)
Definition chr_class (f : Z -> bool) (a : addr) : M addr :=
  let! c := get_chr a in bool_res (f (uchar c)).
