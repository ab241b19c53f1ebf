(** The wording of the reader's complaint about a byte that cannot begin a datum. *)
From Coq Require Import String.
From Verif Require Import Base ParseModel ParseSpec.
Local Open Scope list_scope.
Local Open Scope Z_scope.

(* bytes with which some datum, a comment or a blank may begin: identifier characters (digits
   and signs among them), ' ` ( double-quote # ; backslash, blanks *)
Definition may_begin (c : Z) : Prop :=
  ident_char c \/ In c [39; 96; 40; 34; 35; 59; 92] \/ blank c.
Definition hex_digits : list Z := bs "0123456789abcdef".
(* two lower-case hexadecimal digits *)
Definition hex2 (c : Z) : list Z := [nth (Z.to_nat (c / 16)) hex_digits 0; nth (Z.to_nat (c mod 16)) hex_digits 0].
(* visible ASCII and the space are quoted in the message, other bytes are shown in hexadecimal only *)
Definition complaint (c : Z) (msg : list Z) : Prop :=
  (32 <= c <= 126 -> msg = bs "unexpected character '" ++ [c] ++ bs "' (0x" ++ hex2 c ++ bs ")") /\
  (c < 32 \/ 126 < c -> msg = bs "unexpected character (0x" ++ hex2 c ++ bs ")").
