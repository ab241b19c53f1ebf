(** The procedures of R5RS, chapter 6, with the numbers of arguments they take:
    from the first number to the second, or any number from the first on. *)
From Coq Require Import String List.
Import ListNotations.
Local Open Scope string_scope.
Definition exactly (n : nat) (names : list string) : list (string * nat * option nat) := map (fun s => (s, n, Some n)) names.
Definition between (lo hi : nat) (names : list string) : list (string * nat * option nat) := map (fun s => (s, lo, Some hi)) names.
Definition at_least (lo : nat) (names : list string) : list (string * nat * option nat) := map (fun s => (s, lo, None)) names.
Definition r5rs : list (string * nat * option nat) :=
  (* 6.1 *) exactly 2 ["eqv?"; "eq?"; "equal?"] ++
  (* 6.2 *) exactly 1 ["number?"; "complex?"; "real?"; "rational?"; "integer?"; "exact?"; "inexact?"; "zero?"; "positive?"; "negative?"; "odd?"; "even?"; "abs";
    "numerator"; "denominator"; "floor"; "ceiling"; "truncate"; "round"; "exp"; "log"; "sin"; "cos"; "tan"; "asin"; "acos"; "sqrt"; "real-part"; "imag-part"; "magnitude"; "angle";
    "exact->inexact"; "inexact->exact"] ++
  exactly 2 ["quotient"; "remainder"; "modulo"; "rationalize"; "expt"; "make-rectangular"; "make-polar"] ++
  at_least 2 ["="; "<"; ">"; "<="; ">="] ++ at_least 1 ["max"; "min"; "-"; "/"] ++ at_least 0 ["+"; "*"; "gcd"; "lcm"] ++
  between 1 2 ["atan"; "number->string"; "string->number"] ++
  (* 6.3 *) exactly 1 ["not"; "boolean?"; "pair?"; "car"; "cdr"; "caar"; "cadr"; "cdar"; "cddr"; "caaar"; "caadr"; "cadar"; "caddr"; "cdaar"; "cdadr"; "cddar"; "cdddr";
    "caaaar"; "caaadr"; "caadar"; "caaddr"; "cadaar"; "cadadr"; "caddar"; "cadddr"; "cdaaar"; "cdaadr"; "cdadar"; "cdaddr"; "cddaar"; "cddadr"; "cdddar"; "cddddr";
    "null?"; "list?"; "length"; "reverse"; "symbol?"; "symbol->string"; "string->symbol"; "char?"; "char-alphabetic?"; "char-numeric?"; "char-whitespace?"; "char-upper-case?";
    "char-lower-case?"; "char->integer"; "integer->char"; "char-upcase"; "char-downcase"; "string?"; "string-length"; "string->list"; "list->string"; "string-copy"; "vector?";
    "vector-length"; "vector->list"; "list->vector"] ++
  exactly 2 ["cons"; "set-car!"; "set-cdr!"; "list-tail"; "list-ref"; "memq"; "memv"; "member"; "assq"; "assv"; "assoc"; "char=?"; "char<?"; "char>?"; "char<=?"; "char>=?";
    "char-ci=?"; "char-ci<?"; "char-ci>?"; "char-ci<=?"; "char-ci>=?"; "string-ref"; "string=?"; "string-ci=?"; "string<?"; "string>?"; "string<=?"; "string>=?"; "string-ci<?";
    "string-ci>?"; "string-ci<=?"; "string-ci>=?"; "string-fill!"; "vector-ref"; "vector-fill!"] ++
  exactly 3 ["string-set!"; "substring"; "vector-set!"] ++ between 1 2 ["make-string"; "make-vector"] ++ at_least 0 ["list"; "append"; "string"; "string-append"; "vector"] ++
  (* 6.4 *) exactly 1 ["procedure?"; "force"; "call-with-current-continuation"] ++ at_least 2 ["apply"; "map"; "for-each"] ++ at_least 0 ["values"] ++
  exactly 2 ["call-with-values"] ++ exactly 3 ["dynamic-wind"] ++
  (* 6.5 *) exactly 2 ["eval"] ++ exactly 1 ["scheme-report-environment"; "null-environment"] ++ exactly 0 ["interaction-environment"] ++
  (* 6.6 *) exactly 2 ["call-with-input-file"; "call-with-output-file"; "with-input-from-file"; "with-output-to-file"] ++
  exactly 1 ["input-port?"; "output-port?"; "open-input-file"; "open-output-file"; "close-input-port"; "close-output-port"; "eof-object?"; "load"; "transcript-on"] ++
  exactly 0 ["current-input-port"; "current-output-port"; "transcript-off"] ++
  between 0 1 ["read"; "read-char"; "peek-char"; "char-ready?"; "newline"] ++ between 1 2 ["write"; "display"; "write-char"].
Definition allows (lo : nat) (hi : option nat) (n : nat) : Prop := lo <= n /\ match hi with Some h => n <= h | None => True end.
