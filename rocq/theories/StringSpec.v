(** What the string properties are about: byte strings and their dictionary
    order. *)
From Verif Require Import Base.

Definition is_byte (b : Z) : Prop := 0 <= b <= 255.
Definition bytes (s : list Z) : Prop := Forall is_byte s.
(** bytes, none of them NUL *)
Definition text (s : list Z) : Prop := Forall (fun b => 1 <= b <= 255) s.
Definition ascii (s : list Z) : Prop := Forall (fun b => 1 <= b <= 127) s.

(** dictionary order *)
Inductive lex_lt : list Z -> list Z -> Prop :=
| lex_nil y b : lex_lt [] (y :: b)
| lex_head x y a b : x < y -> lex_lt (x :: a) (y :: b)
| lex_tail x a b : lex_lt a b -> lex_lt (x :: a) (x :: b).

(** ASCII letters *)
Definition lower_letter (c : Z) : Prop := 97 <= c <= 122.
Definition upper_letter (c : Z) : Prop := 65 <= c <= 90.
