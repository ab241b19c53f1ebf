(** Vocabulary for the interactive loop and for scripts. *)
From Coq Require Import String.
From Verif Require Import Base ParseModel PrintModel EnvModel EvalModel ApiModel.
Local Open Scope list_scope.

(** A text where parentheses are matched, whatever else it contains. *)
Inductive matched : list Z -> Prop :=
| mat_nil : matched []
| mat_other : forall c s, c <> 40 -> c <> 41 -> matched s -> matched (c :: s)
| mat_paren : forall s t, matched s -> matched t -> matched (40 :: s ++ 41 :: t).
(** No byte of the text has a special meaning for the line editor other than the
    parentheses: no NUL, backslash, string quote or semicolon. *)
Definition simple_text (s : list Z) : Prop := forall c, In c s -> c <> 0 /\ c <> 92 /\ c <> 34 /\ c <> 59.
(** The text has no #{...}# symbol, and no backslash directly before a blank, a
    parenthesis or a semicolon. *)
Definition tame (s : list Z) : Prop :=
  forall pre c e post, s = pre ++ c :: e :: post ->
    (c = 35 -> e <> 123) /\ (c = 92 -> ~ In e [9; 10; 11; 12; 13; 32; 40; 41; 59]).
(** Not only blanks. *)
Definition has_content (s : list Z) : Prop := exists c, In c s /\ c <> 32 /\ c <> 9 /\ c <> 10 /\ c <> 13.
(** Forms run one after the other, each by its own call of the host interface:
    the list of their results. *)
Inductive all_run (call : val -> api -> option val -> api -> Prop) : list val -> api -> list (option val) -> api -> Prop :=
| ar_nil : forall s, all_run call [] s [] s
| ar_cons : forall x xs s v s1 vs s2, call x s v s1 -> all_run call xs s1 vs s2 -> all_run call (x :: xs) s (v :: vs) s2.
