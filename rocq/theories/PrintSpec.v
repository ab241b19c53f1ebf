(** Vocabulary for the external representations: texts joined by single spaces. *)
From Coq Require Import String.
From Verif Require Import Base ParseModel.
Local Open Scope list_scope.

Fixpoint join (l : list (list Z)) : list Z :=
  match l with
  | [] => []
  | [x] => x
  | x :: r => x ++ [32] ++ join r
  end.
(* the data whose displayed and written forms coincide *)
Definition same_both_ways (d : rdatum) : Prop :=
  match d with
  | RInt _ | RFloat _ | RRatio _ _ | RBool _ | RSym _ | RNil => True
  | _ => False
  end.
(* a list of a shape that is printed in abbreviated or special form *)
Definition special_head (d : rdatum) : Prop :=
  d = RSym (bs "quote") \/ d = RSym (bs "quasiquote") \/ d = RSym (bs "unquote") \/ d = RSym (bs "unquote-splicing").
