(** What calls of C functions from Scheme are promised to do. *)
From Coq Require Import String.
From Verif Require Import Base ParseModel RegModel.
Local Open Scope list_scope.
Local Open Scope Z_scope.
Section S.
Context {A : Type} (num : Z -> A) (exec : list Z -> cargs A -> option A).
(* the C function c is called on a *)
Definition result (c : list Z) (a : cargs A) : ending A := match exec c a with Some v => Value v | None => Escaped end.
(* c(... c(c(z, x1), x2) ..., xn); it stops at the first call that does not return *)
Inductive folds (c : list Z) : A -> list A -> ending A -> Prop :=
| folds_nil a : folds c a [] (Value a)
| folds_cons a x r b e : exec c (Vals [a; x]) = Some b -> folds c b r e -> folds c a (x :: r) e
| folds_stop a x r : exec c (Vals [a; x]) = None -> folds c a (x :: r) Escaped.
End S.
(* the signature that Guile's documentation asks of the function of a gsubr: one
   parameter for each required and each optional argument, one for the rest *)
Definition gsubr_params (req opt rst : Z) : nat := Z.to_nat (req + opt + (if rst =? 0 then 0 else 1)).
