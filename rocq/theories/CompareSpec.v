(** Which comparison a procedure uses on keys: vocabulary for eq?, memv and assq. *)
From Verif Require Import Base HeapModel EqSpec.

(** Data without parts, compared by content by eq? and eqv?. *)
Definition atom (x : datum) : Prop := match x with DPair _ _ | DVec _ | DObj _ => False | _ => True end.
Definition is_int (x : datum) : Prop := exists z, x = DInt z.
Definition is_char (x : datum) : Prop := exists c, x = DChar c.
Definition is_bool (x : datum) : Prop := exists b, x = DBool b.
Definition is_sym (x : datum) : Prop := exists s, x = DSym s.
(** The same object, or equal data of a class [P]. *)
Definition same_or (P : datum -> Prop) (a b : addr) (x y : datum) : Prop := a = b \/ (x = y /\ P x).
(** Position [i] holds the first element that satisfies [P]. *)
Definition first_with (P : addr -> Prop) (xs : list addr) (i : nat) (y : addr) : Prop :=
  nth_error xs i = Some y /\ P y /\ forall j z, (j < i)%nat -> nth_error xs j = Some z -> ~ P z.
