(** Decimal literals as texts and as doubles; nothing here refers to the reader. *)
From Coq Require Import SpecFloat QArith Qabs.
From Verif Require Import Base NumSpec2 ParseSpec.
Local Open Scope list_scope.
Local Open Scope Z_scope.

(** sign? digits [. digits] [e sign? digits] *)
Inductive sign := NoSign | Plus | Minus.
Definition sign_text (s : sign) : list Z := match s with NoSign => [] | Plus => [43] | Minus => [45] end.
Definition frac_text (f : option (list Z)) : list Z := match f with None => [] | Some fs => 46 :: fs end.
Definition exp_text (e : option (Z * sign * list Z)) : list Z :=
  match e with None => [] | Some (mark, s, es) => mark :: sign_text s ++ es end.
Definition literal (s : sign) (ds : list Z) (f : option (list Z)) (e : option (Z * sign * list Z)) : list Z :=
  sign_text s ++ ds ++ frac_text f ++ exp_text e.

Definition digits (ds : list Z) : Prop := Forall digit ds /\ ds <> [].
(* digits of an integer part that fits in 64 bits *)
Definition int_part (ds : list Z) : Prop := digits ds /\ value 0 ds <= i64_max.
Definition frac_part (f : option (list Z)) : Prop := match f with None => True | Some fs => Forall digit fs end.
Definition exp_part (e : option (Z * sign * list Z)) : Prop :=
  match e with None => True | Some (mark, _, es) => (mark = 101 \/ mark = 69) /\ int_part es end.
(* a decimal point or an exponent: what makes the literal inexact *)
Definition inexact_literal (f : option (list Z)) (e : option (Z * sign * list Z)) : Prop := f <> None \/ e <> None.
(* what may follow a literal *)
Definition ends (r : list Z) : Prop := r = [] \/ exists c k, r = c :: k /\ (blank c \/ c = 41).

(** Its value by IEEE double operations on integers and powers of ten. *)
Definition flip (s : sign) (d : spec_float) : spec_float := match s with Minus => SFopp d | _ => d end.
Definition mantissa (ds : list Z) (f : option (list Z)) : spec_float :=
  match f with
  | None => nearest (value 0 ds)
  | Some fs => ieee_add (nearest (value 0 ds)) (ieee_div (nearest (value 0 fs)) (nearest (10 ^ Z.of_nat (length fs))))
  end.
Definition scaled (m : spec_float) (e : option (Z * sign * list Z)) : spec_float :=
  match e with
  | None => m
  | Some (_, Minus, es) => ieee_div m (nearest (10 ^ value 0 es))
  | Some (_, _, es) => ieee_mul m (nearest (10 ^ value 0 es))
  end.
(* fractions of at most 22 digits whose digits form a number below 2^53 (in particular:
   all fractions of at most 15 digits), exponents up to 22 *)
Definition moderate (f : option (list Z)) (e : option (Z * sign * list Z)) : Prop :=
  match f with None => True | Some fs => (length fs <= 22)%nat /\ value 0 fs < 2 ^ 53 end /\
  match e with None => True | Some (_, _, es) => value 0 es <= 22 end.

(** The rational a finite double stands for. *)
Definition rational (d : spec_float) : Q :=
  match d with
  | S754_finite s m e => (inject_Z (if s then Z.neg m else Z.pos m) * Qpower 2 e)%Q
  | _ => 0%Q
  end.
Definition a_double (d : spec_float) : Prop := valid_binary 53 1024 d = true.
(* d is a finite double and some double is strictly closer to q *)
Definition not_nearest (d : spec_float) (q : Q) : Prop :=
  exists d', a_double d' /\ (Qabs (rational d' - q) < Qabs (rational d - q))%Q.
