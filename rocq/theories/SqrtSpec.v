(** C213: square roots of numbers.  The rational a finite double stands for and
    what a double is are those of NumLitSpec. *)
From Coq Require Import SpecFloat QArith.
From Verif Require Import Base NumModel NumSpec2 NumLitSpec.
Local Open Scope Z_scope.

(** r is a double nearest to the square root of x: no double d is strictly
    closer, that is, the root is on r's side of the midpoint of r and d. *)
Definition nearest_root (x r : spec_float) : Prop :=
  a_double r /\ (0 <= rational r)%Q /\
  forall d, a_double d -> (0 <= rational d)%Q ->
    ((rational r < rational d)%Q -> (rational x <= ((rational r + rational d) / 2) ^ 2)%Q) /\
    ((rational d < rational r)%Q -> (((rational r + rational d) / 2) ^ 2 <= rational x)%Q).
(** the numbers an interpreter can hold *)
Definition int64 (z : Z) : Prop := - 2 ^ 63 <= z < 2 ^ 63.
Definition held (v : nval) : Prop :=
  match v with
  | VInt z => int64 z
  | VRatio n d => int64 n /\ int64 d /\ 0 < d
  | VFloat f => a_double f
  | _ => False
  end.
(** below zero; neither zero nor NaN is *)
Definition below_zero (v : nval) : Prop :=
  match v with
  | VInt z => z < 0
  | VRatio n _ => n < 0
  | VFloat f => exists m e, f = S754_finite true m e \/ f = S754_infinity true
  | _ => False
  end.
