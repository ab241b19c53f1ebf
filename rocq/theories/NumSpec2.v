(** Vocabulary for inexact arithmetic: the IEEE-754 double operations of Coq's SpecFloat,
    with 53 bits and exponents below 1024; nothing here refers to how the code computes. *)
From Coq Require Import SpecFloat.
From Verif Require Import Base NumModel.

Definition ieee_add : spec_float -> spec_float -> spec_float := SFadd 53 1024.
Definition ieee_sub : spec_float -> spec_float -> spec_float := SFsub 53 1024.
Definition ieee_mul : spec_float -> spec_float -> spec_float := SFmul 53 1024.
Definition ieee_div : spec_float -> spec_float -> spec_float := SFdiv 53 1024.
(* the double nearest to an integer *)
Definition nearest (z : Z) : spec_float := binary_normalize 53 1024 z 0 false.
(* a number as a double *)
Definition inexact (v : nval) : spec_float :=
  match v with
  | VFloat f => f
  | VInt z => nearest z
  | VRatio n d => ieee_div (nearest n) (nearest d)
  | _ => S754_nan
  end.
Definition a_number (v : nval) : Prop := match v with VInt _ | VRatio _ _ | VFloat _ => True | _ => False end.
Definition a_float (v : nval) : Prop := match v with VFloat _ => True | _ => False end.
(* zero, of either sign *)
Definition is_dzero (d : spec_float) : Prop := exists s, d = S754_zero s.
(* the IEEE relations: no NaN is related to anything, the two zeros are equal *)
Definition ieee_rel (o : cmpop) (a b : spec_float) : Prop :=
  match SFcompare a b with
  | None => False
  | Some c =>
      match o with
      | CEq => c = Eq
      | CLt => c = Lt
      | CGt => c = Gt
      | CLe => c = Lt \/ c = Eq
      | CGe => c = Gt \/ c = Eq
      end
  end.
(* every two neighbours are related *)
Fixpoint ieee_chain (o : cmpop) (l : list spec_float) : Prop :=
  match l with
  | x :: ((y :: _) as rest) => ieee_rel o x y /\ ieee_chain o rest
  | _ => True
  end.
