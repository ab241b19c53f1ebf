(** Vocabulary of the statements about numbers: mathematical sums, gcd, ...;
    nothing here refers to how the code computes. *)
From Verif Require Import Base NumModel.

(** Specification-level sums and products of a list of integers. *)
Definition zsum (l : list Z) : Z := fold_right Z.add 0 l.

Definition zprod (l : list Z) : Z := fold_right Z.mul 1 l.

Definition div_ok (x y : Z) : Prop :=
  in64 x = true /\ in64 y = true /\ y <> 0 /\ ~ (x = i64_min /\ y = -1).

Definition fits (x : Z) : Prop := in64 x = true /\ x <> i64_min.

Definition zgcd (l : list Z) : Z := fold_right Z.gcd 0 l.

(** ** lcm *)
Definition zlcm (l : list Z) : Z := fold_right Z.lcm 1 l.

(** [denotes v p q] : the value [v] denotes the rational p/q (q /= 0) *)
Definition denotes (v : nval) (p q : Z) : Prop :=
  match v with
  | VInt z => z * q = p
  | VRatio n d => d <> 0 /\ n * q = p * d
  | _ => False
  end.

(** canonical exact number *)
Definition normal (v : nval) : Prop :=
  match v with
  | VInt z => in64 z = true
  | VRatio n d => in64 n = true /\ in64 d = true /\ 1 < d /\ Z.gcd n d = 1
  | _ => False
  end.

(** exact division of two exact operands *)
Definition exact_num (v : nval) : option (Z * Z) :=
  match v with VInt z => Some (z, 1) | VRatio n d => Some (n, d) | _ => None end.

(** ** comparisons *)
Definition zrel (o : cmpop) (x y : Z) : Prop :=
  match o with
  | CEq => x = y | CLe => x <= y | CGe => x >= y | CLt => x < y | CGt => x > y
  end.

(** all neighbours are related *)
Fixpoint chain (o : cmpop) (l : list Z) : Prop :=
  match l with
  | x :: ((y :: _) as rest) => zrel o x y /\ chain o rest
  | _ => True
  end.

Definition small (z : Z) : Prop := Z.abs z < 2 ^ 53.

Definition zmax (x : Z) (l : list Z) : Z := fold_left Z.max l x.

Definition zmin (x : Z) (l : list Z) : Z := fold_left Z.min l x.
