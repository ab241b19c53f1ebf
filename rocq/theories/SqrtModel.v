(** Model of the one function of src/c/number.cc that NumModel leaves out. *)
From Coq Require Import SpecFloat.
From Verif Require Import Base NumModel.

(* std::sqrt(double), number.cc 514: the IEEE-754 square root *)
Definition dsqrt : dbl -> dbl := SFsqrt prec emax.
(* scm_c_sqrt, number.cc 504-516: [val < 0] is false of NaN and of both zeros *)
Definition scm_sqrt (v : nval) : res nval :=
  if is_num v || is_float v || is_ratio v then
    let val := to_double v in
    if dlt val dzero then Err else Ok (VFloat (dsqrt val))
  else Err.
