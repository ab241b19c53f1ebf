(** Model of src/c/number.cc (all of it except [sqrt], which is in SqrtModel) and of the way its
    functions are called, src/c/function.cc 29-108.  Integers are [Z] kept in
    int64 range by explicit checks, doubles are IEEE-754 binary64 values
    ([spec_float], Coq.Floats.SpecFloat, round to nearest even). *)
From Coq Require Import SpecFloat.
From Verif Require Import Base.

(** ** Doubles *)
(* C double, pscm.h 240-258: 53 bits *)
Definition prec : Z := 53.
(* C double, pscm.h 240-258: largest exponent *)
Definition emax : Z := 1024.
(* C double, pscm.h 240-258 *)
Definition dbl := spec_float.
(* (double)z for an int64_t z : pscm.h 300 *)
Definition d_of_Z (z : Z) : dbl := binary_normalize prec emax z 0 false.
(* double +, number.cc AddOp 124-138 *)
Definition dadd : dbl -> dbl -> dbl := SFadd prec emax.
(* double -, number.cc MinusOp 139-152 *)
Definition dsub : dbl -> dbl -> dbl := SFsub prec emax.
(* double *, number.cc MulOp 153-166 *)
Definition dmul : dbl -> dbl -> dbl := SFmul prec emax.
(* double /, number.cc 798-909, pscm.h 295-307 *)
Definition ddiv : dbl -> dbl -> dbl := SFdiv prec emax.
(* 0.0, number.cc 9-79, 798-909 *)
Definition dzero : dbl := S754_zero false.
(* double ==, number.cc EqOp 195-199 *)
Definition deq (a b : dbl) : bool := match SFcompare a b with Some Eq => true | _ => false end.
(* double <, number.cc LtOp 188-192 *)
Definition dlt (a b : dbl) : bool := match SFcompare a b with Some Lt => true | _ => false end.
(* double >, number.cc GtOp 181-185 *)
Definition dgt (a b : dbl) : bool := match SFcompare a b with Some Gt => true | _ => false end.
(* double <=, number.cc LtEqOp 167-171 *)
Definition dle (a b : dbl) : bool :=
  match SFcompare a b with Some Lt | Some Eq => true | _ => false end.
(* double >=, number.cc GtEqOp 174-178 *)
Definition dge (a b : dbl) : bool :=
  match SFcompare a b with Some Gt | Some Eq => true | _ => false end.

(* Truncation toward zero of a finite double, as a mathematical integer. *)
(* the cast (int64_t)d of number.cc 33-67, 661-742 *)
Definition dtrunc (d : dbl) : option Z :=
  match d with
  | S754_zero _ => Some 0
  | S754_finite s m e =>
      let a := if 0 <=? e then Z.pos m * 2 ^ e else Z.pos m / 2 ^ (- e) in
      Some (if s then - a else a)
  | _ => None
  end.
(* (int64_t)d : undefined when the truncated value is not representable. *)
(* the cast (int64_t)d of number.cc 33-67, 661-742 *)
Definition Z_of_d (d : dbl) : res Z :=
  match dtrunc d with
  | Some z => i64 z
  | None => UB
  end.

(** ** Values the numeric primitives can meet or return.  [VOther] stands for
    every non-numeric, non-boolean object (SCM::TYPE, pscm_types.h). *)
Inductive nval : Type :=
| VInt (z : Z)            (* SCM::NUM *)
| VRatio (n d : Z)        (* SCM::RATIO, SCM_Rational{numerator,denominator} *)
| VFloat (f : dbl)        (* SCM::FLOAT *)
| VBool (b : bool)        (* SCM::BOOL *)
| VOther.

(* pscm.h is_num 22-24 *)
Definition is_num (v : nval) : bool := match v with VInt _ => true | _ => false end.
(* pscm.h is_ratio 30-32 *)
Definition is_ratio (v : nval) : bool := match v with VRatio _ _ => true | _ => false end.
(* pscm.h is_float 26-28 *)
Definition is_float (v : nval) : bool := match v with VFloat _ => true | _ => false end.

(* scm_to_double, pscm.h 295-307 *)
Definition to_double (v : nval) : dbl :=
  match v with
  | VFloat f => f
  | VInt z => d_of_Z z
  | VRatio n d => ddiv (d_of_Z n) (d_of_Z d)
  | _ => dzero
  end.

(* needs_float_promotion, number.cc 82-84 *)
Definition promote (l r : nval) : bool := is_float l || is_float r.

(* BinaryOperator<Op>::run, integer branch, number.cc 104-119: both
   assert(is_num(..)) then the int64 operation *)
Definition int_binop {A} (op : Z -> Z -> res A) (l r : nval) : res A :=
  match l, r with
  | VInt x, VInt y => op x y
  | _, _ => Abort
  end.

(* scm_c_add_number, number.cc 211-219 *)
Definition add_number (l r : nval) : res nval :=
  if promote l r then Ok (VFloat (dadd (to_double l) (to_double r)))
  else do z <- int_binop (fun x y => i64 (x + y)) l r; Ok (VInt z).

(* scm_c_minus_number, number.cc 221-229 *)
Definition minus_number (l r : nval) : res nval :=
  if promote l r then Ok (VFloat (dsub (to_double l) (to_double r)))
  else do z <- int_binop (fun x y => i64 (x - y)) l r; Ok (VInt z).

(* scm_c_negate_number, number.cc 232-245 *)
Definition negate_number (v : nval) : res nval :=
  match v with
  | VFloat f => Ok (VFloat (SFopp f))
  | VInt z => do w <- i64 (- z); Ok (VInt w)
  | _ => Err
  end.

(* the left fold in scm_c_minus_wrapper, number.cc 284-290, and reduce(),
   pscm.h 703-710 *)
Fixpoint foldM (f : nval -> nval -> res nval) (acc : nval) (args : list nval) : res nval :=
  match args with
  | [] => Ok acc
  | x :: rest => do acc' <- f acc x; foldM f acc' rest
  end.

(* scm_c_minus_wrapper, number.cc 248-292 *)
Definition scm_minus (args : list nval) : res nval :=
  match args with
  | [] => Err
  | [x] => if is_num x || is_float x then negate_number x else Err
  | x :: rest => foldM minus_number x rest
  end.

(* static gcd(a,b), number.cc 536-545.  The loop runs on explicit fuel; see
   NumProofs.gcd_loop_enough for why the fuel below always suffices. *)
Fixpoint gcd_loop (fuel : nat) (a b : Z) : res Z :=
  match fuel with
  | O => Fuel
  | S k => if b =? 0 then Ok a else do r <- crem a b; gcd_loop k b r
  end.
(* |x| as computed by "x < 0 ? -x : x" *)
(* number.cc gcd 536-545, scm_c_abs 494-502 *)
Definition cabs (x : Z) : res Z := if x <? 0 then i64 (- x) else Ok x.
(* two gcd steps at least halve the second operand: 2*log2 + 2 steps suffice *)
(* model only: fuel for number.cc gcd 536-545 *)
Definition gcd_fuel (b : Z) : nat := Z.to_nat (2 * Z.log2 b + 4).
(* number.cc gcd 536-545 *)
Definition cgcd (a b : Z) : res Z :=
  do a' <- cabs a; do b' <- cabs b; gcd_loop (gcd_fuel b') a' b'.

(* scm_make_ratio, number.cc 621-658 *)
Definition make_ratio (num den : Z) : res nval :=
  if den =? 0 then Err
  else if num =? 0 then Ok (VInt 0)
  else
    do '(n, d) <- (if den <? 0 then do n <- i64 (- num); do d <- i64 (- den); Ok (n, d)
                   else Ok (num, den));
    do g <- cgcd n d;
    do n' <- cdiv n g;
    do d' <- cdiv d g;
    if d' =? 1 then Ok (VInt n') else Ok (VRatio n' d').

(* scm_c_mul_number, number.cc 294-339 *)
Definition mul_number (l r : nval) : res nval :=
  let fl := Ok (VFloat (dmul (to_double l) (to_double r))) in
  let frac v := match v with VInt z => Some (z, 1) | VRatio n d => Some (n, d) | _ => None end in
  if is_ratio l || is_ratio r then
    match frac l with
    | None => fl
    | Some (n1, d1) =>
        match frac r with
        | None => fl
        | Some (n2, d2) => do n <- i64 (n1 * n2); do d <- i64 (d1 * d2); make_ratio n d
        end
    end
  else if promote l r then fl
  else do z <- int_binop (fun x y => i64 (x * y)) l r; Ok (VInt z).

(* "+" and "*" are generic functions with initial values 0 and 1
   (number.cc 991, 994), called through reduce (function.cc 76-82) *)
Definition scm_plus (args : list nval) : res nval := foldM add_number (VInt 0) args.
(* number.cc 994 with reduce, pscm.h 703-710 *)
Definition scm_times (args : list nval) : res nval := foldM mul_number (VInt 1) args.

(** ** Comparisons *)
(* number.cc scm_c_eq_number 201-209, lt_eq 341-348, gt_eq 350-357, lt 359-366,
   gt 368-375: double comparison if either side is a float, else the int64
   comparison behind two asserts *)
Inductive cmpop := CEq | CLe | CGe | CLt | CGt.
(* number.cc 167-199: the comparison on doubles *)
Definition dcmp (o : cmpop) : dbl -> dbl -> bool :=
  match o with CEq => deq | CLe => dle | CGe => dge | CLt => dlt | CGt => dgt end.
(* number.cc 167-199: the comparison on int64_t *)
Definition zcmp (o : cmpop) : Z -> Z -> bool :=
  match o with
  | CEq => Z.eqb
  | CLe => Z.leb
  | CGe => Z.geb
  | CLt => Z.ltb
  | CGt => Z.gtb
  end.
(* number.cc 201-209, 341-375 *)
Definition cmp_number (o : cmpop) (l r : nval) : res bool :=
  if promote l r then Ok (dcmp o (to_double l) (to_double r))
  else int_binop (fun x y => Ok (zcmp o x y)) l r.

(* the loop shared by the five scm_c_*_chain functions, number.cc 388-398 *)
Fixpoint chain_loop (o : cmpop) (x : nval) (rest : list nval) : res nval :=
  match rest with
  | [] => Ok (VBool true)
  | y :: rest' =>
      do b <- cmp_number o x y;
      if b then chain_loop o y rest' else Ok (VBool false)
  end.
(* number.cc scm_c_eq_chain 378-399, lt 401-422, gt 424-446, le 448-469, ge 471-492 *)
Definition scm_cmp (o : cmpop) (args : list nval) : res nval :=
  match args with
  | [] | [_] => Ok (VBool true)
  | [x; y] => do b <- cmp_number o x y; Ok (VBool b)
  | x :: rest => chain_loop o x rest
  end.

(* _number_eq, number.cc 518-526 (used by eq?, eqv?, equal?, assv, hash) *)
Definition number_eq (l r : nval) : res bool := cmp_number CEq l r.

(** ** Predicates (number.cc 9-79) *)
Definition is_negative (v : nval) : res nval :=
  if is_num v || is_float v then Ok (VBool (dlt (to_double v) dzero)) else Err.
(* number.cc scm_c_is_positive 21-31 *)
Definition is_positive (v : nval) : res nval :=
  if is_num v || is_float v then Ok (VBool (dgt (to_double v) dzero)) else Err.
(* number.cc scm_c_is_zero 69-79 *)
Definition is_zero (v : nval) : res nval :=
  if is_num v || is_float v || is_ratio v then Ok (VBool (deq (to_double v) dzero)) else Err.
(* "val != (double)(int64_t)val" check, then (int64_t)val *)
(* number.cc scm_c_is_odd 33-49, scm_c_is_even 51-67 *)
Definition integral (d : dbl) : res Z :=
  do z <- Z_of_d d; if deq d (d_of_Z z) then Ok z else Err.
(* number.cc scm_c_is_odd 33-49 *)
Definition is_odd (v : nval) : res nval :=
  if is_num v || is_float v then
    do n <- integral (to_double v); Ok (VBool (negb (Z.rem n 2 =? 0)))
  else Err.
(* number.cc scm_c_is_even 51-67 *)
Definition is_even (v : nval) : res nval :=
  if is_num v || is_float v then
    do n <- integral (to_double v); Ok (VBool (Z.rem n 2 =? 0))
  else Err.

(* scm_c_abs, number.cc 494-502 *)
Definition scm_abs (v : nval) : res nval :=
  match v with VInt z => do a <- cabs z; Ok (VInt a) | _ => Abort end.

(* loops of number.cc scm_c_max 676-694 and scm_c_min 718-736; [better val best] is
   "val > max_val" resp. "val < min_val".  The extra test
   is_nil(wrap(current->next)) is false for a list node, so the loop simply
   visits every argument. *)
Fixpoint extremum_loop (better : dbl -> dbl -> bool) (best : dbl) (all_int : bool)
    (args : list nval) : res (dbl * bool) :=
  match args with
  | [] => Ok (best, all_int)
  | a :: rest =>
      if is_num a || is_float a || is_ratio a then
        let v := to_double a in
        extremum_loop better (if better v best then v else best)
                      (if is_num a then all_int else false) rest
      else Err
  end.
(* number.cc scm_c_max 661-700, scm_c_min 703-742 *)
Definition extremum (better : dbl -> dbl -> bool) (args : list nval) : res nval :=
  match args with
  | [] => Err
  | a :: rest =>
      if is_num a || is_float a || is_ratio a then
        do '(best, all_int) <- extremum_loop better (to_double a) (is_num a) rest;
        if all_int then
          do z <- Z_of_d best;
          if deq best (d_of_Z z) then Ok (VInt z) else Ok (VFloat best)
        else Ok (VFloat best)
      else Err
  end.
(* number.cc scm_c_max 661-700, scm_c_min 703-742 *)
Definition scm_max : list nval -> res nval := extremum dgt.
(* number.cc scm_c_min 703-742 *)
Definition scm_min : list nval -> res nval := extremum dlt.

(** ** gcd / lcm primitives *)
(* scm_c_gcd, number.cc 549-577 *)
Fixpoint gcd_args (acc : Z) (args : list nval) : res Z :=
  match args with
  | [] => Ok acc
  | VInt v :: rest => do g <- cgcd acc v; gcd_args g rest
  | _ :: _ => Err
  end.
(* number.cc scm_c_gcd 549-577 *)
Definition scm_gcd (args : list nval) : res nval :=
  match args with
  | [] => Ok (VInt 0)
  | VInt f :: rest => do a <- cabs f; do g <- gcd_args a rest; Ok (VInt g)
  | _ :: _ => Err
  end.
(* scm_c_lcm, number.cc 582-618 *)
Fixpoint lcm_args (acc : Z) (args : list nval) : res Z :=
  match args with
  | [] => Ok acc
  | VInt v :: rest =>
      do v' <- cabs v;
      do g <- cgcd acc v';
      if g =? 0 then Ok 0
      else do q <- cdiv acc g; do acc' <- i64 (q * v'); lcm_args acc' rest
  | _ :: _ => Err
  end.
(* number.cc scm_c_lcm 582-618 *)
Definition scm_lcm (args : list nval) : res nval :=
  match args with
  | [] => Ok (VInt 1)
  | VInt f :: rest => do a <- cabs f; do g <- lcm_args a rest; Ok (VInt g)
  | _ :: _ => Err
  end.

(** ** expt, number.cc 744-796 *)
(* for (i = 0; i < n2 - 1; ++i) ret *= n1;  as [k] iterations *)
Fixpoint expt_loop (k : nat) (n1 ret : Z) : res Z :=
  match k with
  | O => Ok ret
  | S k' => do r <- i64 (ret * n1); expt_loop k' n1 r
  end.
(* number.cc scm_c_expt 744-796 *)
Definition scm_expt (base ex : nval) : res nval :=
  match base, ex with
  | VInt n1, VInt n2 =>
      if (n1 =? 0) && (n2 =? 0) then Ok (VInt 1)
      else if n1 =? 0 then Ok (VInt 0)
      else if n2 =? 0 then Ok (VInt 1)
      else
        do e <- (if n2 <? 0 then i64 (- n2) else Ok n2);
        do r <- expt_loop (Z.to_nat (e - 1)) n1 n1;
        if n2 <? 0 then
          if r =? 1 then Ok (VInt 1)
          else if r =? -1 then Ok (VInt (-1))
          else Ok (VInt 0)
        else Ok (VInt r)
  | _, _ => Abort
  end.

(** ** "/", number.cc 798-909 *)
(* float path once the first argument is a float, 848-867 *)
Fixpoint div_float_loop (acc : dbl) (args : list nval) : res nval :=
  match args with
  | [] => Ok (VFloat acc)
  | a :: rest =>
      if is_num a || is_float a || is_ratio a then
        if deq (to_double a) dzero then Err
        else div_float_loop (ddiv acc (to_double a)) rest
      else Err
  end.
(* float path entered midway, 886-894: no type or zero check *)
(* number.cc scm_c_div 886-894 *)
Fixpoint div_switch_loop (acc : dbl) (args : list nval) : dbl :=
  match args with
  | [] => acc
  | a :: rest => div_switch_loop (ddiv acc (to_double a)) rest
  end.
(* exact path, 869-908 *)
(* number.cc scm_c_div 869-908 *)
Fixpoint div_exact_loop (num den : Z) (args : list nval) : res nval :=
  match args with
  | [] => make_ratio num den
  | a :: rest =>
      let step dn dd :=
        if dn =? 0 then Err
        else do n <- i64 (num * dd); do d <- i64 (den * dn); div_exact_loop n d rest in
      match a with
      | VInt z => step z 1
      | VRatio n d => step n d
      | VFloat _ => Ok (VFloat (div_switch_loop (ddiv (d_of_Z num) (d_of_Z den)) args))
      | _ => Err
      end
  end.
(* number.cc scm_c_div 798-909 *)
Definition scm_div (args : list nval) : res nval :=
  match args with
  | [] => Ok (VInt 1)
  | [VInt n] => if n =? 0 then Err else make_ratio 1 n
  | [VRatio n d] => if n =? 0 then Err else make_ratio d n
  | [VFloat f] => if deq f dzero then Err else Ok (VFloat (ddiv (d_of_Z 1) f))
  | VInt n :: rest => div_exact_loop n 1 rest
  | VRatio n d :: rest => div_exact_loop n d rest
  | VFloat f :: rest => div_float_loop f rest
  | _ :: _ => Err
  end.

(** ** quotient 911-930, modulo 932-961, remainder 963-983 *)
(* number.cc scm_c_quotient 911-930 *)
Definition scm_quotient (a b : nval) : res nval :=
  match a, b with
  | VInt x, VInt y => if y =? 0 then Err else do q <- cdiv x y; Ok (VInt q)
  | _, _ => Err
  end.
(* number.cc scm_c_modulo 932-961 *)
Definition scm_modulo (a b : nval) : res nval :=
  match a, b with
  | VInt x, VInt y =>
      if y =? 0 then Err else
      do m <- cdiv x y;
      do p <- i64 (y * m);
      do r <- i64 (x - p);
      if (r >? 0) && (y <? 0) then do s <- i64 (r + y); Ok (VInt s)
      else if (r <? 0) && (y >? 0) then do s <- i64 (r + y); Ok (VInt s)
      else Ok (VInt r)
  | _, _ => Err
  end.
(* number.cc scm_c_remainder 963-983 *)
Definition scm_remainder (a b : nval) : res nval :=
  match a, b with
  | VInt x, VInt y =>
      if y =? 0 then Err else
      do m <- cdiv x y; do p <- i64 (y * m); do r <- i64 (x - p); Ok (VInt r)
  | _, _ => Err
  end.
