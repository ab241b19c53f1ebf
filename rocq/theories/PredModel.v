(** Model of src/c/predicate.cc (type predicates, not), src/c/symbol.cc
    (symbol->string, string->symbol, gensym), char? (src/c/char.cc 5-7),
    hash-table? and variable? , and of src/c/variable.cc.

    Simplifications: an SCM object whose type is one of PROC, CONT, FUNC, MACRO,
    PORT, PROMISE, MODULE, SMOB, VARIABLE is [OOpaque n] in HeapModel, with n the
    position in that list; its contents are irrelevant here. *)
From Verif Require Import Base NumModel HeapModel ListModel PrintModel.
From Verif Require EnvModel.

(* pscm.h 10-124: each test compares scm->type with one constant *)
Definition is_str (o : obj) : bool := match o with OStr _ => true | _ => false end.
(* pscm.h is_sym 14-16 *)
Definition is_sym (o : obj) : bool := match o with OSym _ => true | _ => false end.
(* pscm.h is_pair 18-20 *)
Definition is_pair (o : obj) : bool := match o with OList _ => true | _ => false end.
(* pscm.h is_num 22-24 *)
Definition is_num (o : obj) : bool := match o with ONum _ => true | _ => false end.
(* pscm.h is_float 26-28 *)
Definition is_float (o : obj) : bool := match o with OFloat _ => true | _ => false end.
(* pscm.h is_ratio 30-32 *)
Definition is_ratio (o : obj) : bool := match o with ORatio _ _ => true | _ => false end.
(* pscm.h is_char 34-36 *)
Definition is_char (o : obj) : bool := match o with OChar _ => true | _ => false end.
(* pscm.h is_nil 50-52 *)
Definition is_nil (o : obj) : bool := match o with ONil => true | _ => false end.
(* pscm.h is_bool 54-56 *)
Definition is_bool (o : obj) : bool := match o with OBool _ => true | _ => false end.
(* pscm.h is_vector 102-104 *)
Definition is_vector (o : obj) : bool := match o with OVec _ => true | _ => false end.
(* pscm.h is_hash_table 98-100 *)
Definition is_hash (o : obj) : bool := match o with OHash _ _ => true | _ => false end.
(* pscm.h 38-48, 94-124: the tests for the opaque types *)
Definition is_tag (n : nat) (o : obj) : bool := match o with OOpaque t => Nat.eqb t n | _ => false end.
(* pscm.h is_proc 38-40 *)
Definition is_proc : obj -> bool := is_tag 0.
(* pscm.h is_cont 46-48 *)
Definition is_cont : obj -> bool := is_tag 1.
(* pscm.h is_func 42-44 *)
Definition is_func : obj -> bool := is_tag 2.
(* pscm.h is_variable 122-124 *)
Definition is_variable : obj -> bool := is_tag 8.
(* is_falsy, pscm.h 67-72 *)
Definition is_falsy (o : obj) : bool := match o with OBool false => true | _ => false end.

(* scm_c_type_check, predicate.cc 6-9 *)
Definition type_check (p : obj -> bool) (a : addr) : M addr :=
  let! o := get a in ret (bool_a (p o)).
(* predicate.cc 11-77 *)
(* predicate.cc scm_c_is_procedure 11-13 *)
Definition procedure_p := type_check (fun o => is_proc o || is_cont o || is_func o).
(* predicate.cc scm_c_is_boolean 15-17 *)
Definition boolean_p := type_check is_bool.
(* predicate.cc scm_c_is_null 19-21 *)
Definition null_p := type_check is_nil.
(* predicate.cc scm_c_is_pair 23-25 *)
Definition pair_p := type_check is_pair.
(* predicate.cc scm_c_is_number 27-29 *)
Definition number_p := type_check (fun o => is_num o || is_float o || is_ratio o).
(* predicate.cc scm_c_is_complex 31-35 *)
Definition complex_p := type_check (fun o => is_num o || is_float o || is_ratio o).
(* predicate.cc scm_c_is_real 37-41 *)
Definition real_p := type_check (fun o => is_num o || is_float o || is_ratio o).
(* predicate.cc scm_c_is_rational 43-47 *)
Definition rational_p := type_check (fun o => is_num o || is_ratio o).
(* predicate.cc scm_c_is_integer 49-53 *)
Definition integer_p := type_check is_num.
(* predicate.cc scm_c_is_exact 55-59 *)
Definition exact_p := type_check (fun o => is_num o || is_ratio o).
(* predicate.cc scm_c_is_inexact 61-65 *)
Definition inexact_p := type_check is_float.
(* predicate.cc scm_c_is_string 67-69 *)
Definition string_p := type_check is_str.
(* predicate.cc scm_c_is_symbol 71-73 *)
Definition symbol_p := type_check is_sym.
(* predicate.cc scm_c_is_vector 75-77 *)
Definition vector_p := type_check is_vector.
(* char.cc 5-7; hash_table.cc scm_c_is_hash_table; variable.cc 20-22 *)
Definition char_p := type_check is_char.
(* pscm.h is_hash_table 98-100, used by hash_table.cc 135-146; not a Scheme
   procedure of its own *)
Definition hash_table_p := type_check is_hash.
(* variable.cc scm_variable_p 20-22 *)
Definition variable_p := type_check is_variable.
(* scm_c_not, predicate.cc 119-126 *)
Definition not_p := type_check is_falsy.
(* list? (predicate.cc 79-117) is ListModel.is_list_prim *)

(** ** symbol.cc *)
(* symbol.cc scm_c_symbol_to_string 76-83: scm_from_c_string copies all len bytes *)
Definition symbol_to_string (a : addr) : M addr :=
  let! o := get a in
  match o with OSym n => alloc (OStr n) | _ => fail Err end.
(* symbol.cc scm_c_string_to_symbol 115-122, create_sym 53-64: all len bytes are copied *)
Definition string_to_symbol (a : addr) : M addr :=
  let! o := get a in
  match o with OStr s => alloc (OSym s) | _ => fail Err end.
(* symbol.cc scm_c_gensym 66-71: the counter is a C int; index++ on INT_MAX overflows.
   " g%d" of any int fits the 32-byte buffer *)
Definition int32_max : Z := 2 ^ 31 - 1.
(* symbol.cc scm_c_gensym 66-71 *)
Definition gensym_name (i : Z) : list Z := 32 :: 103 :: dec i.
(* symbol.cc scm_c_gensym 66-71 *)
Definition gensym (i : Z) : M (addr * Z) :=
  if i =? int32_max then fail UB
  else let! a := alloc (OSym (gensym_name i)) in ret (a, i + 1).

(** ** variable.cc.  The variables made so far, in order; [None]: value is null.
    A Scheme argument is a variable or something else. *)
Inductive varg := Var (i : nat) | NotVar.
(* pscm_types.h SCM_Variable 138-140 *)
Definition vstore := list (option EnvModel.val).
(* variable.cc scm_make_variable 6-10, scm_make_undefined_variable 13-17 *)
Definition make_variable (v : EnvModel.val) (s : vstore) : varg * vstore := (Var (length s), s ++ [Some v]).
(* variable.cc scm_make_undefined_variable 13-17 *)
Definition make_undefined_variable (s : vstore) : varg * vstore := (Var (length s), s ++ [None]).
(* variable.cc scm_variable_ref 25-34 *)
Definition variable_ref (a : varg) (s : vstore) : res EnvModel.val :=
  match a with
  | NotVar => Err
  | Var i => match nth_error s i with
             | Some (Some v) => Ok v
             | Some None => Err
             | None => UB
             end
  end.
(* variable.cc scm_variable_set_x 37-44 *)
Definition variable_set (a : varg) (v : EnvModel.val) (s : vstore) : res vstore :=
  match a with
  | NotVar => Err
  | Var i => match nth_error s i with Some _ => Ok (EnvModel.upd s i (Some v)) | None => UB end
  end.
(* variable.cc scm_variable_bound_p 47-53 *)
Definition variable_bound (a : varg) (s : vstore) : res bool :=
  match a with
  | NotVar => Err
  | Var i => match nth_error s i with Some (Some _) => Ok true | Some None => Ok false | None => UB end
  end.
(* scm_c_lookup 58-72, variable.cc scm_lookup 75-91: a new variable holding the current value *)
Definition lookup (st : EnvModel.state) (x : list Z) (s : vstore) : res (varg * vstore) :=
  match EnvModel.env_search st EnvModel.g_env x with
  | Some v => Ok (make_variable v s)
  | None => Err
  end.

(** one operation of a program (or of a host) on variables, with its answer *)
(* variable.cc 6-53: the procedures, as data *)
Inductive vop :=
| OpMake (v : EnvModel.val)
| OpMakeUndef
| OpSet (a : varg) (v : EnvModel.val)
| OpRef (a : varg)
| OpBound (a : varg).
(* variable.cc 6-53: their results *)
Inductive vans := AVar (a : varg) | AVal (v : EnvModel.val) | ABool (b : bool) | ADone | AErr | AUB.
(* variable.cc 6-53 *)
Definition vstep (o : vop) (s : vstore) : vans * vstore :=
  match o with
  | OpMake v => let '(a, s') := make_variable v s in (AVar a, s')
  | OpMakeUndef => let '(a, s') := make_undefined_variable s in (AVar a, s')
  | OpSet a v => match variable_set a v s with Ok s' => (ADone, s') | Err => (AErr, s) | _ => (AUB, s) end
  | OpRef a => match variable_ref a s with Ok v => (AVal v, s) | Err => (AErr, s) | _ => (AUB, s) end
  | OpBound a => match variable_bound a s with Ok b => (ABool b, s) | Err => (AErr, s) | _ => (AUB, s) end
  end.
(* model only: a history of calls of variable.cc 6-53 *)
Fixpoint vrun (ops : list vop) (s : vstore) : list vans * vstore :=
  match ops with
  | [] => ([], s)
  | o :: r => let '(a, s1) := vstep o s in let '(l, s2) := vrun r s1 in (a :: l, s2)
  end.
