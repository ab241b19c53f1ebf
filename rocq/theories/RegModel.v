(** Model of the registration of C functions as Scheme procedures (pscm.h 1031-1068,
    module.cc scm_c_define_gsubr) and of their calls (function.cc), with the table of all
    builtins, read off the init functions.

    Simplifications.
    - A C function is its name and its signature; what it does is a parameter.
    - The argument list of a call is the list of its values; a call through a
      pointer of another function type is undefined behaviour. *)
From Coq Require Import String.
From Verif Require Import Base ParseModel PrintModel.
Local Open Scope string_scope.
Local Open Scope list_scope.
Local Open Scope Z_scope.

(* the declarations of the registered functions: n parameters SCM *, or one SCM_List * (pscm.h, *.cc) *)
Inductive csig := Params (n : nat) | ListParam.
(* pscm_types.h SCM_Function: func_ptr *)
Record cptr := mkP { p_name : list Z; p_sig : csig }.
(* pscm_types.h SCM_Function: name, n_args, generic (here the integer it holds), func_ptr *)
Record sfun := mkF { f_name : list Z; f_nargs : Z; f_generic : option Z; f_ptr : cptr }.
(* pscm.h scm_define_function 1045-1050: opt and rst are not used *)
Definition define_function (name : string) (req opt rst : Z) (p : cptr) : sfun := mkF (bs name) req None p.
(* pscm.h scm_define_generic_function 1053-1059 *)
Definition define_generic (name : string) (p : cptr) (init : Z) : sfun := mkF (bs name) (-1) (Some init) p.
(* pscm.h scm_define_vararg_function 1062-1068 *)
Definition define_vararg (name : string) (p : cptr) : sfun := mkF (bs name) (-2) None p.
(* module.cc scm_c_define_gsubr 536-563: the function object that is defined *)
Definition define_gsubr (name : list Z) (req opt rst : Z) (p : cptr) : sfun :=
  if negb (rst =? 0) then mkF name (-2) None p
  else if 0 <? opt then mkF name (-2) None p
  else mkF name req None p.

Section Call.
Variable A : Type.
(* number.cc _create_num 528-533: the integer as a value *)
Variable num : Z -> A.
(* function.cc 5-27, 102-104: what a C function is given *)
Inductive cargs := Vals (l : list A) | Lst (l : list A).
(* function.cc eval_with_func 29-108: how a call ends.  Escaped: the C function did not return *)
Inductive ending := Value (a : A) | Escaped | WrongArgs | Failed | BadCall.
(* what the C functions do *)
Variable exec : list Z -> cargs -> option A.
(* function.cc eval_with_func_0 5-9, eval_with_func_1 11-15, eval_with_func_2 17-21, eval_with_func_3 23-27 and 102-104 *)
Definition call_ptr (p : cptr) (c : cargs) : ending :=
  if match c, p_sig p with Vals l, Params n => Nat.eqb (length l) n | Lst _, ListParam => true | _, _ => false end
  then match exec (p_name p) c with Some a => Value a | None => Escaped end
  else BadCall.
(* pscm.h reduce 703-710, with function.cc 77-81 *)
Fixpoint reduce (p : cptr) (acc : A) (l : list A) : ending :=
  match l with
  | [] => Value acc
  | x :: r => match call_ptr p (Vals [acc; x]) with Value a => reduce p a r | e => e end
  end.
(* function.cc eval_with_func 29-108 *)
Definition eval_with_func (f : sfun) (args : list A) : ending :=
  if f_nargs f =? 0 then match args with [] => call_ptr (f_ptr f) (Vals []) | _ => WrongArgs end
  else if f_nargs f =? 1 then match args with [a] => call_ptr (f_ptr f) (Vals [a]) | _ => WrongArgs end
  else if f_nargs f =? 2 then match args with [a; b] => call_ptr (f_ptr f) (Vals [a; b]) | _ => WrongArgs end
  else if f_nargs f =? 3 then match args with [a; b; c] => call_ptr (f_ptr f) (Vals [a; b; c]) | _ => WrongArgs end
  else match (if f_nargs f =? -1 then f_generic f else None) with
  | Some z => reduce (f_ptr f) (num z) args
  | None =>
      if f_nargs f =? -2 then
        if beq (f_name f) (bs "apply") then Failed
        else if beq (f_name f) (bs "map") then Failed
        else if beq (f_name f) (bs "map-in-order") then Failed
        else call_ptr (f_ptr f) (Lst args)
      else Failed
  end.
End Call.
Arguments Vals {A}. Arguments Lst {A}. Arguments Value {A}. Arguments Escaped {A}. Arguments WrongArgs {A}. Arguments Failed {A}. Arguments BadCall {A}.

(** ** the global frame *)
(* environment.cc scm_env_insert 30-45 *)
Fixpoint replace (x : list Z) (v : sfun) (l : list (list Z * sfun)) : option (list (list Z * sfun)) :=
  match l with
  | [] => None
  | (k, w) :: r => if beq k x then Some ((k, v) :: r) else match replace x v r with Some r' => Some ((k, w) :: r') | None => None end
  end.
(* environment.cc scm_env_insert 30-45: search_parent = false *)
Definition insert (fr : list (list Z * sfun)) (f : sfun) : list (list Z * sfun) :=
  match replace (f_name f) f fr with Some fr' => fr' | None => (f_name f, f) :: fr end.
(* environment.cc scm_env_search_entry 4-28 *)
Fixpoint find (x : list Z) (fr : list (list Z * sfun)) : option sfun :=
  match fr with [] => None | (k, v) :: r => if beq k x then Some v else find x r end.

(** ** the builtins *)
(* predicate.cc init_predicate 132-151 *)
Definition reg_predicate : list sfun :=
  [define_function "procedure?" 1 0 0 (mkP (bs "scm_c_is_procedure") (Params 1));
   define_function "boolean?" 1 0 0 (mkP (bs "scm_c_is_boolean") (Params 1));
   define_function "null?" 1 0 0 (mkP (bs "scm_c_is_null") (Params 1));
   define_function "pair?" 1 0 0 (mkP (bs "scm_c_is_pair") (Params 1));
   define_function "list?" 1 0 0 (mkP (bs "scm_c_is_list") (Params 1));
   define_function "number?" 1 0 0 (mkP (bs "scm_c_is_number") (Params 1));
   define_function "complex?" 1 0 0 (mkP (bs "scm_c_is_complex") (Params 1));
   define_function "real?" 1 0 0 (mkP (bs "scm_c_is_real") (Params 1));
   define_function "rational?" 1 0 0 (mkP (bs "scm_c_is_rational") (Params 1));
   define_function "integer?" 1 0 0 (mkP (bs "scm_c_is_integer") (Params 1));
   define_function "exact?" 1 0 0 (mkP (bs "scm_c_is_exact") (Params 1));
   define_function "inexact?" 1 0 0 (mkP (bs "scm_c_is_inexact") (Params 1));
   define_function "string?" 1 0 0 (mkP (bs "scm_c_is_string") (Params 1));
   define_function "symbol?" 1 0 0 (mkP (bs "scm_c_is_symbol") (Params 1));
   define_function "vector?" 1 0 0 (mkP (bs "scm_c_is_vector") (Params 1));
   define_function "not" 1 0 0 (mkP (bs "scm_c_not") (Params 1));
   define_function "noop" 0 0 0 (mkP (bs "scm_c_noop") (Params 0))].
(* list.cc init_list 568-588 *)
Definition reg_list : list sfun :=
  [define_function "car" 1 0 0 (mkP (bs "car") (Params 1));
   define_function "cdr" 1 0 0 (mkP (bs "cdr") (Params 1));
   define_function "cadr" 1 0 0 (mkP (bs "cadr") (Params 1));
   define_function "cddr" 1 0 0 (mkP (bs "cddr") (Params 1));
   define_function "caddr" 1 0 0 (mkP (bs "caddr") (Params 1));
   define_function "cons" 2 0 0 (mkP (bs "scm_cons") (Params 2));
   define_vararg "list" (mkP (bs "scm_list") ListParam);
   define_vararg "append" (mkP (bs "scm_append") ListParam);
   define_function "list-head" 2 0 0 (mkP (bs "scm_c_list_head") (Params 2));
   define_function "list-tail" 2 0 0 (mkP (bs "scm_c_list_tail") (Params 2));
   define_function "list-ref" 2 0 0 (mkP (bs "scm_c_list_ref") (Params 2));
   define_function "set-car!" 2 0 0 (mkP (bs "scm_c_set_car") (Params 2));
   define_function "set-cdr!" 2 0 0 (mkP (bs "scm_c_set_cdr") (Params 2));
   define_function "last-pair" 1 0 0 (mkP (bs "scm_c_last_pair") (Params 1));
   define_function "reverse" 1 0 0 (mkP (bs "scm_c_reverse") (Params 1));
   define_function "length" 1 0 0 (mkP (bs "scm_c_length") (Params 1));
   define_function "memq" 2 0 0 (mkP (bs "scm_c_memq") (Params 2));
   define_function "memv" 2 0 0 (mkP (bs "scm_c_memv") (Params 2));
   define_function "member" 2 0 0 (mkP (bs "scm_c_member") (Params 2))].
(* symbol.cc init_symbol 124-128 *)
Definition reg_symbol : list sfun :=
  [define_function "gensym" 0 0 0 (mkP (bs "scm_c_gensym") (Params 0));
   define_function "symbol->string" 1 0 0 (mkP (bs "scm_c_symbol_to_string") (Params 1));
   define_function "string->symbol" 1 0 0 (mkP (bs "scm_c_string_to_symbol") (Params 1))].
(* apply.cc init_apply 162-164 *)
Definition reg_apply : list sfun :=
  [define_vararg "apply" (mkP (bs "scm_c_apply") ListParam)].
(* map.cc init_map 137-140 *)
Definition reg_map : list sfun :=
  [define_vararg "map" (mkP (bs "scm_c_map") ListParam);
   define_vararg "map-in-order" (mkP (bs "scm_c_map_in_order") ListParam)].
(* number.cc init_number 985-1010 *)
Definition reg_number : list sfun :=
  [define_function "positive?" 1 0 0 (mkP (bs "scm_c_is_positive") (Params 1));
   define_function "negative?" 1 0 0 (mkP (bs "scm_c_is_negative") (Params 1));
   define_function "zero?" 1 0 0 (mkP (bs "scm_c_is_zero") (Params 1));
   define_function "odd?" 1 0 0 (mkP (bs "scm_c_is_odd") (Params 1));
   define_function "even?" 1 0 0 (mkP (bs "scm_c_is_even") (Params 1));
   define_generic "+" (mkP (bs "scm_c_add_number") (Params 2)) 0;
   define_vararg "=" (mkP (bs "scm_c_eq_chain") ListParam);
   define_vararg "-" (mkP (bs "scm_c_minus_wrapper") ListParam);
   define_generic "*" (mkP (bs "scm_c_mul_number") (Params 2)) 1;
   define_vararg "/" (mkP (bs "scm_c_div") ListParam);
   define_vararg "<=" (mkP (bs "scm_c_le_chain") ListParam);
   define_vararg ">=" (mkP (bs "scm_c_ge_chain") ListParam);
   define_vararg "<" (mkP (bs "scm_c_lt_chain") ListParam);
   define_vararg ">" (mkP (bs "scm_c_gt_chain") ListParam);
   define_function "abs" 1 0 0 (mkP (bs "scm_c_abs") (Params 1));
   define_function "sqrt" 1 0 0 (mkP (bs "scm_c_sqrt") (Params 1));
   define_function "expt" 2 0 0 (mkP (bs "scm_c_expt") (Params 2));
   define_vararg "max" (mkP (bs "scm_c_max") ListParam);
   define_vararg "min" (mkP (bs "scm_c_min") ListParam);
   define_function "quotient" 2 0 0 (mkP (bs "scm_c_quotient") (Params 2));
   define_function "modulo" 2 0 0 (mkP (bs "scm_c_modulo") (Params 2));
   define_function "remainder" 2 0 0 (mkP (bs "scm_c_remainder") (Params 2));
   define_vararg "gcd" (mkP (bs "scm_c_gcd") ListParam);
   define_vararg "lcm" (mkP (bs "scm_c_lcm") ListParam)].
(* continuation.cc init_continuation 138-141 *)
Definition reg_continuation : list sfun :=
  [define_vararg "call-with-current-continuation" (mkP (bs "scm_c_call_with_current_continuation") ListParam);
   define_vararg "call/cc" (mkP (bs "scm_c_call_with_current_continuation") ListParam)].
(* throw.cc init_throw 561-568 *)
Definition reg_throw : list sfun :=
  [define_vararg "catch" (mkP (bs "scm_c_catch_scheme") ListParam);
   define_vararg "throw" (mkP (bs "scm_c_throw_scheme") ListParam)].
(* eq.cc init_eq 393-397 *)
Definition reg_eq : list sfun :=
  [define_function "eq?" 2 0 0 (mkP (bs "scm_c_is_eq") (Params 2));
   define_function "eqv?" 2 0 0 (mkP (bs "scm_c_is_eqv") (Params 2));
   define_function "equal?" 2 0 0 (mkP (bs "scm_c_is_equal") (Params 2))].
(* alist.cc init_alist 266-275 *)
Definition reg_alist : list sfun :=
  [define_function "assq" 2 0 0 (mkP (bs "scm_c_assq") (Params 2));
   define_function "assv" 2 0 0 (mkP (bs "scm_c_assv") (Params 2));
   define_function "acons" 3 0 0 (mkP (bs "scm_c_acons") (Params 3));
   define_function "assoc" 2 0 0 (mkP (bs "scm_c_assoc") (Params 2));
   define_function "assoc-ref" 2 0 0 (mkP (bs "scm_c_assoc_ref") (Params 2));
   define_function "assoc-set!" 3 0 0 (mkP (bs "scm_c_assoc_set") (Params 3));
   define_function "assq-set!" 3 0 0 (mkP (bs "scm_c_assq_set") (Params 3));
   define_function "assoc-remove!" 2 0 0 (mkP (bs "scm_c_assoc_remove") (Params 2))].
(* char.cc init_char 243-264 *)
Definition reg_char : list sfun :=
  [define_function "char?" 1 0 0 (mkP (bs "scm_c_is_char") (Params 1));
   define_function "char->integer" 1 0 0 (mkP (bs "scm_c_char_to_integer") (Params 1));
   define_function "integer->char" 1 0 0 (mkP (bs "scm_c_integer_to_char") (Params 1));
   define_function "char-upcase" 1 0 0 (mkP (bs "scm_c_char_upcase") (Params 1));
   define_function "char-downcase" 1 0 0 (mkP (bs "scm_c_char_downcase") (Params 1));
   define_function "char=?" 2 0 0 (mkP (bs "scm_c_char_eq") (Params 2));
   define_function "char<?" 2 0 0 (mkP (bs "scm_c_char_lt") (Params 2));
   define_function "char>?" 2 0 0 (mkP (bs "scm_c_char_gt") (Params 2));
   define_function "char<=?" 2 0 0 (mkP (bs "scm_c_char_le") (Params 2));
   define_function "char>=?" 2 0 0 (mkP (bs "scm_c_char_ge") (Params 2));
   define_function "char-ci=?" 2 0 0 (mkP (bs "scm_c_char_ci_eq") (Params 2));
   define_function "char-ci<?" 2 0 0 (mkP (bs "scm_c_char_ci_lt") (Params 2));
   define_function "char-ci>?" 2 0 0 (mkP (bs "scm_c_char_ci_gt") (Params 2));
   define_function "char-ci<=?" 2 0 0 (mkP (bs "scm_c_char_ci_le") (Params 2));
   define_function "char-ci>=?" 2 0 0 (mkP (bs "scm_c_char_ci_ge") (Params 2));
   define_function "char-alphabetic?" 1 0 0 (mkP (bs "scm_c_char_alphabetic") (Params 1));
   define_function "char-numeric?" 1 0 0 (mkP (bs "scm_c_char_numeric") (Params 1));
   define_function "char-whitespace?" 1 0 0 (mkP (bs "scm_c_char_whitespace") (Params 1));
   define_function "char-upper-case?" 1 0 0 (mkP (bs "scm_c_char_upper_case") (Params 1));
   define_function "char-lower-case?" 1 0 0 (mkP (bs "scm_c_char_lower_case") (Params 1))].
(* string.cc init_string 1107-1132 *)
Definition reg_string : list sfun :=
  [define_function "string-length" 1 0 0 (mkP (bs "scm_c_string_length") (Params 1));
   define_vararg "make-string" (mkP (bs "scm_c_make_string") ListParam);
   define_function "string-ref" 2 0 0 (mkP (bs "scm_c_string_ref") (Params 2));
   define_function "string-set!" 3 0 0 (mkP (bs "scm_c_string_set") (Params 3));
   define_function "string=?" 2 0 0 (mkP (bs "scm_c_string_eq") (Params 2));
   define_function "string<?" 2 0 0 (mkP (bs "scm_c_string_lt") (Params 2));
   define_function "string>?" 2 0 0 (mkP (bs "scm_c_string_gt") (Params 2));
   define_function "string<=?" 2 0 0 (mkP (bs "scm_c_string_le") (Params 2));
   define_function "string>=?" 2 0 0 (mkP (bs "scm_c_string_ge") (Params 2));
   define_function "string-ci=?" 2 0 0 (mkP (bs "scm_c_string_ci_eq") (Params 2));
   define_function "string-ci<?" 2 0 0 (mkP (bs "scm_c_string_ci_lt") (Params 2));
   define_function "string-ci>?" 2 0 0 (mkP (bs "scm_c_string_ci_gt") (Params 2));
   define_function "string-ci<=?" 2 0 0 (mkP (bs "scm_c_string_ci_le") (Params 2));
   define_function "string-ci>=?" 2 0 0 (mkP (bs "scm_c_string_ci_ge") (Params 2));
   define_vararg "string" (mkP (bs "scm_c_string") ListParam);
   define_function "substring" 3 0 0 (mkP (bs "scm_c_substring") (Params 3));
   define_vararg "string-append" (mkP (bs "scm_c_string_append") ListParam);
   define_function "string->list" 1 0 0 (mkP (bs "scm_c_string_to_list") (Params 1));
   define_function "list->string" 1 0 0 (mkP (bs "scm_c_list_to_string") (Params 1));
   define_vararg "display" (mkP (bs "scm_c_display") ListParam);
   define_vararg "write" (mkP (bs "scm_c_write") ListParam);
   define_vararg "newline" (mkP (bs "scm_c_newline") ListParam);
   define_vararg "string->number" (mkP (bs "scm_c_string_to_number") ListParam);
   define_vararg "number->string" (mkP (bs "scm_c_number_to_string") ListParam)].
(* port.cc init_port 1187-1227 *)
Definition reg_port : list sfun :=
  [define_function "open-input-file" 1 0 0 (mkP (bs "scm_c_open_input_file") (Params 1));
   define_function "open-output-file" 1 0 0 (mkP (bs "scm_c_open_output_file") (Params 1));
   define_function "close-input-port" 1 0 0 (mkP (bs "scm_c_close_input_port") (Params 1));
   define_function "close-output-port" 1 0 0 (mkP (bs "scm_c_close_output_port") (Params 1));
   define_function "open-input-string" 1 0 0 (mkP (bs "scm_c_open_input_string") (Params 1));
   define_function "open-output-string" 0 0 0 (mkP (bs "scm_c_open_output_string") (Params 0));
   define_function "get-output-string" 1 0 0 (mkP (bs "scm_c_get_output_string") (Params 1));
   define_vararg "read" (mkP (bs "scm_c_read") ListParam);
   define_vararg "read-char" (mkP (bs "scm_c_read_char") ListParam);
   define_vararg "peek-char" (mkP (bs "scm_c_peek_char") ListParam);
   define_function "eof-object?" 1 0 0 (mkP (bs "scm_c_is_eof_object") (Params 1));
   define_vararg "char-ready?" (mkP (bs "scm_c_char_ready") ListParam);
   define_function "input-port?" 1 0 0 (mkP (bs "scm_c_is_input_port") (Params 1));
   define_function "output-port?" 1 0 0 (mkP (bs "scm_c_is_output_port") (Params 1));
   define_vararg "write-char" (mkP (bs "scm_c_write_char") ListParam);
   define_function "current-error-port" 0 0 0 (mkP (bs "scm_current_error_port") (Params 0));
   define_function "set-current-error-port" 1 0 0 (mkP (bs "scm_set_current_error_port") (Params 1));
   define_function "current-input-port" 0 0 0 (mkP (bs "scm_current_input_port") (Params 0));
   define_function "set-current-input-port" 1 0 0 (mkP (bs "scm_set_current_input_port") (Params 1));
   define_function "current-output-port" 0 0 0 (mkP (bs "scm_current_output_port") (Params 0));
   define_function "set-current-output-port" 1 0 0 (mkP (bs "scm_set_current_output_port") (Params 1));
   define_vararg "force-output" (mkP (bs "scm_force_output") ListParam);
   define_vararg "call-with-input-file" (mkP (bs "scm_c_call_with_input_file") ListParam);
   define_vararg "call-with-output-file" (mkP (bs "scm_c_call_with_output_file") ListParam);
   define_vararg "call-with-input-string" (mkP (bs "scm_c_call_with_input_string") ListParam);
   define_vararg "call-with-output-string" (mkP (bs "scm_c_call_with_output_string") ListParam);
   define_vararg "make-soft-port" (mkP (bs "scm_c_make_soft_port") ListParam)].
(* delay.cc init_delay 111-113 *)
Definition reg_delay : list sfun :=
  [define_function "force" 1 0 0 (mkP (bs "scm_c_force") (Params 1))].
(* eval.cc init_eval 964-967 *)
Definition reg_eval : list sfun :=
  [define_function "eval" 1 0 0 (mkP (bs "scm_c_eval") (Params 1));
   define_function "defined?" 1 0 0 (mkP (bs "scm_c_defined") (Params 1))].
(* macro.cc init_macro 403-406 *)
Definition reg_macro : list sfun :=
  [define_function "macroexpand-1" 1 0 0 (mkP (bs "scm_c_macroexpand_1") (Params 1));
   define_function "macroexpand" 1 0 0 (mkP (bs "scm_c_macroexpand") (Params 1))].
(* values.cc init_values 88-90 *)
Definition reg_values : list sfun :=
  [define_vararg "values" (mkP (bs "scm_c_values") ListParam)].
(* hash_table.cc init_hash_table 502-521 *)
Definition reg_hash_table : list sfun :=
  [define_vararg "make-hash-table" (mkP (bs "scm_c_make_hash_table_wrapper") ListParam);
   define_function "hash-set!" 3 0 0 (mkP (bs "scm_c_hash_set_equal") (Params 3));
   define_function "hashq-set!" 3 0 0 (mkP (bs "scm_c_hash_set_eq") (Params 3));
   define_function "hashv-set!" 3 0 0 (mkP (bs "scm_c_hash_set_eqv") (Params 3));
   define_function "hash-ref" 2 0 0 (mkP (bs "scm_c_hash_ref_equal") (Params 2));
   define_function "hashq-ref" 2 0 0 (mkP (bs "scm_c_hash_ref_eq") (Params 2));
   define_function "hashv-ref" 2 0 0 (mkP (bs "scm_c_hash_ref_eqv") (Params 2));
   define_function "hash-get-handle" 2 0 0 (mkP (bs "scm_c_hash_get_handle_equal") (Params 2));
   define_function "hashq-get-handle" 2 0 0 (mkP (bs "scm_c_hash_get_handle_eq") (Params 2));
   define_function "hashv-get-handle" 2 0 0 (mkP (bs "scm_c_hash_get_handle_eqv") (Params 2));
   define_function "hash-create-handle!" 3 0 0 (mkP (bs "scm_c_hash_create_handle_equal") (Params 3));
   define_function "hashq-create-handle!" 3 0 0 (mkP (bs "scm_c_hash_create_handle_eq") (Params 3));
   define_function "hashv-create-handle!" 3 0 0 (mkP (bs "scm_c_hash_create_handle_eqv") (Params 3));
   define_function "hash-remove!" 2 0 0 (mkP (bs "scm_c_hash_remove_equal") (Params 2));
   define_function "hashq-remove!" 2 0 0 (mkP (bs "scm_c_hash_remove_eq") (Params 2));
   define_function "hashv-remove!" 2 0 0 (mkP (bs "scm_c_hash_remove_eqv") (Params 2));
   define_function "hash-fold" 3 0 0 (mkP (bs "scm_c_hash_fold_wrapper") (Params 3))].
(* procedure.cc init_procedure 278-280 *)
Definition reg_procedure : list sfun :=
  [define_function "procedure-name" 1 0 0 (mkP (bs "scm_c_procedure_name") (Params 1))].
(* vector.cc init_vector 203-211 *)
Definition reg_vector : list sfun :=
  [define_vararg "make-vector" (mkP (bs "scm_c_make_vector") ListParam);
   define_vararg "vector" (mkP (bs "scm_c_vector") ListParam);
   define_function "vector-length" 1 0 0 (mkP (bs "scm_c_vector_length") (Params 1));
   define_function "vector-ref" 2 0 0 (mkP (bs "scm_c_vector_ref") (Params 2));
   define_function "vector-set!" 3 0 0 (mkP (bs "scm_c_vector_set") (Params 3));
   define_function "vector->list" 1 0 0 (mkP (bs "scm_c_vector_to_list") (Params 1));
   define_function "list->vector" 1 0 0 (mkP (bs "scm_c_list_to_vector") (Params 1))].
(* module.cc init_modules 1214-1222 *)
Definition reg_modules : list sfun :=
  [define_function "current-module" 0 0 0 (mkP (bs "scm_c_current_module") (Params 1));
   define_function "set-current-module" 1 0 0 (mkP (bs "scm_c_set_current_module") (Params 1));
   define_function "resolve-module" 1 0 0 (mkP (bs "lambda in init_modules") (Params 1));
   define_vararg "module-ref" (mkP (bs "scm_c_module_ref") ListParam);
   define_function "module-bound?" 2 0 0 (mkP (bs "scm_c_module_bound_p") (Params 2));
   define_function "module?" 1 0 0 (mkP (bs "scm_c_module_p") (Params 1));
   define_vararg "module-map" (mkP (bs "scm_c_module_map") ListParam);
   define_vararg "module-use!" (mkP (bs "scm_c_module_use") ListParam);
   define_function "set-module-binder!" 2 0 0 (mkP (bs "scm_c_set_module_binder") (Params 2))].
(* load.cc init_load 76-78 *)
Definition reg_load : list sfun :=
  [define_function "primitive-load" 1 0 0 (mkP (bs "scm_primitive_load") (Params 1));
   define_function "load" 1 0 0 (mkP (bs "scm_primitive_load") (Params 1))].
(* smob.cc init_smob 411-420 *)
Definition reg_smob : list sfun :=
  [define_function "scm-make-smob-type" 2 0 0 (mkP (bs "scm_c_make_smob_type") (Params 2));
   define_function "scm-make-smob" 2 0 0 (mkP (bs "scm_c_make_smob") (Params 2));
   define_function "scm-smob-data" 1 0 0 (mkP (bs "scm_c_smob_data") (Params 1));
   define_function "scm-smob?" 1 0 0 (mkP (bs "scm_c_smob_p") (Params 1))].
(* variable.cc init_variable 94-101 *)
Definition reg_variable : list sfun :=
  [define_function "make-variable" 1 0 0 (mkP (bs "scm_make_variable") (Params 1));
   define_function "make-undefined-variable" 0 0 0 (mkP (bs "scm_make_undefined_variable") (Params 0));
   define_function "variable?" 1 0 0 (mkP (bs "scm_variable_p") (Params 1));
   define_function "variable-ref" 1 0 0 (mkP (bs "scm_variable_ref") (Params 1));
   define_function "variable-set!" 2 0 0 (mkP (bs "scm_variable_set_x") (Params 2));
   define_function "variable-bound?" 1 0 0 (mkP (bs "scm_variable_bound_p") (Params 1))].
(* read.cc init_read_options 499-499 *)
Definition reg_read_options : list sfun :=
  [define_vararg "read-options-interface" (mkP (bs "scm_c_read_options_interface") ListParam)].
(* debug.cc init_debug_options 281-281 *)
Definition reg_debug_options : list sfun :=
  [define_vararg "debug-options-interface" (mkP (bs "scm_c_debug_options_interface") ListParam)].
(* exit.cc init_exit 26-28 *)
Definition reg_exit : list sfun :=
  [define_vararg "exit" (mkP (bs "scm_c_exit") ListParam)].
(* init.cc init_scm 43-43 *)
Definition reg_init_scm : list sfun :=
  [define_function "gc" 0 0 0 (mkP (bs "scm_gc") (Params 0))].
(* init.cc init_scm 8-55: the order of the calls *)
Definition builtins : list sfun :=
  reg_predicate ++ reg_list ++ reg_symbol ++ reg_apply ++ reg_map ++ reg_number ++ reg_continuation ++ reg_throw ++ reg_eq ++ reg_alist ++ reg_char ++ reg_string ++ reg_port ++ reg_delay ++ reg_eval ++ reg_macro ++ reg_values ++ reg_hash_table ++ reg_procedure ++ reg_vector ++ reg_modules ++ reg_load ++ reg_smob ++ reg_variable ++ reg_read_options ++ reg_debug_options ++ reg_exit ++ reg_init_scm.

(* init.cc init_scm 8-55: the global frame when it is done *)
Definition initial_frame : list (list Z * sfun) := fold_left insert builtins [].
