(** Model of calls from C++ code (apply.cc scm_call_0 ... scm_call_3, scm_apply_0),
    of macroexpand-1, macroexpand (macro.cc 352-401) and of defined? (eval.cc
    937-962), over EvalModel. *)
From Coq Require Import String.
From Verif Require Import Base ParseModel PrintModel EnvModel EvalModel.
Local Open Scope string_scope.
Local Open Scope list_scope.

Section Call.
Variable prim : list Z -> list val -> pres.
(* apply.cc scm_call_0 16-37, scm_call_1 40-63, scm_call_2 66-91, scm_call_3 94-121: the
   five functions differ in the number of arguments only.  A procedure is given
   to apply_procedure together with its own environment *)
Definition host_call (n : nat) (f : val) (args : list val) : EM val :=
  match f with
  | VProc ps d b pe => apply_proc (eval prim n) pe ps d b pe args
  | VFunc nm ar => call_func prim (eval prim n) n nm ar args
  | _ => err
  end.
(* apply.cc scm_apply_0 124-160: the list's elements *)
Definition host_apply (n : nat) (f l : val) : EM val :=
  match l with
  | VList ns _ => host_call n f ns
  | VNil => host_call n f []
  | _ => err
  end.
(* macro.cc scm_c_macroexpand_1 352-385 *)
Definition macroexpand_1 (n : nat) (x : val) : EM val :=
  match x with
  | VList (VSym s :: t) _ =>
      let! v := gets (fun st => env_search st g_env s) in
      match v with
      | Some (VMacro ps dt b me) => expand_call (eval prim n) ps dt b me t
      | _ => ret x
      end
  | _ => ret x
  end.
(* macro.cc scm_c_macroexpand 390-401: the pointers differ if and only if a macro was
   expanded: no transformer can return the list that is its own call *)
Definition is_call (st : state) (x : val) : bool :=
  match x with
  | VList (VSym s :: _) _ => match env_search st g_env s with Some v => is_macro v | None => false end
  | _ => false
  end.
(* macro.cc scm_c_macroexpand 390-401: the loop *)
Fixpoint macroexpand_loop (n k : nat) (x : val) : EM val :=
  match k with
  | O => fuel
  | S k => let! c := gets (fun st => is_call st x) in
           if c then let! y := macroexpand_1 n x in macroexpand_loop n k y else ret x
  end.
(* macro.cc scm_c_macroexpand 390-401 *)
Definition macroexpand (n : nat) (x : val) : EM val := macroexpand_loop n n x.
End Call.
(* eval.cc scm_c_defined 937-962 *)
Definition defined (x : val) : EM val :=
  match x with
  | VSym s =>
      let! b := gets (fun st => match search_entry st g_env s true with
                               | Some _ => true
                               | None => match mod_search st (s_cur st) s with Some _ => true | None => false end
                               end) in
      ret (VBool b)
  | _ => err
  end.
