(** Model of the registration of garbage collection roots: gc.cc gc_register_root, and the
    places that call it.  A [slot] is a C variable that holds an object pointer for the
    whole run of the process.  The catch stack and the C locals are seen through the
    conservative scan of the C stack and are not slots. *)
From Verif Require Import Base GcModel.
From Coq Require Import Lia.
Local Open Scope list_scope.

(* the constants and the symbols made on first use: symbol.cc 19-22, 44-51 *)
Inductive constant := KNone | KNil | KFalse | KTrue
  | KLet | KQuote | KQuasiquote | KUnquote | KUnquoteSplicing | KLetrec | KSet | KLambda.
(* init.cc 46-54, module.cc 1189-1192, port.cc 1231-1236; read.cc 25-34 and debug.cc 24-45: the
   options whose value is an object *)
Inductive slot :=
| RootModule | WindChain | EvalContext | ErrorKey | CurrentModule | ModuleRegistry
| EofObject | ErrorPort | InputPort | OutputPort
| Const (c : constant)
| KeywordsOption | ShowFileNameOption.

(* gc.h 102 *)
Definition MAX_ROOTS : Z := 8192.
(* g_root_registry, g_num_roots; the constants that exist *)
(* gc.cc 43-44; symbol.cc 9, 36: the static variables [value] *)
Record reg := mkReg { registry : list slot; made : list constant }.
(* gc.cc gc_register_root 299-308 *)
Definition register (s : slot) (r : reg) : reg :=
  if MAX_ROOTS <=? Z.of_nat (length (registry r)) then r
  else mkReg (registry r ++ [s]) (made r).
(* init.cc init_scm 46-54 *)
Definition register_statics (r : reg) : reg :=
  fold_left (fun r s => register s r)
    [RootModule; WindChain; EvalContext; ErrorKey; CurrentModule; ModuleRegistry; EofObject; ErrorPort; InputPort; OutputPort] r.
(* Coq only: constant is decidable *)
Definition const_eqb (a b : constant) : bool :=
  match a, b with
  | KNone, KNone | KNil, KNil | KFalse, KFalse | KTrue, KTrue | KLet, KLet | KQuote, KQuote
  | KQuasiquote, KQuasiquote | KUnquote, KUnquote | KUnquoteSplicing, KUnquoteSplicing
  | KLetrec, KLetrec | KSet, KSet | KLambda, KLambda => true
  | _, _ => false
  end.
(* symbol.cc 7-17, 34-42: the accessor of a constant makes it and registers it on its first call *)
Definition use_constant (c : constant) (r : reg) : reg :=
  if existsb (const_eqb c) (made r) then r
  else register (Const c) (mkReg (registry r) (c :: made r)).
(* the registered part of the roots when a collection runs: the current contents of the
   registered variables; gc.cc scan_conservative_roots 334-338 *)
Definition registered_words (val : slot -> Z) (r : reg) : list (option Z) := map (fun s => Some (val s)) (registry r).
