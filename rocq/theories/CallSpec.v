(** What the theorems about calls from C++ code, macroexpand and defined? say.
    Vocabulary: EvalSpec. *)
From Coq Require Import String.
From Verif Require Import Base ParseModel PrintModel EnvModel EvalModel EvalSpec CallModel.
Local Open Scope string_scope.
Local Open Scope list_scope.
Section S.
Variable prim : list Z -> list val -> pres.
(* scm_call_0 ... scm_call_3 *)
Definition calls (f : val) (args : list val) : Beh val := fun st o => exists n, host_call prim n f args st = o /\ o <> OFuel.
(* scm_apply_0 *)
Definition applies (f l : val) : Beh val := fun st o => exists n, host_apply prim n f l st = o /\ o <> OFuel.
(* (macroexpand-1 'x), (macroexpand 'x) *)
Definition expands_1 (x : val) : Beh val := fun st o => exists n, macroexpand_1 prim n x st = o /\ o <> OFuel.
Definition expands (x : val) : Beh val := fun st o => exists n, macroexpand prim n x st = o /\ o <> OFuel.
End S.
(* a value that evaluates to itself: no symbol, no list with elements *)
Definition self_evaluating (v : val) : Prop := match v with VSym _ | VList (_ :: _) _ => False | _ => True end.
(* x is a call of a macro that the top level knows *)
Definition macro_call (st : state) (x : val) : Prop :=
  exists s t d v, x = VList (VSym s :: t) d /\ env_search st g_env s = Some v /\ is_macro v = true.
(* y is reached from x by expanding the outermost macro call again and again *)
Inductive expansions (prim : list Z -> list val -> pres) : val -> state -> val -> state -> Prop :=
| ex_done x st : expansions prim x st x st
| ex_more x st y st1 z st2 : macro_call st x -> expands_1 prim x st (Ret y st1) -> expansions prim y st1 z st2 -> expansions prim x st z st2.
