(** Model of the module functions for C++ code: module.cc scm_c_define, scm_c_module_lookup,
    scm_c_module_define, scm_module_lookup, scm_module_define, scm_c_call_with_current_module,
    scm_c_define_module, scm_c_use_module, over ModsysModel; the variables they return are
    objects as in variable.cc.

    Simplifications.
    - Module names are given as lists, not as text that is parsed.
    - A function of the C++ program is a function on worlds that may raise an error. *)
From Coq Require Import String.
From Verif Require Import Base ParseModel EnvModel ModsysModel.
Local Open Scope string_scope.
Local Open Scope list_scope.

(* variable.cc scm_make_variable 6-10: the variables made so far, with their values *)
Record host := mkHost { h_world : world; h_vars : list val }.
(* model only: how a function for C++ code ends *)
Inductive ending (A : Type) : Type := Returned (a : A) (h : host) | Threw (h : host) | NoFuel.
Arguments Returned {A}. Arguments Threw {A}. Arguments NoFuel {A}.
(* variable.cc scm_make_variable 6-10 *)
Definition make_variable (v : val) (w : world) (vars : list val) : ending nat := Returned (length vars) (mkHost w (vars ++ [v])).
(* variable.cc scm_variable_ref 25-34: a bound variable *)
Definition variable_ref (h : host) (k : nat) : option val := nth_error (h_vars h) k.
(* model only *)
Fixpoint set_at (k : nat) (v : val) (l : list val) : list val :=
  match k, l with O, _ :: r => v :: r | S k, x :: r => x :: set_at k v r | _, [] => [] end.
(* variable.cc scm_variable_set_x 37-44 *)
Definition variable_set (k : nat) (v : val) (h : host) : host := mkHost (h_world h) (set_at k v (h_vars h)).
(* module.cc scm_c_module_lookup 586-599, scm_module_lookup 612-629 *)
Definition module_lookup (fs : files) (fuel : nat) (m : nat) (x : list Z) (h : host) : ending nat :=
  match search fs fuel m x (h_world h) with
  | Done (Some v) w => make_variable v w (h_vars h)
  | Done None w => Threw (mkHost w (h_vars h))
  | Raised w => Threw (mkHost w (h_vars h))
  | OutOfFuel => NoFuel
  end.
(* module.cc scm_c_module_define 601-610, scm_module_define 631-644 *)
Definition module_define (m : nat) (x : list Z) (v : val) (h : host) : ending nat :=
  make_variable v (with_st (h_world h) (ob_set (w_st (h_world h)) m x v)) (h_vars h).
(* module.cc scm_c_define 522-530 *)
Definition c_define (x : list Z) (v : val) (h : host) : ending nat := module_define (s_cur (w_st (h_world h))) x v h.
(* module.cc scm_c_call_with_current_module 1106-1118 *)
Definition call_with_current_module {A} (m : nat) (f : host -> ending A) (h : host) : ending A :=
  let old := s_cur (w_st (h_world h)) in
  match f (mkHost (enter m (h_world h)) (h_vars h)) with
  | Returned a h1 => Returned a (mkHost (enter old (h_world h1)) (h_vars h1))
  | e => e
  end.
(* module.cc scm_c_define_module 1121-1144 *)
Definition define_module (fs : files) (fuel : nat) (n : list atom) (init : option (host -> ending unit)) (h : host) : ending nat :=
  match resolve fs fuel n (h_world h) with
  | Done m w =>
      match init with
      | None => Returned m (mkHost w (h_vars h))
      | Some f =>
          match f (mkHost (enter m w) (h_vars h)) with
          | Returned _ h1 => Returned m (mkHost (enter (s_cur (w_st w)) (h_world h1)) (h_vars h1))
          | Threw h1 => Threw h1
          | NoFuel => NoFuel
          end
      end
  | Raised w => Threw (mkHost w (h_vars h))
  | OutOfFuel => NoFuel
  end.
(* module.cc scm_c_use_module 1160-1186: the current module is read after the module was resolved *)
Definition use_module (fs : files) (fuel : nat) (n : list atom) (h : host) : ending unit :=
  match resolve fs fuel n (h_world h) with
  | Done u w => Returned tt (mkHost (add_use (s_cur (w_st w)) u w) (h_vars h))
  | Raised w => Threw (mkHost w (h_vars h))
  | OutOfFuel => NoFuel
  end.
