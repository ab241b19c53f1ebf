(** What the module functions for C++ code are promised to do.  Vocabulary: ModsysSpec
    (sees, binds, current, shown, uses). *)
From Coq Require Import String.
From Verif Require Import Base ParseModel EnvModel ModsysModel ModsysSpec HostModModel.
Local Open Scope list_scope.
(* two worlds that differ in nothing but the value that module m gives x *)
Definition defines (w : world) (m : nat) (x : list Z) (v : val) (w' : world) : Prop :=
  binds w' m x = Some v /\
  (forall k y, (k, y) <> (m, x) -> binds w' k y = binds w k y) /\
  (forall k, uses w' k = uses w k) /\ (forall k y, exported w' k y <-> exported w k y) /\ (forall k p, has_interface w' k p <-> has_interface w k p) /\
  current w' = current w /\ w_reg w' = w_reg w /\ w_auto w' = w_auto w /\ w_log w' = w_log w /\ s_frames (w_st w') = s_frames (w_st w).
(* the variables that exist keep their values *)
Definition keeps_variables (h h' : host) : Prop := forall k v, variable_ref h k = Some v -> variable_ref h' k = Some v.

(* the same host, with m as the current module *)
Definition with_current (m : nat) (h : host) : host := mkHost (enter m (h_world h)) (h_vars h).
