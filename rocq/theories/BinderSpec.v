(** Vocabulary for C207, C208: binders of modules, and module-map. *)
From Coq Require Import List ZArith Bool.
From Verif Require Import Base ParseModel EnvModel ModsysModel ModsysSpec HeapModel BinderModel.
Import ListNotations.
Local Open Scope list_scope.

(** The binder that set-module-binder! installed last in the module. *)
Definition has_binder (s : bst) (m : nat) (b : nat -> list Z -> body) : Prop :=
  exists l1 l2, b_binders s = l1 ++ (m, b) :: l2 /\ ~ In m (map fst l1).
(** A fresh interpreter: no binder is running and none was called. *)
Definition idle (s : bst) : Prop := b_guard s = false.
(** A call ended in this state, normally or with an error. *)
Definition ended {A} (r : bout A) (s : bst) : Prop := (exists a, r = BDone a s) \/ r = BThrew s.
(** Calls one after the other, all of them without an error. *)
Inductive quiet (fs : files) : bst -> list bop -> bst -> Prop :=
| quiet_start : forall s, quiet fs s [] s
| quiet_look : forall s l s1 fuel m x r s2, quiet fs s l s1 -> b_search fs fuel m x s1 = BDone r s2 -> quiet fs s (l ++ [OLook m x]) s2
| quiet_other : forall s l s1 fuel o s2, quiet fs s l s1 -> (forall m x, o <> OLook m x) -> b_step fs fuel o s1 = Some s2 -> quiet fs s (l ++ [o]) s2.
(** Calls one after the other; an error ends its call only. *)
Inductive calls (fs : files) : bst -> list bop -> bst -> Prop :=
| calls_start : forall s, calls fs s [] s
| calls_step : forall s l s1 fuel o s2, calls fs s l s1 -> b_step fs fuel o s1 = Some s2 -> calls fs s (l ++ [o]) s2.
(** The procedure applied to these keys and values in this order, with these results. *)
Inductive in_order (call : addr -> addr -> M addr) : list (addr * addr) -> heap -> list addr -> heap -> Prop :=
| io_nil : forall h, in_order call [] h [] h
| io_cons : forall k v r h x h1 xs h2, call k v h = Ok (x, h1) -> in_order call r h1 xs h2 -> in_order call ((k, v) :: r) h (x :: xs) h2.
