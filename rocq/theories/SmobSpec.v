(** Histories of smob operations (C66). *)
From Coq Require Import List ZArith Bool.
From Verif Require Import Base SmobModel.
Import ListNotations.
Local Open Scope Z_scope.
Local Open Scope list_scope.

(** One completed call of the C interface. *)
Inductive event : Type :=
| Registered (name : list Z) (size : Z) (tag : Z)      (* scm_make_smob_type returned tag *)
| Installed (w : fn) (tag : Z) (id : nat)              (* a function was set *)
| Made (tag d1 d2 d3 : Z) (a : nat)                    (* an object was made at a *)
| Stored (w : field) (a : nat) (z : Z)                 (* a field was set *)
| Failed.                                              (* a call raised an error *)

(** Sequences of calls from the start of the program (latest event last).
    Calls with undefined behaviour end a history. *)
Inductive history : list event -> state -> Prop :=
| h_start : history [] init_smob
| h_register : forall h st name size tag st',
    history h st -> 0 <= size < 2 ^ 64 ->
    make_smob_type name size st = (Ok tag, st') ->
    history (h ++ [Registered name size tag]) st'
| h_register_fail : forall h st name size st',
    history h st -> make_smob_type name size st = (Err, st') -> history (h ++ [Failed]) st'
| h_install : forall h st w tag id st',
    history h st -> set_smob_fn w tag id st = (Ok tt, st') ->
    history (h ++ [Installed w tag id]) st'
| h_install_fail : forall h st w tag id st',
    history h st -> set_smob_fn w tag id st = (Err, st') -> history (h ++ [Failed]) st'
| h_make : forall h st tag d1 d2 d3 a st',
    history h st -> make_smob3 tag d1 d2 d3 st = (Ok a, st') ->
    history (h ++ [Made tag d1 d2 d3 a]) st'
| h_make_fail : forall h st tag d1 d2 d3 st',
    history h st -> make_smob3 tag d1 d2 d3 st = (Err, st') -> history (h ++ [Failed]) st'
| h_store : forall h st w a z st',
    history h st -> set_smob_field w (VSmob a) z st = (Ok tt, st') ->
    history (h ++ [Stored w a z]) st'
| h_store_fail : forall h st w v z st',
    history h st -> set_smob_field w v z st = (Err, st') -> history (h ++ [Failed]) st'.

(** how many types a history registered *)
Fixpoint registrations (h : list event) : Z :=
  match h with
  | [] => 0
  | Registered _ _ _ :: r => 1 + registrations r
  | _ :: r => registrations r
  end.

(** the value last stored in a field, or the initial one *)
Fixpoint last_stored (h : list event) (w : field) (a : nat) (cur : option Z) : option Z :=
  match h with
  | [] => cur
  | Made _ d1 d2 d3 b :: r =>
      last_stored r w a (if Nat.eqb a b then
        Some (match w with Data => d1 | Data2 => d2 | Data3 => d3 | Flags => 0 end) else cur)
  | Stored w' b z :: r =>
      last_stored r w a (if Nat.eqb a b then
        match w, w' with
        | Data, Data | Data2, Data2 | Data3, Data3 | Flags, Flags => Some z
        | _, _ => cur
        end else cur)
  | _ :: r => last_stored r w a cur
  end.

(** the slot of a function *)
Definition same_slot (a b : fn) : {a = b} + {a <> b}.
Proof. decide equality. Defined.
(** the function last installed for a type, or the default *)
Fixpoint last_installed (h : list event) (w : fn) (tag : Z) (cur : option nat) : option nat :=
  match h with
  | [] => cur
  | Registered _ size t :: r =>
      last_installed r w tag (if tag =? t then
        Some (match w with
              | FMark | FPrint | FEqualp => 1%nat
              | FFree => if size =? 0 then 0%nat else 1%nat
              | _ => 0%nat
              end) else cur)
  | Installed w' t id :: r =>
      last_installed r w tag (if tag =? t then if same_slot w w' then Some id else cur else cur)
  | _ :: r => last_installed r w tag cur
  end.

(** tags on which the subtraction in get_smob_num does not overflow *)
Definition sane_tag (tag : Z) : Prop := i64_min + 16777216 <= tag <= i64_max.
