(** Vocabulary for the embedding interface. *)
From Coq Require Import String.
From Verif Require Import Base ParseModel PrintModel EnvModel EvalModel ApiModel.
Local Open Scope list_scope.

Section Session.
Variable prim : list Z -> list val -> pres.
Variable init : state.
(** The states a host can bring the interpreter into: any number of completed
    calls of the three evaluation functions, from the state after pscm_init. *)
Inductive session : api -> Prop :=
| ses_init : session (mkApi init None None)
| ses_eval : forall n x r s s', session s -> pscm_eval prim n x s = AOk r s' -> session s'
| ses_string : forall n t r s s', session s -> pscm_eval_string prim n t s = AOk r s' -> session s'
| ses_file : forall n f r s s', session s -> pscm_eval_file prim n f s = AOk r s' -> session s'.
End Session.
(** A freshly initialised interpreter: no catch and no call/cc call on the stack. *)
Definition fresh (st : state) : Prop :=
  d_catch (s_dyn st) = [] /\ d_live (s_dyn st) = [] /\ d_conts (s_dyn st) = [].
(** The call came back to the host or died of something else than a throw: it did
    not exit, and did not leave by a longjmp. *)
Definition host_survives (o : aout) : Prop :=
  match o with AExit _ | AThrown _ _ _ _ | AJump _ _ _ => False | _ => True end.

(** The variables, modules, promises and output: all of the program's state. *)
Definition same_program (st st' : state) : Prop :=
  s_frames st' = s_frames st /\ s_mods st' = s_mods st /\ s_cur st' = s_cur st /\ s_proms st' = s_proms st /\ d_out (s_dyn st') = d_out (s_dyn st).
(** What a host reads back as a C string: everything up to the first NUL. *)
Definition c_prefix (x y : list Z) : Prop := ~ In 0%Z y /\ (y = x \/ exists r, x = y ++ 0%Z :: r).
(** What the host can learn about an error: the name of the key, and the message,
    which is the first argument of the throw if that is a string, else the second. *)
Definition error_key (key : val) (t : option (list Z)) : Prop :=
  match t with Some y => exists x, key = VSym x /\ c_prefix x y | None => forall x, key <> VSym x end.
Definition string_at (i : nat) (args : list val) (y : list Z) : Prop := exists x, nth_error args i = Some (VStr x) /\ c_prefix x y.
Definition error_message (args : list val) (t : option (list Z)) : Prop :=
  match t with
  | Some y => string_at 0 args y \/ ((forall x, nth_error args 0 <> Some (VStr x)) /\ string_at 1 args y)
  | None => (forall x, nth_error args 0 <> Some (VStr x)) /\ (forall x, nth_error args 1 <> Some (VStr x))
  end.
(** A program file, run by the host: the expressions one after the other, each by
    its own call, a failed one (NULL) not stopping the next ones. *)
Inductive one_by_one (call : val -> api -> option val -> api -> Prop) : list val -> api -> option val -> api -> Prop :=
| obo_nil : forall s, one_by_one call [] s None s
| obo_last : forall x s r s', call x s r s' -> one_by_one call [x] s r s'
| obo_more : forall x y xs s r s' r' s'', call x s r s' -> one_by_one call (y :: xs) s' r' s'' -> one_by_one call (x :: y :: xs) s r' s''.
