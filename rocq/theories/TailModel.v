(** The depth of the C stack, separately from the jumps within one C function:
    eval_with_env (src/c/eval.cc) evaluates the chosen branch of an if, and a call
    whose operator has been looked up, by "goto entry" in the same C frame
    (eval.cc 276, 420-425, 508-545, 681-687).

    EvalModel.eval spends one unit of its bound both for a nested C call and for
    such a jump.  [deep] counts the nested calls of eval_with_env alone; for every
    other special form it follows EvalModel.step, so that the jumps of those forms
    count as calls. *)
From Coq Require Import String.
From Verif Require Import Base ParseModel PrintModel EnvModel EvalModel.
Local Open Scope string_scope.
Local Open Scope Z_scope.
Local Open Scope list_scope.

Section Deep.
Variable prim : list Z -> list val -> pres.
(* model only: a bound for the loops inside special forms, as in EvalModel *)
Variable N : nat.
(* eval.cc eval_if 168-181: the test is a nested call, the branch goes back to entry *)
Definition deep_if (call entry : env -> val -> EM val) (e : env) (args : list val) : EM val :=
  match args with
  | [] => abort
  | t :: r =>
      let! p := call e t in
      match r with
      | [] => ub
      | c :: a => if truthy p then entry e c else match a with x :: _ => entry e x | [] => ret VNone end
      end
  end.
(* one C frame of eval_with_env, eval.cc 257-927: [call] is a nested call of
   eval_with_env, [g] bounds the number of jumps to entry *)
Fixpoint one_frame (call : env -> val -> EM val) (g : nat) (e : env) (x : val) : EM val :=
  match g with
  | O => fuel
  | S g =>
      match x with
      | VList (VSym s :: t) d =>
          let! hv := gets (fun st => head_value st e s) in
          match hv with
          | Some (VMacro _ _ _ _) => step prim call N e x
          | _ =>
              match form_of s with
              | Some FIf => deep_if call (one_frame call g) e t
              | Some _ => step prim call N e x
              | None =>
                  let! v := (match hv with Some v => ret v | None => lookup e s end) in
                  one_frame call g e (VList (v :: t) (match t with [] => false | _ => d end))
              end
          end
      | VList (VList h hd :: t) d =>
          let! f := call e (VList h hd) in
          one_frame call g e (VList (f :: t) (match t with [] => false | _ => d end))
      | _ => step prim call N e x
      end
  end.
(* model only: the bound on the jumps within one frame *)
Variable G : nat.
(* eval_with_env, eval.cc 257-927, with room for [d] frames of it on the C stack *)
Fixpoint deep (d : nat) (e : env) (x : val) : EM val :=
  match d with
  | O => fuel
  | S d => one_frame (deep d) G e x
  end.
End Deep.
