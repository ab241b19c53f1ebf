(** Model of the embedding interface: src/c/pscm_api.cc (pscm_eval, pscm_parse,
    pscm_eval_string, pscm_eval_file, pscm_get_last_error_key/message) and
    scm_api_catch_handler, src/c/error.cc 247-295.

    Simplifications.
    - The interpreter is EvalModel; its error messages are not modelled (the
      message of an eval_error is the empty string there).
    - Programs with inexact or fractional literals are outside EvalModel: [AFuel].
    - A file is its contents; a file that cannot be opened is [None]. *)
From Coq Require Import String.
From Verif Require Import Base ParseModel PrintModel EnvModel EvalModel.
Local Open Scope list_scope.

(** The interpreter and the two globals of pscm_api.cc 15-16. *)
Record api := mkApi { a_st : state; a_key : option (list Z); a_msg : option (list Z) }.
(** How a call from the host ends: it returns a pointer ([None]: NULL); it leaves
    by longjmp to an outer catch or call/cc; the process exits with status 1; ... *)
(* pscm_api.cc 29-87: the ways out of the three entry points *)
Inductive aout :=
| AOk (r : option val) (s : api)
| AThrown (id : nat) (key args : val) (s : api)
| AJump (k : nat) (v : val) (s : api)
| AExit (s : api)
| AAbort | AUB | AFuel.
(* model only: a step of the interpreter on the state inside the host's state *)
Definition on_st (f : state -> state) (s : api) : api := mkApi (f (a_st s)) (a_key s) (a_msg s).
(* model only: a step of the interpreter seen from pscm_api.cc 29-87 *)
Definition lift (m : EM val) (s : api) : aout :=
  match m (a_st s) with
  | Ret v st => AOk (Some v) (mkApi st (a_key s) (a_msg s))
  | Thrown id k a st => AThrown id k a (mkApi st (a_key s) (a_msg s))
  | Jump k v st => AJump k v (mkApi st (a_key s) (a_msg s))
  | Exit st => AExit (mkApi st (a_key s) (a_msg s))
  | OAbort => AAbort
  | OUB => AUB
  | OFuel => AFuel
  end.
(* a C string: up to the first NUL *)
(* error.cc 255-295: %s of a C string *)
Fixpoint cstr (s : list Z) : list Z :=
  match s with [] => [] | c :: r => if c =? 0 then [] else c :: cstr r end.
(* scm_api_catch_handler, error.cc 255-295 *)
Definition err_key (key : val) : option (list Z) := match key with VSym x => Some (cstr x) | _ => None end.
(* error.cc scm_api_catch_handler 255-295: the message *)
Definition err_msg (args : val) : option (list Z) :=
  match args with
  | VList (VStr s :: _) _ => Some (cstr s)
  | VList (_ :: VStr s :: _) _ => Some (cstr s)
  | _ => None
  end.
(* scm_c_catch (throw.cc 58-129) with tag #t and that handler, which cannot throw *)
Definition guarded (body : api -> aout) (s : api) : aout :=
  let st := a_st s in
  if 100 <=? Z.of_nat (length (d_catch (s_dyn st))) then lift err s
  else
    let id := d_next (s_dyn st) in
    match body (on_st (push_catch (VBool true)) s) with
    | AOk r s' => AOk r (on_st (fun st' => dead id (pop_catch st')) s')
    | AThrown j k a s' =>
        if Nat.eqb j id
        then AOk None (mkApi (dead id (note_catch (d_wind (s_dyn st)) (pop_catch (a_st s')))) (err_key k) (err_msg a))
        else AThrown j k a (on_st (fun st' => count_leak (dead id st')) s')
    | AJump j v s' => AJump j v (on_st (fun st' => count_leak (dead id st')) s')
    | o => o
    end.

Section Api.
Variable prim : list Z -> list val -> pres.
(* pscm_eval, pscm_api.cc 29-45 *)
Definition pscm_eval (n : nat) (x : val) : api -> aout := guarded (lift (eval prim n g_env x)).
(* the datum the reader built, as a program *)
(* pscm_api.cc pscm_eval_string 48-65: the parsed expression *)
Fixpoint program (d : rdatum) : option val :=
  let fix all (l : list rdatum) : option (list val) :=
    match l with
    | [] => Some []
    | x :: r => match program x, all r with Some v, Some vs => Some (v :: vs) | _, _ => None end
    end in
  match d with
  | RInt z => Some (VInt z)
  | RFloat _ | RRatio _ _ => None
  | RChar c => Some (VChar c)
  | RBool b => Some (VBool b)
  | RSym x => Some (VSym x)
  | RStr s => Some (VStr s)
  | RNil => Some VNil
  | RVec l => match all l with Some vs => Some (VVec vs) | None => None end
  | RList h r t =>
      match program h, all r with
      | Some v, Some vs =>
          match t with
          | None => Some (VList (v :: vs) false)
          | Some t => match program t with Some w => Some (VList (v :: vs ++ [w]) true) | None => None end
          end
      | _, _ => None
      end
  end.
(* parse, parse.cc 1326-1388: a syntax error is an eval_error *)
Definition read_one (text : list Z) (s : api) : aout :=
  match parse text with
  | Ok d => match program d with Some v => AOk (Some v) s | None => AFuel end
  | Err => lift err s
  | Abort => AAbort
  | UB => AUB
  | Fuel => AFuel
  end.
(* pscm_parse, pscm_api.cc 90-102 *)
Definition pscm_parse (text : list Z) : api -> aout := guarded (read_one text).
(* pscm_eval_string, pscm_api.cc 48-65 *)
Definition pscm_eval_string (n : nat) (text : list Z) : api -> aout :=
  guarded (fun s => match pscm_parse text s with
                    | AOk (Some x) s' => pscm_eval n x s'
                    | o => o
                    end).
(* the loop of pscm_eval_file, pscm_api.cc 77-83 *)
Fixpoint eval_all (n : nat) (xs : list val) (acc : option val) (s : api) : aout :=
  match xs with
  | [] => AOk acc s
  | x :: r => match pscm_eval n x s with AOk v s' => eval_all n r v s' | o => o end
  end.
(* pscm_api.cc pscm_eval_file 68-87: the parsed expressions *)
Fixpoint programs (l : list rdatum) : option (list val) :=
  match l with
  | [] => Some []
  | x :: r => match program x, programs r with Some v, Some vs => Some (v :: vs) | _, _ => None end
  end.
(* pscm_eval_file, pscm_api.cc 68-87; parse_file (parse.cc 1412-1464) is called
   without a catch around it, and returns NULL when there is no expression *)
Definition pscm_eval_file (n : nat) (contents : option (list Z)) (s : api) : aout :=
  match contents with
  | None => AOk None s
  | Some text =>
      match parse_all text with
      | Ok l => match programs l with Some xs => eval_all n xs None s | None => AFuel end
      | Err => lift err s
      | Abort => AAbort
      | UB => AUB
      | Fuel => AFuel
      end
  end.
End Api.
