(** Model of the evaluator: src/c/eval.cc (eval_with_env), procedure.cc,
    function.cc, let.cc, cond.cc, case.cc, do.cc, map.cc, for_each.cc, apply.cc,
    values.cc, delay.cc, macro.cc, quasiquote.cc, throw.cc, dynwind.cc,
    continuation.cc, define.cc.

    Simplifications.
    - Programs and lists are immutable trees ([val]): in-place list mutation is
      modelled in ListModel.  One statement of the evaluator mutates a program:
      eval.cc 676 replaces the operands of a call whose operator is literally a
      function object; this only matters when that very cell is evaluated again.
    - Numbers are exact integers; other numbers are in NumModel.
    - Error messages are not modelled: the argument of an error throw is a
      one-element list holding the empty string.
    - The recursion of the C++ code is bounded by fuel; [OFuel] is also the
      outcome of features that are not modelled (define-module, use-modules,
      export, re-export, define-public, entering again a call/cc call that has
      already returned).
    - Stack traces, source locations and debug output are not modelled. *)
From Coq Require Import String.
From Verif Require Import Base ParseModel PrintModel EnvModel.
Local Open Scope string_scope.
Local Open Scope Z_scope.
Local Open Scope list_scope.

(** How an evaluation ends: normally; by a longjmp to the catch frame [id]
    (scm_throw); by a longjmp to the call/cc call [k] (scm_dynthrow); with exit(1)
    for an uncaught throw; with a failed assert; in undefined behaviour. *)
(* throw.cc scm_throw 134-191, continuation.cc scm_dynthrow 100-113, exit.cc
   6-24: the ways a C function can end *)
Inductive out (A : Type) : Type :=
| Ret (a : A) (st : state)
| Thrown (id : nat) (key args : val) (st : state)
| Jump (k : nat) (v : val) (st : state)
| Exit (st : state)
| OAbort
| OUB
| OFuel.
Arguments Ret {A}. Arguments Thrown {A}. Arguments Jump {A}. Arguments Exit {A}.
Arguments OAbort {A}. Arguments OUB {A}. Arguments OFuel {A}.
(* model only: a C++ function on the interpreter's state *)
Definition EM (A : Type) : Type := state -> out A.
(* model only: `return a` *)
Definition ret {A} (a : A) : EM A := fun st => Ret a st.
(* model only: a failed assert, as in eval.cc 258-259, 295 *)
Definition abort {A} : EM A := fun _ => OAbort.
(* model only: undefined behaviour *)
Definition ub {A} : EM A := fun _ => OUB.
(* model only: the depth bound of this definition was reached *)
Definition fuel {A} : EM A := fun _ => OFuel.
(* model only: C++ sequencing; a longjmp of throw.cc 134-191 or
   continuation.cc 81-98 skips the rest *)
Definition ebind {A B} (m : EM A) (f : A -> EM B) : EM B :=
  fun st => match m st with
  | Ret a st' => f a st'
  | Thrown id k a st' => Thrown id k a st'
  | Jump k v st' => Jump k v st'
  | Exit st' => Exit st'
  | OAbort => OAbort
  | OUB => OUB
  | OFuel => OFuel
  end.
Notation "'let!' x ':=' m 'in' k" := (ebind m (fun x => k)) (at level 200, x name, m at level 100, k at level 200).
(* model only: reading the globals *)
Definition gets {A} (f : state -> A) : EM A := fun st => Ret (f st) st.
(* model only: writing the globals *)
Definition modify (f : state -> state) : EM unit := fun st => Ret tt (f st).

(* model only: a for loop *)
Fixpoint mapM {A B} (f : A -> EM B) (l : list A) : EM (list B) :=
  match l with
  | [] => ret []
  | x :: r => let! y := f x in let! ys := mapM f r in ret (y :: ys)
  end.

(* symbol.cc create_sym 53-64 *)
Definition sym (s : string) : val := VSym (bs s).
(* list.cc scm_list2 9-12 of the symbol quote and a value, as built by
   apply.cc 169-402, map.cc 25-135, for_each.cc 34-148 *)
Definition quoted (v : val) : val := VList [sym "quote"; v] false.
(* a list of values as a Scheme list *)
(* list.cc scm_list_impl 42-61 *)
Definition mklist (l : list val) : val := match l with [] => VNil | _ => VList l false end.
(* pscm.h is_sym 14-16 *)
Definition is_sym (v : val) : option (list Z) := match v with VSym x => Some x | _ => None end.
(* pscm.h is_sym_val 1070-1072 *)
Definition is_sym_val (v : val) (s : string) : bool := match v with VSym x => beq x (bs s) | _ => false end.
(* cast<SCM_List> (pscm.h 404-411): nodes, the null pointer, or a type error *)
Inductive lcast := CNodes (ns : list val) (d : bool) | CNull | CBad.
(* pscm.h 391-411 *)
Definition cast_list (v : val) : lcast :=
  match v with VList ns d => CNodes ns d | VNil => CNull | _ => CBad end.

(** ** dynamic state *)
(* model only: assignment to the dynamic state *)
Definition set_dyn (st : state) (d : dyn) : state :=
  mkState (s_frames st) (s_mods st) (s_cur st) (s_proms st) d.
(* model only: assignment to the dynamic state *)
Definition on_dyn (f : dyn -> dyn) (st : state) : state := set_dyn st (f (s_dyn st)).
(* a catch frame or a call/cc call has left the C stack *)
(* throw.cc 59-131, continuation.cc 30-69 *)
Definition dead (k : nat) : state -> state := on_dyn (fun d =>
  mkDyn (d_out d) (d_catch d) (remove Nat.eq_dec k (d_live d)) (d_next d) (d_wind d) (d_guards d) (d_conts d) (d_tails d) (d_caught d) (d_leaked d)).
(* g_wind_chain = w, dynwind.cc 179-219 *)
Definition set_wind (w : list nat) : state -> state := on_dyn (fun d =>
  mkDyn (d_out d) (d_catch d) (d_live d) (d_next d) w (d_guards d) (d_conts d) (d_tails d) (d_caught d) (d_leaked d)).
(* throw.cc 59-131: the catch stack *)
Definition set_catch (c : list (nat * val)) : state -> state := on_dyn (fun d =>
  mkDyn (d_out d) c (d_live d) (d_next d) (d_wind d) (d_guards d) (d_conts d) (d_tails d) (d_caught d) (d_leaked d)).
(* printf, print.cc 39-302 *)
Definition emit (s : list Z) : state -> state := on_dyn (fun d =>
  mkDyn (d_out d ++ s) (d_catch d) (d_live d) (d_next d) (d_wind d) (d_guards d) (d_conts d) (d_tails d) (d_caught d) (d_leaked d)).
(* a new catch frame, on top of the catch stack (throw.cc 64-82) *)
Definition push_catch (tag : val) : state -> state := on_dyn (fun d =>
  mkDyn (d_out d) ((d_next d, tag) :: d_catch d) (d_next d :: d_live d) (S (d_next d)) (d_wind d) (d_guards d) (d_conts d) (d_tails d) (d_caught d) (d_leaked d)).
(* throw.cc scm_c_catch 59-131: g_catch_stack_top-- *)
Definition pop_catch (st : state) : state := set_catch (tl (d_catch (s_dyn st))) st.
(* a new call/cc call, which copies the wind chain *)
(* continuation.cc scm_make_continuation 30-69 *)
Definition push_cont : state -> state := on_dyn (fun d =>
  mkDyn (d_out d) (d_catch d) (d_next d :: d_live d) (S (d_next d)) (d_wind d) (d_guards d) ((d_next d, d_wind d) :: d_conts d) (d_tails d) (d_caught d) (d_leaked d)).
(* a new wind entry (in . out) in front of the wind chain (dynwind.cc 195-199) *)
Definition push_wind (i o : val) : state -> state := on_dyn (fun d =>
  mkDyn (d_out d) (d_catch d) (d_live d) (S (d_next d)) (d_next d :: d_wind d) ((d_next d, (i, o)) :: d_guards d) (d_conts d)
    ((d_next d, d_wind d) :: d_tails d) (d_caught d) (d_leaked d)).
(* ghosts *)
(* model only: ghost of throw.cc 59-131 *)
Definition count_caught : state -> state := on_dyn (fun d =>
  mkDyn (d_out d) (d_catch d) (d_live d) (d_next d) (d_wind d) (d_guards d) (d_conts d) (d_tails d) (S (d_caught d)) (d_leaked d)).
(* model only: ghost of throw.cc 59-131 *)
Definition count_leak : state -> state := on_dyn (fun d =>
  mkDyn (d_out d) (d_catch d) (d_live d) (d_next d) (d_wind d) (d_guards d) (d_conts d) (d_tails d) (d_caught d) (S (d_leaked d))).

(** ** throw.cc *)
(* throw.cc tags_match 41-56; a tag is a symbol or #t, a key a symbol *)
Definition tags_match (tag key : val) : bool :=
  match tag, key with
  | VBool b, _ => b
  | VSym a, VSym b => beq a b
  | _, _ => false
  end.
(* throw.cc scm_throw 134-191: the result of its search *)
Inductive found := Handler (id : nat) | NoHandler | Dangling.
(* the search of throw.cc scm_throw 168-178, from the top; an entry whose frame has
   returned is a dangling pointer, and reading it is undefined *)
Fixpoint find_handler (live : list nat) (l : list (nat * val)) (key : val) : found :=
  match l with
  | [] => NoHandler
  | (id, tag) :: r =>
      if existsb (Nat.eqb id) live then
        (if tags_match tag key then Handler id else find_handler live r key)
      else Dangling
  end.
(* throw.cc scm_throw 134-191 (the wind chain holds no lazy-catch entries here) *)
Definition throw {A} (key args : val) : EM A := fun st =>
  match find_handler (d_live (s_dyn st)) (d_catch (s_dyn st)) key with
  | Handler id => Thrown id key args st
  | NoHandler => Exit st
  | Dangling => OUB
  end.
(* eval_error / type_error, error.cc 166-199 *)
Definition err {A} : EM A := throw (sym "error") (VList [VStr []] false).
(* throw_wrong_number_of_args, throw.cc 533-558 *)
Definition wrong_args {A} (f : val) : EM A :=
  throw (sym "wrong-number-of-args")
    (VList [VBool false; VStr (bs "Wrong number of arguments to ~A"); f; VBool false] false).

(* model only: how a function.cc 29-108 call of a primitive ends *)
Inductive pres := PVal (v : val) (o : list Z) | PErr.

Section Eval.
(** The primitive procedures: a value and some output, or an error. *)
Variable prim : list Z -> list val -> pres.

Section Step.
(** [ev]: the recursive call of eval_with_env. *)
Variable ev : env -> val -> EM val.

(* eval_with_list, eval.cc 10-18 *)
Fixpoint eval_body (e : env) (es : list val) : EM val :=
  match es with
  | [] => abort
  | [x] => ev e x
  | x :: r => let! _ := ev e x in eval_body e r
  end.
(* eval_list_with_env, eval.cc 20-31 *)
Fixpoint eval_args (e : env) (es : list val) : EM (list val) :=
  match es with
  | [] => ret []
  | x :: r => let! v := ev e x in let! vs := eval_args e r in ret (v :: vs)
  end.

(* lookup_symbol, eval.cc 159-165 *)
Definition lookup (e : env) (x : list Z) : EM val :=
  let! r := gets (fun st => env_search st e x) in
  match r with Some v => ret v | None => err end.
(* environment.cc scm_env_insert 30-45 without parent search *)
Definition insert (e : env) (x : list Z) (v : val) : EM unit := modify (fun st => env_insert st e x v false).

(** ** procedure.cc *)
Definition alloc_frame (parent : env) : EM env :=
  fun st => let (e, st') := make_env st parent in Ret e st'.
(* procedure.cc apply_procedure 108-140 *)
Definition has_rest (params : list val) (dotted : bool) : bool :=
  dotted && match last params VNone with VSym _ => true | _ => false end.
(* the loop of procedure.cc apply_procedure 162-245; true: parameters and arguments match *)
Fixpoint bind_loop (ce fe : env) (rest : bool) (params args : list val) : EM bool :=
  match params, args with
  | p :: ps, a :: r =>
      match is_sym p with
      | None => err
      | Some x =>
          let! v := ev ce a in
          let! _ := insert fe x v in
          match (if rest then ps else []) with
          | [VSym y] =>                       (* p is the parameter before the rest one *)
              let! vs := eval_args ce r in
              let! _ := insert fe y (mklist vs) in
              ret true
          | _ => bind_loop ce fe rest ps r
          end
      end
  | [], [] => ret true
  | _, _ => ret rest
  end.
(* procedure.cc apply_procedure 99-264: the arguments are expressions, evaluated in [ce] *)
Definition apply_proc (ce : env) (params : list val) (dotted : bool) (body : list val) (pe : env)
    (args : list val) : EM val :=
  let! fe := alloc_frame pe in
  let rest := has_rest params dotted in
  match (if rest then params else []) with
  | [VSym y] =>                               (* only a rest parameter *)
      let! vs := eval_args ce args in
      let! _ := insert fe y (mklist vs) in
      eval_body fe body
  | _ =>
      let! ok := bind_loop ce fe rest params args in
      if ok then eval_body fe body else err
  end.
(* procedure.cc apply_procedure_with_values 6-96: the arguments are values; [dv]: the last one
   stands after a dot, which the rest list keeps *)
Fixpoint bind_values (fe : env) (rest : bool) (params args : list val) (dv : bool) : EM unit :=
  match params with
  | [] => match args with [] => ret tt | _ => err end
  | p :: ps =>
      match (if rest then params else []) with
      | [VSym y] => insert fe y (match args with [] => VNil | _ => VList args dv end)
      | _ =>
          match is_sym p, args with
          | Some x, a :: r => let! _ := insert fe x a in bind_values fe rest ps r dv
          | _, _ => err
          end
      end
  end.
(* procedure.cc apply_procedure_with_values 6-96 *)
Definition apply_vals (params : list val) (dotted : bool) (body : list val) (pe : env) (args : list val) (dv : bool) : EM val :=
  let! fe := alloc_frame pe in
  let! _ := bind_values fe (has_rest params dotted) params args dv in
  eval_body fe body.
(* throw.cc scm_body_thunk 425-435 *)
Definition call_thunk (f : val) (ce : env) : EM val :=
  match f with VProc ps d b pe => apply_proc ce ps d b pe [] | _ => err end.

(** ** Promises: delay.cc *)
Definition set_promise (a : nat) (v : val) (st : state) : state :=
  mkState (s_frames st) (s_mods st) (s_cur st)
    (match nth_error (s_proms st) a with
     | Some p => upd (s_proms st) a (mkProm (pr_body p) (pr_env p) (Some v))
     | None => s_proms st
     end) (s_dyn st).
(* delay.cc eval_delay 6-35 *)
Definition do_delay (e : env) (x : val) : EM val := fun st =>
  Ret (VPromise (length (s_proms st)))
      (mkState (s_frames st) (s_mods st) (s_cur st) (s_proms st ++ [mkProm x e None]) (s_dyn st)).
(* delay.cc scm_c_force 55-108 *)
Definition do_force (v : val) : EM val :=
  match v with
  | VPromise a =>
      let! p := gets (fun st => nth_error (s_proms st) a) in
      match p with
      | None => fuel
      | Some p =>
          match pr_val p with
          | Some w => ret w
          | None =>
              let! r := apply_proc (pr_env p) [] false [pr_body p] (pr_env p) [] in
              let! q := gets (fun st => match nth_error (s_proms st) a with Some q => pr_val q | None => None end) in
              match q with
              | Some w => ret w
              | None => let! _ := modify (set_promise a r) in ret r
              end
          end
      end
  | _ => err
  end.

(** ** catch: throw.cc *)
Definition handler_args (key args : val) : list val :=
  match args with VList ns _ => key :: ns | a => [key; a] end.
(* ghost: was the chain of a throw's origin not the chain [w] of the catch? *)
(* model only: ghost of throw.cc 59-131 *)
Definition note_catch (w : list nat) (st : state) : state :=
  if list_eq_dec Nat.eq_dec (d_wind (s_dyn st)) w then st else count_caught st.
(* throw.cc scm_c_catch 106-114, after setjmp has returned again: pop one entry, run the
   handler (scm_handle_by_proc 438-465).  The frame is still on the stack, so a
   throw that finds its entry comes back here *)
Fixpoint handle (n : nat) (id : nat) (w : list nat) (h : val -> val -> EM val) (key args : val) (st : state) : out val :=
  match n with
  | O => OFuel
  | S n =>
      match h key args (note_catch w (pop_catch st)) with
      | Ret v st' => Ret v (dead id st')
      | Thrown j k a st' => if Nat.eqb j id then handle n id w h k a st' else Thrown j k a (dead id st')
      | Jump j v st' => Jump j v (dead id st')
      | o => o
      end
  end.
(* throw.cc scm_c_catch 59-131 *)
Definition catching (n : nat) (tag : val) (body : EM val) (h : val -> val -> EM val) : EM val := fun st =>
  if 100 <=? Z.of_nat (length (d_catch (s_dyn st))) then err st
  else
    let id := d_next (s_dyn st) in
    match body (push_catch tag st) with
    | Ret v st' => Ret v (dead id (pop_catch st'))
    | Thrown j k a st' => if Nat.eqb j id then handle n id (d_wind (s_dyn st)) h k a st' else Thrown j k a (count_leak (dead id st'))
    | Jump j v st' => Jump j v (count_leak (dead id st'))
    | o => o
    end.
(* throw.cc scm_body_thunk 425-435, scm_handle_by_proc 438-465 *)
Definition do_catch (n : nat) (tag thunk h : val) : EM val :=
  catching n tag
    (match thunk with VProc ps d b pe => apply_proc pe ps d b pe [] | _ => err end)
    (fun key args => match h with VProc ps d b pe => apply_vals ps d b pe (handler_args key args) false | _ => err end).

(** ** Continuations: dynwind.cc, continuation.cc *)
(* dynwind.cc find_common_prefix 29-60 *)
Fixpoint common_prefix (a b : list nat) : list nat :=
  match a, b with
  | x :: a', y :: b' => if Nat.eqb x y then x :: common_prefix a' b' else []
  | _, _ => []
  end.
(* the entries collected by dynwind.cc unwind_wind_chain 72-103, in the order they are run *)
Fixpoint until_common (common cur : list nat) : list nat :=
  match cur with
  | [] => []
  | x :: r => if existsb (Nat.eqb x) common then [] else x :: until_common common r
  end.
(* dynwind.cc unwind_wind_chain 64-124 *)
Definition to_unwind (common cur : list nat) : list nat := rev (until_common common cur).
(* pscm_types.h 51-55: the pair (in . out) of a wind entry, dynwind.cc
   190-199 *)
Fixpoint guards_of (id : nat) (l : list (nat * (val * val))) : option (val * val) :=
  match l with [] => None | (k, g) :: r => if Nat.eqb k id then Some g else guards_of id r end.
(* dynwind.cc 105-119, 150-170: only procedures are called *)
Definition call_guard (f : val) : EM unit :=
  match f with VProc ps d b pe => let! _ := apply_proc g_env ps d b pe [] in ret tt | _ => ret tt end.
(* dynwind.cc unwind_wind_chain 105-119 *)
Fixpoint run_outs (ids : list nat) : EM unit :=
  match ids with
  | [] => ret tt
  | i :: r =>
      let! g := gets (fun st => guards_of i (d_guards (s_dyn st))) in
      let! _ := (match g with Some (_, o) => call_guard o | None => ret tt end) in
      run_outs r
  end.
(* dynwind.cc rewind_wind_chain 127-176 *)
Fixpoint run_ins (ids : list nat) : EM unit :=
  match ids with
  | [] => ret tt
  | i :: r =>
      let! g := gets (fun st => guards_of i (d_guards (s_dyn st))) in
      let! _ := (match g with Some (n, _) => call_guard n | None => ret tt end) in
      let! _ := modify (fun st => set_wind (i :: d_wind (s_dyn st)) st) in
      run_ins r
  end.
(* unwind_wind_chain then rewind_wind_chain: continuation.cc scm_dynthrow 100-113 *)
Definition rewind_to (target : list nat) : EM unit :=
  let! cur := gets (fun st => d_wind (s_dyn st)) in
  let common := common_prefix cur target in
  let! _ := run_outs (to_unwind common cur) in
  let! _ := modify (set_wind common) in
  run_ins (rev (skipn (length common) target)).
(* continuation.cc scm_dynthrow 100-113: cont->wind_chain *)
Fixpoint chain_of (k : nat) (l : list (nat * list nat)) : option (list nat) :=
  match l with [] => None | (j, w) :: r => if Nat.eqb j k then Some w else chain_of k r end.
(* scm_dynthrow; jumping to a call/cc call that has returned copies the C stack
   back and is not modelled *)
(* continuation.cc scm_dynthrow 100-113 *)
Definition dynthrow {A} (k : nat) (v : val) : EM A :=
  let! w := gets (fun st => chain_of k (d_conts (s_dyn st))) in
  match w with
  | None => fuel
  | Some w =>
      let! _ := rewind_to w in
      fun st => if existsb (Nat.eqb k) (d_live (s_dyn st)) then Jump k v st else OFuel
  end.
(* continuation.cc scm_make_continuation 30-69 around the call of the receiver *)
Definition with_cont (f : val -> EM val) : EM val := fun st =>
  let k := d_next (s_dyn st) in
  match f (VCont k (s_cur st)) (push_cont st) with
  | Ret v st' => Ret v (dead k st')
  | Jump j v st' => if Nat.eqb j k then Ret v (set_current (dead k st') (s_cur st)) else Jump j v (dead k st')
  | Thrown j key a st' => Thrown j key a (dead k st')
  | o => o
  end.
(* eval_dynamic_wind, dynwind.cc 179-219 *)
Definition winding (i o : val) (before thunk after : EM val) : EM val :=
  let! _ := before in
  let! old := gets (fun st => d_wind (s_dyn st)) in
  let! _ := modify (push_wind i o) in
  let! r := thunk in
  let! _ := modify (set_wind old) in
  let! _ := after in
  ret r.
(* dynwind.cc eval_dynamic_wind 179-219 *)
Definition do_wind (e : env) (i t o : val) : EM val :=
  match i, t, o with
  | VProc _ _ _ _, VProc _ _ _ _, VProc _ _ _ _ => winding i o (call_thunk i e) (call_thunk t e) (call_thunk o e)
  | _, _, _ => err
  end.

(** ** function.cc *)
Definition is_callcc (n : list Z) : bool := beq n (bs "call/cc") || beq n (bs "call-with-current-continuation").
(* function.cc eval_with_func 29-108: the arguments are values.  The primitives that call
   back into the evaluator are those listed by name *)
Definition call_func (n : nat) (nm : list Z) (arity : Z) (args : list val) : EM val :=
  let run : EM val :=
    if beq nm (bs "force") then match args with v :: _ => do_force v | [] => err end
    else if beq nm (bs "eval") then match args with v :: _ => ev g_env v | [] => err end
    else if beq nm (bs "values") then ret (mklist args)
    else if beq nm (bs "catch") then
      match args with
      | tag :: thunk :: h :: _ =>
          match tag, thunk, h with
          | (VSym _ | VBool true), VProc _ _ _ _, VProc _ _ _ _ => do_catch n tag thunk h
          | _, _, _ => err
          end
      | _ => err
      end
    else if beq nm (bs "throw") then
      match args with
      | VSym k :: r => throw (VSym k) (mklist r)
      | _ => err
      end
    else if beq nm (bs "apply") || beq nm (bs "map") || beq nm (bs "map-in-order") || is_callcc nm then err
    else match prim nm args with PVal v o => let! _ := modify (emit o) in ret v | PErr => err end in
  if (0 <=? arity) && (arity <=? 3) then
    if Z.of_nat (length args) =? arity then run else wrong_args (VFunc nm arity)
  else if (arity =? -1) || (arity =? -2) then run
  else err.

(** ** Calls on quoted arguments (map.cc 95-112) *)
Definition call_quoted (n : nat) (e : env) (f : val) (args : list val) : EM val :=
  match f with
  | VProc ps d b pe => apply_proc e ps d b pe (map quoted args)
  | VFunc nm ar => let! vs := eval_args e (map quoted args) in call_func n nm ar vs
  | _ => err
  end.
(* corresponding elements of the lists, as many as the shortest has *)
(* map.cc eval_map 83-121 *)
Fixpoint heads (ls : list (list val)) : option (list val * list (list val)) :=
  match ls with
  | [] => Some ([], [])
  | [] :: _ => None
  | (x :: r) :: ls' => match heads ls' with Some (hs, ts) => Some (x :: hs, r :: ts) | None => None end
  end.
(* map.cc eval_map 83-121 *)
Fixpoint rows (l : list val) (ls : list (list val)) : list (list val) :=
  match l with
  | [] => []
  | x :: r => match heads ls with Some (hs, ts) => (x :: hs) :: rows r ts | None => [] end
  end.
(* map.cc eval_map 58-82, for_each.cc 64-80 *)
Definition elements (v : val) : option (list val) :=
  match v with VList ns _ => Some ns | VNil => Some [] | _ => None end.
(* map.cc eval_map 58-82, for_each.cc 64-80 *)
Fixpoint eval_lists (e : env) (es : list val) : EM (list (list val)) :=
  match es with
  | [] => ret []
  | x :: r =>
      let! v := ev e x in
      match elements v with
      | None => err
      | Some l => let! ls := eval_lists e r in ret (l :: ls)
      end
  end.
(* map.cc eval_map 83-121 *)
Fixpoint map_rows (n : nat) (e : env) (f : val) (rs : list (list val)) : EM (list val) :=
  match rs with
  | [] => ret []
  | r :: rs' => let! v := call_quoted n e f r in let! vs := map_rows n e f rs' in ret (v :: vs)
  end.
(* map.cc eval_map 25-57: is_proc or is_func *)
Definition is_callable (f : val) : bool := match f with VProc _ _ _ _ | VFunc _ _ => true | _ => false end.
(* eval_map, map.cc 25-135; the operands *)
Definition do_map (n : nat) (e : env) (args : list val) : EM val :=
  match args with
  | pf :: ((_ :: _) as lists) =>
      let! f := ev e pf in
      if is_callable f then
        let! ls := eval_lists e lists in
        let! vs := map_rows n e f (match ls with l :: r => rows l r | [] => [] end) in
        ret (mklist vs)
      else err
  | _ => err
  end.

(** ** for_each.cc *)
Definition exhausted (l : list val) : bool := match l with [] => true | VNil :: _ => true | _ => false end.
(* the loop of for_each.cc 82-146; the first list drives it *)
Fixpoint each_rows (e : env) (f : val) (l : list val) (ls : list (list val)) : EM val :=
  if forallb exhausted (l :: ls) then ret VNone
  else if existsb exhausted (l :: ls) then err
  else match l with
  | [] => ret VNone
  | x :: r =>
      let! _ := ev e (VList (f :: quoted x :: map (fun k => quoted (hd VNone k)) ls) false) in
      each_rows e f r (map (@tl val) ls)
  end.
(* for_each.cc eval_for_each 34-148 *)
Fixpoint eval_n_lists (e : env) (n : nat) (es : list val) : EM (list (list val)) :=
  match n with
  | O => ret []
  | S n =>
      match es with
      | [] => err
      | x :: r =>
          let! v := ev e x in
          match elements v with
          | None => err
          | Some l => let! ls := eval_n_lists e n r in ret (l :: ls)
          end
      end
  end.
(* for_each.cc eval_for_each 34-148 *)
Definition do_for_each (e : env) (args : list val) : EM val :=
  match args with
  | [] => abort
  | pf :: lists =>
      let! f := ev e pf in
      let go (count : nat) : EM val :=
        if 10 <? Z.of_nat count then err
        else
          let! ls := eval_n_lists e count lists in
          match ls with
          | [] => ret VNone
          | l :: r => each_rows e f l r
          end in
      match f with
      | VProc ps _ _ _ => go (length ps)
      | VFunc _ ar => go (if ar <? 0 then length lists else Z.to_nat ar)
      | _ => err
      end
  end.

(** ** apply.cc 179-403 *)
Fixpoint do_apply (m n : nat) (e : env) (args : list val) : EM val :=
  match m with
  | O => fuel
  | S m =>
      match args with
      | [] => err
      | pf :: r =>
          let! f := ev e pf in
          match f with
          | VProc _ _ _ _ | VFunc _ _ | VCont _ _ =>
              match r with
              | [] => err
              | _ =>
                  let! lst := ev e (last r VNone) in
                  match elements lst with
                  | None => err
                  | Some els =>
                      match f, r with
                      | VCont k _, [_] => dynthrow k lst
                      | _, _ =>
                      let! vs := eval_args e (removelast r) in
                      match f with
                      | VCont k _ => dynthrow k (mklist (vs ++ els))
                      | VProc ps d b pe => apply_proc e ps d b pe (vs ++ map quoted els)
                      | VFunc nm ar =>
                          let exprs := vs ++ map quoted els in
                          if beq nm (bs "apply") then do_apply m n e exprs
                          else if beq nm (bs "map") then do_map n e exprs
                          else if is_callcc nm then
                            match exprs with
                            | [] => err
                            | pa :: _ =>
                                let! g := ev e pa in
                                if is_callable g then
                                  with_cont (fun k =>
                                    match g with
                                    | VProc ps d b pe => apply_proc e ps d b pe [k]
                                    | VFunc nm2 ar2 => let! vs2 := eval_args e [k] in call_func n nm2 ar2 vs2
                                    | _ => err
                                    end)
                                else err
                            end
                          else let! vs2 := eval_args e exprs in call_func n nm ar vs2
                      | _ => err
                      end
                      end
                  end
              end
          | _ => err
          end
      end
  end.
(* eval.cc 625-661: call/cc reached as a function object; the operand is taken
   unevaluated *)
Definition do_callcc_func (n : nat) (e : env) (args : list val) : EM val :=
  match args with
  | [] => err
  | g :: _ =>
      if is_callable g then
        with_cont (fun k =>
          match g with
          | VProc ps d b pe => apply_proc e ps d b pe [k]
          | VFunc nm2 ar2 => let! vs2 := eval_args e [k] in call_func n nm2 ar2 vs2
          | _ => err
          end)
      else err
  end.

(** ** values.cc 27-86 *)
Definition do_call_with_values (n : nat) (e : env) (args : list val) : EM val :=
  match args with
  | p :: c :: _ =>
      let! producer := ev e p in
      if is_callable producer then
        let! vr := (match producer with
                    | VProc ps d b pe => apply_proc e ps d b pe []
                    | VFunc nm ar => call_func n nm ar []
                    | _ => err
                    end) in
        let vs := match vr with VList ns _ => ns | VNil => [] | v => [v] end in
        let dv := match vr with VList _ d => d | _ => false end in
        let! consumer := ev e c in
        match consumer with
        | VProc ps d b pe => apply_vals ps d b pe vs dv
        | VFunc nm ar => call_func n nm ar vs
        | _ => err
        end
      else err
  | _ => err
  end.

(** ** let.cc: rewriting; [None]: failed assert, [Some None]: error *)
(* the variables and inits of a binding list, 196-211 *)
Fixpoint split_bindings (bs : list val) : option (list val * list val) :=
  match bs with
  | [] => Some ([], [])
  | VList (x :: i :: _) _ :: r =>
      match split_bindings r with Some (xs, is) => Some (x :: xs, i :: is) | None => None end
  | _ => None
  end.
(* let.cc expand_let 4-244: the names __temp_N *)
Fixpoint temps (k : Z) (is : list val) : list val :=
  match is with [] => [] | _ :: r => VSym (bs "__temp_" ++ dec k) :: temps (k + 1) r end.
(* let.cc expand_let 4-237; the operands *)
Definition expand_let (args : list val) : option (option val) :=
  match args with
  | b :: ((_ :: _) as body) =>
      match b with
      | VNil => Some (Some (VList [VList (sym "lambda" :: VNil :: body) false] false))
      | VSym f =>
          match body with
          | argl :: b1 :: _ =>
              match argl with
              | VNil =>
                  Some (Some (VList [sym "letrec"; VList [VList [VSym f; VList [sym "lambda"; VNil; b1] false] false] false;
                                     VList [VSym f] false] false))
              | VList ns _ =>
                  match split_bindings ns with
                  | None => Some None
                  | Some (xs, is) =>
                      let ts := temps 0 is in
                      Some (Some (VList [sym "let"; VList (map (fun p => VList [fst p; snd p] false) (combine ts is)) false;
                        VList [sym "letrec"; VList [VList [VSym f; VList [sym "lambda"; VList xs false; b1] false] false] false;
                               VList (VSym f :: ts) false] false] false))
                  end
              | _ => Some None
              end
          | _ => None
          end
      | VList ns _ =>
          match split_bindings ns with
          | Some (xs, is) => Some (Some (VList (VList (sym "lambda" :: VList xs false :: body) false :: is) false))
          | None => None
          end
      | _ => None
      end
  | _ => None
  end.
(* cdr, pscm.h 601-624 *)
Definition cdr_val (ns : list val) (d : bool) : val :=
  match ns with
  | [] => VNil
  | [_] => VNil
  | [_; x] => if d then x else VList [x] false
  | _ :: r => VList r d
  end.
(* let.cc expand_letstar 246-330 *)
Definition expand_letstar (args : list val) : option (option val) :=
  match args with
  | b :: ((_ :: _) as body) =>
      match b with
      | VNil => Some (Some (VList [VList (sym "lambda" :: VNil :: body) false] false))
      | VList (b1 :: r) d =>
          match cdr_val (b1 :: r) d with
          | VNil => Some (Some (VList (sym "let" :: args) false))
          | rest => Some (Some (VList [sym "let"; VList [b1] false; VList (sym "let*" :: rest :: body) false] false))
          end
      | _ => Some None
      end
  | _ => None
  end.
(* let.cc expand_letrec 355-438 *)
Definition expand_letrec (args : list val) : option (option val) :=
  match args with
  | b :: ((_ :: _) as body) =>
      match b with
      | VNil => Some (Some (VList [VList (sym "lambda" :: VNil :: body) false] false))
      | VList ns _ =>
          match split_bindings ns with
          | Some (xs, is) =>
              Some (Some (VList (sym "let" :: VList (map (fun x => VList [x; VBool false] false) xs) false ::
                map (fun p => VList [sym "set!"; fst p; snd p] false) (combine xs is) ++ body) false))
          | None => None
          end
      | _ => None
      end
  | _ => None
  end.
(* eval.cc 385-396: `goto entry' with the expansion *)
Definition run_expansion (e : env) (x : option (option val)) : EM val :=
  match x with None => abort | Some None => err | Some (Some v) => ev e v end.

(** ** cond.cc 11-69 *)
Fixpoint eval_cond (e : env) (clauses : list val) : EM val :=
  match clauses with
  | [] => ret VNone
  | c :: r =>
      match cast_list c with
      | CBad => err
      | CNull => ub
      | CNodes [] _ => ub
      | CNodes (t :: body) _ =>
          if is_sym_val t "else" then eval_body e body
          else
            let! p := ev e t in
            if truthy p then
              match body with
              | [] => ret (VBool true)
              | b1 :: more =>
                  let! arrow := gets (fun st => is_sym_val b1 "=>" && match env_exist st e (bs "=>") with None => true | Some _ => false end) in
                  if arrow then
                    match more with
                    | [] => abort
                    | pf :: _ =>
                        let! f := ev e pf in
                        match f with
                        | VSym x =>
                            let! b := gets (fun st => env_exist st e x) in
                            match b with
                            | Some g => ev e (VList [g; quoted p] false)
                            | None => ret f
                            end
                        | _ => ev e (VList [f; quoted p] false)
                        end
                    end
                  else eval_body e body
              end
            else eval_cond e r
      end
  end.

(** ** case.cc; _eq of eq.cc 95-203 on values.  Procedures, macros,
    continuations, promises and modules are compared by address; a datum written
    in a program is none of these: [false] *)
Fixpoint val_eq (a b : val) {struct a} : bool :=
  let fix all (l1 l2 : list val) {struct l1} : bool :=
    match l1, l2 with
    | [], [] => true
    | x :: r1, y :: r2 => val_eq x y && all r1 r2
    | _, _ => false
    end in
  match a, b with
  | VNone, VNone | VNil, VNil => true
  | VBool x, VBool y => Bool.eqb x y
  | VInt x, VInt y => x =? y
  | VChar x, VChar y => x =? y
  | VStr x, VStr y => beq x y
  | VSym x, VSym y => beq x y
  | VList l1 _, VList l2 _ => all l1 l2
  | VVec l1, VVec l2 => all l1 l2
  | _, _ => false
  end.
(* case.cc eval_case 24-68 *)
Fixpoint eval_case_clauses (e : env) (key : val) (clauses : list val) : EM val :=
  match clauses with
  | [] => ret (VBool false)
  | c :: r =>
      match cast_list c with
      | CBad => err
      | CNull => ub
      | CNodes [] _ => ub
      | CNodes (ds :: body) _ =>
          if is_sym_val ds "else" then eval_body e body
          else
            match cast_list ds with
            | CBad => err
            | CNull => eval_case_clauses e key r
            | CNodes ns _ => if existsb (val_eq key) ns then eval_body e body else eval_case_clauses e key r
            end
      end
  end.

(** ** do.cc *)
Definition insert_up (e : env) (x : list Z) (v : val) : EM unit := modify (fun st => env_insert st e x v true).
(* do.cc eval_do 115-172: the initialisation loop; collects the variables
   with a step *)
Fixpoint do_inits (e de : env) (bs : list val) : EM (list (list Z * val)) :=
  match bs with
  | [] => ret []
  | VList (VSym x :: i :: more) _ :: r =>
      let! v := ev e i in
      let! _ := insert_up de x v in
      let! ss := do_inits e de r in
      ret (match more with s :: _ => (x, s) :: ss | [] => ss end)
  | _ => err
  end.
(* do.cc update_do_variables 7-86 *)
Fixpoint insert_all (de : env) (xs : list (list Z * val)) (vs : list val) : EM unit :=
  match xs, vs with
  | (x, _) :: xs', v :: vs' => let! _ := insert_up de x v in insert_all de xs' vs'
  | _, _ => ret tt
  end.
(* do.cc update_do_variables 7-86 *)
Definition update_do (de : env) (steps : list (list Z * val)) : EM unit :=
  let! vs := eval_args de (map snd steps) in insert_all de steps vs.
(* do.cc eval_do 221-238 *)
Fixpoint eval_last (e : env) (es : list val) (acc : val) : EM val :=
  match es with [] => ret acc | x :: r => let! v := ev e x in eval_last e r v end.
(* the main loop 190-224: is_false (pscm.h 83-88) is a type error on anything but
   a boolean *)
Fixpoint do_loop (m : nat) (de : env) (test : val) (results : val) (body : list val) (steps : list (list Z * val)) : EM val :=
  match m with
  | O => fuel
  | S m =>
      let! t := ev de test in
      match t with
      | VBool false =>
          let! _ := eval_args de body in
          let! _ := update_do de steps in
          do_loop m de test results body steps
      | VBool true =>
          match cast_list results with
          | CNull => ret VNone
          | CBad => err
          | CNodes es _ => eval_last de es VNone
          end
      | _ => err
      end
  end.
(* do.cc eval_do 89-239 *)
Definition do_do (n : nat) (e : env) (args : list val) : EM val :=
  match args with
  | vars :: tc :: body =>
      match cast_list vars with
      | CBad => err
      | c =>
          let bs := match c with CNodes ns _ => ns | _ => [] end in
          let! de := alloc_frame e in
          let! steps := do_inits e de bs in
          match cast_list tc with
          | CNodes (t :: r) d => do_loop n de t (cdr_val (t :: r) d) body steps
          | _ => err
          end
      end
  | _ => abort
  end.

(** ** quasiquote.cc *)
Definition form_is (p : val) (s : string) : bool :=
  match p with VList (h :: _) _ => is_sym_val h s | _ => false end.
(* quasiquote.cc get_form_arg 63-72 *)
Definition form_arg (p : val) : option val := match p with VList (_ :: x :: _) _ => Some x | _ => None end.
(* quasiquote.cc get_list_rest 75-84 *)
Definition list_rest (ns : list val) (d : bool) : val :=
  match ns with [] | [_] => VNil | _ :: r => VList r d end.
(* scm_cons, list.cc 68-90 *)
Definition vcons (a b : val) : val :=
  match b with VList ns d => VList (a :: ns) d | VNil => VList [a] false | x => VList [a; x] true end.
(* quasiquote.cc append_two_lists 88-191 *)
Definition append2 (a b : val) : val :=
  match a, b with
  | VNil, _ => b
  | _, VNil => a
  | VList n1 _, VList n2 d => VList (n1 ++ n2) d
  | VList n1 _, x => VList (n1 ++ [x]) true
  | _, _ => a
  end.
(* quasiquote.cc append_two_lists 88-191 *)
Definition tail_dotted (r : list val) (d : bool) : option val := match r with [x] => if d then Some x else None | _ => None end.
(* scm_c_list_to_vector *)
(* vector.cc scm_c_list_to_vector 160-201 *)
Definition to_vector (v : val) : EM val :=
  match v with VNil => ret (VVec []) | VList ns _ => ret (VVec ns) | _ => err end.
(* quasiquote.cc quasi 195-368 *)
Fixpoint quasi (m : nat) (e : env) (p : val) (depth : Z) : EM val :=
  match m with
  | O => fuel
  | S m =>
      if form_is p "unquote" then
        match form_arg p with
        | None => ret VNone
        | Some a =>
            if depth =? 1 then ev e a
            else let! x := quasi m e a (depth - 1) in ret (VList [sym "unquote"; x] false)
        end
      else
        match p with
        | VList (h :: r) d =>
            if form_is h "unquote-splicing" then
              match form_arg h with
              | None => err
              | Some a =>
                  if depth =? 1 then
                    let! l := ev e a in
                    match elements l with
                    | None => err
                    | Some _ =>
                        match tail_dotted r d with
                        | Some x => let! c := quasi m e x depth in ret (append2 l c)
                        | None => let! c := quasi m e (list_rest (h :: r) d) depth in ret (append2 l c)
                        end
                    end
                  else
                    let! a' := quasi m e h (depth - 1) in
                    match tail_dotted r d with
                    | Some x => let! c := quasi m e x depth in ret (VList [a'; c] false)
                    | None => let! c := quasi m e (list_rest (h :: r) d) depth in ret (vcons a' c)
                    end
              end
            else if is_sym_val h "quasiquote" then
              match form_arg p with
              | None => err
              | Some a => let! x := quasi m e a (depth + 1) in ret (VList [sym "quasiquote"; x] false)
              end
            else
              let! a' := quasi m e h depth in
              match tail_dotted r d with
              | Some x => let! c := quasi m e x depth in ret (vcons a' c)
              | None => let! c := quasi m e (list_rest (h :: r) d) depth in ret (vcons a' c)
              end
        | VVec l =>
            let! x := quasi m e (mklist l) depth in to_vector x
        | _ => ret p
        end
  end.

(** ** macro.cc *)
(* the loop of macro.cc expand_macro_call 62-126; true: match *)
Fixpoint bind_macro (fe : env) (rest : bool) (params args : list val) : EM bool :=
  match params, args with
  | p :: ps, a :: r =>
      match (if rest then ps else []) with
      | [VSym y] =>
          match is_sym p with
          | None => abort
          | Some x => let! _ := insert fe x a in let! _ := insert fe y (mklist r) in ret true
          end
      | _ =>
          match is_sym p with
          | None => err
          | Some x => let! _ := insert fe x a in bind_macro fe rest ps r
          end
      end
  | [], [] => ret true
  | _, _ => ret rest
  end.
(* macro.cc expand_macro_call 5-164 *)
Definition expand_call (params : list val) (dotted : bool) (body : list val) (me : env) (args : list val) : EM val :=
  let! fe := alloc_frame me in
  let rest := has_rest params dotted in
  match (if rest then params else []) with
  | [VSym y] => let! _ := insert fe y (mklist args) in eval_body fe body
  | _ =>
      let! ok := bind_macro fe rest params args in
      if ok then eval_body fe body else err
  end.
(* macro.cc expand_macros 167-244 *)
Fixpoint expand_all (m : nat) (e : env) (x : val) : EM val :=
  match m with
  | O => fuel
  | S m =>
      match x with
      | VList (h :: t) d =>
          let! mac := (match h with VSym s => gets (fun st => env_exist st e s) | _ => ret None end) in
          match mac with
          | Some (VMacro ps dt b me) => let! y := expand_call ps dt b me t in expand_all m e y
          | _ =>
              let! ys := mapM (expand_all m e) (h :: t) in
              ret (VList ys d)
          end
      | _ => ret x
      end
  end.
(* eval.cc 330-353: expand, then evaluate a pair, or return anything else as is *)
Definition after_expand (e : env) (x : val) : EM val :=
  match x with
  | VList [VSym _] _ | VList [VProc _ _ _ _] _ | VList [VFunc _ _] _ | VList [VCont _ _] _ | VList [VList _ _] _ => ev e x
  | VList [h] _ => ret h
  | VList _ _ => ev e x
  | _ => ret x
  end.
(* eval.cc 333-355 *)
Definition run_macro (n : nat) (e : env) (ps : list val) (d : bool) (b : list val) (me : env) (args : list val) : EM val :=
  let! x := expand_call ps d b me args in
  let! y := expand_all n e x in
  after_expand e y.
(* where define-macro stores the macro, macro.cc 271-290 and 325-345 *)
Definition store_macro (st : state) (e : env) (x : list Z) (v : val) : state :=
  if Nat.eqb (s_cur st) root then env_insert st e x v true else ob_set st (s_cur st) x v.
(* macro.cc eval_define_macro 247-347 *)
Definition do_define_macro (e : env) (args : list val) : EM val :=
  match args with
  | [] => err
  | VSym x :: r =>
      match r with
      | [] => err
      | t :: _ =>
          let! f := ev e t in
          match f with
          | VProc ps d b _ => let! _ := modify (fun st => store_macro st e x (VMacro ps d b e)) in ret VNone
          | _ => err
          end
      end
  | VList (VSym x :: params) d :: body =>
      let dotted := match params with [VSym _] => true | [] => false | _ => d end in
      let body' := match body with [] => [VNil] | _ => body end in
      let! _ := modify (fun st => store_macro st e x (VMacro params dotted body' e)) in ret VNone
  | _ => err
  end.

(** ** Other special forms *)
(* eval_lambda, eval.cc 124-154, with make_proc, pscm.h 172-188 *)
Definition do_lambda (e : env) (spec : val) (body : list val) : EM val :=
  let b := match body with [] => [VNil] | _ => body end in
  match spec with
  | VSym x => ret (VProc [VSym x] true b e)
  | VList ns d => ret (VProc ns d b e)
  | VNil => ret (VProc [] false b e)
  | _ => err
  end.
(* define.cc 64-100: the curried forms *)
Fixpoint curry (key : val) (vals : list val) {struct key} : val * list val :=
  match key with
  | VList (k :: params) d =>
      curry k [VList (sym "lambda" :: match params with [] => VNil | _ => VList params d end :: vals) false]
  | _ => (key, vals)
  end.
(* eval_define, define.cc 4-173 *)
Definition do_define (e : env) (args : list val) : EM val :=
  match args with
  | [] => ub
  | VSym x :: r =>
      match r with
      | [] => err
      | i :: _ => let! v := ev e i in let! _ := modify (fun st => do_define_var st e x v) in ret VNone
      end
  | VNil :: _ => ub
  | key :: vals =>
      match curry key vals with
      | (VSym x, VList (_ :: spec :: body) _ :: _) =>
          let! v := do_lambda e spec body in
          let! _ := modify (fun st => do_define_proc st x v) in ret VNone
      | _ => err
      end
  end.
(* eval.cc eval_set 72-122 *)
Definition do_set_form (e : env) (args : list val) : EM val :=
  match args with
  | VSym x :: r =>
      match r with
      | [] => ub
      | i :: _ => let! v := ev e i in let! _ := modify (fun st => do_set st e x v) in ret VNone
      end
  | _ => abort
  end.
(* eval_if, eval.cc 168-181 *)
Definition do_if (e : env) (args : list val) : EM val :=
  match args with
  | [] => abort
  | t :: r =>
      let! p := ev e t in
      match r with
      | [] => ub
      | c :: a => if truthy p then ev e c else match a with x :: _ => ev e x | [] => ret VNone end
      end
  end.
(* eval.cc eval_and 184-206, eval_or 209-231 *)
Fixpoint do_and (e : env) (es : list val) : EM val :=
  match es with
  | [] => ret (VBool true)
  | [x] => ev e x
  | x :: r => let! v := ev e x in if truthy v then do_and e r else ret (VBool false)
  end.
(* eval.cc eval_or 209-231 *)
Fixpoint do_or (e : env) (es : list val) : EM val :=
  match es with
  | [] => ret (VBool false)
  | [x] => ev e x
  | x :: r => let! v := ev e x in if truthy v then ret v else do_or e r
  end.

(* eval.cc eval_with_env 357-514: the special forms *)
Inductive form :=
  FDefine | FDefMacro | FModule | FLet | FLetStar | FLetrec | FCallcc | FLambda | FSet | FQuote | FQuasi
| FIf | FAnd | FOr | FDelay | FCond | FCase | FBegin | FForEach | FDo | FMap | FApply | FCwv | FWind.
(* the names tested in eval.cc 356-510 *)
Definition forms : list (list Z * form) :=
  [(bs "define", FDefine); (bs "define-macro", FDefMacro); (bs "define-module", FModule); (bs "use-modules", FModule);
   (bs "export", FModule); (bs "re-export", FModule); (bs "define-public", FModule); (bs "let", FLet); (bs "let*", FLetStar);
   (bs "letrec", FLetrec); (bs "call/cc", FCallcc); (bs "call-with-current-continuation", FCallcc); (bs "lambda", FLambda);
   (bs "set!", FSet); (bs "quote", FQuote); (bs "quasiquote", FQuasi); (bs "if", FIf); (bs "and", FAnd); (bs "or", FOr);
   (bs "delay", FDelay); (bs "cond", FCond); (bs "case", FCase); (bs "begin", FBegin); (bs "for-each", FForEach); (bs "do", FDo);
   (bs "map", FMap); (bs "map-in-order", FMap); (bs "apply", FApply); (bs "call-with-values", FCwv); (bs "dynamic-wind", FWind)].
(* eval.cc eval_with_env 357-514: the chain of is_sym_val tests *)
Fixpoint form_in (l : list (list Z * form)) (x : list Z) : option form :=
  match l with [] => None | (k, f) :: r => if beq k x then Some f else form_in r x end.
(* eval.cc eval_with_env 357-514 *)
Definition form_of (x : list Z) : option form := form_in forms x.
(* eval.cc eval_with_env 357-514: is the symbol one of them? *)
Definition special (n : nat) (e : env) (f : form) (args : list val) : EM val :=
  match f with
  | FDefine => do_define e args
  | FDefMacro => do_define_macro e args
  | FModule => fuel
  | FLet => run_expansion e (expand_let args)
  | FLetStar => run_expansion e (expand_letstar args)
  | FLetrec => run_expansion e (expand_letrec args)
  | FCallcc =>                                     (* eval.cc eval_call_cc 234-254 *)
      match args with
      | [] => abort
      | x :: _ => let! p := ev e x in with_cont (fun k => ev e (VList [p; k] false))
      end
  | FLambda => match args with [] => ub | spec :: body => do_lambda e spec body end
  | FSet => do_set_form e args
  | FQuote => match args with [] => ret VNil | x :: _ => ret x end
  | FQuasi => match args with [] => err | x :: _ => quasi n e x 1 end
  | FIf => do_if e args
  | FAnd => do_and e args
  | FOr => do_or e args
  | FDelay => match args with [] => err | x :: _ => do_delay e x end
  | FCond => match args with [] => abort | _ => eval_cond e args end
  | FCase => match args with [] => abort | k :: cs => let! key := ev e k in eval_case_clauses e key cs end
  | FBegin => match args with [] => ret (VBool false) | _ => eval_body e args end
  | FForEach => do_for_each e args
  | FDo => do_do n e args
  | FMap => do_map n e args
  | FApply => do_apply n n e args
  | FCwv => do_call_with_values n e args
  | FWind =>
      match args with
      | i :: t :: o :: _ =>
          let! iv := ev e i in let! tv := ev e t in let! ov := ev e o in do_wind e iv tv ov
      | _ => abort
      end
  end.

(* eval_with_env, eval.cc 257-927: one pass through "entry" *)
Definition step (n : nat) (e : env) (x : val) : EM val :=
  match x with
  | VSym s =>
      if match s with c :: _ => c =? 58 | [] => false end then ret x else lookup e s    (* 58 is ':' *)
  | VList (h :: t) d =>
      match h with
      | VSym s =>
          let! hv := gets (fun st => head_value st e s) in
          match hv with
          | Some (VMacro ps dt b me) => run_macro n e ps dt b me t
          | _ =>
              match form_of s with
              | Some f => special n e f t
              | None =>
                  let! v := (match hv with Some v => ret v | None => lookup e s end) in
                  ev e (VList (v :: t) (match t with [] => false | _ => d end))
              end
          end
      | VCont k _ =>
          let! a := (match t with [] => ret VNil | y :: _ => ev e y end) in dynthrow k a
      | VProc ps dt b pe => apply_proc e ps dt b pe t
      | VFunc nm ar =>
          if beq nm (bs "apply") then do_apply n n e t
          else if beq nm (bs "map") || beq nm (bs "map-in-order") then do_map n e t
          else if is_callcc nm then do_callcc_func n e t
          else let! vs := eval_args e t in call_func n nm ar vs
      | VList _ _ =>
          let! f := ev e h in
          ev e (VList (f :: t) (match t with [] => false | _ => d end))
      | VInt _ | VStr _ | VChar _ | VBool _ | VNil => match t with [] => ret h | _ => err end
      | VMacro ps dt b me => run_macro n e ps dt b me t
      | _ => err
      end
  | _ => ret x
  end.
End Step.

(* eval.cc eval_with_env 257-927 *)
Fixpoint eval (n : nat) (e : env) (x : val) : EM val :=
  match n with
  | O => fuel
  | S n => step (eval n) n e x
  end.
End Eval.
