(** Model of re-entrant continuations: src/c/continuation.cc copies the C stack
    when call/cc captures and copies it back when the continuation is invoked, so
    the C frames of the evaluator are modelled explicitly.  The heap, the
    environments, the catch stack and the wind chain are global and are not
    copied.

    Each constructor of [frame] is an activation record of the C++ code waiting
    for the value of a nested eval_with_env; its arguments are the local variables
    that are used afterwards.

    Simplifications.
    - The program is an abstract syntax of the core forms; recognising forms, the
      other forms and macros are in EvalModel.
    - One top-level environment stands for the global environment and the
      modules (EnvModel).
    - map and for-each take one list; for-each of a procedure that does not take
      one argument is an error at once (the code evaluates the list first).
    - Numbers are unbounded integers; error messages are not modelled: an error
      throws the key error with no arguments.
    - scm_dynthrow runs again after grow_stack; by then the wind chain is the
      target's and nothing is run, so it is modelled as running once. *)
From Coq Require Import String List ZArith Bool Lia.
Import ListNotations.
Local Open Scope string_scope.
Local Open Scope list_scope.
Local Open Scope nat_scope.

(* the list l with its i-th element replaced *)
(* model only: assignment through a pointer *)
Fixpoint upd {A} (l : list A) (i : nat) (x : A) : list A :=
  match l, i with
  | [], _ => []
  | _ :: r, O => x :: r
  | y :: r, S i => y :: upd r i x
  end.

(* pscm_types.h 17-44: the objects without parts *)
Inductive atom := AInt (z : Z) | ABool (b : bool) | ASym (s : string) | ANil | ANone.
(* eval.cc 257-927: the program, after the forms have been recognised *)
Inductive expr :=
| EAtom (a : atom)                                  (* self-evaluating or quoted *)
| EVar (x : string)
| EIf (c t : expr) (e : option expr)
| ESet (x : string) (e : expr)
| EDef (x : string) (e : expr)
| ELam (ps : list string) (rest : option string) (body : list expr)
| EBegin (es : list expr)
| ECall (f : expr) (args : list expr)
| ECallCC (e : expr)
| EWind (a b c : expr)
| EMap (f l : expr)
| EEach (f l : expr).
(* function.cc 29-108: the primitives of this model *)
Inductive prim := PList | PCons | PCar | PCdr | PSetCar | PSetCdr | PAdd | PSub | PLess | PNull | PCatch | PThrow.
(* the n_args of function objects, function.cc 31-108: Some n, or None for any number *)
Definition arity (p : prim) : option nat :=
  match p with
  | PCar | PCdr | PNull => Some 1
  | PCons | PSetCar | PSetCdr => Some 2
  | PList | PAdd | PSub | PLess | PCatch | PThrow => None
  end.
(* values; [MList a] points to the list cell [a], [MProc] holds its environment *)
(* pscm_types.h 17-99 *)
Inductive mv :=
| MA (a : atom)
| MList (a : nat)
| MProc (ps : list string) (rest : option string) (body : list expr) (e : nat)
| MPrim (p : prim)
| MCont (k : nat).

(* SCM_List, pscm_types.h: data, next, is_dotted *)
Record cell := mkCell { c_data : mv; c_next : option nat; c_dot : bool }.
(* SCM_Environment: bindings and parent *)
(* pscm_types.h SCM_Environment 167-181 *)
Record eframe := mkE { e_binds : list (string * mv); e_up : option nat }.

(* the C++ activation records named below, eval.cc 10-927 and the files cited *)
Inductive frame :=
| FSeq (e : nat) (rest : list expr)                 (* eval_with_list 10-18; begin, eval.cc 456-476 *)
| FIf (e : nat) (t : expr) (f : option expr)        (* eval.cc eval_if 168-181 *)
| FSet (e : nat) (x : string)                       (* eval.cc eval_set 72-112 *)
| FDef (e : nat) (x : string)                       (* eval_define, define.cc 4-53 *)
| FOp (e : nat) (args : list expr)                  (* eval.cc 682-688 *)
| FArgs (e : nat) (p : prim) (head tail : option nat) (rest : list expr)
                                                    (* eval.cc eval_list_with_env 20-31: dummy.next, it, l *)
| FBind (ce fe : nat) (p : string) (ps : list string) (r : option string) (args : list expr) (body : list expr)
                                                    (* apply_procedure, procedure.cc 162-245 *)
| FRest (ce fe : nat) (y : string) (head tail : option nat) (args : list expr) (body : list expr)
                                                    (* its loop over the remaining arguments 147-156, 191-203 *)
| FCallCC (e : nat)                                 (* eval.cc eval_call_cc 234-254, before the capture *)
| FContArg (k : nat)                                (* eval.cc 542-549 *)
| FWind1 (e : nat) (b c : expr)                     (* eval_dynamic_wind, dynwind.cc 179-219 *)
| FWind2 (e : nat) (i : mv) (c : expr)
| FWind3 (e : nat) (i t : mv)
| FWindIn (e : nat) (i t o : mv)                    (* during the in guard 187-188 *)
| FWindThunk (e : nat) (o : mv) (old : list nat)    (* during the thunk 196-206 *)
| FWindOut (v : mv)                                 (* during the out guard 212-216 *)
| FDynOut (k : nat) (v : mv) (common outs : list nat) (* dynwind.cc unwind_wind_chain 106-119, called by scm_dynthrow *)
| FDynIn (k : nat) (v : mv) (i : nat) (ins : list nat) (* dynwind.cc rewind_wind_chain 151-170 *)
| FCatch (id : nat) (tag h : mv) (body : bool) (ghost : list nat)
        (* scm_c_catch, throw.cc 59-131, in its body or in its handler; [ghost]: the wind chain on entry *)
| FMap1 (e : nat) (l : expr)                        (* eval_map, map.cc 36 *)
| FMap2 (e : nat) (f : mv)                          (* map.cc 58-66 *)
| FMap3 (e : nat) (f : mv) (it : nat) (head tail : option nat)
        (* map.cc 83-121: [it] names the array list_ptrs, which is in the C++ heap *)
| FEach1 (e : nat) (l : expr)                       (* eval_for_each, for_each.cc 34 *)
| FEach2 (e : nat) (f : mv)                         (* for_each.cc 64-78 *)
| FEach3 (e : nat) (f : mv) (ptr : option nat).     (* for_each.cc 82-145: arg_lists is on the stack *)

Inductive ctrl :=
| CEval (e : nat) (x : expr)                        (* eval_with_env *)
| CRet (v : mv)                                     (* return to the innermost frame *)
| CBody (e : nat) (es : list expr)                  (* eval_with_list *)
| CApp (e : nat) (f : mv) (args : list expr)        (* eval_with_env of a list whose head is a value *)
| CBindLoop (ce fe : nat) (ps : list string) (r : option string) (args : list expr) (body : list expr)
| CRestLoop (ce fe : nat) (y : string) (head tail : option nat) (args : list expr) (body : list expr)
| CArgsLoop (e : nat) (p : prim) (head tail : option nat) (rest : list expr)
| CFunc (p : prim) (vs : list mv)                   (* eval_with_func *)
| CApp1 (f v : mv)                                  (* a call with one argument that is a value already *)
| CVals (f : mv) (vs : list mv)                     (* apply_procedure_with_values *)
| CThrow (key : string) (args : list mv)            (* scm_throw *)
| CDynOut (k : nat) (v : mv) (common outs : list nat) (* scm_dynthrow *)
| CDynIn (k : nat) (v : mv) (ins : list nat)
| CJump (k : nat) (v : mv)                          (* copy_stack_and_call *)
| CMapLoop (e : nat) (f : mv) (it : nat) (head tail : option nat)
| CEachLoop (e : nat) (f : mv) (ptr : option nat).

(** The memory that a continuation does not save. *)
(* gc.cc 214-289: memory that continuation.cc does not copy *)
Record store := mkStore {
  h_cells : list cell;                    (* list cells that values can point to *)
  h_args : list (mv * option nat);        (* cells of the argument lists built by eval_list_with_env; the
                                             primitives of this model copy them and never keep them *)
  h_envs : list eframe;
  h_iters : list (option (option nat)) }. (* map's list_ptrs arrays; None: deleted *)
(* continuation.cc 30-127: control and C stack; throw.cc, dynwind.cc: the
   globals *)
Record mst := mkM {
  m_ctrl : ctrl;
  m_stack : list frame;                   (* the C stack, innermost first *)
  m_sto : store;
  m_conts : list (list frame * list nat); (* SCM_Continuation: the saved stack and wind chain *)
  m_catch : list nat;                     (* g_catch_stack, top first *)
  m_under : nat;                          (* how far g_catch_stack_top is below zero *)
  m_wind : list nat;                      (* g_wind_chain *)
  m_guards : list (mv * mv * list nat);   (* the wind entries; third: ghost, the chain they were pushed on *)
  m_next : nat;                           (* ghost: names for catch frames *)
  m_crossed : bool }.                     (* ghost: a throw has been caught under another wind chain *)
(* how a step ends the run: the value of the program, exit(1) for an uncaught
   throw, undefined behaviour, a failed assert *)
(* eval.cc, throw.cc 304-314: how the program ends *)
Inductive outc := Next (s : mst) | Final (v : mv) (s : mst) | Uncaught (key : string) (s : mst) | Undef | Assert.

(** ** store *)
(* pscm.h make_list 143-149 *)
Definition alloc_cell (d : mv) (n : option nat) (dot : bool) (h : store) : nat * store :=
  (length (h_cells h), mkStore (h_cells h ++ [mkCell d n dot]) (h_args h) (h_envs h) (h_iters h)).
(* model only: assignment to a field of pscm_types.h 51-55 *)
Definition set_cell (a : nat) (c : cell) (h : store) : store :=
  mkStore (upd (h_cells h) a c) (h_args h) (h_envs h) (h_iters h).
(* model only: a field of pscm_types.h 51-55 *)
Definition get_cell (h : store) (a : nat) : option cell := nth_error (h_cells h) a.
(* tail->next = node (or dummy.next = node), in a list being built *)
(* eval.cc 20-31, map.cc 111-121 *)
Definition link_cell (tail : option nat) (n : nat) (h : store) : store :=
  match tail with
  | None => h
  | Some t => match get_cell h t with Some c => set_cell t (mkCell (c_data c) (Some n) (c_dot c)) h | None => h end
  end.
(* pscm.h make_env 200-207 *)
Definition alloc_env (up : option nat) (h : store) : nat * store :=
  (length (h_envs h), mkStore (h_cells h) (h_args h) (h_envs h ++ [mkE [] up]) (h_iters h)).
(* scm_env_insert without parent search, environment.cc *)
Fixpoint bind_in (x : string) (v : mv) (l : list (string * mv)) : list (string * mv) :=
  match l with
  | [] => [(x, v)]
  | (y, w) :: r => if String.eqb x y then (x, v) :: r else (y, w) :: bind_in x v r
  end.
(* environment.cc scm_env_search_entry 4-28: one frame *)
Fixpoint assq (x : string) (l : list (string * mv)) : option mv :=
  match l with [] => None | (y, w) :: r => if String.eqb x y then Some w else assq x r end.
(* environment.cc scm_env_insert 30-45 without parent search *)
Definition env_put (e : nat) (x : string) (v : mv) (h : store) : store :=
  match nth_error (h_envs h) e with
  | Some f => mkStore (h_cells h) (h_args h) (upd (h_envs h) e (mkE (bind_in x v (e_binds f)) (e_up f))) (h_iters h)
  | None => h
  end.
(* scm_env_search_entry with parent search: the frame that binds x *)
(* environment.cc scm_env_search_entry 4-28 *)
Fixpoint env_owner (n : nat) (es : list eframe) (e : nat) (x : string) : option nat :=
  match n with
  | O => None
  | S n =>
      match nth_error es e with
      | None => None
      | Some f =>
          match assq x (e_binds f) with
          | Some _ => Some e
          | None => match e_up f with Some u => env_owner n es u x | None => None end
          end
      end
  end.
(* environment.cc scm_env_search_entry 4-28 *)
Definition owner (h : store) (e : nat) (x : string) : option nat := env_owner (S (length (h_envs h))) (h_envs h) e x.
(* environment.cc scm_env_search_entry 4-28 *)
Definition binding (h : store) (e : nat) (x : string) : option mv :=
  match nth_error (h_envs h) e with Some f => assq x (e_binds f) | None => None end.
(* environment.cc scm_env_search 57-129 *)
Definition env_get (h : store) (e : nat) (x : string) : option mv :=
  match owner h e x with Some o => binding h o x | None => None end.
(* set!: where the variable is bound, else a new binding here (eval.cc 83-111) *)
Definition env_set (e : nat) (x : string) (v : mv) (h : store) : store :=
  match owner h e x with Some o => env_put o x v h | None => env_put e x v h end.
(* argument lists *)
(* eval.cc eval_list_with_env 20-31 *)
Definition alloc_arg (v : mv) (h : store) : nat * store :=
  (length (h_args h), mkStore (h_cells h) (h_args h ++ [(v, None)]) (h_envs h) (h_iters h)).
(* eval.cc eval_list_with_env 20-31 *)
Definition link_arg (tail : option nat) (n : nat) (h : store) : store :=
  match tail with
  | None => h
  | Some t => match nth_error (h_args h) t with
              | Some (v, _) => mkStore (h_cells h) (upd (h_args h) t (v, Some n)) (h_envs h) (h_iters h)
              | None => h
              end
  end.
(* the values in an argument list, from its first cell *)
(* function.cc 29-108: the arguments *)
Fixpoint walk_args (n : nat) (l : list (mv * option nat)) (p : option nat) : list mv :=
  match n, p with
  | S n, Some a => match nth_error l a with Some (v, q) => v :: walk_args n l q | None => [] end
  | _, _ => []
  end.
(* function.cc 29-108: the arguments *)
Definition arg_values (h : store) (head : option nat) : list mv := walk_args (length (h_args h)) (h_args h) head.
(* map.cc 83-121: list_ptrs[0] = ... *)
Definition set_iter (i : nat) (p : option (option nat)) (h : store) : store :=
  mkStore (h_cells h) (h_args h) (h_envs h) (upd (h_iters h) i p).
(* map.cc 67-82: new list_ptrs *)
Definition alloc_iter (p : option nat) (h : store) : nat * store :=
  (length (h_iters h), mkStore (h_cells h) (h_args h) (h_envs h) (h_iters h ++ [Some p])).
(* a fresh list of values *)
(* list.cc scm_list_impl 42-61 *)
Fixpoint alloc_list (vs : list mv) (h : store) : mv * store :=
  match vs with
  | [] => (MA ANil, h)
  | v :: r =>
      match alloc_list r h with
      | (t, h1) =>
          let (a, h2) := alloc_cell v (match t with MList b => Some b | _ => None end) false h1 in (MList a, h2)
      end
  end.
(* map.cc 58-66: the argument must be a list *)
Definition as_list (p : option nat) : mv := match p with Some a => MList a | None => MA ANil end.

(** ** states *)
(* model only: the next state *)
Definition go (s : mst) (c : ctrl) (k : list frame) : mst :=
  mkM c k (m_sto s) (m_conts s) (m_catch s) (m_under s) (m_wind s) (m_guards s) (m_next s) (m_crossed s).
(* model only: the next state, with new memory *)
Definition goh (s : mst) (c : ctrl) (k : list frame) (h : store) : mst :=
  mkM c k h (m_conts s) (m_catch s) (m_under s) (m_wind s) (m_guards s) (m_next s) (m_crossed s).
(* model only: the next state, with a new wind chain *)
Definition gow (s : mst) (c : ctrl) (k : list frame) (w : list nat) : mst :=
  mkM c k (m_sto s) (m_conts s) (m_catch s) (m_under s) w (m_guards s) (m_next s) (m_crossed s).
(* error.cc eval_error 201-250 *)
Definition error (s : mst) : outc := Next (go s (CThrow "error" []) (m_stack s)).
(* error.cc eval_error 201-250 *)
Definition errork (s : mst) (k : list frame) : outc := Next (go s (CThrow "error" []) k).

(** ** primitives: list.cc, number.cc, predicate.cc *)
(* car, cdr of a cell: list.cc; the cdr of a cell followed by a dotted cell is that cell's data *)
Definition do_cdr (h : store) (c : cell) : mv :=
  match c_next c with
  | None => MA ANil
  | Some b => match get_cell h b with Some d => if c_dot d then c_data d else MList b | None => MA ANil end
  end.
(* what the next pointer of a pair with this cdr is (scm_cons, scm_c_set_cdr) *)
(* list.cc scm_cons 68-90, scm_c_set_cdr 297-315 *)
Definition cdr_cells (v : mv) (h : store) : option nat * store :=
  match v with
  | MList b => (Some b, h)
  | MA ANil => (None, h)
  | _ => let (a, h') := alloc_cell v None true h in (Some a, h')
  end.
(* number.cc 87-121: the arguments must be integers *)
Definition ints (vs : list mv) : option (list Z) :=
  fold_right (fun v r => match v, r with MA (AInt z), Some l => Some (z :: l) | _, _ => None end) (Some []) vs.
(* list.cc 63-90, 284-315; pscm.h 590-624; number.cc 201-292 *)
Definition simple_prim (p : prim) (vs : list mv) (h : store) : option (mv * store) :=
  match p, vs with
  | PList, _ => Some (alloc_list vs h)
  | PCons, [a; b] => let (n, h1) := cdr_cells b h in let (c, h2) := alloc_cell a n false h1 in Some (MList c, h2)
  | PCar, [MList a] => match get_cell h a with Some c => Some (c_data c, h) | None => None end
  | PCdr, [MList a] => match get_cell h a with Some c => Some (do_cdr h c, h) | None => None end
  | PSetCar, [MList a; v] =>
      match get_cell h a with Some c => Some (MA ANone, set_cell a (mkCell v (c_next c) (c_dot c)) h) | None => None end
  | PSetCdr, [MList a; v] =>
      let (n, h1) := cdr_cells v h in
      match get_cell h1 a with Some c => Some (MA ANone, set_cell a (mkCell (c_data c) n (c_dot c)) h1) | None => None end
  | PNull, [v] => Some (MA (ABool (match v with MA ANil => true | _ => false end)), h)
  | PAdd, _ => match ints vs with Some l => Some (MA (AInt (fold_right Z.add 0%Z l)), h) | None => None end
  | PSub, _ => match ints vs with Some [a; b] => Some (MA (AInt (a - b)), h) | _ => None end
  | PLess, _ => match ints vs with Some [a; b] => Some (MA (ABool (a <? b)%Z), h) | _ => None end
  | _, _ => None
  end.
(* throw.cc scm_c_catch_scheme 468-494: the tag *)
Definition tag_ok (t : mv) : bool := match t with MA (ASym _) | MA (ABool true) => true | _ => false end.
(* throw.cc tags_match 41-56 *)
Definition tag_match (t : mv) (key : string) : bool :=
  match t with MA (ABool true) => true | MA (ASym x) => String.eqb x key | _ => false end.
(* pscm.h is_proc 38-40 *)
Definition is_closure (v : mv) : bool := match v with MProc _ _ _ _ => true | _ => false end.
(* pscm.h is_proc 38-40, is_func 42-44 *)
Definition is_fun (v : mv) : bool := match v with MProc _ _ _ _ | MPrim _ => true | _ => false end.

(** ** catch and throw *)
(* the stack from the frame of catch [id] outwards; None: that frame is not on the stack *)
(* throw.cc scm_throw 134-191: longjmp *)
Fixpoint unwind_to (id : nat) (k : list frame) : option (mv * mv * list nat * list frame) :=
  match k with
  | [] => None
  | FCatch j t h _ w :: r => if Nat.eqb j id then Some (t, h, w, r) else unwind_to id r
  | _ :: r => unwind_to id r
  end.
(* the search of throw.cc scm_throw 168-178 from the top of the catch stack; an entry whose
   frame is not on the stack is a dangling pointer *)
Inductive search := Found (id : nat) (t h : mv) (w : list nat) (k : list frame) | NotFound | Stale.
(* throw.cc scm_throw 134-191: the search *)
Fixpoint find_catch (cs : list nat) (k : list frame) (key : string) : search :=
  match cs with
  | [] => NotFound
  | id :: r =>
      match unwind_to id k with
      | None => Stale
      | Some (t, h, w, k') => if tag_match t key then Found id t h w k' else find_catch r k key
      end
  end.
(* g_catch_stack_top-- *)
(* throw.cc scm_c_catch 59-131 *)
Definition pop (cs : list nat) (u : nat) : list nat * nat := match cs with [] => ([], S u) | _ :: r => (r, u) end.
(* throw.cc scm_c_catch 59-131 *)
Definition popped (s : mst) (c : ctrl) (k : list frame) : mst :=
  let p := pop (m_catch s) (m_under s) in
  mkM c k (m_sto s) (m_conts s) (fst p) (snd p) (m_wind s) (m_guards s) (m_next s) (m_crossed s).

(** ** wind chains: dynwind.cc *)
(* dynwind.cc find_common_prefix 29-60 *)
Fixpoint common_prefix (a b : list nat) : list nat :=
  match a, b with
  | x :: a', y :: b' => if Nat.eqb x y then x :: common_prefix a' b' else []
  | _, _ => []
  end.
(* the entries that dynwind.cc unwind_wind_chain 64-103 collects, in the
   order they are run *)
Fixpoint until_common (common cur : list nat) : list nat :=
  match cur with
  | [] => []
  | x :: r => if existsb (Nat.eqb x) common then [] else x :: until_common common r
  end.
(* dynwind.cc rewind_wind_chain 127-176: the in guard of an entry *)
Definition in_guard (s : mst) (i : nat) : mv := match nth_error (m_guards s) i with Some (a, _, _) => a | None => MA ANone end.
(* dynwind.cc unwind_wind_chain 64-124: the out guard of an entry *)
Definition out_guard (s : mst) (i : nat) : mv := match nth_error (m_guards s) i with Some (_, b, _) => b | None => MA ANone end.
(* continuation.cc scm_dynthrow 100-113 *)
Definition dynthrow (s : mst) (k : nat) (v : mv) (stk : list frame) : outc :=
  match nth_error (m_conts s) k with
  | Some (_, w) =>
      let c := common_prefix (m_wind s) w in
      Next (go s (CDynOut k v c (rev (until_common c (m_wind s)))) stk)
  | None => Undef
  end.

(** ** the evaluator *)
(* eval_with_env on an expression, eval.cc 257-692 *)
Definition eval_step (s : mst) (e : nat) (x : expr) (k : list frame) : outc :=
  match x with
  | EAtom a => Next (go s (CRet (MA a)) k)
  | EVar x => match env_get (m_sto s) e x with Some v => Next (go s (CRet v) k) | None => errork s k end
  | EIf c t f => Next (go s (CEval e c) (FIf e t f :: k))
  | ESet x y => Next (go s (CEval e y) (FSet e x :: k))
  | EDef x y => Next (go s (CEval e y) (FDef e x :: k))
  | ELam ps r b => Next (go s (CRet (MProc ps r b e)) k)
  | EBegin [] => Next (go s (CRet (MA (ABool false))) k)
  | EBegin es => Next (go s (CBody e es) k)
  | ECall f args => Next (go s (CEval e f) (FOp e args :: k))
  | ECallCC f => Next (go s (CEval e f) (FCallCC e :: k))
  | EWind a b c => Next (go s (CEval e a) (FWind1 e b c :: k))
  | EMap f l => Next (go s (CEval e f) (FMap1 e l :: k))
  | EEach f l => Next (go s (CEval e f) (FEach1 e l :: k))
  end.
(* procedure.cc apply_procedure 99-264: the environment is made before the arguments are evaluated *)
Definition apply_step (s : mst) (ce : nat) (ps : list string) (r : option string) (b : list expr) (pe : nat)
    (args : list expr) (k : list frame) : outc :=
  let (fe, h) := alloc_env (Some pe) (m_sto s) in
  match ps, r with
  | [], Some y => Next (goh s (CRestLoop ce fe y None None args b) k h)
  | _, _ => Next (goh s (CBindLoop ce fe ps r args b) k h)
  end.
(* eval.cc eval_with_env 514-720: a call *)
Definition app_step (s : mst) (e : nat) (f : mv) (args : list expr) (k : list frame) : outc :=
  match f with
  | MCont j =>
      match args with
      | [] => dynthrow s j (MA ANil) k
      | a :: _ => Next (go s (CEval e a) (FContArg j :: k))
      end
  | MProc ps r b pe => apply_step s e ps r b pe args k
  | MPrim p => Next (go s (CArgsLoop e p None None args) k)
  | _ => errork s k
  end.
(* the parameters of a closure bound to values that are known: apply_procedure with
   one quoted or self-evaluating argument, procedure.cc apply_procedure_with_values 6-96 *)
Fixpoint bind_values (fe : nat) (ps : list string) (r : option string) (vs : list mv) (exact : bool) (h : store) : option store :=
  match ps, vs with
  | [], _ =>
      match r with
      | Some y => let (l, h1) := alloc_list vs h in Some (env_put fe y l h1)
      | None => match vs with [] => Some h | _ => None end
      end
  | p :: ps', v :: vs' => bind_values fe ps' r vs' exact (env_put fe p v h)
  | _ :: _, [] => if exact then None else match r with Some _ => Some h | None => None end
  end.
(* procedure.cc apply_procedure_with_values 6-96 *)
Definition vals_step (s : mst) (f : mv) (vs : list mv) (exact : bool) (k : list frame) : outc :=
  match f with
  | MProc ps r b pe =>
      let (fe, h) := alloc_env (Some pe) (m_sto s) in
      match bind_values fe ps r vs exact h with
      | Some h' => Next (goh s (CBody fe b) k h')
      | None => errork s k
      end
  | MPrim p => Next (go s (CFunc p vs) k)
  | MCont j => dynthrow s j (match vs with v :: _ => v | [] => MA ANil end) k
  | _ => errork s k
  end.
(* eval_with_func, function.cc 29-108 *)
Definition func_step (s : mst) (p : prim) (vs : list mv) (k : list frame) : outc :=
  match p with
  | PCatch =>
      match vs with
      | tag :: thunk :: h :: _ =>
          if tag_ok tag && is_closure thunk && is_closure h then
            if (100 <=? length (m_catch s))%nat then errork s k
            else match m_under s with
                 | O => Next (mkM (CApp 0 thunk []) (FCatch (m_next s) tag h true (m_wind s) :: k) (m_sto s) (m_conts s)
                                (m_next s :: m_catch s) 0 (m_wind s) (m_guards s) (S (m_next s)) (m_crossed s))
                 | S _ => Undef                     (* g_catch_stack[-1] is written *)
                 end
          else errork s k
      | _ => errork s k
      end
  | PThrow => match vs with MA (ASym key) :: r => Next (go s (CThrow key r) k) | _ => errork s k end
  | _ =>
      match simple_prim p vs (m_sto s) with
      | Some (v, h) => Next (goh s (CRet v) k h)
      | None => errork s k
      end
  end.
(* throw.cc scm_throw 134-191 and the second return of setjmp in scm_c_catch 106-114 *)
Definition throw_step (s : mst) (key : string) (args : list mv) (k : list frame) : outc :=
  match find_catch (m_catch s) k key with
  | Found id t h w k' =>
      let p := pop (m_catch s) (m_under s) in
      Next (mkM (CVals h (MA (ASym key) :: args)) (FCatch id t h false w :: k') (m_sto s) (m_conts s) (fst p) (snd p) (m_wind s) (m_guards s)
              (m_next s) (m_crossed s || negb (if list_eq_dec Nat.eq_dec (m_wind s) w then true else false)))
  | NotFound => Uncaught key s
  | Stale => Undef
  end.
(* a value is returned to the innermost frame *)
(* the code after the nested call in each function named at [frame]: eval.cc,
   procedure.cc, dynwind.cc, throw.cc, map.cc, for_each.cc *)
Definition ret_step (s : mst) (v : mv) (f : frame) (k : list frame) : outc :=
  let h := m_sto s in
  match f with
  | FSeq e [] => Next (go s (CRet v) k)
  | FSeq e (x :: r) => Next (go s (CEval e x) (FSeq e r :: k))
  | FIf e t f =>
      match v with
      | MA (ABool false) => match f with Some f => Next (go s (CEval e f) k) | None => Next (go s (CRet (MA ANone)) k) end
      | _ => Next (go s (CEval e t) k)
      end
  | FSet e x => Next (goh s (CRet (MA ANone)) k (env_set e x v h))
  | FDef e x => Next (goh s (CRet (MA ANone)) k (env_put e x v h))
  | FOp e args => Next (go s (CApp e v args) k)
  | FArgs e p head tail r =>
      let (n, h1) := alloc_arg v h in
      let h2 := link_arg tail n h1 in
      Next (goh s (CArgsLoop e p (match tail with None => Some n | Some _ => head end) (Some n) r) k h2)
  | FBind ce fe p ps r args b =>
      let h1 := env_put fe p v h in
      match ps, r with
      | [], Some y => Next (goh s (CRestLoop ce fe y None None args b) k h1)
      | _, _ => Next (goh s (CBindLoop ce fe ps r args b) k h1)
      end
  | FRest ce fe y head tail args b =>
      let (n, h1) := alloc_cell v None false h in
      let h2 := link_cell tail n h1 in
      Next (goh s (CRestLoop ce fe y (match tail with None => Some n | Some _ => head end) (Some n) args b) k h2)
  | FCallCC e =>
      Next (mkM (CApp1 v (MCont (length (m_conts s)))) k h (m_conts s ++ [(k, m_wind s)]) (m_catch s) (m_under s) (m_wind s)
              (m_guards s) (m_next s) (m_crossed s))
  | FContArg j => dynthrow s j v k
  | FWind1 e b c => Next (go s (CEval e b) (FWind2 e v c :: k))
  | FWind2 e i c => Next (go s (CEval e c) (FWind3 e i v :: k))
  | FWind3 e i t =>
      if is_closure i && is_closure t && is_closure v then Next (go s (CApp e i []) (FWindIn e i t v :: k)) else errork s k
  | FWindIn e i t o =>
      Next (mkM (CApp e t []) (FWindThunk e o (m_wind s) :: k) h (m_conts s) (m_catch s) (m_under s)
              (length (m_guards s) :: m_wind s) (m_guards s ++ [(i, o, m_wind s)]) (m_next s) (m_crossed s))
  | FWindThunk e o old => Next (gow s (CApp e o []) (FWindOut v :: k) old)
  | FWindOut r => Next (go s (CRet r) k)
  | FDynOut j w common outs => Next (go s (CDynOut j w common outs) k)
  | FDynIn j w i ins => Next (gow s (CDynIn j w ins) k (i :: m_wind s))
  | FCatch id t hd true w => Next (popped s (CRet v) k)
  | FCatch id t hd false w => Next (go s (CRet v) k)
  | FMap1 e l => if is_fun v then Next (go s (CEval e l) (FMap2 e v :: k)) else errork s k
  | FMap2 e f =>
      match v with
      | MList _ | MA ANil =>
          let (i, h1) := alloc_iter (match v with MList a => Some a | _ => None end) h in
          Next (goh s (CMapLoop e f i None None) k h1)
      | _ => errork s k
      end
  | FMap3 e f i head tail =>
      let (n, h1) := alloc_cell v None false h in
      let h2 := link_cell tail n h1 in
      Next (goh s (CMapLoop e f i (match tail with None => Some n | Some _ => head end) (Some n)) k h2)
  | FEach1 e l =>
      match v with
      | MProc ps r _ _ =>
          match (length ps + match r with Some _ => 1 | None => 0 end)%nat with
          | 0 => Next (go s (CRet (MA ANone)) k)
          | 1 => Next (go s (CEval e l) (FEach2 e v :: k))
          | _ => errork s k
          end
      | MPrim p => match arity p with Some 1 | None => Next (go s (CEval e l) (FEach2 e v :: k)) | _ => errork s k end
      | _ => errork s k
      end
  | FEach2 e f =>
      match v with
      | MList a => Next (go s (CEachLoop e f (Some a)) k)
      | MA ANil => Next (go s (CEachLoop e f None) k)
      | _ => errork s k
      end
  | FEach3 e f ptr => Next (go s (CEachLoop e f ptr) k)
  end.
(* eval.cc eval_with_env 257-927 *)
Definition step (s : mst) : outc :=
  let k := m_stack s in
  let h := m_sto s in
  match m_ctrl s with
  | CEval e x => eval_step s e x k
  | CRet v => match k with [] => Final v s | f :: r => ret_step s v f r end
  | CBody e [] => Assert
  | CBody e (x :: r) => Next (go s (CEval e x) (FSeq e r :: k))
  | CApp e f args => app_step s e f args k
  | CBindLoop ce fe ps r args b =>
      match ps, args with
      | p :: ps', a :: args' => Next (go s (CEval ce a) (FBind ce fe p ps' r args' b :: k))
      | [], [] => Next (go s (CBody fe b) k)
      | _, _ => match r with Some _ => Next (go s (CBody fe b) k) | None => errork s k end
      end
  | CRestLoop ce fe y head tail args b =>
      match args with
      | a :: args' => Next (go s (CEval ce a) (FRest ce fe y head tail args' b :: k))
      | [] => Next (goh s (CBody fe b) k (env_put fe y (as_list head) h))
      end
  | CArgsLoop e p head tail args =>
      match args with
      | a :: args' => Next (go s (CEval e a) (FArgs e p head tail args' :: k))
      | [] => Next (go s (CFunc p (arg_values h head)) k)
      end
  | CFunc p vs => func_step s p vs k
  | CApp1 f v => vals_step s f [v] false k
  | CVals f vs => vals_step s f vs true k
  | CThrow key args => throw_step s key args k
  | CDynOut j v common outs =>
      match outs with
      | i :: r => Next (go s (CApp 0 (out_guard s i) []) (FDynOut j v common r :: k))
      | [] =>
          match nth_error (m_conts s) j with
          | Some (_, w) => Next (gow s (CDynIn j v (rev (skipn (length common) w))) k common)
          | None => Undef
          end
      end
  | CDynIn j v ins =>
      match ins with
      | i :: r => Next (go s (CApp 0 (in_guard s i) []) (FDynIn j v i r :: k))
      | [] => Next (go s (CJump j v) k)
      end
  | CJump j v =>
      match nth_error (m_conts s) j with
      | Some (k', _) => Next (go s (CRet v) k')
      | None => Undef
      end
  | CMapLoop e f i head tail =>
      match nth_error (h_iters h) i with
      | Some (Some None) => Next (goh s (CRet (as_list head)) k (set_iter i None h))       (* delete[] list_ptrs *)
      | Some (Some (Some a)) =>
          match get_cell h a with
          | Some c => Next (goh s (CApp1 f (c_data c)) (FMap3 e f i head tail :: k) (set_iter i (Some (c_next c)) h))
          | None => Undef
          end
      | _ => Undef                                  (* list_ptrs is used after delete[] *)
      end
  | CEachLoop e f ptr =>
      match ptr with
      | None => Next (go s (CRet (MA ANone)) k)
      | Some a =>
          match get_cell h a with
          | Some c =>
              match c_data c with
              | MA ANil => Next (go s (CRet (MA ANone)) k)        (* for_each.cc is_list_exhausted 15-17 *)
              | d => Next (go s (CApp1 f d) (FEach3 e f (c_next c) :: k))
              end
          | None => Undef
          end
      end
  end.

(** The program is evaluated in the top-level environment, form after form. *)
(* init.cc 8-13: g_env *)
Definition genv : list (string * mv) :=
  [("list", MPrim PList); ("cons", MPrim PCons); ("car", MPrim PCar); ("cdr", MPrim PCdr); ("set-car!", MPrim PSetCar);
   ("set-cdr!", MPrim PSetCdr); ("+", MPrim PAdd); ("-", MPrim PSub); ("<", MPrim PLess); ("null?", MPrim PNull);
   ("catch", MPrim PCatch); ("throw", MPrim PThrow)].
(* main.cc do_eval 42-57 *)
Definition start (prog : list expr) : mst :=
  mkM (CBody 0 prog) [] (mkStore [] [] [mkE genv None] []) [] [] 0 [] [] 0 false.
(* model only: [n] steps *)
Fixpoint run (n : nat) (s : mst) : outc :=
  match n with
  | O => Next s
  | S n => match step s with Next s' => run n s' | o => o end
  end.
