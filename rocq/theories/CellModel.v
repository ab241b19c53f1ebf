(** Model of the evaluator on list cells: programs and lists are SCM_List nodes on the heap
    that the evaluator reads, shares and, in eval.cc 676, writes.  EvalModel has immutable
    trees instead; CellProperties relates the two.

    Simplifications.
    - A core of the language: the forms quote, if, cond, case, and, or, begin, set!, lambda,
      define, let (also named), let*, letrec, do, delay, map, for-each, apply, call-with-values,
      calls of procedures and of primitives, force, values and eval.  A run that meets another
      form, or one of the primitives catch, throw, call/cc, or a let or define form with a dot in
      it, or compares two procedures in a case, ends with COther.
    - Errors end the run: there is no catch in the core.
    - The list of variables and steps that do.cc 160-168 makes is a list of the model.
    - The nodes of a new list are allocated after its elements were computed; only the
      C++ function that builds the list can reach them before.
    - Every loop of the C++ code over a list, and the recursion, is bounded by fuel.
    - The second result of a function on the state is a ghost: the nodes that eval.cc 676 wrote
      to and that the evaluator had not made for that call. *)
From Coq Require Import String.
From Verif Require Import Base ParseModel PrintModel EnvModel EvalModel.
Local Open Scope string_scope.
Local Open Scope Z_scope.
Local Open Scope list_scope.

(* pscm_types.h SCM 17-44: an object; a list is the address of its first SCM_List node, a procedure
   has the addresses of its parameters and body *)
Inductive cval : Type :=
| CNone | CNil | CBool (b : bool) | CInt (z : Z) | CChar (c : Z) | CStr (s : list Z) | CSym (s : list Z)
| CPair (a : nat)
| CProc (params : option nat) (body : nat) (e : env)
| CFunc (n : list Z) (arity : Z)
| CPromise (a : nat).
(* pscm_types.h SCM_List 51-55 *)
Record cell := mkCell { c_data : cval; c_next : option nat; c_dot : bool }.
(* pscm_types.h SCM_Module 124-135: obarray and uses *)
Record cmod := mkCMod { cm_ob : list (list Z * cval); cm_uses : list nat }.
(* pscm_types.h SCM_Promise 118-122: the body of the thunk, its environment, the value *)
Record cprom := mkCProm { cp_body : nat; cp_env : env; cp_val : option cval }.
(* eval.cc, module.cc 5-13, environment.cc: the globals, and the list nodes *)
Record cstate := mkCS {
  cs_cells : list cell;
  cs_frames : list (list (list Z * cval));
  cs_mods : list cmod;
  cs_cur : nat;
  cs_out : list Z;
  cs_proms : list cprom }.
(* model only: how a C++ function ends; CErr, CWrong: throw.cc 134-191 with no catch *)
Inductive cout (A : Type) : Type :=
| CRet (a : A) (s : cstate) | CErr (s : cstate) | CWrong (f : cval) (s : cstate) | CAbort | CUB | CFuel | COther.
Arguments CRet {A}. Arguments CErr {A}. Arguments CWrong {A}. Arguments CAbort {A}. Arguments CUB {A}. Arguments CFuel {A}. Arguments COther {A}.
(* model only: a C++ function on the state, with the ghost *)
Definition CM (A : Type) : Type := cstate -> cout A * list nat.
(* model only: return *)
Definition cret {A} (a : A) : CM A := fun s => (CRet a s, []).
(* error.cc eval_error 201-250 *)
Definition cerr {A} : CM A := fun s => (CErr s, []).
(* model only: sequencing *)
Definition cbind {A B} (m : CM A) (f : A -> CM B) : CM B := fun s =>
  match m s with
  | (CRet a s1, o) => let (r, o') := f a s1 in (r, o ++ o')
  | (CErr s1, o) => (CErr s1, o)
  | (CWrong v s1, o) => (CWrong v s1, o)
  | (CAbort, o) => (CAbort, o)
  | (CUB, o) => (CUB, o)
  | (CFuel, o) => (CFuel, o)
  | (COther, o) => (COther, o)
  end.
Notation "'do!' x ':=' m 'in' k" := (cbind m (fun x => k)) (at level 200, x name, m at level 100, k at level 200).
(* model only: failed assert, undefined behaviour, fuel, outside the core *)
Definition cabort {A} : CM A := fun _ => (CAbort, []).
(* model only: undefined behaviour *)
Definition cub {A} : CM A := fun _ => (CUB, []).
(* model only: fuel *)
Definition cfuel {A} : CM A := fun _ => (CFuel, []).
(* model only: outside the core *)
Definition cother {A} : CM A := fun _ => (COther, []).

(** ** cells *)
(* model only: reading a node of pscm_types.h SCM_List *)
Definition get (a : nat) : CM cell := fun s => match nth_error (cs_cells s) a with Some c => (CRet c s, []) | None => (CUB, []) end.
(* model only: the state with other cells *)
Definition with_cells (s : cstate) (h : list cell) : cstate := mkCS h (cs_frames s) (cs_mods s) (cs_cur s) (cs_out s) (cs_proms s).
(* pscm.h make_list 143-150 *)
Definition alloc (c : cell) : CM nat := fun s => (CRet (length (cs_cells s)) (with_cells s (cs_cells s ++ [c])), []).
(* list.cc scm_list_impl 42-61, eval.cc eval_list_with_env 20-31: the nodes of a new list *)
Fixpoint alloc_list (vs : list cval) : CM (option nat) :=
  match vs with
  | [] => cret None
  | v :: r => do! n := alloc_list r in do! a := alloc (mkCell v n false) in cret (Some a)
  end.
(* pscm.h wrap 415-420 of a list of values, or scm_nil *)
Definition as_list (l : option nat) : cval := match l with Some a => CPair a | None => CNil end.
(* eval.cc 676: l->next = func_argl; the ghost records the node unless the evaluator made it for this call *)
Definition set_next (own : bool) (a : nat) (l : option nat) : CM unit := fun s =>
  match nth_error (cs_cells s) a with
  | Some c => (CRet tt (with_cells s (upd (cs_cells s) a (mkCell (c_data c) l (c_dot c)))), if own then [] else [a])
  | None => (CUB, [])
  end.

(** ** environments and modules: as EnvModel, on these values *)
(* environment.cc scm_env_search_entry 4-28 *)
Fixpoint c_assoc (x : list Z) (l : list (list Z * cval)) : option cval :=
  match l with [] => None | (k, v) :: r => if beq k x then Some v else c_assoc x r end.
(* model only *)
Definition c_frame (s : cstate) (a : nat) : list (list Z * cval) := nth a (cs_frames s) [].
(* model only *)
Definition c_mod (s : cstate) (m : nat) : cmod := nth m (cs_mods s) (mkCMod [] []).
(* model only *)
Definition c_set_frame (s : cstate) (a : nat) (f : list (list Z * cval)) : cstate :=
  mkCS (cs_cells s) (upd (cs_frames s) a f) (cs_mods s) (cs_cur s) (cs_out s) (cs_proms s).
(* environment.cc scm_env_search_entry 4-28 *)
Fixpoint c_chain (s : cstate) (c : list nat) (x : list Z) : option (nat * cval) :=
  match c with
  | [] => None
  | a :: r => match c_assoc x (c_frame s a) with Some v => Some (a, v) | None => c_chain s r x end
  end.
(* environment.cc scm_env_search_entry 4-28 *)
Definition c_entry (s : cstate) (e : env) (x : list Z) (search_parent : bool) : option (nat * cval) :=
  c_chain s (if search_parent then e_chain e else firstn 1 (e_chain e)) x.
(* environment.cc scm_env_insert 30-45 *)
Fixpoint c_assoc_set (x : list Z) (v : cval) (l : list (list Z * cval)) : option (list (list Z * cval)) :=
  match l with
  | [] => None
  | (k, w) :: r =>
      if beq k x then Some ((k, v) :: r)
      else match c_assoc_set x v r with Some r' => Some ((k, w) :: r') | None => None end
  end.
(* environment.cc scm_env_insert 30-45 *)
Definition c_put (x : list Z) (v : cval) (l : list (list Z * cval)) : list (list Z * cval) :=
  match c_assoc_set x v l with Some l' => l' | None => (x, v) :: l end.
(* environment.cc scm_env_insert 30-45 without parent search *)
Definition c_insert (s : cstate) (e : env) (x : list Z) (v : cval) : cstate :=
  match c_entry s e x false, e_chain e with
  | Some (a, _), _ => c_set_frame s a (c_put x v (c_frame s a))
  | None, a :: _ => c_set_frame s a ((x, v) :: c_frame s a)
  | None, [] => s
  end.
(* environment.cc scm_env_insert 30-45 with parent search *)
Definition c_insert_up (s : cstate) (e : env) (x : list Z) (v : cval) : cstate :=
  match c_entry s e x true, e_chain e with
  | Some (a, _), _ => c_set_frame s a (c_put x v (c_frame s a))
  | None, a :: _ => c_set_frame s a ((x, v) :: c_frame s a)
  | None, [] => s
  end.
(* environment.cc scm_env_exist 47-55 *)
Definition c_exist (s : cstate) (e : env) (x : list Z) : option cval :=
  match c_entry s e x false with Some (_, v) => Some v | None => None end.
(* module.cc module_obarray_lookup 69-88 *)
Definition c_ob (s : cstate) (m : nat) (x : list Z) : option cval := c_assoc x (cm_ob (c_mod s m)).
(* hash_table.cc 267-286 on an obarray *)
Definition c_ob_set (s : cstate) (m : nat) (x : list Z) (v : cval) : cstate :=
  let k := c_mod s m in
  mkCS (cs_cells s) (cs_frames s) (upd (cs_mods s) m (mkCMod (c_put x v (cm_ob k)) (cm_uses k))) (cs_cur s) (cs_out s) (cs_proms s).
(* module.cc module_search_variable 93-190, step 2 *)
Fixpoint c_uses (s : cstate) (l : list nat) (x : list Z) : option (nat * cval) :=
  match l with
  | [] => None
  | u :: r => match c_ob s u x with Some v => Some (u, v) | None => c_uses s r x end
  end.
(* module.cc module_search_variable 93-190, steps 1-3, and module_find_variable_module 195-223 *)
Definition c_find (s : cstate) (m : nat) (x : list Z) : option (nat * cval) :=
  match c_ob s m x with
  | Some v => Some (m, v)
  | None =>
      match c_uses s (cm_uses (c_mod s m)) x with
      | Some r => Some r
      | None =>
          if Nat.eqb m root then None
          else match c_ob s root x with Some v => Some (root, v) | None => None end
      end
  end.
(* module.cc module_search_variable 93-190 *)
Definition c_modsearch (s : cstate) (m : nat) (x : list Z) : option cval :=
  match c_find s m x with Some (_, v) => Some v | None => None end.
(* environment.cc scm_env_search 57-129 *)
Definition c_search (s : cstate) (e : env) (x : list Z) : option cval :=
  match c_exist s e x with
  | Some v => Some v
  | None =>
      match c_entry s e x true with
      | Some (_, v) => Some v
      | None =>
          match (match e_mod e with Some m => c_modsearch s m x | None => None end) with
          | Some v => Some v
          | None => match c_modsearch s (cs_cur s) x with Some v => Some v | None => c_assoc x (c_frame s 0) end
          end
      end
  end.
(* eval.cc 297-329: the operator of a call; no object of the core is a macro *)
Definition c_head (s : cstate) (e : env) (x : list Z) : option cval :=
  match c_exist s e x with
  | Some v => Some v
  | None =>
      if Nat.eqb (cs_cur s) root then None
      else match c_ob s (cs_cur s) x with
           | Some v => Some v
           | None => match c_uses s (cm_uses (c_mod s (cs_cur s))) x with Some (_, v) => Some v | None => None end
           end
  end.
(* eval.cc eval_set 72-122 *)
Definition c_set (s : cstate) (e : env) (x : list Z) (v : cval) : cstate :=
  match c_entry s e x true with
  | Some (a, _) => c_set_frame s a (c_put x v (c_frame s a))
  | None =>
      match c_find s (cs_cur s) x with
      | Some (m, _) => c_ob_set s m x v
      | None => c_insert s e x v
      end
  end.
(* define.cc eval_define 4-55 *)
Definition c_define_var (s : cstate) (e : env) (x : list Z) (v : cval) : cstate :=
  match e_chain e with
  | _ :: _ :: _ => match e_mod e with Some m => c_ob_set s m x v | None => c_insert s e x v end
  | _ =>
      match c_assoc x (c_frame s 0) with
      | Some _ => c_set_frame s 0 (c_put x v (c_frame s 0))
      | None => c_ob_set s (cs_cur s) x v
      end
  end.
(* define.cc 56-173 *)
Definition c_define_proc (s : cstate) (x : list Z) (v : cval) : cstate := c_ob_set s (cs_cur s) x v.
(* pscm.h make_env 200-207 *)
Definition c_make_env (parent : env) : CM env := fun s =>
  (CRet (mkEnv (length (cs_frames s) :: e_chain parent) (e_mod parent))
        (mkCS (cs_cells s) (cs_frames s ++ [[]]) (cs_mods s) (cs_cur s) (cs_out s) (cs_proms s)), []).
(* model only: reading the globals *)
Definition cgets {A} (f : cstate -> A) : CM A := fun s => (CRet (f s) s, []).
(* model only: writing the globals *)
Definition cmodify (f : cstate -> cstate) : CM unit := fun s => (CRet tt (f s), []).
(* eval.cc lookup_symbol 159-165 *)
Definition clookup (e : env) (x : list Z) : CM cval :=
  do! r := cgets (fun s => c_search s e x) in match r with Some v => cret v | None => cerr end.
(* pscm.h 233-236: everything but #f is true *)
Definition c_truthy (v : cval) : bool := match v with CBool false => false | _ => true end.
(* symbol.cc create_sym 53-64 *)
Definition csym (s : string) : cval := CSym (bs s).
(* pscm.h is_sym_val 1070-1072 *)
Definition csym_val (v : cval) (s : string) : bool := match v with CSym x => beq x (bs s) | _ => false end.
(* pscm.h cdr 601-624 *)
Definition ccdr (q : nat) : CM cval :=
  do! cq := get q in
  match c_next cq with
  | None => cret CNil
  | Some r => do! cr := get r in
              cret (match c_next cr with None => if c_dot cr then c_data cr else CPair r | _ => CPair r end)
  end.
(* list.cc scm_list2 9-12 of the symbol quote and a value: apply.cc 324-330, map.cc 87-91, for_each.cc 113-116 *)
Fixpoint cquote_all (vs : list cval) : CM (list cval) :=
  match vs with
  | [] => cret []
  | v :: r => do! l := alloc_list [csym "quote"; v] in do! ls := cquote_all r in cret (as_list l :: ls)
  end.

Section Eval.
(** The primitives that do not call the evaluator: a value, the new list nodes, some output;
    None: an error. *)
Variable cprim : list Z -> list cval -> list cell -> option (cval * list cell * list Z).
Section Step.
(** [ev e own x]: the recursive call of eval_with_env; [own]: the first node of x was made
    by the evaluator for this call. *)
Variable ev : env -> bool -> cval -> CM cval.

(* eval.cc eval_with_list 10-18; the rest of the list is read after its element was evaluated *)
Fixpoint cbody (k : nat) (e : env) (a : nat) : CM cval :=
  match k with
  | O => cfuel
  | S k =>
      do! c := get a in
      do! v := ev e false (c_data c) in
      do! c2 := get a in
      match c_next c2 with None => cret v | Some b => cbody k e b end
  end.
(* eval.cc eval_list_with_env 20-31 *)
Fixpoint cargs (k : nat) (e : env) (l : option nat) : CM (list cval) :=
  match l, k with
  | None, _ => cret []
  | Some _, O => cfuel
  | Some a, S k =>
      do! c := get a in
      do! v := ev e false (c_data c) in
      do! c2 := get a in
      do! vs := cargs k e (c_next c2) in
      cret (v :: vs)
  end.
(* procedure.cc apply_procedure 124-130: the last parameter *)
Fixpoint clast (k : nat) (a : nat) : CM cell :=
  match k with
  | O => cfuel
  | S k => do! c := get a in match c_next c with None => cret c | Some b => clast k b end
  end.
(* procedure.cc apply_procedure 116-140 *)
Definition crest (k : nat) (p : option nat) : CM bool :=
  match p with
  | None => cret false
  | Some a => do! c := clast k a in cret (c_dot c && match c_data c with CSym _ => true | _ => false end)
  end.
(* procedure.cc apply_procedure 147-157, 196-204: the rest argument *)
Definition bind_rest (k : nat) (ce fe : env) (y : list Z) (args : option nat) : CM unit :=
  do! vs := cargs k ce args in
  do! l := alloc_list vs in
  cmodify (fun s => c_insert s fe y (as_list l)).
(* the loop of procedure.cc apply_procedure 165-245; true: parameters and arguments match *)
Fixpoint cbind_loop (k : nat) (ce fe : env) (rest : bool) (params args : option nat) : CM bool :=
  match params, args with
  | Some p, Some a =>
      match k with
      | O => cfuel
      | S k =>
          do! cp := get p in
          match c_data cp with
          | CSym x =>
              do! ca := get a in
              do! v := ev ce false (c_data ca) in
              do! _ := cmodify (fun s => c_insert s fe x v) in
              do! ca2 := get a in
              match (if rest then c_next cp else None) with
              | Some q =>                                         (* 167: is this the last but one? *)
                  do! cq := get q in
                  match c_next cq, c_data cq with
                  | None, CSym y => do! _ := bind_rest k ce fe y (c_next ca2) in cret true
                  | _, _ => cbind_loop k ce fe rest (c_next cp) (c_next ca2)
                  end
              | None => cbind_loop k ce fe rest (c_next cp) (c_next ca2)
              end
          | _ => cerr
          end
      end
  | None, None => cret true
  | _, _ => cret rest
  end.
(* procedure.cc apply_procedure 99-264 *)
Definition capply (k : nat) (ce : env) (p : option nat) (b : nat) (pe : env) (args : option nat) : CM cval :=
  do! fe := c_make_env pe in
  do! rest := crest k p in
  match (if rest then p else None) with
  | Some q =>
      do! cq := get q in
      match c_next cq, c_data cq with
      | None, CSym y => do! _ := bind_rest k ce fe y args in cbody k fe b
      | _, _ => do! ok := cbind_loop k ce fe rest p args in if (ok : bool) then cbody k fe b else cerr
      end
  | None => do! ok := cbind_loop k ce fe rest p args in if (ok : bool) then cbody k fe b else cerr
  end.
(* procedure.cc apply_procedure_with_values 6-96: the arguments are values; the rest list is what
   is left of the argument list *)
Fixpoint cbind_values (k : nat) (fe : env) (rest : bool) (params args : option nat) : CM unit :=
  match params, k with
  | None, _ => match args with None => cret tt | Some _ => cerr end
  | Some _, O => cfuel
  | Some p, S k =>
      do! cp := get p in
      match (if rest then c_next cp else Some p), c_data cp with
      | None, CSym y => cmodify (fun s => c_insert s fe y (as_list args))
      | _, CSym x =>
          match args with
          | Some a =>
              do! ca := get a in
              do! _ := cmodify (fun s => c_insert s fe x (c_data ca)) in
              cbind_values k fe rest (c_next cp) (c_next ca)
          | None => cerr
          end
      | _, _ => cerr
      end
  end.
(* procedure.cc apply_procedure_with_values 6-96 *)
Definition capply_vals (k : nat) (p : option nat) (b : nat) (pe : env) (args : option nat) : CM cval :=
  do! fe := c_make_env pe in
  do! rest := crest k p in
  do! _ := cbind_values k fe rest p args in
  cbody k fe b.
(* delay.cc eval_delay 6-35 *)
Definition cdelay (e : env) (x : cval) : CM cval :=
  do! b := alloc (mkCell x None false) in
  fun s => (CRet (CPromise (length (cs_proms s)))
                 (mkCS (cs_cells s) (cs_frames s) (cs_mods s) (cs_cur s) (cs_out s) (cs_proms s ++ [mkCProm b e None])), []).
(* delay.cc scm_c_force 104-107 *)
Definition c_set_promise (a : nat) (v : cval) (s : cstate) : cstate :=
  mkCS (cs_cells s) (cs_frames s) (cs_mods s) (cs_cur s) (cs_out s)
    (match nth_error (cs_proms s) a with Some p => upd (cs_proms s) a (mkCProm (cp_body p) (cp_env p) (Some v)) | None => cs_proms s end).
(* delay.cc scm_c_force 55-108 *)
Definition cforce (k : nat) (v : cval) : CM cval :=
  match v with
  | CPromise a =>
      do! p := cgets (fun s => nth_error (cs_proms s) a) in
      match p with
      | None => cfuel
      | Some p =>
          match cp_val p with
          | Some w => cret w
          | None =>
              do! r := capply k (cp_env p) None (cp_body p) (cp_env p) None in
              do! q := cgets (fun s => match nth_error (cs_proms s) a with Some q => cp_val q | None => None end) in
              match q with
              | Some w => cret w
              | None => do! _ := cmodify (c_set_promise a r) in cret r
              end
          end
      end
  | _ => cerr
  end.
(* function.cc eval_with_func 29-108; the names are those of EvalModel.call_func *)
Definition ccall (k : nat) (nm : list Z) (arity : Z) (args : list cval) : CM cval :=
  let run : CM cval :=
    if beq nm (bs "force") then match args with v :: _ => cforce k v | [] => cerr end
    else if beq nm (bs "eval") then match args with v :: _ => ev g_env false v | [] => cerr end
    else if beq nm (bs "values") then do! l := alloc_list args in cret (as_list l)
    else if beq nm (bs "catch") || beq nm (bs "throw") then cother
    else if beq nm (bs "apply") || beq nm (bs "map") || beq nm (bs "map-in-order") || is_callcc nm then cerr
    else fun s => match cprim nm args (cs_cells s) with
                  | Some (v, new, o) => (CRet v (mkCS (cs_cells s ++ new) (cs_frames s) (cs_mods s) (cs_cur s) (cs_out s ++ o) (cs_proms s)), [])
                  | None => (CErr s, [])
                  end in
  if (0 <=? arity) && (arity <=? 3) then
    if Z.of_nat (length args) =? arity then run else (fun s => (CWrong (CFunc nm arity) s, []))
  else if (arity =? -1) || (arity =? -2) then run
  else cerr.
(* eval.cc eval_lambda 124-154, with make_proc, pscm.h 172-188 *)
Definition clambda (e : env) (spec : cval) (body : option nat) : CM cval :=
  do! p := (match spec with
            | CSym _ => do! a := alloc (mkCell spec None true) in cret (Some a)
            | CPair a => cret (Some a)
            | CNil => cret None
            | _ => cerr
            end) in
  do! b := (match body with Some b => cret b | None => alloc (mkCell CNil None false) end) in
  cret (CProc p b e).
(* model only: is the list written without a dot? *)
Definition cproper (k : nat) (l : option nat) : CM bool :=
  match l with None => cret true | Some a => do! c := clast k a in cret (negb (c_dot c)) end.
(* let.cc 190-206, 380-401: the variables and inits of a binding list; [named]: 58-59, map, pscm.h 672-694,
   with car and cadr *)
Fixpoint csplit (named : bool) (k : nat) (l : option nat) : CM (list cval * list cval) :=
  match l, k with
  | None, _ => cret ([], [])
  | Some _, O => cfuel
  | Some a, S k =>
      do! c := get a in
      match c_data c with
      | CPair q =>
          do! cq := get q in
          match c_next cq with
          | Some r =>
              do! cr := get r in
              do! p := csplit named k (c_next c) in
              cret (c_data cq :: fst p, c_data cr :: snd p)
          | None => if named then cerr else cabort
          end
      | _ => if named then cerr else cabort
      end
  end.
(* let.cc 413-423: the elements of a list *)
Fixpoint celems (k : nat) (l : option nat) : CM (list cval) :=
  match l, k with
  | None, _ => cret []
  | Some _, O => cfuel
  | Some a, S k => do! c := get a in do! vs := celems k (c_next c) in cret (c_data c :: vs)
  end.
(* let.cc expand_let 11-22, 208-212: ((lambda params body ...) args ...) *)
Definition call_lambda (params : cval) (b : nat) (args : option nat) : CM cval :=
  do! lp := alloc (mkCell params (Some b) false) in
  do! ll := alloc (mkCell (csym "lambda") (Some lp) false) in
  do! r := alloc (mkCell (CPair ll) args false) in
  cret (CPair r).
(* let.cc expand_let 133-136: the names __temp_N *)
Fixpoint ctemps (k : Z) (is : list cval) : list cval :=
  match is with [] => [] | _ :: r => CSym (bs "__temp_" ++ dec k) :: ctemps (k + 1) r end.
(* let.cc expand_let 139-141: one (__temp_N init) *)
Fixpoint clist2 (ps : list (cval * cval)) : CM (list cval) :=
  match ps with
  | [] => cret []
  | (x, i) :: r => do! l := alloc_list [x; i] in do! ls := clist2 r in cret (as_list l :: ls)
  end.
(* let.cc 74-75, 98-99, 174: (letrec ((f (lambda params body))) call) *)
Definition cnamed_rec (f params body call : cval) : CM cval :=
  do! ll := alloc_list [csym "lambda"; params; body] in
  do! lb := alloc_list [f; as_list ll] in
  do! l1 := alloc_list [as_list lb] in
  do! r := alloc_list [csym "letrec"; as_list l1; call] in
  cret (as_list r).
(* let.cc expand_let 29-186: named let *)
Definition cnamed_let (k : nat) (f : cval) (b : nat) : CM cval :=
  do! cb := get b in
  match c_next cb with
  | None => cabort
  | Some d =>
      do! cd := get d in
      match c_data cb with
      | CNil => do! cl := alloc_list [f] in cnamed_rec f CNil (c_data cd) (as_list cl)
      | CPair q =>
          do! p := csplit true k (Some q) in
          let ts := ctemps 0 (snd p) in
          do! bs := clist2 (combine ts (snd p)) in
          do! bl := alloc_list bs in
          do! px := alloc_list (fst p) in
          do! cl := alloc_list (f :: ts) in
          do! r := cnamed_rec f (as_list px) (c_data cd) (as_list cl) in
          do! l := alloc_list [csym "let"; as_list bl; r] in
          cret (as_list l)
      | _ => cerr
      end
  end.
(* let.cc expand_let 4-244 *)
Definition cexpand_let (k : nat) (args : option nat) : CM cval :=
  match args with
  | None => cabort
  | Some a =>
      do! ca := get a in
      match c_next ca with
      | None => cabort
      | Some b =>
          do! ok := cproper k (Some b) in
          if negb ok then cother else
          match c_data ca with
          | CNil => call_lambda CNil b None
          | CPair q =>
              do! p := csplit false k (Some q) in
              do! px := alloc_list (fst p) in
              do! pi := alloc_list (snd p) in
              call_lambda (as_list px) b pi
          | CSym _ => cnamed_let k (c_data ca) b
          | _ => cabort
          end
      end
  end.
(* let.cc expand_letstar 246-330; cdr is pscm.h 601-624 *)
Definition cexpand_letstar (k : nat) (args : option nat) : CM cval :=
  match args with
  | None => cabort
  | Some a =>
      do! ca := get a in
      match c_next ca with
      | None => cabort
      | Some b =>
          do! ok := cproper k (Some b) in
          if negb ok then cother else
          match c_data ca with
          | CNil => call_lambda CNil b None
          | CPair q =>
              do! cq := get q in
              do! rest := (match c_next cq with
                           | None => cret CNil
                           | Some r => do! cr := get r in
                                       cret (match c_next cr with None => if c_dot cr then c_data cr else CPair r | _ => CPair r end)
                           end) in
              match rest with
              | CNil => do! n := alloc (mkCell (csym "let") (Some a) false) in cret (CPair n)
              | _ =>
                  do! e1 := alloc (mkCell (c_data cq) None false) in
                  do! s1 := alloc (mkCell rest (Some b) false) in
                  do! s2 := alloc (mkCell (csym "let*") (Some s1) false) in
                  do! l := alloc_list [csym "let"; CPair e1; CPair s2] in
                  cret (as_list l)
              end
          | _ => cerr
          end
      end
  end.
(* let.cc expand_letrec 393-401: one (x #f), one (set! x init) *)
Fixpoint letrec_params (xs : list cval) : CM (list cval) :=
  match xs with
  | [] => cret []
  | x :: r => do! l := alloc_list [x; CBool false] in do! ls := letrec_params r in cret (as_list l :: ls)
  end.
(* let.cc expand_letrec 393-401 *)
Fixpoint letrec_sets (ps : list (cval * cval)) : CM (list cval) :=
  match ps with
  | [] => cret []
  | (x, i) :: r => do! l := alloc_list [csym "set!"; x; i] in do! ls := letrec_sets r in cret (as_list l :: ls)
  end.
(* let.cc expand_letrec 355-438 *)
Definition cexpand_letrec (k : nat) (args : option nat) : CM cval :=
  match args with
  | None => cabort
  | Some a =>
      do! ca := get a in
      match c_next ca with
      | None => cabort
      | Some b =>
          do! ok := cproper k (Some b) in
          if negb ok then cother else
          match c_data ca with
          | CNil => call_lambda CNil b None
          | CPair q =>
              do! p := csplit false k (Some q) in
              do! ps := letrec_params (fst p) in
              do! pl := alloc_list ps in
              do! ss := letrec_sets (combine (fst p) (snd p)) in
              do! es := celems k (Some b) in
              do! l := alloc_list (csym "let" :: as_list pl :: ss ++ es) in
              cret (as_list l)
          | _ => cabort
          end
      end
  end.
(* define.cc 64-100: the curried forms *)
Fixpoint ccurry (k : nat) (key : cval) (vals : option nat) : CM (cval * option nat) :=
  match key, k with
  | CPair _, O => cfuel
  | CPair q, S k =>
      do! cq := get q in
      do! lp := alloc (mkCell (as_list (c_next cq)) vals false) in
      do! ll := alloc (mkCell (csym "lambda") (Some lp) false) in
      do! nv := alloc (mkCell (CPair ll) None false) in
      ccurry k (c_data cq) (Some nv)
  | _, _ => cret (key, vals)
  end.
(* define.cc eval_define 4-173 *)
Definition cdefine (k : nat) (e : env) (args : option nat) : CM cval :=
  match args with
  | None => cub
  | Some a =>
      do! ca := get a in
      match c_data ca with
      | CSym x =>
          match c_next ca with
          | None => cerr
          | Some b =>
              do! cb := get b in
              do! v := ev e false (c_data cb) in
              do! _ := cmodify (fun s => c_define_var s e x v) in
              cret CNone
          end
      | CNil => cub
      | key =>
          do! ok := cproper k (c_next ca) in
          if negb ok then cother else
          do! p := ccurry k key (c_next ca) in
          match p with
          | (CSym x, Some nv) =>
              do! cn := get nv in
              match c_data cn with
              | CPair ll =>
                  do! cl := get ll in
                  match c_next cl with
                  | Some lp =>
                      do! cp := get lp in
                      do! v := clambda e (c_data cp) (c_next cp) in
                      do! _ := cmodify (fun s => c_define_proc s x v) in
                      cret CNone
                  | None => cerr
                  end
              | _ => cerr
              end
          | _ => cerr
          end
      end
  end.
(* eval.cc eval_set 72-122 *)
Definition cset_form (e : env) (args : option nat) : CM cval :=
  match args with
  | None => cabort
  | Some a =>
      do! ca := get a in
      match c_data ca with
      | CSym x =>
          match c_next ca with
          | None => cub
          | Some b =>
              do! cb := get b in
              do! v := ev e false (c_data cb) in
              do! _ := cmodify (fun s => c_set s e x v) in
              cret CNone
          end
      | _ => cabort
      end
  end.
(* eval.cc eval_if 168-181; the branches are read after the test was evaluated *)
Definition cif (e : env) (args : option nat) : CM cval :=
  match args with
  | None => cabort
  | Some a =>
      do! ca := get a in
      do! p := ev e false (c_data ca) in
      do! ca2 := get a in
      match c_next ca2 with
      | None => cub
      | Some b =>
          do! cb := get b in
          if c_truthy p then ev e false (c_data cb)
          else match c_next cb with None => cret CNone | Some d => do! cd := get d in ev e false (c_data cd) end
      end
  end.
(* eval.cc eval_and 184-206, eval_or 209-231 *)
Fixpoint candor (k : nat) (is_and : bool) (e : env) (l : option nat) : CM cval :=
  match l, k with
  | None, _ => cret (CBool is_and)
  | Some _, O => cfuel
  | Some a, S k =>
      do! c := get a in
      do! v := ev e false (c_data c) in
      do! c2 := get a in
      match c_next c2 with
      | None => cret v
      | nx => if Bool.eqb (c_truthy v) is_and then candor k is_and e nx else cret (if is_and then CBool false else v)
      end
  end.
(* eval.cc eval_with_list 10-18 of a pointer: it asserts that there is a list *)
Definition cseq (k : nat) (e : env) (l : option nat) : CM cval := match l with None => cabort | Some a => cbody k e a end.
(* cond.cc 51-52, eval.cc 424-433: (f (quote v)), in nodes made for the call *)
Definition ccall1 (e : env) (f v : cval) : CM cval :=
  do! q := alloc_list [csym "quote"; v] in
  do! a := alloc (mkCell (as_list q) None false) in
  do! b := alloc (mkCell f (Some a) false) in
  ev e true (CPair b).
(* cond.cc eval_cond 11-69 *)
Fixpoint ccond (k : nat) (e : env) (l : option nat) : CM cval :=
  match l, k with
  | None, _ => cret CNone
  | Some _, O => cfuel
  | Some a, S k =>
      do! c := get a in
      match c_data c with
      | CNil => cub
      | CPair q =>
          do! cq := get q in
          if csym_val (c_data cq) "else" then cseq k e (c_next cq)
          else
            do! p := ev e false (c_data cq) in
            if c_truthy p then
              do! cq2 := get q in
              match c_next cq2 with
              | None => cret (CBool true)
              | Some b =>
                  do! cb := get b in
                  do! arrow := cgets (fun s => csym_val (c_data cb) "=>" && match c_exist s e (bs "=>") with None => true | Some _ => false end) in
                  if (arrow : bool) then
                    match c_next cb with
                    | None => cabort
                    | Some d =>
                        do! cd := get d in
                        do! f := ev e false (c_data cd) in
                        match f with
                        | CSym x =>
                            do! g := cgets (fun s => c_exist s e x) in
                            match g with Some g => ccall1 e g p | None => cret f end
                        | _ => ccall1 e f p
                        end
                    end
                  else cbody k e b
              end
            else do! c2 := get a in ccond k e (c_next c2)
      | _ => cerr
      end
  end.
(* eq.cc _eq 151-208, _list_eq 95-109; two procedures are equal if they are one object, which
   the model does not know *)
Fixpoint ceq (k : nat) (x y : cval) : CM bool :=
  match k with
  | O => cfuel
  | S k =>
      match x, y with
      | CNone, CNone | CNil, CNil => cret true
      | CBool a, CBool b => cret (Bool.eqb a b)
      | CInt a, CInt b | CChar a, CChar b => cret (a =? b)
      | CStr a, CStr b | CSym a, CSym b => cret (beq a b)
      | CPair a, CPair b =>
          (fix go (m : nat) (l r : option nat) : CM bool :=
             match l, r with
             | None, None => cret true
             | Some a, Some b =>
                 match m with
                 | O => cfuel
                 | S m =>
                     do! ca := get a in
                     do! cb := get b in
                     do! t := ceq k (c_data ca) (c_data cb) in
                     if (t : bool) then go m (c_next ca) (c_next cb) else cret false
                 end
             | _, _ => cret false
             end) k (Some a) (Some b)
      | CProc _ _ _, CProc _ _ _ | CFunc _ _, CFunc _ _ => cother
      | CPromise _, CPromise _ => cother
      | _, _ => cret false
      end
  end.
(* case.cc value_in_datums 9-20 *)
Fixpoint cmember (k : nat) (key : cval) (l : option nat) : CM bool :=
  match l, k with
  | None, _ => cret false
  | Some _, O => cfuel
  | Some a, S k =>
      do! c := get a in
      do! t := ceq k key (c_data c) in
      if (t : bool) then cret true else cmember k key (c_next c)
  end.
(* case.cc eval_case 38-62 *)
Fixpoint ccase_clauses (k : nat) (e : env) (key : cval) (l : option nat) : CM cval :=
  match l, k with
  | None, _ => cret (CBool false)
  | Some _, O => cfuel
  | Some a, S k =>
      do! c := get a in
      match c_data c with
      | CNil => cub
      | CPair q =>
          do! cq := get q in
          if csym_val (c_data cq) "else" then cseq k e (c_next cq)
          else
            match c_data cq with
            | CNil => ccase_clauses k e key (c_next c)
            | CPair ds =>
                do! t := cmember k key (Some ds) in
                if (t : bool) then cseq k e (c_next cq) else ccase_clauses k e key (c_next c)
            | _ => cerr
            end
      | _ => cerr
      end
  end.
(* case.cc eval_case 24-68 *)
Definition ccase (k : nat) (e : env) (l : option nat) : CM cval :=
  match l with
  | None => cabort
  | Some a =>
      do! c := get a in
      do! key := ev e false (c_data c) in
      do! c2 := get a in
      ccase_clauses k e key (c_next c2)
  end.
(* do.cc eval_do 115-172 *)
Fixpoint cdo_inits (k : nat) (e de : env) (l : option nat) : CM (list (list Z * cval)) :=
  match l, k with
  | None, _ => cret []
  | Some _, O => cfuel
  | Some a, S k =>
      do! c := get a in
      match c_data c with
      | CPair q =>
          do! cq := get q in
          match c_data cq, c_next cq with
          | CSym x, Some i =>
              do! ci := get i in
              do! v := ev e false (c_data ci) in
              do! ci2 := get i in
              do! st := (match c_next ci2 with None => cret None | Some r => do! cr := get r in cret (Some (c_data cr)) end) in
              do! _ := cmodify (fun s => c_insert_up s de x v) in
              do! c2 := get a in
              do! ss := cdo_inits k e de (c_next c2) in
              cret (match st with Some y => (x, y) :: ss | None => ss end)
          | _, _ => cerr
          end
      | _ => cerr
      end
  end.
(* do.cc update_do_variables 33-76: the steps *)
Fixpoint cevals (e : env) (xs : list cval) : CM (list cval) :=
  match xs with
  | [] => cret []
  | x :: r => do! v := ev e false x in do! vs := cevals e r in cret (v :: vs)
  end.
(* do.cc update_do_variables 78-83 *)
Fixpoint cinsert_all (de : env) (xs : list (list Z * cval)) (vs : list cval) : CM unit :=
  match xs, vs with
  | (x, _) :: xs', v :: vs' => do! _ := cmodify (fun s => c_insert_up s de x v) in cinsert_all de xs' vs'
  | _, _ => cret tt
  end.
(* do.cc eval_do 229-238 *)
Fixpoint cresults (k : nat) (e : env) (l : option nat) (acc : cval) : CM cval :=
  match l, k with
  | None, _ => cret acc
  | Some _, O => cfuel
  | Some a, S k => do! c := get a in do! v := ev e false (c_data c) in do! c2 := get a in cresults k e (c_next c2) v
  end.
(* do.cc eval_do 186-238; [q]: the test clause *)
Fixpoint cdo_loop (m k : nat) (de : env) (q : nat) (body : option nat) (steps : list (list Z * cval)) : CM cval :=
  match m with
  | O => cfuel
  | S m =>
      do! cq := get q in
      do! t := ev de false (c_data cq) in
      match t with
      | CBool false =>
          do! _ := cargs k de body in
          do! vs := cevals de (map snd steps) in
          do! _ := cinsert_all de steps vs in
          cdo_loop m k de q body steps
      | CBool true =>
          do! r := ccdr q in
          match r with
          | CNil => cret CNone
          | CPair es => cresults k de (Some es) CNone
          | _ => cerr
          end
      | _ => cerr
      end
  end.
(* do.cc eval_do 89-239; the test clause and the body are found before anything is evaluated *)
Definition cdo (k : nat) (e : env) (l : option nat) : CM cval :=
  match l with
  | None => cabort
  | Some a =>
      do! ca := get a in
      match c_next ca with
      | None => cabort
      | Some b =>
          do! vars := (match c_data ca with CPair q => cret (Some q) | CNil => cret None | _ => cerr end) in
          do! cb := get b in
          do! de := c_make_env e in
          do! steps := cdo_inits k e de vars in
          match c_data cb with
          | CPair q => cdo_loop k k de q (c_next cb) steps
          | _ => cerr
          end
      end
  end.
(* for_each.cc count_list_length 5-12 *)
Fixpoint clen (k : nat) (l : option nat) : CM nat :=
  match l, k with
  | None, _ => cret 0%nat
  | Some _, O => cfuel
  | Some a, S k => do! c := get a in do! n := clen k (c_next c) in cret (S n)
  end.
(* for_each.cc eval_for_each 66-80, map.cc 60-71: an argument that is to be a list *)
Definition cas_list (v : cval) : CM (option nat) := match v with CPair q => cret (Some q) | CNil => cret None | _ => cerr end.
(* for_each.cc eval_for_each 66-80 *)
Fixpoint ceval_n_lists (e : env) (n : nat) (l : option nat) : CM (list (option nat)) :=
  match n with
  | O => cret []
  | S n =>
      match l with
      | None => cerr
      | Some a =>
          do! c := get a in
          do! v := ev e false (c_data c) in
          do! p := cas_list v in
          do! c2 := get a in
          do! ls := ceval_n_lists e n (c_next c2) in
          cret (p :: ls)
      end
  end.
(* map.cc eval_map 60-71 *)
Fixpoint ceval_lists (k : nat) (e : env) (l : option nat) : CM (list (option nat)) :=
  match l, k with
  | None, _ => cret []
  | Some _, O => cfuel
  | Some a, S k =>
      do! c := get a in
      do! v := ev e false (c_data c) in
      do! p := cas_list v in
      do! c2 := get a in
      do! ls := ceval_lists k e (c_next c2) in
      cret (p :: ls)
  end.
(* for_each.cc 82-146, map.cc 78-121: the first nodes of the lists *)
Fixpoint cnodes (ls : list (option nat)) : CM (list (option cell)) :=
  match ls with
  | [] => cret []
  | None :: r => do! cs := cnodes r in cret (None :: cs)
  | Some a :: r => do! c := get a in do! cs := cnodes r in cret (Some c :: cs)
  end.
(* for_each.cc is_list_exhausted 15-17 *)
Definition c_exhausted (c : option cell) : bool :=
  match c with None => true | Some c => match c_data c with CNil => true | _ => false end end.
(* model only: the elements in these nodes, and the nodes after them *)
Definition cdatas (cs : list (option cell)) : list cval := map (fun c => match c with Some c => c_data c | None => CNone end) cs.
(* model only *)
Definition cnexts (cs : list (option cell)) : list (option nat) := map (fun c => match c with Some c => c_next c | None => None end) cs.
(* for_each.cc eval_for_each 82-146 *)
Fixpoint ceach_rows (k : nat) (e : env) (f : cval) (ls : list (option nat)) : CM cval :=
  match k with
  | O => cfuel
  | S k =>
      do! cs := cnodes ls in
      if forallb c_exhausted cs then cret CNone
      else if existsb c_exhausted cs then cerr
      else
        do! qs := cquote_all (cdatas cs) in
        do! l := alloc_list qs in
        do! b := alloc (mkCell f l false) in
        do! _ := ev e true (CPair b) in
        ceach_rows k e f (cnexts cs)
  end.
(* for_each.cc eval_for_each 34-148 *)
Definition cfor_each (k : nat) (e : env) (l : option nat) : CM cval :=
  match l with
  | None => cabort
  | Some a =>
      do! c := get a in
      do! f := ev e false (c_data c) in
      do! n := (match f with
                | CProc p _ _ => clen k p
                | CFunc _ ar => do! c2 := get a in do! m := clen k (c_next c2) in cret (if ar <? 0 then m else Z.to_nat ar)
                | _ => cerr
                end) in
      if 10 <? Z.of_nat n then cerr
      else
        do! c2 := get a in
        do! ls := ceval_n_lists e n (c_next c2) in
        ceach_rows k e f ls
  end.
(* map.cc eval_map 93-108 *)
Definition ccall_list (k : nat) (e : env) (f : cval) (l : option nat) : CM cval :=
  match f with
  | CProc p b pe => capply k e p b pe l
  | CFunc nm ar => do! vs := cargs k e l in ccall k nm ar vs
  | _ => cerr
  end.
(* map.cc eval_map 78-121 *)
Fixpoint cmap_rows (m k : nat) (e : env) (f : cval) (ls : list (option nat)) : CM (list cval) :=
  match m with
  | O => cfuel
  | S m =>
      do! cs := cnodes ls in
      if existsb (fun c => match c with None => true | Some _ => false end) cs then cret []
      else
        do! qs := cquote_all (cdatas cs) in
        do! l := alloc_list qs in
        do! v := ccall_list k e f l in
        do! vs := cmap_rows m k e f (cnexts cs) in
        cret (v :: vs)
  end.
(* map.cc eval_map 25-135 *)
Definition cmap (k : nat) (e : env) (l : option nat) : CM cval :=
  match l with
  | None => cerr
  | Some a =>
      do! c := get a in
      match c_next c with
      | None => cerr
      | Some _ =>
          do! f := ev e false (c_data c) in
          match f with
          | CProc _ _ _ | CFunc _ _ =>
              do! c2 := get a in
              do! ls := ceval_lists k e (c_next c2) in
              do! vs := cmap_rows k k e f ls in
              do! r := alloc_list vs in
              cret (as_list r)
          | _ => cerr
          end
      end
  end.
(* apply.cc eval_apply 262-266: the last argument *)
Fixpoint clast_at (k : nat) (a : nat) : CM nat :=
  match k with
  | O => cfuel
  | S k => do! c := get a in match c_next c with None => cret a | Some b => clast_at k b end
  end.
(* apply.cc eval_apply 287-299: the arguments before the last one, at z *)
Fixpoint cbefore (k : nat) (e : env) (z : nat) (a : nat) : CM (list cval) :=
  if Nat.eqb a z then cret []
  else
    match k with
    | O => cfuel
    | S k =>
        do! c := get a in
        do! v := ev e false (c_data c) in
        do! c2 := get a in
        match c_next c2 with
        | None => cub
        | Some b => do! vs := cbefore k e z b in cret (v :: vs)
        end
    end.
(* apply.cc eval_apply 169-402, without continuations *)
Fixpoint capply_form (m k : nat) (e : env) (l : option nat) : CM cval :=
  match m with
  | O => cfuel
  | S m =>
      match l with
      | None => cerr
      | Some a =>
          do! c := get a in
          do! f := ev e false (c_data c) in
          match f with
          | CProc _ _ _ | CFunc _ _ =>
              do! c2 := get a in
              match c_next c2 with
              | None => cerr
              | Some b =>
                  do! z := clast_at k b in
                  do! cz := get z in
                  do! lst := ev e false (c_data cz) in
                  do! q := cas_list lst in
                  do! vs := cbefore k e z b in
                  do! els := celems k q in
                  do! qs := cquote_all els in
                  do! al := alloc_list (vs ++ qs) in
                  match f with
                  | CFunc nm ar =>
                      if beq nm (bs "apply") then capply_form m k e al
                      else if beq nm (bs "map") then cmap k e al
                      else if is_callcc nm then cother
                      else ccall_list k e f al
                  | _ => ccall_list k e f al
                  end
              end
          | _ => cerr
          end
      end
  end.
(* values.cc eval_call_with_values 27-86 *)
Definition ccall_with_values (k : nat) (e : env) (l : option nat) : CM cval :=
  match l with
  | None => cerr
  | Some a =>
      do! c := get a in
      match c_next c with
      | None => cerr
      | Some _ =>
          do! f := ev e false (c_data c) in
          match f with
          | CProc _ _ _ | CFunc _ _ =>
              do! r := (match f with CProc p b pe => capply k e p b pe None | CFunc nm ar => ccall k nm ar [] | _ => cerr end) in
              do! vl := (match r with CPair q => cret (Some q) | CNil => cret None | v => do! n := alloc (mkCell v None false) in cret (Some n) end) in
              do! c2 := get a in
              match c_next c2 with
              | None => cub
              | Some b =>
                  do! cb := get b in
                  do! g := ev e false (c_data cb) in
                  match g with
                  | CProc p b pe => capply_vals k p b pe vl
                  | CFunc nm ar => do! vs := celems k vl in ccall k nm ar vs
                  | _ => cerr
                  end
              end
          | _ => cerr
          end
      end
  end.
(* eval.cc eval_with_env 357-514: the special forms; [nx] is l->next *)
Definition cspecial (n : nat) (e : env) (f : form) (nx : option nat) : CM cval :=
  match f with
  | FDefine => cdefine n e nx
  | FLet => do! x := cexpand_let n nx in ev e false x
  | FLetStar => do! x := cexpand_letstar n nx in ev e false x
  | FLetrec => do! x := cexpand_letrec n nx in ev e false x
  | FLambda => match nx with None => cub | Some a => do! c := get a in clambda e (c_data c) (c_next c) end
  | FSet => cset_form e nx
  | FQuote => match nx with None => cret CNil | Some a => do! c := get a in cret (c_data c) end
  | FIf => cif e nx
  | FAnd => candor n true e nx
  | FOr => candor n false e nx
  | FBegin => match nx with None => cret (CBool false) | Some a => cbody n e a end
  | FDelay => match nx with None => cerr | Some a => do! c := get a in cdelay e (c_data c) end
  | FCond => match nx with None => cabort | Some _ => ccond n e nx end
  | FCase => ccase n e nx
  | FDo => cdo n e nx
  | FForEach => cfor_each n e nx
  | FMap => cmap n e nx
  | FApply => capply_form n n e nx
  | FCwv => ccall_with_values n e nx
  | _ => cother
  end.
(* eval.cc eval_with_env 257-927: one pass through "entry" *)
Definition cstep (n : nat) (e : env) (own : bool) (x : cval) : CM cval :=
  match x with
  | CSym s => if match s with c :: _ => c =? 58 | [] => false end then cret x else clookup e s
  | CPair a =>
      do! c := get a in
      match c_data c with
      | CSym s =>
          do! hv := cgets (fun st => c_head st e s) in
          match form_of s with
          | Some f => cspecial n e f (c_next c)
          | None =>
              do! v := (match hv with Some v => cret v | None => clookup e s end) in
              do! b := alloc (mkCell v (c_next c) false) in          (* 541-544 *)
              ev e true (CPair b)
          end
      | CProc p b pe => capply n e p b pe (c_next c)
      | CFunc nm ar =>
          if beq nm (bs "apply") then capply_form n n e (c_next c)      (* 603-624 *)
          else if beq nm (bs "map") || beq nm (bs "map-in-order") then cmap n e (c_next c)
          else if is_callcc nm then cother
          else
            do! vs := cargs n e (c_next c) in
            do! l := alloc_list vs in
            do! _ := set_next own a l in                             (* 676 *)
            ccall n nm ar vs
      | CPair q =>                                                   (* 680-687 *)
          do! f := ev e false (CPair q) in
          do! c2 := get a in
          do! b := alloc (mkCell f (c_next c2) false) in
          ev e true (CPair b)
      | CNone | CPromise _ => cerr
      | h => match c_next c with None => cret h | Some _ => cerr end
      end
  | _ => cret x
  end.
End Step.
(* eval.cc eval_with_env 257-927 *)
Fixpoint ceval (n : nat) (e : env) (own : bool) (x : cval) : CM cval :=
  match n with
  | O => cfuel
  | S n => cstep (ceval n) n e own x
  end.
End Eval.
