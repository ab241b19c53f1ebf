(** Model of environments and modules: src/c/environment.cc, src/c/module.cc,
    src/c/define.cc, eval_set of src/c/eval.cc.

    Representation choices (all observably equivalent for the modelled code):
    - an SCM_Environment is reached only through pointers, and its [parent] and
      [module] fields never change after make_env (pscm.h 200-213), so a pointer
      to an environment is modelled by the list of frame addresses from itself
      to the global environment together with its module field;
    - a module's obarray (an eq? hash table keyed by symbols) is an association
      list: HashProperties (C23, C68) proves that such tables are finite maps;
    - names are the symbols' bytes; symbols never contain NUL (the reader cannot
      produce one), so strcmp is equality.
    Not modelled: module binders and autoload specs (a module here has none),
    loading modules from files, procedure names. *)
From Coq Require Import String.
From Verif Require Import Base ParseModel.
Local Open Scope list_scope.

Notation name := (list Z) (only parsing).
(* pscm_types.h SCM_Environment 167-181 *)
Record env := mkEnv { e_chain : list nat; e_mod : option nat }.

(** Scheme values and programs.  [VList ns d] is a chain of SCM_List nodes with
    contents [ns] (never empty); [d]: the last node has is_dotted set.
    Structure sharing and mutation of pairs are not represented (ListModel has
    the heap). *)
(* pscm_types.h 17-140 *)
Inductive val : Type :=
| VNone | VNil | VBool (b : bool) | VInt (z : Z) | VChar (c : Z)
| VStr (s : list Z) | VSym (n : list Z)
| VList (ns : list val) (dotted : bool)
| VVec (l : list val)
| VProc (params : list val) (rest : bool) (body : list val) (e : env)
| VFunc (n : list Z) (arity : Z)
| VMacro (params : list val) (rest : bool) (body : list val) (e : env)
| VPromise (a : nat)
| VModule (a : nat)
| VCont (k : nat) (m : nat).
    (* k: which call/cc made it (its copied wind chain is in d_conts); m: its
       saved module *)

(* SCM_Module, pscm_types.h 124-135 *)
Record modl := mkMod { m_ob : list (list Z * val); m_uses : list nat; m_exports : list (list Z); m_pub : option nat }.
(* SCM_Promise *)
(* pscm_types.h SCM_Promise 118-122 *)
Record prom := mkProm { pr_body : val; pr_env : env; pr_val : option val }.
(* Dynamic control state (used by EvalModel only): output written so far; the
   catch stack g_catch_stack with its top first, each entry a catch frame and its
   tag (throw.cc 13-30); the catch frames and call/cc calls still on the C
   stack; the next identity; the wind chain g_wind_chain, innermost first, and
   the guards of each wind entry (dynwind.cc 195-206); the wind chain copied by
   each call/cc (continuation.cc 33-68).
   The last three fields are ghosts: nothing in the model reads them.  They
   record the chain below each wind entry when it was made, how often a throw
   left a dynamic-wind (the chain at the throw was not that of the catch), and how often a throw or a continuation jump passed
   over a catch that was not its target. *)
Record dyn := mkDyn {
  d_out : list Z;
  d_catch : list (nat * val);
  d_live : list nat;
  d_next : nat;
  d_wind : list nat;
  d_guards : list (nat * (val * val));
  d_conts : list (nat * list nat);
  d_tails : list (nat * list nat);
  d_caught : nat;
  d_leaked : nat }.
(* the mutable part of the interpreter.  Frame 0 is g_env, module 0 is
   g_root_module (pscm-user) *)
(* eval.cc, module.cc 5-13, environment.cc: the globals *)
Record state := mkState {
  s_frames : list (list (list Z * val));
  s_mods : list modl;
  s_cur : nat;
  s_proms : list prom;
  s_dyn : dyn }.
(* init.cc 8-13: the global environment *)
Definition g_env : env := mkEnv [0%nat] None.

Notation frame := (list (list Z * val)) (only parsing).
(* environment.cc scm_env_search_entry 4-28: the list of one frame *)
Fixpoint assoc (x : list Z) (l : list (list Z * val)) : option val :=
  match l with [] => None | (k, v) :: r => if beq k x then Some v else assoc x r end.
(* model only: the frame behind a pointer of environment.cc *)
Definition frame_at (st : state) (a : nat) : frame := nth a (s_frames st) [].
(* model only: the module behind a pointer of module.cc *)
Definition mod_at (st : state) (m : nat) : modl := nth m (s_mods st) (mkMod [] [] [] None).
(* model only: assignment through a pointer *)
Fixpoint upd {A} (l : list A) (i : nat) (x : A) : list A :=
  match l, i with
  | [], _ => []
  | _ :: r, O => x :: r
  | y :: r, S i => y :: upd r i x
  end.
(* model only: assignment through a pointer, environment.cc 30-45 *)
Definition set_frame (st : state) (a : nat) (f : frame) : state :=
  mkState (upd (s_frames st) a f) (s_mods st) (s_cur st) (s_proms st) (s_dyn st).
(* model only: assignment through a pointer, module.cc 483-500 *)
Definition set_mod (st : state) (m : nat) (x : modl) : state :=
  mkState (s_frames st) (upd (s_mods st) m x) (s_cur st) (s_proms st) (s_dyn st).

(** ** environment.cc *)
(* environment.cc scm_env_search_entry 4-28; the answer is the frame that holds the entry.
   With search_parent = false only the first frame is searched *)
Fixpoint search_chain (st : state) (c : list nat) (x : name) : option (nat * val) :=
  match c with
  | [] => None
  | a :: r => match assoc x (frame_at st a) with Some v => Some (a, v) | None => search_chain st r x end
  end.
(* environment.cc scm_env_search_entry 4-28 *)
Definition search_entry (st : state) (e : env) (x : name) (search_parent : bool) : option (nat * val) :=
  search_chain st (if search_parent then e_chain e else firstn 1 (e_chain e)) x.
(* overwrite the first entry for x, or add one at the head (38-43) *)
(* environment.cc scm_env_insert 30-45 *)
Fixpoint assoc_set (x : name) (v : val) (l : list (list Z * val)) : option (list (list Z * val)) :=
  match l with
  | [] => None
  | (k, w) :: r =>
      if beq k x then Some ((k, v) :: r)
      else match assoc_set x v r with Some r' => Some ((k, w) :: r') | None => None end
  end.
(* environment.cc scm_env_insert 30-45 *)
Definition put (x : name) (v : val) (l : list (list Z * val)) : list (list Z * val) :=
  match assoc_set x v l with Some l' => l' | None => (x, v) :: l end.
(* environment.cc scm_env_insert 30-45 *)
Definition env_insert (st : state) (e : env) (x : name) (v : val) (search_parent : bool) : state :=
  match search_entry st e x search_parent, e_chain e with
  | Some (a, _), _ => set_frame st a (put x v (frame_at st a))
  | None, a :: _ => set_frame st a ((x, v) :: frame_at st a)
  | None, [] => st                     (* no such environment *)
  end.
(* environment.cc scm_env_exist 47-55 *)
Definition env_exist (st : state) (e : env) (x : name) : option val :=
  match search_entry st e x false with Some (_, v) => Some v | None => None end.

(** ** module.cc *)
(* module.cc module_obarray_lookup 69-88 *)
Definition ob_lookup (st : state) (m : nat) (x : name) : option val := assoc x (m_ob (mod_at st m)).
(* scm_c_hash_set on an obarray, module.cc 483-530; hash_table.cc 267-286 is
   HashModel.v *)
Definition ob_set (st : state) (m : nat) (x : name) (v : val) : state :=
  let k := mod_at st m in set_mod st m (mkMod (put x v (m_ob k)) (m_uses k) (m_exports k) (m_pub k)).
(* module.cc module_search_variable 93-190, step 2 *)
Fixpoint uses_lookup (st : state) (l : list nat) (x : name) : option (nat * val) :=
  match l with
  | [] => None
  | u :: r => match ob_lookup st u x with Some v => Some (u, v) | None => uses_lookup st r x end
  end.
(* module.cc module_search_variable 93-190, step 3 *)
Definition root : nat := 0.
(* module.cc module_search_variable 93-190, steps 1-3, and module_find_variable_module
   187-216: the module that holds the variable, and its value *)
Definition mod_find (st : state) (m : nat) (x : name) : option (nat * val) :=
  match ob_lookup st m x with
  | Some v => Some (m, v)
  | None =>
      match uses_lookup st (m_uses (mod_at st m)) x with
      | Some r => Some r
      | None =>
          if Nat.eqb m root then None
          else match ob_lookup st root x with Some v => Some (root, v) | None => None end
      end
  end.
(* module.cc module_search_variable 93-190 *)
Definition mod_search (st : state) (m : nat) (x : name) : option val :=
  match mod_find st m x with Some (_, v) => Some v | None => None end.

(* scm_env_search, environment.cc 57-129 *)
Definition env_search (st : state) (e : env) (x : name) : option val :=
  match env_exist st e x with
  | Some v => Some v
  | None =>
      match search_entry st e x true with
      | Some (_, v) => Some v
      | None =>
          match (match e_mod e with Some m => mod_search st m x | None => None end) with
          | Some v => Some v
          | None =>
              match mod_search st (s_cur st) x with
              | Some v => Some v
              | None => assoc x (frame_at st 0)      (* env == &g_env was searched already *)
              end
          end
      end
  end.
(* the operator position of a call: eval.cc 297-329 *)
Definition is_macro (v : val) : bool := match v with VMacro _ _ _ _ => true | _ => false end.
(* eval.cc eval_with_env 257-927: the operator of a call *)
Definition head_value (st : state) (e : env) (x : name) : option val :=
  match env_exist st e x with
  | Some v => Some v
  | None =>
      match (if Nat.eqb (s_cur st) root then None
             else match ob_lookup st (s_cur st) x with
                  | Some v => Some v
                  | None => match uses_lookup st (m_uses (mod_at st (s_cur st))) x with Some (_, v) => Some v | None => None end
                  end) with
      | Some v => Some v
      | None =>
          match assoc x (frame_at st 0) with
          | Some v => if is_macro v then Some v else None
          | None => None
          end
      end
  end.

(** ** set! and define, the value being already computed *)
(* eval_set, eval.cc 72-122 *)
Definition do_set (st : state) (e : env) (x : name) (v : val) : state :=
  match search_entry st e x true with
  | Some (a, _) => set_frame st a (put x v (frame_at st a))
  | None =>
      match mod_find st (s_cur st) x with
      | Some (m, _) => ob_set st m x v
      | None => env_insert st e x v false
      end
  end.
(* eval_define, define.cc 5-55: (define x value) *)
Definition do_define_var (st : state) (e : env) (x : name) (v : val) : state :=
  match e_chain e with
  | _ :: _ :: _ =>                                   (* env->parent *)
      match e_mod e with
      | Some m => ob_set st m x v
      | None => env_insert st e x v false
      end
  | _ =>
      match assoc x (frame_at st 0) with
      | Some _ => set_frame st 0 (put x v (frame_at st 0))
      | None => ob_set st (s_cur st) x v
      end
  end.
(* define.cc 56-173: (define (x . params) ...), also curried *)
Definition do_define_proc (st : state) (x : name) (v : val) : state := ob_set st (s_cur st) x v.

(** ** Module operations *)
(* module.cc scm_make_module 16-39 *)
Definition new_module (st : state) : nat * state :=
  (length (s_mods st), mkState (s_frames st) (s_mods st ++ [mkMod [] [] [] None]) (s_cur st) (s_proms st) (s_dyn st)).
(* module.cc scm_set_current_module 57-64 *)
Definition set_current (st : state) (m : nat) : state :=
  mkState (s_frames st) (s_mods st) m (s_proms st) (s_dyn st).
(* module.cc eval_use_modules 850-883, module-use! 1000-1060: the interface, if there is
   one, goes in front of the uses list *)
Definition mod_use (st : state) (m u : nat) : state :=
  let k := mod_at st m in
  let i := match m_pub (mod_at st u) with Some p => p | None => u end in
  set_mod st m (mkMod (m_ob k) (i :: m_uses k) (m_exports k) (m_pub k)).
(* module.cc scm_ensure_public_interface 454-480: the interface of m, created with the
   current values of the names exported so far *)
Definition ensure_pub (st : state) (m : nat) : nat * state :=
  match m_pub (mod_at st m) with
  | Some p => (p, st)
  | None =>
      let k := mod_at st m in
      let (p, st1) := new_module st in
      let st2 := set_mod st1 p (mkMod [] [] [] (Some m)) in
      let st3 := set_mod st2 m (mkMod (m_ob k) (m_uses k) (m_exports k) (Some p)) in
      (p, fold_left (fun s x => match ob_lookup s m x with Some v => ob_set s p x v | None => s end) (m_exports k) st3)
  end.
(* module.cc scm_module_export 483-500 *)
Definition mod_export (st : state) (m : nat) (x : name) : state :=
  let k := mod_at st m in
  let st1 := set_mod st m (mkMod (m_ob k) (m_uses k) (x :: m_exports k) (m_pub k)) in
  let (p, st2) := ensure_pub st1 m in
  match mod_search st2 m x with
  | Some v => ob_set st2 p x v
  | None => st2
  end.
(* module.cc scm_c_module_ref 646-702 without a default; None: eval_error *)
Definition module_ref (st : state) (m : nat) (x : name) : res val :=
  if beq x (bs "%module-public-interface") then
    Ok (VModule (match m_pub (mod_at st m) with Some p => p | None => m end))
  else match mod_search st m x with Some v => Ok v | None => Err end.
(* module-bound? 692-706, with module.cc scm_module_variable 226-233 *)
Definition truthy (v : val) : bool := match v with VBool false => false | _ => true end.
(* module.cc scm_c_module_bound_p 704-717 *)
Definition module_bound (st : state) (m : nat) (x : name) : bool :=
  truthy (match mod_search st m x with Some v => v | None => VBool false end).
(* make_env pscm.h 200-207 *)
Definition make_env (st : state) (parent : env) : env * state :=
  (mkEnv (length (s_frames st) :: e_chain parent) (e_mod parent),
   mkState (s_frames st ++ [[]]) (s_mods st) (s_cur st) (s_proms st) (s_dyn st)).
(* make_module_environment pscm.h 209-213 *)
Definition make_module_env (st : state) (m : nat) (parent : env) : env * state :=
  let (e, st') := make_env st parent in (mkEnv (e_chain e) (Some m), st').
