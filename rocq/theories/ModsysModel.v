(** Model of the module system: src/c/module.cc (loading of module files,
    define-module, use-modules, export, re-export, define-public, resolve-module,
    module-ref, module-use!, autoload) on top of EnvModel (tables and lookup).

    Simplifications:
    - a file is the list of its top-level forms; the forms are those below, with
      literal or variable right-hand sides (EvalModel has the evaluator);
    - a file whose text cannot be parsed, or has no expression, is the empty list:
      parse_file returns a null pointer and the load raises an error (load.cc 48-52);
    - an element of a module name is a symbol, a number or a string; option
      elements are those or a list of them;
    - the registry (an equal? hash table) is an association list (C23, C24);
    - module binders are not modelled (no module has one), nor the [kind] field
      (written by #:pure and #:no-backtrace, never read);
    - paths have no NUL byte; malloc does not fail. *)
From Coq Require Import String.
From Verif Require Import Base ParseModel EnvModel.
Local Open Scope string_scope.
Local Open Scope Z_scope.
Local Open Scope list_scope.
Notation "[ ]" := (@nil _) : list_scope.

(* pscm_types.h 17-44: the data module.cc 724-932 distinguishes *)
Inductive atom : Type := ASym (s : list Z) | ANum (z : Z) | AStr (s : list Z).
(* DList [] is the empty list, which is not a pair *)
(* pscm_types.h 17-44: the data module.cc 724-932 distinguishes *)
Inductive datum : Type := DAtom (a : atom) | DList (l : list atom).
Notation mname := (list atom) (only parsing).
(* the right-hand side of a definition: a constant, or a variable *)
(* define.cc eval_define 4-173, the value *)
Inductive rhs : Type := RVal (v : val) | RRef (x : list Z).

(* the module forms of module.cc 724-958, and define *)
Inductive form : Type :=
| FDefine (x : list Z) (r : rhs)                (* (define x r) *)
| FDefineProc (x : list Z) (v : val)            (* (define (x . params) ...), v the closure *)
| FSet (x : list Z) (r : rhs)                   (* (set! x r) *)
| FRef (x : list Z)                             (* x *)
| FDefineModule (n : list atom) (opts : list datum)
| FUse (specs : list datum)                     (* (use-modules spec ...) *)
| FExport (l : list datum)
| FReExport (l : list datum)
| FDefinePublic (x : list Z) (r : rhs)
| FDefinePublicProc (x : list Z) (v : val)
| FResolve (n : list atom)                      (* (resolve-module 'n) *)
| FEnter (n : list atom)                        (* (set-current-module (resolve-module 'n)) *)
| FModuleRef (n : list atom) (x : list Z)       (* (module-ref (resolve-module 'n) 'x) *)
| FModuleUse (n : list atom) (s : list atom)    (* (module-use! (resolve-module 'n) 's) *)
| FFail                                         (* any form that raises an error *)
| FTry (fs : list form).                        (* (catch #t (lambda () fs ...) (lambda a #f)) *)

(* What a user can see happen: a file is evaluated for a module name, the warning
   for a name without a file (423-442), the name use-modules prints (843), the
   value of a reference *)
(* module.cc 425-446, 850-883 *)
Inductive event : Type :=
| EvLoad (n : list atom) (path : list Z)
| EvWarn (n : list atom)
| EvPrint (n : list atom)
| EvVal (v : val).

(* w_auto: the autoload specs of all modules, (module, (module name, symbols)),
   newest first *)
(* module.cc 5-14: the globals *)
Record world := mkWorld {
  w_st : state;
  w_reg : list (list atom * nat);
  w_auto : list (nat * (list atom * list (list Z)));
  w_log : list event }.
(* model only: assignment to the globals of module.cc 5-14 *)
Definition with_st (w : world) (st : state) : world := mkWorld st (w_reg w) (w_auto w) (w_log w).
(* model only: records output of module.cc 425-446, 862 *)
Definition add_log (w : world) (e : event) : world := mkWorld (w_st w) (w_reg w) (w_auto w) (w_log w ++ [e]).

(* Normal result; an error was raised (a longjmp to the closest catch); not enough
   fuel *)
(* module.cc 297-449: how it ends *)
Inductive outcome (A : Type) : Type := Done (a : A) (w : world) | Raised (w : world) | OutOfFuel.
Arguments Done {A}. Arguments Raised {A}. Arguments OutOfFuel {A}.
(* model only: C++ sequencing; an error ends the function *)
Definition bind {A B} (r : outcome A) (f : A -> world -> outcome B) : outcome B :=
  match r with Done a w => f a w | Raised w => Raised w | OutOfFuel => OutOfFuel end.

(* equal? on module names: lists of atoms *)
(* hash_table.cc scm_cmp_equal 129-131, as used by module.cc 752 *)
Definition atom_eqb (a b : atom) : bool :=
  match a, b with
  | ASym s, ASym t => beq s t
  | ANum x, ANum y => x =? y
  | AStr s, AStr t => beq s t
  | _, _ => false
  end.
(* hash_table.cc scm_cmp_equal 129-131, as used by module.cc 752 *)
Fixpoint mname_eqb (a b : list atom) : bool :=
  match a, b with
  | [], [] => true
  | x :: r, y :: s => atom_eqb x y && mname_eqb r s
  | _, _ => false
  end.
(* module.cc 297-325: scm_c_hash_ref_equal on g_module_registry *)
Fixpoint reg_find (n : list atom) (l : list (list atom * nat)) : option nat :=
  match l with [] => None | (k, m) :: r => if mname_eqb k n then Some m else reg_find n r end.

(** ** Files *)
Notation files := (list (list Z * list form)) (only parsing).
(* module.cc module_name_to_path 239-284: elements that are not symbols contribute nothing,
   but the separator is written *)
Definition elem_path (a : atom) : list Z := match a with ASym s => s | _ => [] end.
(* module.cc module_name_to_path 239-284 *)
Fixpoint join_path (n : list atom) : list Z :=
  match n with
  | [] => []
  | [a] => elem_path a
  | a :: r => elem_path a ++ bs "/" ++ join_path r
  end.
(* module.cc module_name_to_path 239-284 *)
Definition path_of (n : list atom) : list Z := join_path n ++ bs ".scm".
(* module.cc file_exists 287-294 and the file's forms *)
Fixpoint file_at (fs : files) (p : list Z) : option (list form) :=
  match fs with [] => None | (q, b) :: r => if beq q p then Some b else file_at r p end.
(* one directory of %load-path: module.cc 346-361 *)
Definition in_dir (d p : list Z) : list Z :=
  match rev d with
  | [] => p
  | c :: _ => if c =? 47 then d ++ p else d ++ bs "/" ++ p
  end.
(* the search through %load-path, module.cc 335-374: elements that are not
   strings are skipped *)
Fixpoint search_path (fs : files) (dirs : list val) (p : list Z) : option (list Z * list form) :=
  match dirs with
  | [] => None
  | VStr d :: r =>
      match file_at fs (in_dir d p) with
      | Some b => Some (in_dir d p, b)
      | None => search_path fs r p
      end
  | _ :: r => search_path fs r p
  end.
(* %load-path is read from the root module's own table, module.cc 327-333 *)
Definition load_dirs (st : state) : list val :=
  match ob_lookup st root (bs "%load-path") with Some (VList ns _) => ns | _ => [] end.
(* module.cc 335-386: %load-path, then the current directory *)
Definition find_file (fs : files) (st : state) (n : list atom) : option (list Z * list form) :=
  match search_path fs (load_dirs st) (path_of n) with
  | Some r => Some r
  | None => match file_at fs (path_of n) with Some b => Some (path_of n, b) | None => None end
  end.

(** ** The operations, given how to resolve a name and look up a module variable *)
(* model only: ties the recursion of module.cc 93-190 and 297-449 *)
Record ops := mkOps {
  o_resolve : list atom -> world -> outcome nat;
  o_search : nat -> list Z -> world -> outcome (option val) }.

Section WithOps.
Context (o : ops).

(* scm_env_search, environment.cc 57-129, with the module searches that may load *)
Definition ref_var (e : env) (x : list Z) (w : world) : outcome (option val) :=
  match env_exist (w_st w) e x with
  | Some v => Done (Some v) w
  | None =>
      match search_entry (w_st w) e x true with
      | Some (_, v) => Done (Some v) w
      | None =>
          bind (match e_mod e with Some m => o_search o m x w | None => Done None w end) (fun r w1 =>
          match r with
          | Some v => Done (Some v) w1
          | None =>
              bind (o_search o (s_cur (w_st w1)) x w1) (fun r w2 =>
              match r with
              | Some v => Done (Some v) w2
              | None => Done (assoc x (frame_at (w_st w2) 0)) w2
              end)
          end)
      end
  end.
(* a variable reference, eval.cc 281-291; symbols that start with a colon evaluate
   to themselves; unbound: eval_error (lookup_symbol, eval.cc 159-165) *)
Definition value_of (e : env) (r : rhs) (w : world) : outcome val :=
  match r with
  | RVal v => Done v w
  | RRef x => if hd 0 x =? 58 then Done (VSym x) w else bind (ref_var e x w) (fun r w1 => match r with Some v => Done v w1 | None => Raised w1 end)
  end.
(* the interface of u goes in front of the uses of m: module.cc 168-173,
   778-785, 863-877 *)
Definition add_use (m u : nat) (w : world) : world := with_st w (mod_use (w_st w) m u).
(* module.cc scm_module_export 483-500 *)
Definition export1 (m : nat) (x : list Z) (w : world) : outcome unit :=
  let k := mod_at (w_st w) m in
  let st1 := set_mod (w_st w) m (mkMod (m_ob k) (m_uses k) (x :: m_exports k) (m_pub k)) in
  let (p, st2) := ensure_pub st1 m in
  bind (o_search o m x (with_st w st2)) (fun r w1 =>
  match r with
  | Some v => Done tt (with_st w1 (ob_set (w_st w1) p x v))
  | None => Done tt w1
  end).
(* module.cc eval_export 886-901: elements that are not symbols are skipped *)
Fixpoint export_all (m : nat) (l : list datum) (w : world) : outcome unit :=
  match l with
  | [] => Done tt w
  | DAtom (ASym x) :: r => bind (export1 m x w) (fun _ w1 => export_all m r w1)
  | _ :: r => export_all m r w
  end.
(* module.cc eval_re_export 905-932: looks the symbol up first, whatever the answer *)
Fixpoint re_export_all (m : nat) (l : list datum) (w : world) : outcome unit :=
  match l with
  | [] => Done tt w
  | DAtom (ASym x) :: r =>
      bind (o_search o m x w) (fun _ w1 => bind (export1 m x w1) (fun _ w2 => re_export_all m r w2))
  | _ :: r => re_export_all m r w
  end.
(* module.cc eval_use_modules 850-883; m: the current module when the form starts *)
Fixpoint use_all (m : nat) (l : list datum) (w : world) : outcome unit :=
  match l with
  | [] => Done tt w
  | DList (a :: n) :: r =>
      bind (o_resolve o (a :: n) w) (fun u w1 => use_all m r (add_use m u (add_log w1 (EvPrint (a :: n)))))
  | _ :: r => use_all m r w
  end.
(* module.cc eval_define_module 809-821 *)
Fixpoint syms_of (l : list datum) : list (list Z) :=
  match l with [] => [] | DAtom (ASym x) :: r => x :: syms_of r | _ :: r => syms_of r end.
(* module.cc eval_define_module 822-831 *)
Definition add_auto (m : nat) (n : list atom) (l : list (list Z)) (w : world) : world :=
  match l with [] => w | _ => mkWorld (w_st w) (w_reg w) ((m, (n, l)) :: w_auto w) (w_log w) end.
(* the options of define-module, module.cc 767-841. [ex]: inside the loop
   over the symbols that follow `export' (790-796) *)
Fixpoint do_opts (m : nat) (ex : bool) (l : list datum) (w : world) : outcome unit :=
  match l with
  | [] => Done tt w
  | DAtom (ASym k) :: r =>
      if ex then bind (export1 m k w) (fun _ w1 => do_opts m true r w1)
      else if beq k (bs "use-module") then
        match r with
        | [] => Done tt w
        | DList (a :: n) :: r' => bind (o_resolve o (a :: n) w) (fun u w1 => do_opts m false r' (add_use m u w1))
        | _ :: r' => do_opts m false r' w
        end
      else if beq k (bs "export") then do_opts m true r w
      else if beq k (bs "autoload") then
        match r with
        | [] => Done tt w
        | DList (a :: n) :: r' => do_opts m false r' (add_auto m (a :: n) (syms_of r') w)
        | _ :: r' => do_opts m false r' w
        end
      else do_opts m false r w
  | _ :: r => do_opts m false r w
  end.
(* the module define-module works on: module.cc 740-765; no file is looked
   for *)
Definition named_module (n : list atom) (w : world) : nat * world :=
  match reg_find n (w_reg w) with
  | Some m => (m, w)
  | None => let (m, st1) := new_module (w_st w) in (m, mkWorld st1 ((n, m) :: w_reg w) (w_auto w) (w_log w))
  end.
(* module.cc scm_set_current_module 57-64 *)
Definition enter (m : nat) (w : world) : world := with_st w (set_current (w_st w) m).

(* module.cc 724-958, define.cc 4-173: one form of a file *)
Fixpoint run_form (e : env) (f : form) (w : world) {struct f} : outcome unit :=
  match f with
  | FDefine x r => bind (value_of e r w) (fun v w1 => Done tt (with_st w1 (do_define_var (w_st w1) e x v)))
  | FDefineProc x v => Done tt (with_st w (do_define_proc (w_st w) x v))
  | FSet x r => bind (value_of e r w) (fun v w1 => Done tt (with_st w1 (do_set (w_st w1) e x v)))
  | FRef x => bind (value_of e (RRef x) w) (fun v w1 => Done tt (add_log w1 (EvVal v)))
  | FDefineModule n opts =>
      match n with
      | [] => Raised w                                      (* 719-721 *)
      | _ => let (m, w1) := named_module n w in
             bind (do_opts m false opts w1) (fun _ w2 => Done tt (enter m w2))   (* 823 *)
      end
  | FUse specs => use_all (s_cur (w_st w)) specs w
  | FExport l => export_all (s_cur (w_st w)) l w
  | FReExport l => re_export_all (s_cur (w_st w)) l w
  | FDefinePublic x r =>                                    (* 918-940 *)
      bind (value_of e r w) (fun v w1 =>
      let w2 := with_st w1 (do_define_var (w_st w1) e x v) in export1 (s_cur (w_st w2)) x w2)
  | FDefinePublicProc x v =>
      let w1 := with_st w (do_define_proc (w_st w) x v) in export1 (s_cur (w_st w1)) x w1
  | FResolve n =>                                           (* 561-569 *)
      match n with [] => Raised w | _ => bind (o_resolve o n w) (fun _ w1 => Done tt w1) end
  | FEnter n =>
      match n with [] => Raised w | _ => bind (o_resolve o n w) (fun m w1 => Done tt (enter m w1)) end
  | FModuleRef n x =>                                       (* 646-690 *)
      match n with
      | [] => Raised w
      | _ =>
          bind (o_resolve o n w) (fun m w1 =>
          if beq x (bs "%module-public-interface") then
            Done tt (add_log w1 (EvVal (VModule (match m_pub (mod_at (w_st w1) m) with Some p => p | None => m end))))
          else bind (o_search o m x w1) (fun r w2 =>
          match r with Some v => Done tt (add_log w2 (EvVal v)) | None => Raised w2 end))
      end
  | FModuleUse n s =>                                       (* 1045-1100 *)
      match n, s with
      | _ :: _, _ :: _ =>
          bind (o_resolve o n w) (fun m w1 => bind (o_resolve o s w1) (fun u w2 => Done tt (add_use m u w2)))
      | _ :: _, [] => bind (o_resolve o n w) (fun _ w1 => Raised w1)
      | [], _ => Raised w
      end
  | FFail => Raised w
  | FTry fs =>
      let (e1, st1) := make_env (w_st w) e in
      match (fix run_all (l : list form) (w : world) {struct l} : outcome unit :=
               match l with [] => Done tt w | g :: r => bind (run_form e1 g w) (fun _ w1 => run_all r w1) end)
              fs (with_st w st1) with
      | Raised w1 => Done tt w1
      | r => r
      end
  end.
(* load.cc 54-60 *)
Definition run_all (e : env) : list form -> world -> outcome unit :=
  fix go (l : list form) (w : world) {struct l} : outcome unit :=
    match l with [] => Done tt w | g :: r => bind (run_form e g w) (fun _ w1 => go r w1) end.

(* module.cc scm_resolve_module 297-449.  The module is registered before its file is
   evaluated; an error leaves through a longjmp, so 417 is not reached *)
Definition resolve_body (fs : files) (n : list atom) (w : world) : outcome nat :=
  match reg_find n (w_reg w) with
  | Some m => Done m w
  | None =>
      let (m, st1) := new_module (w_st w) in
      let w1 := mkWorld st1 ((n, m) :: w_reg w) (w_auto w) (w_log w) in
      match find_file fs (w_st w) n with
      | None => Done m (add_log w1 (EvWarn n))
      | Some (p, body) =>
          let old := s_cur (w_st w) in
          let (e, st2) := make_module_env st1 m g_env in
          let w2 := add_log (with_st w1 (set_current st2 m)) (EvLoad n p) in
          match body with
          | [] => Raised w2
          | _ => bind (run_all e body w2) (fun _ w3 => Done m (enter old w3))
          end
      end
  end.
(* the first autoload spec of m that lists x, and the specs without it:
   module.cc 141-164 *)
Definition has_name (x : list Z) (l : list (list Z)) : bool := existsb (fun y => beq y x) l.
(* module.cc module_search_variable 141-164 *)
Fixpoint take_auto (m : nat) (x : list Z) (l : list (nat * (list atom * list (list Z))))
  : option (list atom * list (nat * (list atom * list (list Z)))) :=
  match l with
  | [] => None
  | (k, (n, xs)) :: r =>
      if Nat.eqb k m && has_name x xs then Some (n, r)
      else match take_auto m x r with Some (n', r') => Some (n', (k, (n, xs)) :: r') | None => None end
  end.
(* module.cc module_search_variable 93-190 *)
Definition search_body (m : nat) (x : list Z) (w : world) : outcome (option val) :=
  match mod_search (w_st w) m x with
  | Some v => Done (Some v) w
  | None =>
      match take_auto m x (w_auto w) with
      | None => Done None w
      | Some (n, rest) =>
          bind (o_resolve o n (mkWorld (w_st w) (w_reg w) rest (w_log w))) (fun u w1 =>
          o_search o m x (add_use m u w1))
      end
  end.
End WithOps.

(* the nesting depth of loads and autoloads is the fuel; ModsysProperties shows
   that it always suffices *)
(* model only: fuel for module.cc scm_resolve_module 297-449 *)
Fixpoint sys (fs : files) (fuel : nat) : ops :=
  match fuel with
  | O => mkOps (fun _ _ => OutOfFuel) (fun _ _ _ => OutOfFuel)
  | S k => mkOps (resolve_body (sys fs k) fs) (search_body (sys fs k))
  end.
(* module.cc scm_resolve_module 297-449 *)
Definition resolve (fs : files) (fuel : nat) := o_resolve (sys fs fuel).
(* module.cc module_search_variable 93-190 *)
Definition search (fs : files) (fuel : nat) := o_search (sys fs fuel).
(* one top-level form *)
(* load.cc scm_c_primitive_load_with_env 42-59: one form *)
Definition top (fs : files) (fuel : nat) (f : form) (w : world) : outcome unit := run_form (sys fs fuel) g_env f w.
(* init_modules 1194-1223, init_load (load.cc 77-94); globals: the built-in
   procedures in g_env *)
Definition init_world (globals : list (list Z * val)) : world :=
  mkWorld (mkState [globals] [mkMod [(bs "%load-path", VNil)] [] [] None] 0 []
             (mkDyn [] [] [] 0 [] [] [] [] 0 0))
    [([ASym (bs "pscm-user")], 0%nat)] [] [].
