(** Model of module binders (set-module-binder!, module.cc 1147-1157), of the
    lookup that consults them (module.cc module_search_variable 93-190) and of
    module-use! and module-map (module.cc 962-1098).

    Simplifications.
    - A binder is a procedure; the model keeps what its body does to modules:
      lookups, definitions, uses, then an answer or an error.  Errors and throws
      leave the body through a longjmp to a catch outside the lookup.
    - The files that an autoload evaluates are those of ModsysModel: their forms
      do not consult binders. *)
From Coq Require Import List ZArith Bool Lia.
From Verif Require Import Base ParseModel EnvModel ModsysModel HeapModel HashModel.
Import ListNotations.
Local Open Scope Z_scope.
Local Open Scope list_scope.

(* module.cc 131-138: what a binder returns: #f, a variable object (its value),
   another value *)
Inductive answer : Type := AFalse | AVar (v : val) | AVal (v : val).

(* model only: the body of a binder, as far as modules are concerned *)
Inductive body : Type :=
| BAnswer (a : answer)
| BError
| BLookup (m : nat) (x : list Z) (k : option val -> body)
| BDefine (m : nat) (x : list Z) (v : val) (k : body)
| BUse (m u : nat) (k : body).

(* the globals of module.cc 5-14 with g_in_binder_call, and the binder fields
   (newest first).  Ghost: the calls of binders so far *)
Record bst : Type := mkB {
  b_world : world;
  b_binders : list (nat * (nat -> list Z -> body));
  b_guard : bool;
  b_calls : list (nat * list Z) }.
(* model only: assignments to the globals of module.cc 5-14 *)
Definition with_world (s : bst) (w : world) : bst := mkB w (b_binders s) (b_guard s) (b_calls s).
(* module.cc 125, 131: g_in_binder_call = b *)
Definition with_guard (s : bst) (b : bool) : bst := mkB (b_world s) (b_binders s) b (b_calls s).
(* model only: records the call of module.cc 130 *)
Definition called (s : bst) (m : nat) (x : list Z) : bst := mkB (b_world s) (b_binders s) (b_guard s) (b_calls s ++ [(m, x)]).
(* module.cc 124: module->binder *)
Fixpoint binder_of (l : list (nat * (nat -> list Z -> body))) (m : nat) : option (nat -> list Z -> body) :=
  match l with [] => None | (k, b) :: r => if Nat.eqb k m then Some b else binder_of r m end.
(* module.cc scm_c_set_module_binder 1147-1157 *)
Definition set_binder (m : nat) (b : nat -> list Z -> body) (s : bst) : bst :=
  mkB (b_world s) ((m, b) :: b_binders s) (b_guard s) (b_calls s).

(* how a C function ends: it returns; a longjmp leaves it *)
(* module.cc 93-190 *)
Inductive bout (A : Type) : Type := BDone (a : A) (s : bst) | BThrew (s : bst) | BFuel.
Arguments BDone {A}. Arguments BThrew {A}. Arguments BFuel {A}.

(* module.cc 1097-1098 and 170-173: the interface of u goes in front of the uses of m *)
Definition b_use (m u : nat) (s : bst) : bst := with_world s (add_use m u (b_world s)).
(* module.cc scm_c_module_define 601-610 *)
Definition b_define (m : nat) (x : list Z) (v : val) (s : bst) : bst :=
  with_world s (with_st (b_world s) (ob_set (w_st (b_world s)) m x v)).

(* procedure.cc apply_procedure_with_values 6-96: the body of the binder runs, with
   [look] for module_search_variable *)
Fixpoint run_body (look : nat -> list Z -> bst -> bout (option val)) (p : body) (s : bst) : bout answer :=
  match p with
  | BAnswer a => BDone a s
  | BError => BThrew s
  | BLookup m x k =>
      match look m x s with BDone r s1 => run_body look (k r) s1 | BThrew s1 => BThrew s1 | BFuel => BFuel end
  | BDefine m x v k => run_body look k (b_define m x v s)
  | BUse m u k => run_body look k (b_use m u s)
  end.

(* module.cc 140-186: the autoload specs, after the binder *)
Definition then_autoload (fs : files) (fuel : nat) (look : nat -> list Z -> bst -> bout (option val)) (m : nat) (x : list Z) (s : bst) : bout (option val) :=
  match take_auto m x (w_auto (b_world s)) with
  | None => BDone None s
  | Some (n, rest) =>
      match resolve fs fuel n (mkWorld (w_st (b_world s)) (w_reg (b_world s)) rest (w_log (b_world s))) with
      | Done u w => look m x (with_world s (add_use m u w))
      | Raised w => BThrew (with_world s w)
      | OutOfFuel => BFuel
      end
  end.

(* module.cc module_search_variable 93-190.  The fuel bounds the nesting of lookups *)
Fixpoint b_search (fs : files) (fuel : nat) (m : nat) (x : list Z) (s : bst) {struct fuel} : bout (option val) :=
  match fuel with
  | O => BFuel
  | S fuel' =>
      match mod_search (w_st (b_world s)) m x with
      | Some v => BDone (Some v) s                                                  (* 95-121 *)
      | None =>
          match binder_of (b_binders s) m with
          | Some b =>
              if b_guard s then then_autoload fs fuel' (b_search fs fuel') m x s     (* 124 *)
              else
                match run_body (b_search fs fuel') (b m x) (called (with_guard s true) m x) with   (* 125-130 *)
                | BDone a s1 =>
                    let s2 := with_guard s1 false in                                (* 131 *)
                    match a with
                    | AFalse => then_autoload fs fuel' (b_search fs fuel') m x s2
                    | AVar v => BDone (Some v) s2                                   (* 134-136 *)
                    | AVal v => BDone (Some v) s2
                    end
                | BThrew s1 => BThrew s1                       (* the longjmp does not reach 131 *)
                | BFuel => BFuel
                end
          | None => then_autoload fs fuel' (b_search fs fuel') m x s
          end
      end
  end.

(* module.cc scm_c_module_use 1047-1103: module-use! with a module object, or with a
   module name, which is resolved first *)
Definition module_use_obj (m u : nat) (s : bst) : bout unit := BDone tt (b_use m u s).
(* module.cc scm_c_module_use 1047-1103 *)
Definition module_use_name (fs : files) (fuel : nat) (m : nat) (n : list atom) (s : bst) : bout unit :=
  match resolve fs fuel n (b_world s) with
  | Done u w => BDone tt (b_use m u (with_world s w))
  | Raised w => BThrew (with_world s w)
  | OutOfFuel => BFuel
  end.

(* what a program does to modules, one call at a time; an error ends in a catch around
   the call *)
(* module.cc 962-1157, 646-722 *)
Inductive bop : Type :=
| OLook (m : nat) (x : list Z)
| ODefine (m : nat) (x : list Z) (v : val)
| OBinder (m : nat) (b : nat -> list Z -> body)
| OUse (m u : nat)
| OUseName (m : nat) (n : list atom).
(* model only: one call and where it leaves the interpreter; None: fuel *)
Definition b_step (fs : files) (fuel : nat) (o : bop) (s : bst) : option bst :=
  match o with
  | OLook m x => match b_search fs fuel m x s with BDone _ s' | BThrew s' => Some s' | BFuel => None end
  | ODefine m x v => Some (b_define m x v s)
  | OBinder m b => Some (set_binder m b s)
  | OUse m u => match module_use_obj m u s with BDone _ s' | BThrew s' => Some s' | BFuel => None end
  | OUseName m n => match module_use_name fs fuel m n s with BDone _ s' | BThrew s' => Some s' | BFuel => None end
  end.

(** ** module-map *)
(* module.cc scm_c_module_map 962-1043: the loop over a bucket; [call] is the
   evaluation of (proc 'key 'value), 1004-1024 *)
Fixpoint map_bucket (call : addr -> addr -> M addr) (es : list addr) : M (list addr) :=
  match es with
  | [] => ret []
  | e :: r =>
      let! x := getc e in
      match c_next x with
      | Some n =>
          let! y := getc n in
          let! v := call (c_data x) (c_data y) in
          let! l := map_bucket call r in
          ret (v :: l)
      | None => map_bucket call r
      end
  end.
(* module.cc scm_c_module_map 962-1043: the loop over the buckets of the obarray; the
   values of the result list *)
Definition module_map (call : addr -> addr -> M addr) (t : addr) : M (list addr) :=
  let! o := get t in
  match o with
  | OHash bs _ => map_bucket call (concat bs)
  | _ => fail Err
  end.
