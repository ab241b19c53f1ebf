(** The heap the data-structure primitives work on.

    - SCM objects (struct SCM, src/c/pscm_types.h 17-44) have an identity (an
      address) and a tagged content;
    - list cells (struct SCM_List, pscm_types.h 51-55) live in the same address
      space: data pointer, next pointer (null = [None]), is_dotted flag;
    - singletons: scm_none(), scm_nil(), #f and #t are static objects.

    Simplifications (all heap-model files): source locations are dropped; the
    SCM_Vector / SCM_String payloads are stored in the SCM object itself
    (the code never shares one payload between two wrappers, except through
    the printer's internals); garbage collection is a separate model
    (GcModel.v); the temporary objects made by the idiom
    [is_nil(wrap(current->next))] are not allocated ([wrap] of a list node is
    never nil, so the test is constant false). *)
From Coq Require Import SpecFloat.
From Verif Require Import Base NumModel.

Notation addr := nat (only parsing).

(* pscm_types.h 17-44: the type tag of struct SCM with its payload,
   src/c/pscm_types.h 51-140 *)
Inductive obj : Type :=
| ONone
| ONil
| OList (c : addr)             (* SCM::LIST, value = pointer to SCM_List *)
| ONum (z : Z)
| OFloat (f : dbl)
| ORatio (n d : Z)
| OChar (c : Z)                (* a C char, -128..127 *)
| OBool (b : bool)
| OSym (name : list Z)
| OStr (s : list Z)            (* bytes 0..255 *)
| OVec (elems : list addr)
| OHash (buckets : list (list addr)) (size : Z)  (* see HashModel.v *)
| OOpaque (tag : nat).         (* PROC CONT FUNC MACRO PORT PROMISE MODULE SMOB VARIABLE *)

(* pscm_types.h 51-55: struct SCM_List *)
Record cell := mkCell { c_data : addr; c_next : option addr; c_dotted : bool }.

(* model only: the memory gc.cc 214-289 hands out, as finite maps from
   addresses *)
Record heap := mkHeap {
  h_obj : addr -> option obj;
  h_cell : addr -> option cell;
  h_next : addr                (* every address >= h_next is unallocated *)
}.

(** static singletons: eval.cc/symbol.cc scm_none, scm_nil, scm_bool_true, scm_bool_false *)
Definition none_a : addr := 0%nat.
(* symbol.cc 7-22: the static object scm_nil() *)
Definition nil_a : addr := 1%nat.
(* symbol.cc 7-22: the static object scm_bool_false() *)
Definition false_a : addr := 2%nat.
(* symbol.cc 7-22: the static object scm_bool_true() *)
Definition true_a : addr := 3%nat.
(* pscm.h bool_to_scm 229-231 *)
Definition bool_a (b : bool) : addr := if b then true_a else false_a.

(* model only: assignment to one address *)
Definition upd {A} (f : addr -> option A) (a : addr) (x : A) : addr -> option A :=
  fun b => if Nat.eqb b a then Some x else f b.

(** A computation that reads and writes the heap. *)
(* model only: a C++ function that reads and writes the heap of gc.cc 214-289 *)
Definition M (A : Type) : Type := heap -> res (A * heap).
(* model only: `return a` *)
Definition ret {A} (a : A) : M A := fun h => Ok (a, h).
(* model only: C++ sequencing; an error (longjmp), a failed assert or
   undefined behaviour ends the function *)
Definition mbind {A B} (m : M A) (f : A -> M B) : M B :=
  fun h => match m h with
           | Ok (a, h') => f a h'
           | Err => Err
           | Abort => Abort
           | UB => UB
           | Fuel => Fuel
           end.
(* model only: a function that does not return normally *)
Definition fail {A} (e : res (A * heap)) : M A := fun _ => e.
(* model only: a computation that does not touch the heap *)
Definition lift {A} (r : res A) : M A :=
  fun h => match r with
           | Ok a => Ok (a, h)
           | Err => Err
           | Abort => Abort
           | UB => UB
           | Fuel => Fuel
           end.
Notation "'let!' x := m 'in' k" := (mbind m (fun x => k))
  (at level 200, x name, m at level 100, k at level 200, right associativity).

(** dereferencing an address that holds no object is undefined behaviour *)
(* a->type and a->value of pscm_types.h 17-44 *)
Definition get (a : addr) : M obj :=
  fun h => match h_obj h a with Some o => Ok (o, h) | None => UB end.
(* the fields of *c, pscm_types.h 51-55 *)
Definition getc (c : addr) : M cell :=
  fun h => match h_cell h c with Some k => Ok (k, h) | None => UB end.

(* gc_alloc(GC_SCM, ..) followed by initialisation *)
(* gc.cc gc_alloc 214-289 with tag GC_SCM; the addresses are fresh, see
   GcModel.v *)
Definition alloc (o : obj) : M addr :=
  fun h => Ok (h_next h, mkHeap (upd (h_obj h) (h_next h) o) (h_cell h) (S (h_next h))).
(* make_list(data), pscm.h 143-155: next = null, is_dotted = false *)
Definition alloc_cell (k : cell) : M addr :=
  fun h => Ok (h_next h, mkHeap (h_obj h) (upd (h_cell h) (h_next h) k) (S (h_next h))).
(* assignment to fields of *c, pscm_types.h 51-55 *)
Definition setc (c : addr) (k : cell) : M unit :=
  fun h => match h_cell h c with
           | Some _ => Ok (tt, mkHeap (h_obj h) (upd (h_cell h) c k) (h_next h))
           | None => UB
           end.
(* assignment to a->value, pscm_types.h 17-44 *)
Definition seto (a : addr) (o : obj) : M unit :=
  fun h => match h_obj h a with
           | Some _ => Ok (tt, mkHeap (upd (h_obj h) a o) (h_cell h) (h_next h))
           | None => UB
           end.

(* wrap(SCM_List ptr), pscm.h 379-389 *)
Definition wrap (l : option addr) : M addr :=
  match l with
  | None => ret nil_a
  | Some c => alloc (OList c)
  end.

(** The initial heap: only the singletons. *)
(* symbol.cc 7-22: the static objects *)
Definition empty_heap : heap :=
  mkHeap (fun a => match a with
                   | 0%nat => Some ONone
                   | 1%nat => Some ONil
                   | 2%nat => Some (OBool false)
                   | 3%nat => Some (OBool true)
                   | _ => None
                   end)
         (fun _ => None) 4%nat.
