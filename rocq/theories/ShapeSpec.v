(** What the comparison behind member, assoc, case and equal-keyed hash tables
    looks at: the elements a list is made of, the part after a dot counting as
    one more element. *)
From Verif Require Import Base HeapModel EqModel EqSpec.
Local Open Scope list_scope.

Inductive shape : Type :=
| SNone | SNil
| SInt (z : Z) | SChar (c : Z) | SBool (b : bool) | SSym (name : list Z) | SStr (s : list Z)
| SList (els : list shape)
| SVec (els : list shape)
| SObj (a : addr).           (* hash tables and procedures: identity *)

(** [shows h a s]: the object at [a] has the shape [s].  Inexact numbers, ratios,
    strings with NUL and the objects that have no comparison (ports, promises,
    modules, smobs, variables) have none; circular lists neither. *)
Inductive shows (h : heap) : addr -> shape -> Prop :=
| sh_none a : h_obj h a = Some ONone -> shows h a SNone
| sh_nil a : h_obj h a = Some ONil -> shows h a SNil
| sh_int a z : h_obj h a = Some (ONum z) -> shows h a (SInt z)
| sh_char a c : h_obj h a = Some (OChar c) -> shows h a (SChar c)
| sh_bool a b : h_obj h a = Some (OBool b) -> shows h a (SBool b)
| sh_sym a s : h_obj h a = Some (OSym s) -> no_nul s -> shows h a (SSym s)
| sh_str a s : h_obj h a = Some (OStr s) -> no_nul s -> shows h a (SStr s)
| sh_hash a t n : h_obj h a = Some (OHash t n) -> shows h a (SObj a)
| sh_proc a t : h_obj h a = Some (OOpaque t) -> In t [3; 4; 5; 12]%nat (* procedure, continuation, builtin, macro *) -> shows h a (SObj a)
| sh_list a c l : h_obj h a = Some (OList c) -> shows_cells h c l -> shows h a (SList l)
| sh_vec a v l : h_obj h a = Some (OVec v) -> shows_all h v l -> shows h a (SVec l)
with shows_cells (h : heap) : addr -> list shape -> Prop :=
| sh_last c k x : h_cell h c = Some k -> shows h (c_data k) x -> c_next k = None -> shows_cells h c [x]
| sh_next c k n x l : h_cell h c = Some k -> shows h (c_data k) x -> c_next k = Some n -> shows_cells h n l -> shows_cells h c (x :: l)
with shows_all (h : heap) : list addr -> list shape -> Prop :=
| sh_all_nil : shows_all h [] []
| sh_all_cons a v x l : shows h a x -> shows_all h v l -> shows_all h (a :: v) (x :: l).

(** The shape of a datum written with its dots: (a b . c) has the shape of (a b c). *)
Fixpoint flatten (x : datum) : shape :=
  match x with
  | DNone => SNone | DNil => SNil | DInt z => SInt z | DChar c => SChar c | DBool b => SBool b
  | DSym s => SSym s | DStr s => SStr s | DObj a => SObj a
  | DPair a d => SList (flatten a :: match d with
                                      | DNil => []
                                      | DPair _ _ => match flatten d with SList l => l | y => [y] end
                                      | _ => [flatten d]
                                      end)
  | DVec l => SVec (map flatten l)
  end.
(** A datum without dots: every chain of pairs ends in (). *)
Fixpoint undotted (x : datum) : Prop :=
  match x with
  | DPair a d => undotted a /\ undotted d /\ match d with DNil | DPair _ _ => True | _ => False end
  | DVec l => (fix all l := match l with [] => True | y :: r => undotted y /\ all r end) l
  | _ => True
  end.
(** The cells an object is made of, those of its parts included. *)
Inductive part (h : heap) : addr -> addr -> Prop :=
| pt_first a c : h_obj h a = Some (OList c) -> part h a c
| pt_next a c k n : part h a c -> h_cell h c = Some k -> c_next k = Some n -> part h a n
| pt_elem a c k d : part h a c -> h_cell h c = Some k -> part h (c_data k) d -> part h a d
| pt_vec a v x c : h_obj h a = Some (OVec v) -> In x v -> part h x c -> part h a c.
(** Stored the way cons stores: a dotted cell is the last one and does not hold a list. *)
Definition cons_like (h : heap) (a : addr) : Prop :=
  forall c k, part h a c -> h_cell h c = Some k -> c_dotted k = true ->
    c_next k = None /\ h_obj h (c_data k) <> Some ONil /\ forall d, h_obj h (c_data k) <> Some (OList d).
