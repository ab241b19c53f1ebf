(** What datum an address denotes: the external, tree-shaped reading of the
    heap, defined through the pairs' car and cdr only. *)
From Verif Require Import Base HeapModel.

Inductive datum : Type :=
| DNone
| DNil
| DInt (z : Z)
| DChar (c : Z)
| DBool (b : bool)
| DSym (name : list Z)
| DStr (s : list Z)
| DPair (a d : datum)
| DVec (l : list datum)
| DObj (a : addr).          (* hash tables, procedures, ports, ...: identity *)

(** [rep h a x]: the object at address [a] denotes [x].  Inexact numbers and
    ratios denote nothing (see the theorems about them). *)
Inductive rep (h : heap) : addr -> datum -> Prop :=
| rep_none a : h_obj h a = Some ONone -> rep h a DNone
| rep_nil a : h_obj h a = Some ONil -> rep h a DNil
| rep_int a z : h_obj h a = Some (ONum z) -> rep h a (DInt z)
| rep_char a c : h_obj h a = Some (OChar c) -> rep h a (DChar c)
| rep_bool a b : h_obj h a = Some (OBool b) -> rep h a (DBool b)
| rep_sym a s : h_obj h a = Some (OSym s) -> rep h a (DSym s)
| rep_str a s : h_obj h a = Some (OStr s) -> rep h a (DStr s)
| rep_hash a t n : h_obj h a = Some (OHash t n) -> rep h a (DObj a)
| rep_opaque a t : h_obj h a = Some (OOpaque t) -> rep h a (DObj a)
| rep_pair a c x y : h_obj h a = Some (OList c) -> rep_cell h c x y -> rep h a (DPair x y)
| rep_vec a v l : h_obj h a = Some (OVec v) -> reps h v l -> rep h a (DVec l)
with rep_cell (h : heap) : addr -> datum -> datum -> Prop :=
| rep_last c k x :
    h_cell h c = Some k -> rep h (c_data k) x -> c_next k = None -> rep_cell h c x DNil
| rep_dot c k n k' x y :
    h_cell h c = Some k -> rep h (c_data k) x -> c_next k = Some n ->
    h_cell h n = Some k' -> c_dotted k' = true -> rep h (c_data k') y -> rep_cell h c x y
| rep_next c k n k' x y z :
    h_cell h c = Some k -> rep h (c_data k) x -> c_next k = Some n ->
    h_cell h n = Some k' -> c_dotted k' = false -> rep_cell h n y z -> rep_cell h c x (DPair y z)
with reps (h : heap) : list addr -> list datum -> Prop :=
| reps_nil : reps h [] []
| reps_cons a v x l : rep h a x -> reps h v l -> reps h (a :: v) (x :: l).

(** strings and symbol names without NUL characters, everywhere in the datum *)
Definition no_nul (s : list Z) : Prop := ~ In 0 s.
Fixpoint plain (x : datum) : Prop :=
  match x with
  | DSym s | DStr s => no_nul s
  | DPair a d => plain a /\ plain d
  | DVec l => (fix all l := match l with [] => True | y :: r => plain y /\ all r end) l
  | _ => True
  end.
(** ... and no identity objects (procedures, ports, ...) *)
Fixpoint pure_data (x : datum) : Prop :=
  match x with
  | DObj _ => False
  | DPair a d => pure_data a /\ pure_data d
  | DVec l => (fix all l := match l with [] => True | y :: r => pure_data y /\ all r end) l
  | _ => True
  end.
(** the heap contains no dotted cell *)
Definition no_dots (h : heap) : Prop := forall c k, h_cell h c = Some k -> c_dotted k = false.
