(** Vocabulary for the list properties: what it means for an address to hold a
    list, independent of the code that builds or walks lists. *)
From Verif Require Import Base HeapModel.

(** [chain h l cs xs]: following next pointers from [l] visits exactly the
    cells [cs], none of them marked dotted, whose data are [xs], and ends with
    a null pointer. *)
Inductive chain (h : heap) : option addr -> list addr -> list addr -> Prop :=
| chain_nil : chain h None [] []
| chain_cons c k cs xs :
    h_cell h c = Some k -> c_dotted k = false ->
    chain h (c_next k) cs xs ->
    chain h (Some c) (c :: cs) (c_data k :: xs).

(** [dchain h l cs xs d]: the same, ending in a dotted cell that holds [d]
    (the list [(xs ... . d)]). *)
Inductive dchain (h : heap) : option addr -> list addr -> list addr -> addr -> Prop :=
| dchain_end c k :
    h_cell h c = Some k -> c_dotted k = true -> c_next k = None ->
    dchain h (Some c) [c] [] (c_data k)
| dchain_cons c k cs xs d :
    h_cell h c = Some k -> c_dotted k = false ->
    dchain h (c_next k) cs xs d ->
    dchain h (Some c) (c :: cs) (c_data k :: xs) d.

(** [list_cells h a cs xs]: the object at [a] is a proper list with cells [cs]
    and elements [xs]. *)
Definition list_cells (h : heap) (a : addr) (cs xs : list addr) : Prop :=
  (h_obj h a = Some ONil /\ cs = [] /\ xs = []) \/
  (exists c, h_obj h a = Some (OList c) /\ chain h (Some c) cs xs).
Definition is_list (h : heap) (a : addr) (xs : list addr) : Prop :=
  exists cs, list_cells h a cs xs.
(** an improper list [(x1 ... xn . d)], n >= 1 *)
Definition is_dotted_list (h : heap) (a : addr) (xs : list addr) (d : addr) : Prop :=
  exists c cs, h_obj h a = Some (OList c) /\ xs <> [] /\ dchain h (Some c) cs xs d.

(** Heaps the interpreter can be in: fresh addresses are unused, the
    singletons are in place. *)
Definition wf (h : heap) : Prop :=
  (forall a, (h_next h <= a)%nat -> h_obj h a = None /\ h_cell h a = None) /\
  h_obj h none_a = Some ONone /\ h_obj h nil_a = Some ONil /\
  h_obj h false_a = Some (OBool false) /\ h_obj h true_a = Some (OBool true).

(** [extends h h']: nothing that existed in [h] has been changed. *)
Definition extends (h h' : heap) : Prop :=
  (forall a o, h_obj h a = Some o -> h_obj h' a = Some o) /\
  (forall a k, h_cell h a = Some k -> h_cell h' a = Some k) /\
  (h_next h <= h_next h')%nat.

(** cell [c] is not part of [h] *)
Definition fresh_for (h : heap) (c : addr) : Prop := h_cell h c = None.

(** A circular list: every next pointer leads to another cell, none dotted. *)
Definition circular (h : heap) (c : addr) : Prop :=
  exists S : addr -> Prop, S c /\
    forall d, S d -> exists k n, h_cell h d = Some k /\ c_dotted k = false /\
                                 c_next k = Some n /\ S n.

(** the [n]-th cell after [c] *)
Fixpoint nth_cell (h : heap) (n : nat) (c : addr) : option addr :=
  match n with
  | O => Some c
  | S k => match h_cell h c with
           | Some x => match c_next x with Some d => nth_cell h k d | None => None end
           | None => None
           end
  end.
