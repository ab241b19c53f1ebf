(** Vocabulary for association lists. *)
From Verif Require Import Base HeapModel EqModel ListSpec.

(** the key of an alist element, if the element is a pair *)
Definition key_at (h : heap) (x : addr) : option addr :=
  match h_obj h x with
  | Some (OList c) => match h_cell h c with Some k => Some (c_data k) | None => None end
  | _ => None
  end.
(** the element is a live object *)
Definition live (h : heap) (x : addr) : Prop :=
  exists o, h_obj h x = Some o /\ forall c, o = OList c -> h_cell h c <> None.
(** does the element's key satisfy [f]? *)
Definition hit (h : heap) (f : addr -> bool) (x : addr) : bool :=
  match key_at h x with Some k => f k | None => false end.
(** [y] is the pair [(k . v)] *)
Definition pair_of (h : heap) (y k v : addr) : Prop :=
  exists c kc, h_obj h y = Some (OList c) /\ h_cell h c = Some kc /\ c_data kc = k /\
    match h_obj h v with
    | Some (OList n) => c_next kc = Some n
    | Some ONil => c_next kc = None
    | Some _ => exists m, c_next kc = Some m /\ h_cell h m = Some (mkCell v None true)
    | None => False
    end.
(** what assoc-ref reads out of an entry: the second element of the cell chain *)
Definition value_at (h : heap) (x : addr) : addr :=
  match h_obj h x with
  | Some (OList c) =>
      match h_cell h c with
      | Some k => match c_next k with
                  | Some n => match h_cell h n with Some kn => c_data kn | None => false_a end
                  | None => false_a
                  end
      | None => false_a
      end
  | _ => false_a
  end.
(** The comparison [cmp] behaves, on the keys [K], as equality of some label. *)
Definition keyed (h : heap) (cmp : addr -> addr -> M bool) (K : list addr) (den : addr -> nat) : Prop :=
  forall a b, In a K -> In b K -> cmp a b h = Ok (Nat.eqb (den a) (den b), h).
(** all element keys are in [K] *)
Definition keys_in (h : heap) (xs K : list addr) : Prop :=
  forall x k, In x xs -> key_at h x = Some k -> In k K.
(** association of a label: the value found by the first entry with that label *)
Definition lookup (h : heap) (den : addr -> nat) (xs : list addr) (k : addr) : addr :=
  match find (hit h (fun k' => Nat.eqb (den k) (den k'))) xs with
  | Some x => value_at h x
  | None => false_a
  end.
Fixpoint remove_first (f : addr -> bool) (xs : list addr) : list addr :=
  match xs with
  | [] => []
  | x :: r => if f x then r else x :: remove_first f r
  end.
(** entries that are pairs have a second cell to read, and are not followed by
    a dangling pointer *)
Definition entry_ok (h : heap) (x : addr) : Prop :=
  live h x /\ forall c k n, h_obj h x = Some (OList c) -> h_cell h c = Some k -> c_next k = Some n -> h_cell h n <> None.
(** What assoc-ref gives back for an entry consed from the value [v]: the value
    itself when it is an atom, but the first element of a non-empty list, and
    #f for the empty list. *)
Definition read_back (h : heap) (v : addr) : addr :=
  match h_obj h v with
  | Some (OList c) => match h_cell h c with Some k => c_data k | None => false_a end
  | Some ONil => false_a
  | _ => v
  end.
(** [v] is a live value whose cells, if it is a list, end after at most [n] *)
Definition walkable_value (n : nat) (h : heap) (v : addr) : Prop :=
  exists o, h_obj h v = Some o /\
  forall c, o = OList c ->
    exists cs, (length cs <= n)%nat /\
      ((exists xs, chain h (Some c) cs xs) \/ (exists xs d, dchain h (Some c) cs xs d)).
(** [a] and [b] are the same integer, character, boolean, symbol or string *)
Definition same_atom (o1 o2 : obj) : bool :=
  match o1, o2 with
  | ONum x, ONum y => x =? y
  | OChar x, OChar y => x =? y
  | OBool x, OBool y => Bool.eqb x y
  | OSym x, OSym y => zlist_eqb x y
  | OStr x, OStr y => zlist_eqb x y
  | _, _ => false
  end.
Definition atomic_key (h : heap) (a : addr) : Prop :=
  exists o, h_obj h a = Some o /\ same_atom o o = true /\
    match o with ONum z => in64 z = true | OSym s | OStr s => ~ In 0 s | _ => True end.
