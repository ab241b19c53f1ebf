(** What the theorems about locations of expanded code say. *)
From Verif Require Import Base CopyModel.
Local Open Scope list_scope.
Local Open Scope Z_scope.

(* the place an object has: file name, line, column *)
Definition place_of (m : mem) (o : nat) : option (option (list Z) * Z * Z) :=
  match m_loc m o with
  | Some l => Some (match l_file l with
                    | Some p => match nth_error (m_bufs m) p with Some s => s | None => None end
                    | None => None
                    end, l_line l, l_col l)
  | None => None
  end.
(* every location has a file name string of its own, which is alive *)
Definition owned (m : mem) : Prop :=
  (forall o l p, m_loc m o = Some l -> l_file l = Some p -> exists s, nth_error (m_bufs m) p = Some (Some s)) /\
  (forall o o' l l' p, m_loc m o = Some l -> m_loc m o' = Some l' -> l_file l = Some p -> l_file l' = Some p -> o = o').
(* x is the object, or a part of it *)
Inductive part : obj -> nat -> Prop :=
| part_self o : part o (id_of o)
| part_elem i l e x : In (Some e) l -> part e x -> part (Pair i l) x.
(* x is a proper part *)
Definition proper_part (o : obj) (x : nat) : Prop :=
  match o with Leaf _ => False | Pair _ l => exists e, In (Some e) l /\ part e x end.
(* x and y stand at the same position of two objects *)
Inductive opposite : obj -> obj -> nat -> nat -> Prop :=
| opp_self a b : opposite a b (id_of a) (id_of b)
| opp_elem i j k l l' a b x y : nth_error l k = Some (Some a) -> nth_error l' k = Some (Some b) ->
    opposite a b x y -> opposite (Pair i l) (Pair j l') x y.
(* and everything around y has a place *)
Inductive opposite_placed (m : mem) : obj -> obj -> nat -> nat -> Prop :=
| oppl_self a b : place_of m (id_of b) <> None -> opposite_placed m a b (id_of a) (id_of b)
| oppl_elem i j k l l' a b x y : place_of m j <> None -> nth_error l k = Some (Some a) -> nth_error l' k = Some (Some b) ->
    opposite_placed m a b x y -> opposite_placed m (Pair i l) (Pair j l') x y.
(* the identities of an object, with repetitions *)
Fixpoint parts (o : obj) : list nat :=
  match o with
  | Leaf i => [i]
  | Pair i l => i :: flat_map (fun e => match e with Some e => parts e | None => [] end) l
  end.
(* no operand stands at its own position *)
Definition no_own_position (expanded call : obj) : Prop := forall x, ~ opposite expanded call x x.
Definition careful (a : act) : Prop := match a with Expand e c => no_own_position e c | Copy d s => d <> s | _ => True end.
(* every place has a file name, as after reading a file *)
Definition named (m : mem) : Prop := forall o, match place_of m o with Some (None, _, _) => False | _ => True end.
