(** Small independent vocabulary for C35-C37. *)
From Verif Require Import Base ParseModel PortModel.
Local Open Scope list_scope.

(** How many characters a history has read, and whether it closed the port. *)
Fixpoint reads (h : list iop) : nat :=
  match h with [] => 0 | OpRead :: r => S (reads r) | _ :: r => reads r end%nat.
Definition closed_in (h : list iop) : Prop := In OpCloseIn h.

(** What a byte stream answers: [s] is what is still to be read. *)
Fixpoint stream (s : list Z) (closed : bool) (h : list iop) : list ians :=
  match h with
  | [] => []
  | OpRead :: r =>
      match closed, s with
      | false, c :: s' => AChar c :: stream s' closed r
      | _, _ => AEof :: stream s closed r
      end
  | OpPeek :: r => match closed, s with false, c :: _ => AChar c | _, _ => AEof end :: stream s closed r
  | OpReady :: r => match closed, s with false, _ :: _ => ABool true | _, _ => ABool false end :: stream s closed r
  | OpCloseIn :: r => ANone :: stream s true r
  end.

(** The text a history of writes puts on an output port: everything written
    before the port is closed. *)
Fixpoint written (h : list oop) : list Z :=
  match h with
  | [] => []
  | OpChar c :: r => c :: written r
  | OpNewline :: r => 10 :: written r
  | OpText t :: r => t ++ written r
  | OpCloseOut :: _ => []
  end.
(** No printed text contains a NUL (write-char of a NUL is allowed). *)
Definition nul_free (h : list oop) : Prop := forall t, In (OpText t) h -> ~ In 0 t.

(** The character with code [b] occurs somewhere in a datum. *)
Inductive occurs (b : Z) : rdatum -> Prop :=
| oc_char : occurs b (RChar b)
| oc_vec l x : In x l -> occurs b x -> occurs b (RVec l)
| oc_head h r t : occurs b h -> occurs b (RList h r t)
| oc_elem h r t x : In x r -> occurs b x -> occurs b (RList h r t)
| oc_tail h r t : occurs b t -> occurs b (RList h r (Some t)).
(** No character literal that looks like a delimiter to the port's own lexer:
    carriage return, double quote or a parenthesis. *)
Definition portable (d : rdatum) : Prop :=
  forall b, occurs b d -> b <> 13 /\ b <> 34 /\ b <> 40 /\ b <> 41.
Definition compound (d : rdatum) : Prop :=
  (exists h r t, d = RList h r t) \/ (exists l, d = RVec l) \/ d = RNil.
