(** Positions in a text, in the words a user would use. *)
From Coq Require Import String.
From Verif Require Import Base ParseModel LocModel.
Local Open Scope list_scope.
Local Open Scope Z_scope.

(** [at_loc pre l c]: what follows the text [pre] stands on line [l], column [c],
    both counted from 1: [l]-1 newlines come before it, and [c]-1 bytes since the
    last of them. *)
Definition at_loc (pre : list Z) (l c : Z) : Prop :=
  l = 1 + Z.of_nat (count_occ Z.eq_dec pre 10) /\
  exists a b, pre = a ++ b /\ ~ In 10 b /\ (a = [] \/ exists a', a = a' ++ [10]) /\
              c = 1 + Z.of_nat (length b).

(** The text a reader has gone through, lexeme by lexeme (latest first). *)
Definition text_of (x : lexeme) : list Z := match x with Space t => t | Token t => t end.
Fixpoint flat (lx : list lexeme) : list Z :=
  match lx with [] => [] | x :: r => flat r ++ text_of x end.

(** Lexemes after which the counters are right: layout, and tokens on one line,
    except the prefix #: of a keyword. *)
Definition calm (x : lexeme) : Prop :=
  match x with
  | Space _ => True
  | Token t => ~ In 10 t /\ t <> [35; 58]
  end.

(** Lexemes after which the line counter is right: any text in which no backslash
    stands right before a newline (so strings may go over several lines). *)
Definition line_calm (x : lexeme) : Prop :=
  match x with
  | Space _ => True
  | Token t => forall a b, t <> a ++ 92 :: 10 :: b
  end.

(** The objects that make up an object, itself included, and the location stored in each. *)
Definition kids (d : ld) : list ld :=
  match d with
  | LAtom _ _ | LSing _ => []
  | LVec els _ => els
  | LList h r t _ => h :: r ++ match t with Some x => [x] | None => [] end
  | LAbbr _ d => [d]
  end.
Inductive sub : ld -> ld -> Prop :=
| sub_refl d : sub d d
| sub_kid x k d : In k (kids d) -> sub x k -> sub x d.
Definition rloc (d : ld) : option loc :=
  match d with
  | LAtom _ l | LVec _ l | LList _ _ _ l => Some l
  | LSing _ | LAbbr _ _ => None
  end.

(** The first bytes of each kind of construct. *)
Definition opens (k : string) (s : list Z) : Prop :=
  (k = "quote"%string /\ at0 s = 39) \/ (k = "quasiquote"%string /\ at0 s = 96) \/
  (k = "list"%string /\ at0 s = 40) \/ (k = "string"%string /\ at0 s = 34) \/
  (k = "vector"%string /\ at0 s = 35 /\ at1 s = 40).
(** An entry of the stack of open constructs tells the truth about the text being
    read: its pointer is into that text, to where a construct of its kind begins,
    and its line and column are those of that place. *)
Definition frame_ok (st : pst) (f : pframe) : Prop :=
  f_tid f = tid st /\
  exists before later, lex st = later ++ before /\
    f_left f = length (flat later ++ rest st) /\ opens (f_kind f) (flat later ++ rest st) /\
    (Forall calm before -> at_loc (flat before) (f_line f) (f_col f)).
(** The position is right, and so is every entry of the stack. *)
Definition own (st : pst) : Prop :=
  (Forall calm (lex st) -> at_loc (flat (lex st)) (ln st) (cl st)) /\ Forall (frame_ok st) (stk st).

(** The reading alone, without locations. *)
Definition as_res {A B} (f : A -> B) (m : pr A) : res B :=
  match m with POk a _ => Ok (f a) | PErr _ _ => Err | PAbort => Abort | PUB => UB | PFuel => Fuel end.
