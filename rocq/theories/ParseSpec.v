(** The class of data that write promises to print readably, stated on the
    datum alone. *)
From Coq Require Import String.
From Verif Require Import Base NumModel ParseModel.
Local Open Scope list_scope.

Definition letter (c : Z) : Prop := 65 <= c <= 90 \/ 97 <= c <= 122.
Definition digit (c : Z) : Prop := 48 <= c <= 57.
(* the punctuation allowed in identifiers *)
Definition punct : list Z := bs "!$%&*+-./:<=>?@^_~|".
Definition ident_char (c : Z) : Prop := letter c \/ digit c \/ In c punct.

(** An identifier: identifier characters only, not empty, not the lone dot, no
    leading colon (keywords, see C34), not ".|..." and not number-like. *)
Definition identifier (n : list Z) : Prop :=
  Forall ident_char n /\
  n <> [] /\ n <> bs "." /\
  (forall r, n <> 58 :: r) /\
  (forall r, n <> 46 :: 124 :: r) /\
  (forall c r, n = c :: r -> digit c -> n = bs "1+" \/ n = bs "1-") /\
  (forall s c r, n = s :: c :: r -> s = 43 \/ s = 45 -> ~ digit c).

(** A string of printable ASCII, tabs, newlines and carriage returns. *)
Definition printable (s : list Z) : Prop :=
  Forall (fun b => 32 <= b <= 126 \/ b = 9 \/ b = 10 \/ b = 13) s.

Definition quote_word (d : rdatum) : Prop :=
  d = RSym (bs "quote") \/ d = RSym (bs "quasiquote") \/
  d = RSym (bs "unquote") \/ d = RSym (bs "unquote-splicing").
Definition proper (d : rdatum) : Prop := exists h r, d = RList h r None.

(** Data made of such identifiers and strings, of 64-bit integers (but not
    -2^63), booleans, non-NUL characters, vectors, proper and dotted lists.  The
    dotted tail is not itself a proper non-empty list (write prints such a list in
    flattened form), and a list headed by quote,
    quasiquote, unquote or unquote-splicing has exactly one further element. *)
Inductive plain : rdatum -> Prop :=
| pl_int z : i64_min < z <= i64_max -> plain (RInt z)
| pl_bool b : plain (RBool b)
| pl_char b : 1 <= b <= 255 -> plain (RChar b)
| pl_sym n : identifier n -> plain (RSym n)
| pl_str s : printable s -> plain (RStr s)
| pl_nil : plain RNil
| pl_vec l : Forall plain l -> plain (RVec l)
| pl_list h r : ~ quote_word h -> plain h -> Forall plain r -> plain (RList h r None)
| pl_dotted h r t : ~ quote_word h -> plain h -> Forall plain r -> plain t -> ~ proper t ->
    plain (RList h r (Some t))
| pl_quoted q d : quote_word q -> plain d -> plain (RList q [d] None).

(** A run of decimal digits and its value. *)
Fixpoint value (acc : Z) (ds : list Z) : Z :=
  match ds with [] => acc | c :: r => value (acc * 10 + (c - 48)) r end.
(** The text contains a decimal numeral above 2^63-1. *)
Definition huge_numeral (s : list Z) : Prop :=
  exists pre ds post, s = pre ++ ds ++ post /\ Forall digit ds /\ i64_max < value 0 ds.
(** [r] is what is left of [s] after at least one byte. *)
Definition consumed (s r : list Z) : Prop := exists pre, pre <> [] /\ s = pre ++ r.

(** What may stand between data: blanks, and comments that run from a semicolon
    to the end of their line. *)
Definition blank (c : Z) : Prop := c = 32 \/ c = 9 \/ c = 10 \/ c = 11 \/ c = 12 \/ c = 13.
Inductive filler : list Z -> Prop :=
| fl_nil : filler []
| fl_blank c b : blank c -> filler b -> filler (c :: b)
| fl_comment t b : ~ In 10 t -> ~ In 0 t -> filler b -> filler (59 :: t ++ 10 :: b).
(** The same for [read] on a port, where comments without a carriage return are meant. *)
Inductive port_filler : list Z -> Prop :=
| pf_nil : port_filler []
| pf_blank c b : blank c -> port_filler b -> port_filler (c :: b)
| pf_comment t b : ~ In 10 t -> ~ In 13 t -> port_filler b -> port_filler (59 :: t ++ 10 :: b).
