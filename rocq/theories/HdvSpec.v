(** C217: the other direction of C215 and C216 -- what an answer tells about a
    program whose procedures are values.  Which names it may use, and where its
    evaluation leaves what the rules speak about. *)
From Verif Require Import Base LangSpec HoSpec HerSpec.
Local Open Scope Z_scope.
Local Open Scope list_scope.

Section Div.
Variable P : list hfn.
Variable free : list Z -> Prop.

(** Every variable is bound where it stands, is a top-level function, or has no
    meaning at all. *)
Inductive hscoped : list (list Z) -> hexp -> Prop :=
| hs_num xs z : hscoped xs (HNum z)
| hs_var xs x : In x xs \/ In x (map h_name P) \/ hunknown P free x -> hscoped xs (HVar x)
| hs_bin xs o a b : hscoped xs a -> hscoped xs b -> hscoped xs (HBin o a b)
| hs_if xs c a b t f : hscoped xs a -> hscoped xs b -> hscoped xs t -> hscoped xs f -> hscoped xs (HIf c a b t f)
| hs_let xs x a b : hscoped xs a -> hscoped (x :: xs) b -> hscoped xs (HLet x a b)
| hs_lam xs ps b : hscoped (ps ++ xs) b -> hscoped xs (HLam ps b)
| hs_app xs f args : hscoped xs f -> Forall (hscoped xs) args -> hscoped xs (HApp f args).

Definition integers (v w : hval) : Prop := (exists x, v = HI x) /\ exists y, w = HI y.
(** Evaluating the expression, left to right, comes to an operation whose result is
    not [small], to arithmetic or a comparison on a procedure, or to an integer
    called on no operands. *)
Inductive stray : list (list Z * hval) -> hexp -> Prop :=
| sy_big r o a b x y : hev P r a (HI x) -> hev P r b (HI y) -> (divides o -> y <> 0) -> ~ small (arith o x y) -> stray r (HBin o a b)
| sy_arith r o a b v w : hev P r a v -> hev P r b w -> ~ integers v w -> stray r (HBin o a b)
| sy_compare r c a b t f v w : hev P r a v -> hev P r b w -> ~ integers v w -> stray r (HIf c a b t f)
| sy_int r f z : hev P r f (HI z) -> stray r (HApp f [])
  (* ... in a part that is evaluated *)
| sy_left r o a b : stray r a -> stray r (HBin o a b)
| sy_right r o a b v : hev P r a v -> stray r b -> stray r (HBin o a b)
| sy_test_left r c a b t f : stray r a -> stray r (HIf c a b t f)
| sy_test_right r c a b t f v : hev P r a v -> stray r b -> stray r (HIf c a b t f)
| sy_branch r c a b t f x y : hev P r a (HI x) -> hev P r b (HI y) -> stray r (if holds c x y then t else f) -> stray r (HIf c a b t f)
| sy_bound r x a b : stray r a -> stray r (HLet x a b)
| sy_let r x a b w : hev P r a w -> stray ((x, w) :: r) b -> stray r (HLet x a b)
| sy_head r f args : stray r f -> stray r (HApp f args)
| sy_operand r f args ps b r' : hev P r f (HClo ps b r') -> strays r (firstn (length ps) args) -> stray r (HApp f args)
| sy_body r f args ps b r' vs : hev P r f (HClo ps b r') -> hevs P r args vs -> length vs = length ps ->
    stray (combine ps vs ++ r') b -> stray r (HApp f args)
with strays : list (list Z * hval) -> list hexp -> Prop :=
| sys_head r a l : stray r a -> strays r (a :: l)
| sys_tail r a l v : hev P r a v -> strays r l -> strays r (a :: l).
End Div.
