(** C214: the other direction of C212 -- what an answer tells about a program of
    integer functions.  Which names a program may use, and what it means that its
    evaluation reaches a number out of range. *)
From Verif Require Import Base LangSpec.
Local Open Scope Z_scope.
Local Open Scope list_scope.

Section Div.
Variable P : list fn.
Variable free : list Z -> Prop.

(** Every variable is bound by a parameter, by let or by nothing at all; every
    function called is one of the program's or nothing at all. *)
Inductive scoped : list (list Z) -> exp -> Prop :=
| sc_num xs z : scoped xs (Num z)
| sc_var xs x : In x xs \/ unknown P free x -> scoped xs (Var x)
| sc_bin xs o a b : scoped xs a -> scoped xs b -> scoped xs (Bin o a b)
| sc_if xs c a b t f : scoped xs a -> scoped xs b -> scoped xs t -> scoped xs f -> scoped xs (If c a b t f)
| sc_let xs x a b : scoped xs a -> scoped (x :: xs) b -> scoped xs (Let x a b)
| sc_call xs f args : ~ In f xs -> (In f (map f_name P) \/ unknown P free f) -> Forall (scoped xs) args -> scoped xs (Call f args).

(** Evaluating the expression, left to right, comes to an operation whose result
    is not [small]. *)
Inductive over : list (list Z * Z) -> exp -> Prop :=
| ov_here r o a b x y : ev P free r a (Some x) -> ev P free r b (Some y) -> (divides o -> y <> 0) -> ~ small (arith o x y) ->
    over r (Bin o a b)
| ov_left r o a b : over r a -> over r (Bin o a b)
| ov_right r o a b x : ev P free r a (Some x) -> over r b -> over r (Bin o a b)
| ov_test_left r c a b t f : over r a -> over r (If c a b t f)
| ov_test_right r c a b t f x : ev P free r a (Some x) -> over r b -> over r (If c a b t f)
| ov_branch r c a b t f x y : ev P free r a (Some x) -> ev P free r b (Some y) -> over r (if holds c x y then t else f) ->
    over r (If c a b t f)
| ov_bound r x a b : over r a -> over r (Let x a b)
| ov_let r x a b z : ev P free r a (Some z) -> over ((x, z) :: r) b -> over r (Let x a b)
| ov_operand r f args d : look r f = None -> In d P -> f_name d = f ->
    overs r (firstn (length (f_params d)) args) -> over r (Call f args)
| ov_call r f args d vs : look r f = None -> In d P -> f_name d = f ->
    evs P free r args (Some vs) -> length vs = length (f_params d) -> over (combine (f_params d) vs) (f_body d) ->
    over r (Call f args)
with overs : list (list Z * Z) -> list exp -> Prop :=
| ovs_head r a l : over r a -> overs r (a :: l)
| ovs_tail r a l x : ev P free r a (Some x) -> overs r l -> overs r (a :: l).
End Div.
