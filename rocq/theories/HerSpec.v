(** C216: which programs with procedures as values stop in an error.

    Beside the values of HoSpec, [hev]: an expression stops in an error when its
    evaluation, from left to right, meets a variable without a meaning, a division
    by zero, a call of an integer on operands, or a call with a number of operands
    that is not the procedure's. *)
From Coq Require Import String.
Local Open Scope string_scope.
From Verif Require Import Base ParseModel PrintModel EnvModel EvalModel ApiModel LangSpec HoSpec.
Local Open Scope Z_scope.
Local Open Scope list_scope.

Section Errors.
Variable P : list hfn.
(** The names that mean nothing before the program is loaded. *)
Variable free : list Z -> Prop.
Definition hunknown (x : list Z) : Prop := free x /\ ~ In x (map h_name P).
Notation hev := (hev P).
Notation hevs := (hevs P).
Inductive her : list (list Z * hval) -> hexp -> Prop :=
| her_unbound r x : hlook r x = None -> hunknown x -> her r (HVar x)
| her_zero r o a b x : hev r a (HI x) -> hev r b (HI 0) -> divides o -> her r (HBin o a b)
| her_left r o a b : her r a -> her r (HBin o a b)
| her_right r o a b v : hev r a v -> her r b -> her r (HBin o a b)
| her_if_left r c a b t f : her r a -> her r (HIf c a b t f)
| her_if_right r c a b t f v : hev r a v -> her r b -> her r (HIf c a b t f)
| her_if r c a b t f x y : hev r a (HI x) -> hev r b (HI y) -> her r (if holds c x y then t else f) -> her r (HIf c a b t f)
| her_let_left r x a b : her r a -> her r (HLet x a b)
| her_let r x a b w : hev r a w -> her ((x, w) :: r) b -> her r (HLet x a b)
| her_head r f args : her r f -> her r (HApp f args)
  (* as many operands are evaluated as there are parameters to take them *)
| her_operand r f args ps b r' : hev r f (HClo ps b r') -> hers r (firstn (length ps) args) -> her r (HApp f args)
| her_arity r f args ps b r' vs : hev r f (HClo ps b r') -> hevs r (firstn (length ps) args) vs -> length args <> length ps ->
    her r (HApp f args)
| her_body r f args ps b r' vs : hev r f (HClo ps b r') -> hevs r args vs -> length vs = length ps ->
    her (combine ps vs ++ r') b -> her r (HApp f args)
  (* the operands are not evaluated *)
| her_call_int r f args z : hev r f (HI z) -> args <> [] -> her r (HApp f args)
with hers : list (list Z * hval) -> list hexp -> Prop :=
| hers_head r a l : her r a -> hers r (a :: l)
| hers_tail r a l v : hev r a v -> hers r l -> hers r (a :: l).

(** The result of an expression: a value, or an error. *)
Inductive result : hexp -> option hval -> Prop :=
| result_value e v : hev [] e v -> result e (Some v)
| result_error e : her [] e -> result e None.
End Errors.
(** What the host gets for it: NULL for an error. *)
Definition told (w : option hval) (o : option val) : Prop :=
  match w with Some v => shown v o | None => o = None end.
(** The pending error of the session. *)
Definition herr_after (ws : list (option hval)) (k : option (list Z)) : option (list Z) :=
  if existsb (fun w => match w with None => true | _ => false end) ws then Some (bs "error") else k.
