(** C215: what a program with procedures as values means, and which text it is.

    Integer literals, variables, the six exact operations, a conditional on a
    comparison, a local variable, lambda, and calls of whatever an expression
    evaluates to; top-level functions may call themselves and each other.  A
    procedure is its parameters, its body and the variables it can see where it
    was written; no frames, chains or modules. *)
From Coq Require Import String.
From Verif Require Import Base ParseModel PrintModel EnvModel EvalModel ApiModel LangSpec.
Local Open Scope string_scope.
Local Open Scope Z_scope.
Local Open Scope list_scope.

Inductive hexp :=
| HNum (z : Z)
| HVar (x : list Z)
| HBin (o : op) (a b : hexp)
| HIf (r : rel) (a b t f : hexp)
| HLet (x : list Z) (a b : hexp)
| HLam (ps : list (list Z)) (b : hexp)
| HApp (f : hexp) (args : list hexp).
Record hfn := HFn { h_name : list Z; h_params : list (list Z); h_body : hexp }.
Fixpoint hshow (e : hexp) : list Z :=
  match e with
  | HNum z => dec z
  | HVar x => x
  | HBin o a b => paren [op_name o; hshow a; hshow b]
  | HIf r a b t f => paren [bs "if"; paren [rel_name r; hshow a; hshow b]; hshow t; hshow f]
  | HLet x a b => paren [bs "let"; paren [paren [x; hshow a]]; hshow b]
  | HLam ps b => paren [bs "lambda"; paren ps; hshow b]
  | HApp f args => paren (hshow f :: map hshow args)
  end.
Definition hshow_fn (d : hfn) : list Z := paren [bs "define"; paren (h_name d :: h_params d); hshow (h_body d)].

Inductive hval :=
| HI (z : Z)
| HClo (ps : list (list Z)) (b : hexp) (r : list (list Z * hval)).
Fixpoint hlook {A} (r : list (list Z * A)) (x : list Z) : option A :=
  match r with [] => None | (y, v) :: r' => if list_eq_dec Z.eq_dec y x then Some v else hlook r' x end.

Section Meaning.
Variable P : list hfn.
Inductive hev : list (list Z * hval) -> hexp -> hval -> Prop :=
| hev_num r z : hev r (HNum z) (HI z)
| hev_var r x v : hlook r x = Some v -> hev r (HVar x) v
  (* a top-level function as a value; a local variable of that name hides it *)
| hev_global r d : hlook r (h_name d) = None -> In d P -> hev r (HVar (h_name d)) (HClo (h_params d) (h_body d) [])
| hev_bin r o a b x y : hev r a (HI x) -> hev r b (HI y) -> (divides o -> y <> 0) -> small (arith o x y) ->
    hev r (HBin o a b) (HI (arith o x y))
| hev_if r c a b t f x y v : hev r a (HI x) -> hev r b (HI y) -> hev r (if holds c x y then t else f) v ->
    hev r (HIf c a b t f) v
| hev_let r x a b w v : hev r a w -> hev ((x, w) :: r) b v -> hev r (HLet x a b) v
  (* the variables visible where the lambda stands *)
| hev_lam r ps b : hev r (HLam ps b) (HClo ps b r)
  (* the body sees the parameters and the procedure's own variables, nothing of the caller's *)
| hev_app r f args ps b r' vs v : hev r f (HClo ps b r') -> hevs r args vs -> length vs = length ps ->
    hev (combine ps vs ++ r') b v -> hev r (HApp f args) v
with hevs : list (list Z * hval) -> list hexp -> list hval -> Prop :=
| hevs_nil r : hevs r [] []
| hevs_cons r a l v vs : hev r a v -> hevs r l vs -> hevs r (a :: l) (v :: vs).
End Meaning.

(** Names bound by the program are identifiers, not keywords, operators or macros of
    the interpreter ([nm]). *)
Section Wf.
Variable nm : list Z -> Prop.
Definition callee (f : hexp) : Prop := match f with HNum _ => False | _ => True end.
Inductive hwf : hexp -> Prop :=
| hwf_num z : small z -> hwf (HNum z)
| hwf_var x : nm x -> hwf (HVar x)
| hwf_bin o a b : hwf a -> hwf b -> hwf (HBin o a b)
| hwf_if r a b t f : hwf a -> hwf b -> hwf t -> hwf f -> hwf (HIf r a b t f)
| hwf_let x a b : nm x -> hwf a -> hwf b -> hwf (HLet x a b)
| hwf_lam ps b : Forall nm ps -> NoDup ps -> hwf b -> hwf (HLam ps b)
| hwf_app f args : callee f -> hwf f -> Forall hwf args -> hwf (HApp f args).
Definition hwf_fn (d : hfn) : Prop := nm (h_name d) /\ Forall nm (h_params d) /\ NoDup (h_params d) /\ hwf (h_body d).
End Wf.
Definition plain_name (s : api) (x : list Z) : Prop :=
  name x /\ forall v, assoc x (frame_at (a_st s) 0) = Some v -> is_macro v = false.
(** The answer the host gets: the integer, or some procedure. *)
Definition shown (v : hval) (o : option val) : Prop :=
  match v with HI z => o = Some (VInt z) | HClo _ _ _ => exists ps d b e, o = Some (VProc ps d b e) end.
