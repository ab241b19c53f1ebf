(** C212: what a program of integer functions means, and which text it is.

    The language: integer literals, variables, the six exact operations, a
    conditional on a comparison, a local variable, and calls of named functions
    that may call themselves and each other.  Its meaning is given by evaluation
    rules on mathematical integers; it does not mention frames, fuel, parsing or
    the interpreter. *)
From Coq Require Import String.
From Verif Require Import Base NumModel ParseModel ParseSpec PrintModel EnvModel EvalModel ApiModel.
Local Open Scope string_scope.
Local Open Scope Z_scope.
Local Open Scope list_scope.

Inductive op := OAdd | OSub | OMul | OQuo | ORem | OMod.
Inductive rel := REq | RLt | RGt | RLe | RGe.
Inductive exp :=
| Num (z : Z)
| Var (x : list Z)
| Bin (o : op) (a b : exp)
| If (r : rel) (a b t f : exp)
| Let (x : list Z) (a b : exp)
| Call (f : list Z) (args : list exp).
Record fn := Fn { f_name : list Z; f_params : list (list Z); f_body : exp }.

(** ** The text *)
Definition op_name (o : op) : list Z :=
  bs match o with OAdd => "+" | OSub => "-" | OMul => "*" | OQuo => "quotient" | ORem => "remainder" | OMod => "modulo" end.
Definition rel_name (r : rel) : list Z :=
  bs match r with REq => "=" | RLt => "<" | RGt => ">" | RLe => "<=" | RGe => ">=" end.
(** ( w1 w2 ... ) *)
Definition spaced (ws : list (list Z)) : list Z :=
  match ws with [] => [] | w :: r => w ++ flat_map (fun y => 32 :: y) r end.
Definition paren (ws : list (list Z)) : list Z := 40 :: spaced ws ++ [41].
Fixpoint show (e : exp) : list Z :=
  match e with
  | Num z => dec z
  | Var x => x
  | Bin o a b => paren [op_name o; show a; show b]
  | If r a b t f => paren [bs "if"; paren [rel_name r; show a; show b]; show t; show f]
  | Let x a b => paren [bs "let"; paren [paren [x; show a]]; show b]
  | Call f args => paren (f :: map show args)
  end.
Definition show_fn (d : fn) : list Z := paren [bs "define"; paren (f_name d :: f_params d); show (f_body d)].

(** ** The meaning.  [None]: an error is signalled. *)
Definition small (z : Z) : Prop := Z.abs z < 2 ^ 63.
Definition arith (o : op) (x y : Z) : Z :=
  match o with
  | OAdd => x + y | OSub => x - y | OMul => x * y
  | OQuo => Z.quot x y | ORem => Z.rem x y | OMod => x mod y
  end.
Definition divides (o : op) : Prop := o = OQuo \/ o = ORem \/ o = OMod.
Definition holds (r : rel) (x y : Z) : bool :=
  match r with REq => x =? y | RLt => x <? y | RGt => y <? x | RLe => x <=? y | RGe => y <=? x end.
(** The innermost variable of that name. *)
Fixpoint look (r : list (list Z * Z)) (x : list Z) : option Z :=
  match r with [] => None | (y, z) :: r' => if list_eq_dec Z.eq_dec y x then Some z else look r' x end.

Section Meaning.
Variable P : list fn.
(** The names that mean nothing before the program is loaded. *)
Variable free : list Z -> Prop.
Definition unknown (x : list Z) : Prop := free x /\ ~ In x (map f_name P).

Inductive ev : list (list Z * Z) -> exp -> option Z -> Prop :=
| ev_num r z : ev r (Num z) (Some z)
| ev_var r x z : look r x = Some z -> ev r (Var x) (Some z)
| ev_unbound r x : look r x = None -> unknown x -> ev r (Var x) None
| ev_bin r o a b x y : ev r a (Some x) -> ev r b (Some y) -> (divides o -> y <> 0) -> small (arith o x y) ->
    ev r (Bin o a b) (Some (arith o x y))
| ev_bin_zero r o a b x : ev r a (Some x) -> ev r b (Some 0) -> divides o -> ev r (Bin o a b) None
| ev_bin_left r o a b : ev r a None -> ev r (Bin o a b) None
| ev_bin_right r o a b x : ev r a (Some x) -> ev r b None -> ev r (Bin o a b) None
| ev_if r c a b t f x y w : ev r a (Some x) -> ev r b (Some y) -> ev r (if holds c x y then t else f) w ->
    ev r (If c a b t f) w
| ev_if_left r c a b t f : ev r a None -> ev r (If c a b t f) None
| ev_if_right r c a b t f x : ev r a (Some x) -> ev r b None -> ev r (If c a b t f) None
| ev_let r x a b z w : ev r a (Some z) -> ev ((x, z) :: r) b w -> ev r (Let x a b) w
| ev_let_left r x a b : ev r a None -> ev r (Let x a b) None
  (* a call: the function's own parameters and nothing of the caller's *)
| ev_call r f args d vs w : look r f = None -> In d P -> f_name d = f ->
    evs r args (Some vs) -> length vs = length (f_params d) ->
    ev (combine (f_params d) vs) (f_body d) w -> ev r (Call f args) w
  (* as many operands are evaluated as there are parameters to take them *)
| ev_call_operand r f args d : look r f = None -> In d P -> f_name d = f ->
    evs r (firstn (length (f_params d)) args) None -> ev r (Call f args) None
| ev_call_arity r f args d vs : look r f = None -> In d P -> f_name d = f ->
    evs r (firstn (length (f_params d)) args) (Some vs) -> length args <> length (f_params d) ->
    ev r (Call f args) None
| ev_call_unbound r f args : look r f = None -> unknown f -> ev r (Call f args) None
with evs : list (list Z * Z) -> list exp -> option (list Z) -> Prop :=
| evs_nil r : evs r [] (Some [])
| evs_cons r a l x vs : ev r a (Some x) -> evs r l (Some vs) -> evs r (a :: l) (Some (x :: vs))
| evs_head r a l : ev r a None -> evs r (a :: l) None
| evs_tail r a l x : ev r a (Some x) -> evs r l None -> evs r (a :: l) None.
End Meaning.

(** ** Which programs: names are identifiers that are not keywords or operators *)
Definition keywords : list (list Z) := map bs
  ["define"; "define-macro"; "define-module"; "use-modules"; "export"; "re-export"; "define-public"; "let"; "let*"; "letrec";
   "call/cc"; "call-with-current-continuation"; "lambda"; "set!"; "quote"; "quasiquote"; "unquote"; "unquote-splicing"; "if";
   "and"; "or"; "delay"; "cond"; "case"; "begin"; "for-each"; "do"; "map"; "map-in-order"; "apply"; "call-with-values";
   "dynamic-wind"].
Definition name (x : list Z) : Prop :=
  identifier x /\ ~ In x keywords /\ (forall o, x <> op_name o) /\ (forall r, x <> rel_name r).
Inductive wf : exp -> Prop :=
| wf_num z : small z -> wf (Num z)
| wf_var x : name x -> wf (Var x)
| wf_bin o a b : wf a -> wf b -> wf (Bin o a b)
| wf_if r a b t f : wf a -> wf b -> wf t -> wf f -> wf (If r a b t f)
| wf_let x a b : name x -> wf a -> wf b -> wf (Let x a b)
| wf_call f args : name f -> Forall wf args -> wf (Call f args).
Definition wf_fn (d : fn) : Prop :=
  name (f_name d) /\ Forall name (f_params d) /\ NoDup (f_params d) /\ wf (f_body d).

(** ** The host and the interpreter it talks to *)
(* the arithmetic primitives are those of number.cc, NumModel *)
Definition num_op (o : op) (x y : Z) : res nval :=
  match o with
  | OAdd => scm_plus [NumModel.VInt x; NumModel.VInt y]
  | OSub => scm_minus [NumModel.VInt x; NumModel.VInt y]
  | OMul => scm_times [NumModel.VInt x; NumModel.VInt y]
  | OQuo => scm_quotient (NumModel.VInt x) (NumModel.VInt y)
  | ORem => scm_remainder (NumModel.VInt x) (NumModel.VInt y)
  | OMod => scm_modulo (NumModel.VInt x) (NumModel.VInt y)
  end.
Definition num_rel (r : rel) (x y : Z) : res nval :=
  scm_cmp match r with REq => CEq | RLt => CLt | RGt => CGt | RLe => CLe | RGe => CGe end [NumModel.VInt x; NumModel.VInt y].
(* as registered by init_number, number.cc 985-1011: two arguments, or (-1, -2) any number *)
Definition op_arity (o : op) : Z := match o with OAdd | OMul => -1 | OSub => -2 | _ => 2 end.
Record numeric (prim : list Z -> list val -> pres) : Prop := {
  n_op : forall o x y z, num_op o x y = Ok (NumModel.VInt z) -> prim (op_name o) [VInt x; VInt y] = PVal (VInt z) [];
  n_err : forall o x y, num_op o x y = Err -> prim (op_name o) [VInt x; VInt y] = PErr;
  n_rel : forall r x y b, num_rel r x y = Ok (NumModel.VBool b) -> prim (rel_name r) [VInt x; VInt y] = PVal (VBool b) [] }.
(** An initialised interpreter: the root module is current, the operators are
    bound in the global environment, the keywords are not redefined as macros, and
    there is room for two catches. *)
Record ready (s : api) : Prop := {
  r_room : (length (d_catch (s_dyn (a_st s))) < 99)%nat;
  r_cur : s_cur (a_st s) = root;
  r_mods : s_mods (a_st s) <> [];
  r_frames : s_frames (a_st s) <> [];
  r_op : forall o, assoc (op_name o) (frame_at (a_st s) 0) = Some (VFunc (op_name o) (op_arity o));
  r_rel : forall r, assoc (rel_name r) (frame_at (a_st s) 0) = Some (VFunc (rel_name r) (-2));
  r_key : forall k v, In k [bs "define"; bs "lambda"; bs "let"; bs "if"] -> assoc k (frame_at (a_st s) 0) = Some v ->
    is_macro v = false }.
Definition unbound (s : api) (x : list Z) : Prop := env_search (a_st s) g_env x = None.

(** The host hands texts to pscm_eval_string one after the other and collects
    the answers ([None]: NULL); NULL does not stop it. *)
Fixpoint session (prim : list Z -> list val -> pres) (n : nat) (texts : list (list Z)) (s : api) :
    option (list (option val) * api) :=
  match texts with
  | [] => Some ([], s)
  | t :: r =>
      match pscm_eval_string prim n t s with
      | AOk v s' => match session prim n r s' with Some (vs, s2) => Some (v :: vs, s2) | None => None end
      | _ => None
      end
  end.
Definition answer (w : option Z) : option val := match w with Some z => Some (VInt z) | None => None end.
