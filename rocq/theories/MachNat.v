(** A natural (big-step) semantics of the programs of MachModel that do not use
    continuations: C209.  No C stack, no catch stack, no wind chain, no
    argument-list cells: an evaluation relates a task and a memory to an outcome
    and a memory.

    The state of the program is its list cells and its environment frames; a
    frame is a partial map and the frame around it. *)
From Coq Require Import String List ZArith Bool.
From Verif Require Import MachModel.
Import ListNotations.
Local Open Scope string_scope.
Local Open Scope list_scope.
Local Open Scope nat_scope.

Definition vars : Type := string -> option mv.
Record mem := mkMem { cells : list cell; frames : list (vars * option nat) }.
Definition no_vars : vars := fun _ => None.
Definition with_var (x : string) (v : mv) (f : vars) : vars := fun y => if String.eqb y x then Some v else f y.

(** ** variables *)
(** the reference to x in frame e means the binding in frame o, with value v *)
Inductive bound_at (fr : list (vars * option nat)) : nat -> string -> nat -> mv -> Prop :=
| ba_here : forall e x f up v, nth_error fr e = Some (f, up) -> f x = Some v -> bound_at fr e x e v
| ba_outer : forall e x f u o v, nth_error fr e = Some (f, Some u) -> f x = None -> bound_at fr u x o v -> bound_at fr e x o v.
Definition unbound (fr : list (vars * option nat)) (e : nat) (x : string) : Prop := forall o v, ~ bound_at fr e x o v.
(** x bound to v in frame e *)
Fixpoint set_nth {A} (l : list A) (i : nat) (g : A -> A) : list A :=
  match l, i with [], _ => [] | y :: r, O => g y :: r | y :: r, S i => y :: set_nth r i g end.
Definition bind_var (e : nat) (x : string) (v : mv) (m : mem) : mem :=
  mkMem (cells m) (set_nth (frames m) e (fun f => (with_var x v (fst f), snd f))).
Definition new_frame (up : nat) (m : mem) : mem := mkMem (cells m) (frames m ++ [(no_vars, Some up)]).

(** ** lists *)
Definition chain (t : mv) : option nat := match t with MList b => Some b | _ => None end.
Fixpoint new_list (vs : list mv) (c : list cell) : mv * list cell :=
  match vs with
  | [] => (MA ANil, c)
  | v :: r => let (t, c1) := new_list r c in (MList (length c1), c1 ++ [mkCell v (chain t) false])
  end.
(** the list with these cells, longer by one: the new cell is linked from the last one *)
Definition grow (l : list nat) (v : mv) (c : list cell) : list nat * list cell :=
  (l ++ [length c],
   match rev l with
   | [] => c
   | t :: _ => set_nth c t (fun x => mkCell (c_data x) (Some (length c)) (c_dot x))
   end ++ [mkCell v None false]).
Definition list_of (l : list nat) : mv := match l with [] => MA ANil | a :: _ => MList a end.
(** the pair of a and d needs a cell for d if d is not a list *)
Definition tail_of (d : mv) (c : list cell) : option nat * list cell :=
  match d with
  | MList b => (Some b, c)
  | MA ANil => (None, c)
  | _ => (Some (length c), c ++ [mkCell d None true])
  end.

(** ** primitives: the result and the cells; None is an error *)
Fixpoint all_ints (vs : list mv) : option (list Z) :=
  match vs with
  | [] => Some []
  | MA (AInt z) :: r => match all_ints r with Some l => Some (z :: l) | None => None end
  | _ => None
  end.
Fixpoint sum (l : list Z) : Z := match l with [] => 0%Z | z :: r => (z + sum r)%Z end.
Definition primitive (p : prim) (vs : list mv) (c : list cell) : option (mv * list cell) :=
  match p with
  | PList => Some (new_list vs c)
  | PCons => match vs with
             | [a; d] => let (n, c1) := tail_of d c in Some (MList (length c1), c1 ++ [mkCell a n false])
             | _ => None end
  | PCar => match vs with
            | [MList a] => match nth_error c a with Some x => Some (c_data x, c) | None => None end
            | _ => None end
  | PCdr => match vs with
            | [MList a] =>
                match nth_error c a with
                | Some x =>
                    Some (match c_next x with
                          | None => MA ANil
                          | Some b => match nth_error c b with
                                      | Some y => if c_dot y then c_data y else MList b
                                      | None => MA ANil end
                          end, c)
                | None => None end
            | _ => None end
  | PSetCar => match vs with
               | [MList a; v] => match nth_error c a with
                                 | Some _ => Some (MA ANone, set_nth c a (fun x => mkCell v (c_next x) (c_dot x)))
                                 | None => None end
               | _ => None end
  | PSetCdr => match vs with
               | [MList a; v] => let (n, c1) := tail_of v c in
                                 match nth_error c1 a with
                                 | Some _ => Some (MA ANone, set_nth c1 a (fun x => mkCell (c_data x) n (c_dot x)))
                                 | None => None end
               | _ => None end
  | PNull => match vs with
             | [MA ANil] => Some (MA (ABool true), c)
             | [_] => Some (MA (ABool false), c)
             | _ => None end
  | PAdd => match all_ints vs with Some l => Some (MA (AInt (sum l)), c) | None => None end
  | PSub => match all_ints vs with Some [a; b] => Some (MA (AInt (a - b)), c) | _ => None end
  | PLess => match all_ints vs with Some [a; b] => Some (MA (ABool (a <? b)%Z), c) | _ => None end
  | PCatch | PThrow => None
  end.

(** ** evaluation *)
(** a value; a throw with its key and arguments; the end of the process by a throw that nothing catches *)
Inductive stop := Thrown (key : string) (args : list mv) | Exit (key : string).
Inductive outcome := RVal (v : mv) | RStop (q : stop).
Definition wrong : outcome := RStop (Thrown "error" []).
Inductive task :=
| TEval (e : nat) (x : expr)                     (* the value of x in frame e *)
| TBody (e : nat) (es : list expr)               (* the value of the last one *)
| TCall (e : nat) (f : mv) (args : list expr)    (* f called on operands *)
| TParams (e fe : nat) (ps : list string) (r : option string) (args : list expr) (body : list expr)
                                                 (* operands of frame e for the parameters, bound in frame fe; then the body *)
| TRest (e fe : nat) (y : string) (l : list nat) (args : list expr) (body : list expr)
                                                 (* operands for the rest parameter y, after those in the cells l *)
| TOperands (e : nat) (p : prim) (vs : list mv) (args : list expr)   (* operands for a primitive, after the values vs *)
| TPrim (p : prim) (vs : list mv)
| TCall1 (f v : mv)                              (* f called on one value *)
| TCallValues (f : mv) (vs : list mv)            (* a handler called on values *)
| TMap (e : nat) (f : mv) (p : option nat) (l : list nat)   (* f on the cells from p; results so far in the cells l *)
| TEach (e : nat) (f : mv) (p : option nat).
Definition procedure (v : mv) : Prop := match v with MProc _ _ _ _ => True | _ => False end.
Definition function (v : mv) : Prop := match v with MProc _ _ _ _ | MPrim _ => True | _ => False end.
(** the number of arguments for-each can pass to f: one list, one argument *)
Definition takes_one (f : mv) : Prop :=
  match f with
  | MProc ps None _ _ => length ps = 1
  | MProc ps (Some _) _ _ => length ps = 0
  | MPrim (PCar | PCdr | PNull | PList | PAdd | PSub | PLess | PCatch | PThrow) => True
  | _ => False
  end.
Definition takes_none (f : mv) : Prop := match f with MProc [] None _ _ => True | _ => False end.
Definition good_tag (t : mv) : Prop := t = MA (ABool true) \/ exists x, t = MA (ASym x).
Definition catches (t : mv) (key : string) : Prop := t = MA (ABool true) \/ t = MA (ASym key).
(** the parameters of a procedure bound to values; [exact]: a missing value is an error even
    before a rest parameter *)
Inductive bind_all (fe : nat) (exact : bool) : list string -> option string -> list mv -> mem -> option mem -> Prop :=
| b_done : forall m, bind_all fe exact [] None [] m (Some m)
| b_many : forall v vs m, bind_all fe exact [] None (v :: vs) m None
| b_rest : forall y vs m l c, new_list vs (cells m) = (l, c) ->
    bind_all fe exact [] (Some y) vs m (Some (bind_var fe y l (mkMem c (frames m))))
| b_next : forall p ps r v vs m o, bind_all fe exact ps r vs (bind_var fe p v m) o -> bind_all fe exact (p :: ps) r (v :: vs) m o
| b_few : forall p ps m, bind_all fe exact (p :: ps) None [] m None
| b_few_exact : forall p ps y m, exact = true -> bind_all fe exact (p :: ps) (Some y) [] m None
| b_few_rest : forall p ps y m, exact = false -> bind_all fe exact (p :: ps) (Some y) [] m (Some m).

(** [ev d m t o m']: with catches with the tags d active, innermost first, task t ends
    with outcome o.  A throw that the innermost active catch does not take but another
    one does has no rule. *)
Inductive ev : list mv -> mem -> task -> outcome -> mem -> Prop :=
(* expressions *)
| ev_atom : forall d m e a, ev d m (TEval e (EAtom a)) (RVal (MA a)) m
| ev_var : forall d m e x o v, bound_at (frames m) e x o v -> ev d m (TEval e (EVar x)) (RVal v) m
| ev_unbound : forall d m e x, unbound (frames m) e x -> ev d m (TEval e (EVar x)) wrong m
| ev_if_throw : forall d m e c t f q m1, ev d m (TEval e c) (RStop q) m1 -> ev d m (TEval e (EIf c t f)) (RStop q) m1
| ev_if_true : forall d m e c t f v m1 o m2, ev d m (TEval e c) (RVal v) m1 -> v <> MA (ABool false) ->
    ev d m1 (TEval e t) o m2 -> ev d m (TEval e (EIf c t f)) o m2
| ev_if_false : forall d m e c t f m1 o m2, ev d m (TEval e c) (RVal (MA (ABool false))) m1 ->
    ev d m1 (TEval e f) o m2 -> ev d m (TEval e (EIf c t (Some f))) o m2
| ev_if_none : forall d m e c t m1, ev d m (TEval e c) (RVal (MA (ABool false))) m1 -> ev d m (TEval e (EIf c t None)) (RVal (MA ANone)) m1
| ev_set_throw : forall d m e x y q m1, ev d m (TEval e y) (RStop q) m1 -> ev d m (TEval e (ESet x y)) (RStop q) m1
| ev_set : forall d m e x y v m1 o w, ev d m (TEval e y) (RVal v) m1 -> bound_at (frames m1) e x o w ->
    ev d m (TEval e (ESet x y)) (RVal (MA ANone)) (bind_var o x v m1)
| ev_set_new : forall d m e x y v m1, ev d m (TEval e y) (RVal v) m1 -> unbound (frames m1) e x ->
    ev d m (TEval e (ESet x y)) (RVal (MA ANone)) (bind_var e x v m1)
| ev_def_throw : forall d m e x y q m1, ev d m (TEval e y) (RStop q) m1 -> ev d m (TEval e (EDef x y)) (RStop q) m1
| ev_def : forall d m e x y v m1, ev d m (TEval e y) (RVal v) m1 -> ev d m (TEval e (EDef x y)) (RVal (MA ANone)) (bind_var e x v m1)
| ev_lam : forall d m e ps r b, ev d m (TEval e (ELam ps r b)) (RVal (MProc ps r b e)) m
| ev_begin_none : forall d m e, ev d m (TEval e (EBegin [])) (RVal (MA (ABool false))) m
| ev_begin : forall d m e x es o m1, ev d m (TBody e (x :: es)) o m1 -> ev d m (TEval e (EBegin (x :: es))) o m1
| ev_call_throw : forall d m e f args q m1, ev d m (TEval e f) (RStop q) m1 -> ev d m (TEval e (ECall f args)) (RStop q) m1
| ev_call : forall d m e f args v m1 o m2, ev d m (TEval e f) (RVal v) m1 -> ev d m1 (TCall e v args) o m2 -> ev d m (TEval e (ECall f args)) o m2
(* sequences *)
| ev_last : forall d m e x o m1, ev d m (TEval e x) o m1 -> ev d m (TBody e [x]) o m1
| ev_seq_throw : forall d m e x y es q m1, ev d m (TEval e x) (RStop q) m1 -> ev d m (TBody e (x :: y :: es)) (RStop q) m1
| ev_seq : forall d m e x y es v m1 o m2, ev d m (TEval e x) (RVal v) m1 -> ev d m1 (TBody e (y :: es)) o m2 -> ev d m (TBody e (x :: y :: es)) o m2
(* calls *)
| ev_not_function : forall d m e f args, ~ function f -> (forall j, f <> MCont j) -> ev d m (TCall e f args) wrong m
| ev_call_prim : forall d m e p args o m1, ev d m (TOperands e p [] args) o m1 -> ev d m (TCall e (MPrim p) args) o m1
| ev_call_rest : forall d m e y b pe args o m1, pe < length (frames m) ->
    ev d (new_frame pe m) (TRest e (length (frames m)) y [] args b) o m1 -> ev d m (TCall e (MProc [] (Some y) b pe) args) o m1
| ev_call_proc : forall d m e ps r b pe args o m1, pe < length (frames m) -> ps <> [] \/ r = None ->
    ev d (new_frame pe m) (TParams e (length (frames m)) ps r args b) o m1 -> ev d m (TCall e (MProc ps r b pe) args) o m1
| ev_params_done : forall d m e fe b o m1, ev d m (TBody fe b) o m1 -> ev d m (TParams e fe [] None [] b) o m1
| ev_params_many : forall d m e fe a args b, ev d m (TParams e fe [] None (a :: args) b) wrong m
| ev_params_few : forall d m e fe p ps b, ev d m (TParams e fe (p :: ps) None [] b) wrong m
| ev_params_few_rest : forall d m e fe p ps y b o m1, ev d m (TBody fe b) o m1 -> ev d m (TParams e fe (p :: ps) (Some y) [] b) o m1
| ev_param_throw : forall d m e fe p ps r a args b q m1, ev d m (TEval e a) (RStop q) m1 ->
    ev d m (TParams e fe (p :: ps) r (a :: args) b) (RStop q) m1
| ev_param : forall d m e fe p ps r a args b v m1 o m2, ev d m (TEval e a) (RVal v) m1 -> ps <> [] \/ r = None ->
    ev d (bind_var fe p v m1) (TParams e fe ps r args b) o m2 -> ev d m (TParams e fe (p :: ps) r (a :: args) b) o m2
| ev_param_rest : forall d m e fe p y a args b v m1 o m2, ev d m (TEval e a) (RVal v) m1 ->
    ev d (bind_var fe p v m1) (TRest e fe y [] args b) o m2 -> ev d m (TParams e fe [p] (Some y) (a :: args) b) o m2
| ev_rest_done : forall d m e fe y l b o m1, ev d (bind_var fe y (list_of l) m) (TBody fe b) o m1 -> ev d m (TRest e fe y l [] b) o m1
| ev_rest_throw : forall d m e fe y l a args b q m1, ev d m (TEval e a) (RStop q) m1 -> ev d m (TRest e fe y l (a :: args) b) (RStop q) m1
| ev_rest : forall d m e fe y l a args b v m1 l1 c1 o m2, ev d m (TEval e a) (RVal v) m1 -> grow l v (cells m1) = (l1, c1) ->
    ev d (mkMem c1 (frames m1)) (TRest e fe y l1 args b) o m2 -> ev d m (TRest e fe y l (a :: args) b) o m2
| ev_operands_done : forall d m e p vs o m1, ev d m (TPrim p vs) o m1 -> ev d m (TOperands e p vs []) o m1
| ev_operand_throw : forall d m e p vs a args q m1, ev d m (TEval e a) (RStop q) m1 -> ev d m (TOperands e p vs (a :: args)) (RStop q) m1
| ev_operand : forall d m e p vs a args v m1 o m2, ev d m (TEval e a) (RVal v) m1 -> ev d m1 (TOperands e p (vs ++ [v]) args) o m2 ->
    ev d m (TOperands e p vs (a :: args)) o m2
(* primitives *)
| ev_prim : forall d m p vs v c, primitive p vs (cells m) = Some (v, c) -> ev d m (TPrim p vs) (RVal v) (mkMem c (frames m))
| ev_prim_wrong : forall d m p vs, p <> PCatch -> p <> PThrow -> primitive p vs (cells m) = None -> ev d m (TPrim p vs) wrong m
| ev_throw : forall d m key vs, ev d m (TPrim PThrow (MA (ASym key) :: vs)) (RStop (Thrown key vs)) m
| ev_throw_wrong : forall d m vs, (forall key r, vs <> MA (ASym key) :: r) -> ev d m (TPrim PThrow vs) wrong m
| ev_catch_value : forall d m t f h r v m1, length d < 100 -> good_tag t -> procedure f -> procedure h ->
    ev (t :: d) m (TCall 0 f []) (RVal v) m1 -> ev d m (TPrim PCatch (t :: f :: h :: r)) (RVal v) m1
| ev_catch_throw : forall d m t f h r key args m1 o m2, length d < 100 -> good_tag t -> procedure f -> procedure h ->
    ev (t :: d) m (TCall 0 f []) (RStop (Thrown key args)) m1 -> catches t key ->
    ev d m1 (TCallValues h (MA (ASym key) :: args)) o m2 -> ev d m (TPrim PCatch (t :: f :: h :: r)) o m2
| ev_catch_none : forall d m t f h r key args m1, length d < 100 -> good_tag t -> procedure f -> procedure h ->
    ev (t :: d) m (TCall 0 f []) (RStop (Thrown key args)) m1 -> (forall t', In t' (t :: d) -> ~ catches t' key) ->
    ev d m (TPrim PCatch (t :: f :: h :: r)) (RStop (Exit key)) m1
| ev_catch_exit : forall d m t f h r key m1, length d < 100 -> good_tag t -> procedure f -> procedure h ->
    ev (t :: d) m (TCall 0 f []) (RStop (Exit key)) m1 -> ev d m (TPrim PCatch (t :: f :: h :: r)) (RStop (Exit key)) m1
| ev_catch_deep : forall d m t f h r, 100 <= length d -> good_tag t -> procedure f -> procedure h -> ev d m (TPrim PCatch (t :: f :: h :: r)) wrong m
| ev_catch_wrong : forall d m vs, (forall t f h r, vs = t :: f :: h :: r -> ~ (good_tag t /\ procedure f /\ procedure h)) -> ev d m (TPrim PCatch vs) wrong m
(* calls on values *)
| ev_call1 : forall d m ps r b pe v m1 o m2, pe < length (frames m) -> bind_all (length (frames m)) false ps r [v] (new_frame pe m) (Some m1) ->
    ev d m1 (TBody (length (frames m)) b) o m2 -> ev d m (TCall1 (MProc ps r b pe) v) o m2
| ev_call1_wrong : forall d m ps r b pe v, pe < length (frames m) -> bind_all (length (frames m)) false ps r [v] (new_frame pe m) None ->
    ev d m (TCall1 (MProc ps r b pe) v) wrong m
| ev_call1_prim : forall d m p v o m1, ev d m (TPrim p [v]) o m1 -> ev d m (TCall1 (MPrim p) v) o m1
| ev_handler : forall d m ps r b pe vs m1 o m2, pe < length (frames m) -> bind_all (length (frames m)) true ps r vs (new_frame pe m) (Some m1) ->
    ev d m1 (TBody (length (frames m)) b) o m2 -> ev d m (TCallValues (MProc ps r b pe) vs) o m2
| ev_handler_wrong : forall d m ps r b pe vs, pe < length (frames m) -> bind_all (length (frames m)) true ps r vs (new_frame pe m) None ->
    ev d m (TCallValues (MProc ps r b pe) vs) wrong m
(* call/cc, when its operand has no value; a continuation has no rule *)
| ev_callcc_throw : forall d m e f q m1, ev d m (TEval e f) (RStop q) m1 -> ev d m (TEval e (ECallCC f)) (RStop q) m1
(* dynamic-wind: a throw from the thunk does not run the last guard *)
| ev_wind1_throw : forall d m e a b c q m1, ev d m (TEval e a) (RStop q) m1 -> ev d m (TEval e (EWind a b c)) (RStop q) m1
| ev_wind2_throw : forall d m e a b c f1 m1 q m2, ev d m (TEval e a) (RVal f1) m1 -> ev d m1 (TEval e b) (RStop q) m2 -> ev d m (TEval e (EWind a b c)) (RStop q) m2
| ev_wind3_throw : forall d m e a b c f1 m1 f2 m2 q m3, ev d m (TEval e a) (RVal f1) m1 -> ev d m1 (TEval e b) (RVal f2) m2 -> ev d m2 (TEval e c) (RStop q) m3 ->
    ev d m (TEval e (EWind a b c)) (RStop q) m3
| ev_wind_wrong : forall d m e a b c f1 m1 f2 m2 f3 m3, ev d m (TEval e a) (RVal f1) m1 -> ev d m1 (TEval e b) (RVal f2) m2 -> ev d m2 (TEval e c) (RVal f3) m3 ->
    ~ (procedure f1 /\ procedure f2 /\ procedure f3) -> ev d m (TEval e (EWind a b c)) wrong m3
| ev_wind_in : forall d m e a b c f1 m1 f2 m2 f3 m3 q m4, ev d m (TEval e a) (RVal f1) m1 -> ev d m1 (TEval e b) (RVal f2) m2 -> ev d m2 (TEval e c) (RVal f3) m3 ->
    procedure f1 -> procedure f2 -> procedure f3 -> ev d m3 (TCall e f1 []) (RStop q) m4 -> ev d m (TEval e (EWind a b c)) (RStop q) m4
| ev_wind_thunk : forall d m e a b c f1 m1 f2 m2 f3 m3 u m4 q m5, ev d m (TEval e a) (RVal f1) m1 -> ev d m1 (TEval e b) (RVal f2) m2 -> ev d m2 (TEval e c) (RVal f3) m3 ->
    procedure f1 -> procedure f2 -> procedure f3 -> ev d m3 (TCall e f1 []) (RVal u) m4 -> ev d m4 (TCall e f2 []) (RStop q) m5 ->
    ev d m (TEval e (EWind a b c)) (RStop q) m5
| ev_wind_out : forall d m e a b c f1 m1 f2 m2 f3 m3 u m4 v m5 q m6, ev d m (TEval e a) (RVal f1) m1 -> ev d m1 (TEval e b) (RVal f2) m2 -> ev d m2 (TEval e c) (RVal f3) m3 ->
    procedure f1 -> procedure f2 -> procedure f3 -> ev d m3 (TCall e f1 []) (RVal u) m4 -> ev d m4 (TCall e f2 []) (RVal v) m5 ->
    ev d m5 (TCall e f3 []) (RStop q) m6 -> ev d m (TEval e (EWind a b c)) (RStop q) m6
| ev_wind : forall d m e a b c f1 m1 f2 m2 f3 m3 u m4 v m5 w m6, ev d m (TEval e a) (RVal f1) m1 -> ev d m1 (TEval e b) (RVal f2) m2 -> ev d m2 (TEval e c) (RVal f3) m3 ->
    procedure f1 -> procedure f2 -> procedure f3 -> ev d m3 (TCall e f1 []) (RVal u) m4 -> ev d m4 (TCall e f2 []) (RVal v) m5 ->
    ev d m5 (TCall e f3 []) (RVal w) m6 -> ev d m (TEval e (EWind a b c)) (RVal v) m6
(* map and for-each *)
| ev_map1_throw : forall d m e f l q m1, ev d m (TEval e f) (RStop q) m1 -> ev d m (TEval e (EMap f l)) (RStop q) m1
| ev_map_wrong : forall d m e f l g m1, ev d m (TEval e f) (RVal g) m1 -> ~ function g -> ev d m (TEval e (EMap f l)) wrong m1
| ev_map2_throw : forall d m e f l g m1 q m2, ev d m (TEval e f) (RVal g) m1 -> function g -> ev d m1 (TEval e l) (RStop q) m2 -> ev d m (TEval e (EMap f l)) (RStop q) m2
| ev_map_list : forall d m e f l g m1 a m2 o m3, ev d m (TEval e f) (RVal g) m1 -> function g -> ev d m1 (TEval e l) (RVal (MList a)) m2 ->
    ev d m2 (TMap e g (Some a) []) o m3 -> ev d m (TEval e (EMap f l)) o m3
| ev_map_nil : forall d m e f l g m1 m2, ev d m (TEval e f) (RVal g) m1 -> function g -> ev d m1 (TEval e l) (RVal (MA ANil)) m2 ->
    ev d m (TEval e (EMap f l)) (RVal (MA ANil)) m2
| ev_map_not_list : forall d m e f l g m1 v m2, ev d m (TEval e f) (RVal g) m1 -> function g -> ev d m1 (TEval e l) (RVal v) m2 ->
    v <> MA ANil -> (forall a, v <> MList a) -> ev d m (TEval e (EMap f l)) wrong m2
| ev_map_done : forall d m e f l, ev d m (TMap e f None l) (RVal (list_of l)) m
| ev_map_throw : forall d m e f a l c q m1, nth_error (cells m) a = Some c -> ev d m (TCall1 f (c_data c)) (RStop q) m1 -> ev d m (TMap e f (Some a) l) (RStop q) m1
| ev_map_more : forall d m e f a l c v m1 l1 c1 o m2, nth_error (cells m) a = Some c -> ev d m (TCall1 f (c_data c)) (RVal v) m1 ->
    grow l v (cells m1) = (l1, c1) -> ev d (mkMem c1 (frames m1)) (TMap e f (c_next c) l1) o m2 -> ev d m (TMap e f (Some a) l) o m2
| ev_each1_throw : forall d m e f l q m1, ev d m (TEval e f) (RStop q) m1 -> ev d m (TEval e (EEach f l)) (RStop q) m1
| ev_each_none : forall d m e f l g m1, ev d m (TEval e f) (RVal g) m1 -> takes_none g -> ev d m (TEval e (EEach f l)) (RVal (MA ANone)) m1
| ev_each_wrong : forall d m e f l g m1, ev d m (TEval e f) (RVal g) m1 -> ~ takes_none g -> ~ takes_one g -> ev d m (TEval e (EEach f l)) wrong m1
| ev_each2_throw : forall d m e f l g m1 q m2, ev d m (TEval e f) (RVal g) m1 -> takes_one g -> ev d m1 (TEval e l) (RStop q) m2 -> ev d m (TEval e (EEach f l)) (RStop q) m2
| ev_each_list : forall d m e f l g m1 a m2 o m3, ev d m (TEval e f) (RVal g) m1 -> takes_one g -> ev d m1 (TEval e l) (RVal (MList a)) m2 ->
    ev d m2 (TEach e g (Some a)) o m3 -> ev d m (TEval e (EEach f l)) o m3
| ev_each_nil : forall d m e f l g m1 m2, ev d m (TEval e f) (RVal g) m1 -> takes_one g -> ev d m1 (TEval e l) (RVal (MA ANil)) m2 ->
    ev d m (TEval e (EEach f l)) (RVal (MA ANone)) m2
| ev_each_not_list : forall d m e f l g m1 v m2, ev d m (TEval e f) (RVal g) m1 -> takes_one g -> ev d m1 (TEval e l) (RVal v) m2 ->
    v <> MA ANil -> (forall a, v <> MList a) -> ev d m (TEval e (EEach f l)) wrong m2
| ev_each_done : forall d m e f, ev d m (TEach e f None) (RVal (MA ANone)) m
(* the code takes an element () for the end of the list *)
| ev_each_end : forall d m e f a c, nth_error (cells m) a = Some c -> c_data c = MA ANil -> ev d m (TEach e f (Some a)) (RVal (MA ANone)) m
| ev_each_throw : forall d m e f a c q m1, nth_error (cells m) a = Some c -> c_data c <> MA ANil -> ev d m (TCall1 f (c_data c)) (RStop q) m1 ->
    ev d m (TEach e f (Some a)) (RStop q) m1
| ev_each_more : forall d m e f a c v m1 o m2, nth_error (cells m) a = Some c -> c_data c <> MA ANil -> ev d m (TCall1 f (c_data c)) (RVal v) m1 ->
    ev d m1 (TEach e f (c_next c)) o m2 -> ev d m (TEach e f (Some a)) o m2.

(** The memory a program starts with: the primitives under their names. *)
Definition first_memory : mem :=
  mkMem [] [((fun x =>
    if String.eqb x "list" then Some (MPrim PList) else if String.eqb x "cons" then Some (MPrim PCons) else
    if String.eqb x "car" then Some (MPrim PCar) else if String.eqb x "cdr" then Some (MPrim PCdr) else
    if String.eqb x "set-car!" then Some (MPrim PSetCar) else if String.eqb x "set-cdr!" then Some (MPrim PSetCdr) else
    if String.eqb x "+" then Some (MPrim PAdd) else if String.eqb x "-" then Some (MPrim PSub) else
    if String.eqb x "<" then Some (MPrim PLess) else if String.eqb x "null?" then Some (MPrim PNull) else
    if String.eqb x "catch" then Some (MPrim PCatch) else if String.eqb x "throw" then Some (MPrim PThrow) else None), None)].

(** ** the memory of the machine *)
(** a frame of bindings is a partial map *)
Definition fr_agree (f : eframe) (g : vars * option nat) : Prop := (forall x, assq x (e_binds f) = fst g x) /\ e_up f = snd g.
(** the same cells and frames; the frame around a frame is older *)
Definition agree (h : store) (m : mem) : Prop :=
  h_cells h = cells m /\ Forall2 fr_agree (h_envs h) (frames m) /\ (forall i f u, nth_error (frames m) i = Some (f, Some u) -> u < i).

(** ** the programs the semantics is about *)
(** the tags of the catches whose bodies are being evaluated, innermost first *)
Fixpoint tags (k : list frame) : list mv :=
  match k with [] => [] | FCatch _ t _ true _ :: r => t :: tags r | _ :: r => tags r end.
(** a throw is caught by the innermost catch or by none *)
Definition covered (s : mst) : Prop :=
  match m_ctrl s, tags (m_stack s) with
  | CThrow key _, t :: r => catches t key \/ forall t', In t' (t :: r) -> ~ catches t' key
  | _, _ => True
  end.
(** a run of n steps from s that ends, with a value or by a throw that nothing catches *)
Definition ends (n : nat) (s s' : mst) : Prop := (exists v, run n s = Final v s') \/ exists key, run n s = Uncaught key s'.
(** the catches whose bodies are being evaluated in s have the tags d *)
Definition active (s : mst) (d : list mv) : Prop :=
  Forall2 (fun id t => id < m_next s /\ exists h w r, unwind_to id (m_stack s) = Some (t, h, w, r) /\ In (FCatch id t h true w) (m_stack s)) (m_catch s) d.
