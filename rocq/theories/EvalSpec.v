(** What evaluating a program is promised to do (C41, C45-C49, C53-C64, C70-),
    in terms of the observable behaviour of evaluations: how they end and in
    which state. *)
From Coq Require Import String.
From Verif Require Import Base ParseModel PrintModel EnvModel EvalModel.
Local Open Scope string_scope.
Local Open Scope list_scope.

(** A behaviour relates a state to the ways a computation may end from it. *)
Notation Beh A := (state -> out A -> Prop).

(** o2 is the same abnormal ending as o1: nothing is returned. *)
Inductive stops {A B} : out A -> out B -> Prop :=
| stops_thrown id key args st : stops (Thrown id key args st) (Thrown id key args st)
| stops_jump k v st : stops (Jump k v st) (Jump k v st)
| stops_exit st : stops (Exit st) (Exit st)
| stops_abort : stops OAbort OAbort
| stops_ub : stops OUB OUB.

Definition returns {A} (a : A) : Beh A := fun st o => o = Ret a st.
(** First [m]; then, if it returns, [k] with its value; if [m] ends abnormally,
    so does the whole, and [k] does not happen. *)
Definition andthen {A B} (m : Beh A) (k : A -> Beh B) : Beh B := fun st o =>
  (exists a st1, m st (Ret a st1) /\ k a st1 o) \/ (exists o1, m st o1 /\ stops o1 o).
Notation "x <~ m ;; k" := (andthen m (fun x => k)) (at level 100, m at next level, right associativity).
Definition effect (f : state -> state) : Beh unit := fun st o => o = Ret tt (f st).
(** An error is signalled: control goes to the handler selected for the key
    [error] (C48). *)
Definition raises {A} : Beh A := fun st o => o = err st.
Definition asserts {A} : Beh A := fun _ o => o = OAbort.
(** Only from states satisfying [P]. *)
Definition given {A} (P : state -> Prop) (m : Beh A) : Beh A := fun st o => P st /\ m st o.

Section Spec.
Variable prim : list Z -> list val -> pres.

(** Evaluating x in e from st ends as o. *)
Definition runs (e : env) (x : val) : Beh val := fun st o => exists n, eval prim n e x st = o /\ o <> OFuel.

(** ** Programs *)
Definition form_ (k : string) (args : list val) : val := VList (sym k :: args) false.
(** The keyword is not bound to a macro where the form is evaluated. *)
Definition plain (e : env) (k : string) (st : state) : Prop :=
  forall v, head_value st e (bs k) = Some v -> is_macro v = false.

(** ** Sequences *)
Fixpoint args_run (e : env) (es : list val) : Beh (list val) :=
  match es with
  | [] => returns []
  | x :: r => v <~ runs e x ;; vs <~ args_run e r ;; returns (v :: vs)
  end.
Fixpoint body_run (e : env) (es : list val) : Beh val :=
  match es with
  | [] => asserts
  | [x] => runs e x
  | x :: r => _ <~ runs e x ;; body_run e r
  end.

(** ** and, or (R5RS 4.2.1) *)
Fixpoint and_run (e : env) (es : list val) : Beh val :=
  match es with
  | [] => returns (VBool true)
  | [x] => runs e x
  | x :: r => v <~ runs e x ;; if truthy v then and_run e r else returns v
  end.
Fixpoint or_run (e : env) (es : list val) : Beh val :=
  match es with
  | [] => returns (VBool false)
  | [x] => runs e x
  | x :: r => v <~ runs e x ;; if truthy v then returns v else or_run e r
  end.

(** ** Procedures *)
(** The value of (lambda (x ...) body ...), (lambda (x ... . rest) body ...) or
    (lambda rest body ...) in pe. *)
Definition closure (xs : list (list Z)) (rest : option (list Z)) (body : list val) (pe : env) : val :=
  match rest with
  | None => VProc (map VSym xs) false body pe
  | Some r => VProc (map VSym xs ++ [VSym r]) true body pe
  end.
Definition params (xs : list (list Z)) (rest : option (list Z)) : val :=
  match rest, xs with
  | None, [] => VNil
  | None, _ => VList (map VSym xs) false
  | Some r, [] => VSym r
  | Some r, _ => VList (map VSym xs ++ [VSym r]) true
  end.
(** A new empty frame below pe. *)
Definition new_frame (pe : env) : Beh env := fun st o =>
  o = Ret (mkEnv (length (s_frames st) :: e_chain pe) (e_mod pe))
          (mkState (s_frames st ++ [[]]) (s_mods st) (s_cur st) (s_proms st) (s_dyn st)).
(** The innermost frame of fe binds x to v. *)
Definition binds (fe : env) (x : list Z) (v : val) : Beh unit := effect (fun st => env_insert st fe x v false).
(** Operands are evaluated from left to right in e; parameters are bound in fe. *)
Fixpoint bind_run (e fe : env) (xs : list (list Z)) (rest : option (list Z)) (args : list val) : Beh unit :=
  match xs, args with
  | x :: xs, a :: args => v <~ runs e a ;; _ <~ binds fe x v ;; bind_run e fe xs rest args
  | [], _ =>
      match rest with
      | Some r => vs <~ args_run e args ;; binds fe r (mklist vs)
      | None => match args with [] => returns tt | _ => raises end
      end
  | _ :: _, [] => raises
  end.
Definition call_run (e : env) (xs : list (list Z)) (rest : option (list Z)) (body : list val) (pe : env) (args : list val) : Beh val :=
  fe <~ new_frame pe ;; _ <~ bind_run e fe xs rest args ;; body_run fe body.
(** A call on values. *)
Fixpoint bind_vals (fe : env) (xs : list (list Z)) (rest : option (list Z)) (vs : list val) : Beh unit :=
  match xs, vs with
  | x :: xs, v :: vs => _ <~ binds fe x v ;; bind_vals fe xs rest vs
  | [], _ =>
      match rest with
      | Some r => binds fe r (mklist vs)
      | None => match vs with [] => returns tt | _ => raises end
      end
  | _ :: _, [] => raises
  end.
Definition call_vals (xs : list (list Z)) (rest : option (list Z)) (body : list val) (pe : env) (vs : list val) : Beh val :=
  fe <~ new_frame pe ;; _ <~ bind_vals fe xs rest vs ;; body_run fe body.

(** Calling a primitive that does not call back: it checks the number of arguments,
    then gives a value and some output, or an error. *)
Definition prim_run (nm : list Z) (ar : Z) (vs : list val) : Beh val :=
  if ((ar <? 0) || (Z.of_nat (length vs) =? ar))%Z
  then match prim nm vs with PVal v out => _ <~ effect (emit out) ;; returns v | PErr => raises end
  else fun st o => o = throw (sym "wrong-number-of-args")
         (VList [VBool false; VStr (bs "Wrong number of arguments to ~A"); VFunc nm ar; VBool false] false) st.

(** ** Binding forms *)
Definition bindings (bs : list (list Z * val)) : val := mklist (map (fun b => VList [VSym (fst b); snd b] false) bs).
Definition let_run (e : env) (bs : list (list Z * val)) (body : list val) : Beh val :=
  call_run e (map fst bs) None body e (map snd bs).
Fixpoint letstar_run (e : env) (bs : list (list Z * val)) (body : list val) : Beh val :=
  given (fun st => plain e "let*" st /\ plain e "let" st /\ plain e "lambda" st)
  match bs with
  | [] => let_run e [] body
  | [b] => let_run e [b] body
  | (x, i) :: r => fe <~ new_frame e ;; v <~ runs e i ;; _ <~ binds fe x v ;; letstar_run fe r body
  end.
Fixpoint each_run {A} (f : A -> Beh unit) (l : list A) : Beh unit :=
  match l with [] => returns tt | x :: r => _ <~ f x ;; each_run f r end.
(** All variables are bound first (to #f); then the inits are evaluated in that
    scope, in order, and assigned. *)
Definition letrec_run (e : env) (bs : list (list Z * val)) (body : list val) : Beh val :=
  fe <~ new_frame e ;;
  _ <~ each_run (fun x => binds fe x (VBool false)) (map fst bs) ;;
  _ <~ each_run (fun b => given (plain fe "set!") (v <~ runs fe (snd b) ;; binds fe (fst b) v)) bs ;;
  body_run fe body.

(** (let f ((x i) ...) b): the inits are evaluated in e; their values are kept in
    a frame of temporaries; f is bound, below it, to the procedure, which is
    called on the temporaries.  [given]: the keywords used keep their meaning. *)
Definition temp (k : nat) : list Z := bs "__temp_" ++ dec (Z.of_nat k).
Definition named_run (e : env) (f : list Z) (bs : list (list Z * val)) (b : val) : Beh val :=
  let ts := map temp (seq 0 (length bs)) in
  te <~ new_frame e ;;
  _ <~ bind_run e te ts None (map snd bs) ;;
  given (fun st => plain te "letrec" st /\ plain te "let" st /\ plain te "lambda" st) (
  fe <~ new_frame te ;;
  _ <~ binds fe f (VBool false) ;;
  given (fun st => plain fe "set!" st /\ plain fe "lambda" st) (
  _ <~ binds fe f (closure (map fst bs) None [b] fe) ;;
  call_run fe (map fst bs) None [b] fe (map VSym ts))).

(** ** cond, case *)
Inductive clause := Test (t : val) | Body (t : val) (b : val) (bs : list val) | Arrow (t f : val) | Else (b : val) (bs : list val).
Definition clause_val (c : clause) : val :=
  match c with
  | Test t => VList [t] false
  | Body t b bs => VList (t :: b :: bs) false
  | Arrow t f => VList [t; sym "=>"; f] false
  | Else b bs => VList (sym "else" :: b :: bs) false
  end.
(** [test_only v]: what a clause with only a test returns when its value is v. *)
Definition arrow_free (e : env) (st : state) : Prop := env_exist st e (bs "=>") = None.
Fixpoint cond_run (test_only : val -> val) (e : env) (cs : list clause) : Beh val :=
  match cs with
  | [] => returns VNone
  | Test t :: r => v <~ runs e t ;; if truthy v then returns (test_only v) else cond_run test_only e r
  | Body t b bs :: r => v <~ runs e t ;; if truthy v then body_run e (b :: bs) else cond_run test_only e r
  | Arrow t f :: r =>
      v <~ runs e t ;;
      if truthy v
      then given (arrow_free e) (g <~ runs e f ;; given (fun _ => is_sym g = None) (runs e (VList [g; quoted v] false)))
      else cond_run test_only e r
  | Else b bs :: _ => body_run e (b :: bs)
  end.
Definition clause_ok (c : clause) : Prop :=
  match c with
  | Test t => t <> sym "else"
  | Body t b _ => t <> sym "else" /\ b <> sym "=>"
  | Arrow t _ => t <> sym "else"
  | Else _ _ => True
  end.
Inductive case_clause := Case (ds : list val) (b : val) (bs : list val) | CaseElse (b : val) (bs : list val).
Definition case_val (c : case_clause) : val :=
  match c with
  | Case ds b bs => VList (mklist ds :: b :: bs) false
  | CaseElse b bs => VList (sym "else" :: b :: bs) false
  end.
Fixpoint case_run (same : val -> val -> bool) (e : env) (key : val) (cs : list case_clause) : Beh val :=
  match cs with
  | [] => returns (VBool false)
  | Case ds b bs :: r => if existsb (same key) ds then body_run e (b :: bs) else case_run same e key r
  | CaseElse b bs :: _ => body_run e (b :: bs)
  end.

(** ** do *)
Record dospec := mkDo { do_var : list Z; do_init : val; do_step : option val }.
Definition do_val (d : dospec) : val :=
  VList (VSym (do_var d) :: do_init d :: match do_step d with Some s => [s] | None => [] end) false.
Definition unbound_frames (e : env) (x : list Z) (st : state) : Prop := search_chain st (e_chain e) x = None.
(** Inits are evaluated in e; each variable goes into the loop's own frame.
    [given]: no enclosing frame binds it. *)
Definition inits_run (e fe : env) (ds : list dospec) : Beh unit :=
  each_run (fun d => v <~ runs e (do_init d) ;; given (unbound_frames fe (do_var d)) (binds fe (do_var d) v)) ds.
Fixpoint binds_all (fe : env) (xs : list (list Z)) (vs : list val) : Beh unit :=
  match xs, vs with
  | x :: xs, v :: vs => _ <~ binds fe x v ;; binds_all fe xs vs
  | _, _ => returns tt
  end.
Definition step_of (d : dospec) : list (list Z * val) :=
  match do_step d with Some s => [(do_var d, s)] | None => [] end.
(** All steps are evaluated before any variable changes. *)
Definition steps_run (fe : env) (ds : list dospec) : Beh unit :=
  let ss := concat (map step_of ds) in
  vs <~ args_run fe (map snd ss) ;; binds_all fe (map fst ss) vs.
Definition result_run (fe : env) (res : list val) : Beh val :=
  match res with [] => returns VNone | _ => body_run fe res end.
(** At most k iterations. *)
Fixpoint loop_run (k : nat) (fe : env) (ds : list dospec) (test : val) (res body : list val) : Beh val :=
  match k with
  | O => fun _ _ => False
  | S k =>
      t <~ runs fe test ;;
      match t with
      | VBool true => result_run fe res
      | VBool false => _ <~ args_run fe body ;; _ <~ steps_run fe ds ;; loop_run k fe ds test res body
      | _ => raises
      end
  end.
Definition do_run (e : env) (ds : list dospec) (test : val) (res body : list val) : Beh val :=
  fe <~ new_frame e ;; _ <~ inits_run e fe ds ;; fun st o => exists k, loop_run k fe ds test res body st o.

(** ** dynamic-wind *)
(** The wind chain: the extents (uses of dynamic-wind) being active, innermost
    first.  [push_wind i o] enters a new one with guards i and o. *)
Definition winds : Beh (list nat) := fun st o => o = Ret (d_wind (s_dyn st)) st.
Definition wind_run (i o : val) (before thunk after : Beh val) : Beh val :=
  _ <~ before ;;
  old <~ winds ;;
  _ <~ effect (push_wind i o) ;;
  r <~ thunk ;;
  _ <~ effect (set_wind old) ;;
  _ <~ after ;;
  returns r.

(** ** Continuations *)
(** Calling a guard: evaluating (f). *)
Definition guard_run (f : val) : Beh unit :=
  match f with VProc _ _ _ _ => _ <~ runs g_env (VList [f] false) ;; returns tt | _ => returns tt end.
Definition out_guard (i : nat) : Beh unit := fun st =>
  match guards_of i (d_guards (s_dyn st)) with Some (_, f) => guard_run f st | None => returns tt st end.
Definition in_guard (i : nat) : Beh unit := fun st =>
  (_ <~ match guards_of i (d_guards (s_dyn st)) with Some (f, _) => guard_run f | None => returns tt end ;;
   effect (fun s => set_wind (i :: d_wind (s_dyn s)) s)) st.
(** What a jump from the current extents to the extents w does: nothing if they
    are the same; otherwise all out guards, outermost first, then all in guards,
    outermost first. *)
Definition change_extent (w : list nat) : Beh unit := fun st =>
  if list_eq_dec Nat.eq_dec (d_wind (s_dyn st)) w then returns tt st
  else (_ <~ each_run out_guard (rev (d_wind (s_dyn st))) ;; _ <~ effect (set_wind []) ;; each_run in_guard (rev w)) st.
(** What R5RS and the property promise: the out guards of the extents left,
    innermost first, then the in guards of those entered. *)
Definition change_promised (shared left entered : list nat) : Beh unit :=
  _ <~ each_run out_guard left ;; _ <~ effect (set_wind shared) ;; each_run in_guard (rev entered).
Definition land (k : nat) (v : val) : Beh val := fun st o => In k (d_live (s_dyn st)) /\ o = Jump k v st.

(** ** Handlers *)
(** The tag of a catch matches a key. *)
Definition matches (tag key : val) : Prop :=
  match tag, key with VBool true, _ => True | VSym a, VSym b => a = b | _, _ => False end.
(** id is the innermost (first) catch whose tag matches. *)
Definition selected (l : list (nat * val)) (key : val) (id : nat) : Prop :=
  exists before tag after, l = before ++ (id, tag) :: after /\ matches tag key /\
    forall j t, In (j, t) before -> ~ matches t key.
(** What catch accepts as its tag. *)
Definition catch_tag (v : val) : Prop := match v with VSym _ | VBool true => True | _ => False end.
(** The outcome o of a handler, seen from outside the catch form: its frame [id]
    has left the stack of the machine. *)
Definition leave (id : nat) (o : out val) : out val :=
  match o with
  | Ret v st => Ret v (dead id st)
  | Thrown j k a st => Thrown j k a (dead id st)
  | Jump j v st => Jump j v (dead id st)
  | o => o
  end.
(** o is not a throw that finds the same catch again. *)
Definition not_to {A} (id : nat) (o : out A) : Prop := match o with Thrown j _ _ _ => j <> id | _ => True end.

(** ** map, for-each *)
(** The calls, in order; the results are collected. *)
Fixpoint calls_run {A} (call : A -> Beh val) (rows : list A) : Beh (list val) :=
  match rows with
  | [] => returns []
  | r :: rs => v <~ call r ;; vs <~ calls_run call rs ;; returns (v :: vs)
  end.
(** The i-th elements of the lists, for every i within all of them. *)
Definition row (ls : list (list val)) (i : nat) : list val := map (fun l => nth i l VNone) ls.
Definition shortest (ls : list (list val)) : nat :=
  match ls with [] => O | l :: r => fold_left Nat.min (map (@length val) r) (length l) end.
Definition rows_of (ls : list (list val)) : list (list val) := map (row ls) (seq 0 (shortest ls)).
(** A call on values from code in e, where quote must have its meaning. *)
Definition frames_exist (e : env) (st : state) : Prop := Forall (fun a => (a < length (s_frames st))%nat) (0%nat :: e_chain e).
Definition call_from (e : env) (xs : list (list Z)) (rest : option (list Z)) (body : list val) (pe : env) (vs : list val) : Beh val :=
  given (fun st => plain e "quote" st /\ frames_exist e st) (call_vals xs rest body pe vs).

(** ** Quasiquote templates *)
Inductive tm : Type :=
| TAtom (v : val)                         (* neither a list nor a vector *)
| TUnq (x : val)                          (* ,x at the outermost level *)
| TKeep (t : tm)                          (* ,t further inside *)
| TQuasi (t : tm)                         (* `t: one level further inside *)
| TList (i : titem) (is : list titem)     (* (i i ...) *)
| TDot (i : titem) (is : list titem) (t : tm)   (* (i i ... . t) *)
| TVec (is : list titem)
with titem : Type :=
| It (t : tm)
| Spl (x : val)                           (* ,@x at the outermost level *)
| KeepSpl (is : list titem).              (* ,@i further inside *)
Fixpoint tm_val (t : tm) : val :=
  match t with
  | TAtom v => v
  | TUnq x => VList [sym "unquote"; x] false
  | TKeep t => VList [sym "unquote"; tm_val t] false
  | TQuasi t => VList [sym "quasiquote"; tm_val t] false
  | TList i is => VList (item_val i :: map item_val is) false
  | TDot i is t => VList (item_val i :: map item_val is ++ [tm_val t]) true
  | TVec is => VVec (map item_val is)
  end
with item_val (i : titem) : val :=
  match i with
  | It t => tm_val t
  | Spl x => VList [sym "unquote-splicing"; x] false
  | KeepSpl is => VList (sym "unquote-splicing" :: map item_val is) false
  end.
(** [cons] of the elements onto the tail. *)
Definition onto (vs : list val) (tail : val) : val := fold_right vcons tail vs.
(** What the template denotes at nesting depth d (1: outermost). *)
Section Template.
Variable e : env.
Definition items_of (f : titem -> Beh (list val)) : list titem -> Beh (list val) :=
  fix go (is : list titem) : Beh (list val) :=
  match is with
  | [] => returns []
  | i :: r => vs <~ f i ;; ws <~ go r ;; returns (vs ++ ws)
  end.
Fixpoint tm_run (d : nat) (t : tm) {struct t} : Beh val :=
  match t with
  | TAtom v => returns v
  | TUnq x => runs e x
  | TKeep t => v <~ tm_run (Nat.pred d) t ;; returns (VList [sym "unquote"; v] false)
  | TQuasi t => v <~ tm_run (S d) t ;; returns (VList [sym "quasiquote"; v] false)
  | TList i is => vs <~ item_run d i ;; ws <~ items_of (item_run d) is ;; returns (mklist (vs ++ ws))
  | TDot i is t => vs <~ item_run d i ;; ws <~ items_of (item_run d) is ;; v <~ tm_run d t ;; returns (onto (vs ++ ws) v)
  | TVec is => vs <~ items_of (item_run d) is ;; returns (VVec vs)
  end
with item_run (d : nat) (i : titem) {struct i} : Beh (list val) :=
  match i with
  | It t => v <~ tm_run d t ;; returns [v]
  | Spl x =>
      l <~ runs e x ;;
      match l with
      | VNil => returns []
      | VList (v :: vs) false => returns (v :: vs)
      | VList _ _ => fun _ _ => False      (* a dotted list: not specified here *)
      | _ => raises
      end
  | KeepSpl is => vs <~ items_of (item_run (Nat.pred d)) is ;; returns [VList (sym "unquote-splicing" :: vs) false]
  end.
End Template.
(** The template is written as its datum says, for depth d. *)
Definition atom (v : val) : Prop :=
  match v with VList _ _ | VVec _ => False | _ => v <> sym "unquote" /\ v <> sym "quasiquote" end.
Fixpoint tm_ok (d : nat) (t : tm) {struct t} : Prop :=
  match t with
  | TAtom v => atom v
  | TUnq x => d = 1%nat
  | TKeep t => (1 < d)%nat /\ tm_ok (Nat.pred d) t
  | TQuasi t => tm_ok (S d) t
  | TList i is => item_ok d i /\ fold_right (fun i P => item_ok d i /\ P) True is
  | TDot i is t => item_ok d i /\ fold_right (fun i P => item_ok d i /\ P) True is /\ tm_ok d t /\
      match last (i :: is) i with KeepSpl _ => False | _ => True end
  | TVec is => fold_right (fun i P => item_ok d i /\ P) True is
  end
with item_ok (d : nat) (i : titem) {struct i} : Prop :=
  match i with
  | It t => tm_ok d t /\ match t with TList (It (TAtom v)) _ | TDot (It (TAtom v)) _ _ => v <> sym "unquote-splicing" | _ => True end
  | Spl _ => d = 1%nat
  | KeepSpl is => (1 < d)%nat /\ is <> [] /\ fold_right (fun i P => item_ok (Nat.pred d) i /\ P) True is
  end.
(** No expression is to be evaluated (and a list with a dot does not end in
    another list). *)
Fixpoint tm_const (t : tm) : Prop :=
  match t with
  | TAtom _ => True
  | TUnq _ => False
  | TKeep t | TQuasi t => tm_const t
  | TList i is => item_const i /\ fold_right (fun i P => item_const i /\ P) True is
  | TDot i is t => item_const i /\ fold_right (fun i P => item_const i /\ P) True is /\ tm_const t /\
      match tm_val t with VNil | VList _ _ => False | _ => True end
  | TVec is => fold_right (fun i P => item_const i /\ P) True is
  end
with item_const (i : titem) : Prop :=
  match i with
  | It t => tm_const t
  | Spl _ => False
  | KeepSpl is => fold_right (fun i P => item_const i /\ P) True is
  end.

(** A datum that quasiquote has nothing to do in: no quasiquote, unquote or
    unquote-splicing symbol, and no list ending in a dot and a list. *)
Fixpoint const_datum (v : val) : Prop :=
  match v with
  | VSym _ => v <> sym "unquote" /\ v <> sym "quasiquote" /\ v <> sym "unquote-splicing"
  | VList l d =>
      (fix all (l : list val) : Prop := match l with [] => True | y :: r => const_datum y /\ all r end) l /\
      (if d then (2 <= length l)%nat /\ match last l VNil with VNil | VList _ _ => False | _ => True end else l <> [])
  | VVec l => (fix all (l : list val) : Prop := match l with [] => True | y :: r => const_datum y /\ all r end) l
  | _ => True
  end.

(** ** Names *)
(** In operator position f means v. *)
Definition operator_is (e : env) (f : string) (v : val) (st : state) : Prop :=
  head_value st e (bs f) = Some v \/ (head_value st e (bs f) = None /\ env_search st e (bs f) = Some v).

(** ** Macros *)
(** The macro (define-macro (m x ...) body ...), (define-macro (m x ... . rest)
    body ...), made in me. *)
Definition macro (xs : list (list Z)) (rest : option (list Z)) (body : list val) (me : env) : val :=
  VMacro (map VSym xs ++ match rest with Some r => [VSym r] | None => [] end) (match rest with Some _ => true | None => false end) body me.
(** No list in x, at any depth, starts with a symbol that the frame of e binds to
    a macro. *)
Fixpoint no_macros (e : env) (st : state) (x : val) {struct x} : Prop :=
  match x with
  | VList l _ =>
      match l with
      | VSym s :: _ => match env_exist st e s with Some v => is_macro v = false | None => True end
      | _ => True
      end /\
      (fix all (l : list val) : Prop := match l with [] => True | y :: r => no_macros e st y /\ all r end) l
  | _ => True
  end.

(** ** Promises *)
(** Promise a has been forced and its value is w. *)
Definition forced (a : nat) (w : val) (st : state) : Prop :=
  exists p, nth_error (s_proms st) a = Some p /\ pr_val p = Some w.
(** The state an evaluation ends in. *)
Definition end_in {A} (o : out A) (st : state) : Prop :=
  match o with Ret _ s | Thrown _ _ _ s | Jump _ _ s | Exit s => s = st | _ => False end.
End Spec.

(** ** Dynamic extents *)
(** The extents outside an extent when it was entered are a fixed chain (the
    ghost d_tails).  A chain is coherent if it consists of an extent followed by
    the chain outside it, and so on. *)
Fixpoint linked (t : list (nat * list nat)) (c : list nat) : Prop :=
  match c with [] => True | i :: r => chain_of i t = Some r /\ linked t r end.
Definition below {A} (n : nat) (l : list (nat * A)) : Prop := forall k v, In (k, v) l -> (k < n)%nat.
(** The wind chain of a state, and the chains captured by continuations, are
    coherent. *)
Definition winds_ok (st : state) : Prop :=
  below (d_next (s_dyn st)) (d_tails (s_dyn st)) /\ below (d_next (s_dyn st)) (d_conts (s_dyn st)) /\
  linked (d_tails (s_dyn st)) (d_wind (s_dyn st)) /\
  forall k w, chain_of k (d_conts (s_dyn st)) = Some w -> linked (d_tails (s_dyn st)) w.
(** No throw has left a dynamic-wind, that is, no handler was entered with a wind
    chain other than that of its catch. *)
Definition no_wind_left (st st' : state) : Prop := d_caught (s_dyn st') = d_caught (s_dyn st).
(** The active catches are distinct and their frames exist. *)
Definition catch_ok (st : state) : Prop :=
  (forall i, In i (d_live (s_dyn st)) -> (i < d_next (s_dyn st))%nat) /\ below (d_next (s_dyn st)) (d_catch (s_dyn st)) /\
  NoDup (map fst (d_catch (s_dyn st))) /\ forall i, In i (map fst (d_catch (s_dyn st))) -> In i (d_live (s_dyn st)).
(** No throw and no jump has passed over a catch that was not its target. *)
Definition no_catch_passed (st st' : state) : Prop := d_leaked (s_dyn st') = d_leaked (s_dyn st).
