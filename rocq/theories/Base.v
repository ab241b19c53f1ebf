(** Shared vocabulary of every model file: the outcome of running a piece of
    the C++ code, and signed 64-bit integers with undefined behaviour made an
    explicit outcome. *)
From Coq Require Export List ZArith Bool.
Export ListNotations.
Open Scope Z_scope.

(** What running a C++ function can lead to.
    - [Ok a]   : it returned [a];
    - [Err]    : it left through [eval_error]/[type_error]/[scm_throw]
                 (src/c/error.cc 13-120, src/c/throw.cc): a Scheme-level error;
    - [Abort]  : an [assert] failed (the repository builds with assertions on:
                 no NDEBUG anywhere in its CMake files): the process dies;
    - [UB]     : C++ undefined behaviour (signed overflow, wild read, ...);
    - [Fuel]   : the model's own loop bound was exhausted (never a result of
                 the code; theorems exclude it). *)
Inductive res (A : Type) : Type :=
| Ok (a : A)
| Err
| Abort
| UB
| Fuel.
Arguments Ok {A} a.
Arguments Err {A}.
Arguments Abort {A}.
Arguments UB {A}.
Arguments Fuel {A}.

Definition bind {A B} (m : res A) (f : A -> res B) : res B :=
  match m with
  | Ok a => f a
  | Err => Err
  | Abort => Abort
  | UB => UB
  | Fuel => Fuel
  end.

Notation "'do' x <- m ; k" := (bind m (fun x => k))
  (at level 200, x name, m at level 100, k at level 200, right associativity).
Notation "'do' ' p <- m ; k" := (bind m (fun x => match x with p => k end))
  (at level 200, p pattern, m at level 100, k at level 200, right associativity).

(** int64_t *)
Definition i64_min : Z := - 2 ^ 63.
Definition i64_max : Z := 2 ^ 63 - 1.
Definition in64 (z : Z) : bool := (i64_min <=? z) && (z <=? i64_max).

(** The result of a signed 64-bit C++ operation whose mathematical value is
    [z]: overflow is undefined behaviour ([expr.pre]/4 of the C++ standard). *)
Definition i64 (z : Z) : res Z := if in64 z then Ok z else UB.

(** C++ [x / y] and [x % y] on int64_t: truncating; [y = 0] and
    INT64_MIN / -1 are undefined. *)
Definition cdiv (x y : Z) : res Z := if y =? 0 then UB else i64 (Z.quot x y).
Definition crem (x y : Z) : res Z :=
  if y =? 0 then UB else do _ <- i64 (Z.quot x y); Ok (Z.rem x y).
