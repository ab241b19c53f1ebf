(** A concrete interpreter to run examples: a few primitives, the initial state,
    and the reader of ParseModel. *)
From Coq Require Import String.
From Verif Require Import Base ParseModel PrintModel EnvModel EvalModel.
Local Open Scope string_scope.
Local Open Scope Z_scope.
Local Open Scope list_scope.

(* what the reader built, as a program *)
Fixpoint to_val (d : rdatum) : val :=
  match d with
  | RInt z => VInt z
  | RFloat _ | RRatio _ _ => VNone
  | RChar c => VChar c
  | RBool b => VBool b
  | RSym n => VSym n
  | RStr s => VStr s
  | RNil => VNil
  | RVec l => VVec (map to_val l)
  | RList h r None => VList (to_val h :: map to_val r) false
  | RList h r (Some t) => VList (to_val h :: map to_val r ++ [to_val t]) true
  end.
Definition prog (s : string) : list val := match parse_all (bs s) with Ok l => map to_val l | _ => [] end.
Definition expr (s : string) : val := hd VNone (prog s).

Definition ints (vs : list val) : list Z := map (fun v => match v with VInt z => z | _ => 0 end) vs.
Definition prim0 (nm : list Z) (vs : list val) : pres :=
  let is s := beq nm (bs s) in
  if is "car" then match vs with VList (x :: _) _ :: _ => PVal x [] | _ => PErr end
  else if is "cdr" then match vs with VList ns d :: _ => PVal (cdr_val ns d) [] | _ => PErr end
  else if is "cons" then match vs with [a; b] => PVal (vcons a b) [] | _ => PErr end
  else if is "list" then PVal (mklist vs) []
  else if is "+" then PVal (VInt (fold_left Z.add (ints vs) 0)) []
  else if is "*" then PVal (VInt (fold_left Z.mul (ints vs) 1)) []
  else if is "-" then match ints vs with [a] => PVal (VInt (- a)) [] | a :: r => PVal (VInt (fold_left Z.sub r a)) [] | [] => PErr end
  else if is "<" then match ints vs with [a; b] => PVal (VBool (a <? b)) [] | _ => PErr end
  else if is "=" then match ints vs with [a; b] => PVal (VBool (a =? b)) [] | _ => PErr end
  else if is "null?" then match vs with [v] => PVal (VBool match v with VNil => true | _ => false end) [] | _ => PErr end
  else if is "not" then match vs with [v] => PVal (VBool (negb (truthy v))) [] | _ => PErr end
  else if is "display" then
    match vs with VInt z :: _ => PVal VNone (dec z) | VSym s :: _ => PVal VNone s | VStr s :: _ => PVal VNone s | VNil :: _ => PVal VNone (bs "()") | _ => PErr end
  else PErr.
(* arities as registered by the interpreter: number.cc, list.cc, ... (-1: n-ary
   through a fold, -2: a list of arguments) *)
Definition globals : list (list Z * val) :=
  map (fun p => (bs (fst p), VFunc (bs (fst p)) (snd p)))
    [("car", 1); ("cdr", 1); ("cons", 2); ("list", -2); ("+", -1); ("*", -1); ("-", -1); ("<", 2); ("=", 2); ("null?", 1);
     ("not", 1); ("display", -2); ("force", 1); ("eval", -2); ("values", -2); ("catch", 3); ("throw", -2); ("apply", -2);
     ("map", -2); ("call/cc", 1); ("call-with-current-continuation", 1)].
Definition dyn0 : dyn := mkDyn [] [] [] 0 [] [] [] [] 0 0.
Definition st0 : state := mkState [globals] [mkMod [] [] [] None] 0 [] dyn0.
Fixpoint run_prog (n : nat) (es : list val) (st : state) : out val :=
  match es with
  | [] => Ret VNone st
  | [x] => eval prim0 n g_env x st
  | x :: r => match eval prim0 n g_env x st with Ret _ st' => run_prog n r st' | o => o end
  end.
(* the value of the last expression of a program text and the output *)
Definition out_of {A} (o : out A) : option (A * list Z) :=
  match o with Ret v st => Some (v, d_out (s_dyn st)) | _ => None end.
Definition go (s : string) : option (val * list Z) := out_of (run_prog 200 (prog s) st0).
Definition final (s : string) : state :=
  match run_prog 200 (prog s) st0 with Ret _ st => st | Thrown _ _ _ st | Jump _ _ st | Exit st => st | _ => st0 end.

Example go_ex1 : go "(define (fact n) (if (= n 0) 1 (* n (fact (- n 1))))) (fact 10)" = Some (VInt 3628800, []).
Proof. vm_compute. reflexivity. Qed.
Example go_ex2 : go "(let loop ((i 0)) (if (< i 3) (begin (display i) (loop (+ i 1))) 'done))" = Some (sym "done", bs "012").
Proof. vm_compute. reflexivity. Qed.
Example go_ex3 : go "(call/cc (lambda (k) (dynamic-wind (lambda () (display 1)) (lambda () (k 5)) (lambda () (display 2)))))" = Some (VInt 5, bs "12").
Proof. vm_compute. reflexivity. Qed.
Example go_ex4 : go "(catch 'a (lambda () (throw 'a 1 2)) (lambda (k x y) (list k x y)))" = Some (VList [sym "a"; VInt 1; VInt 2] false, []).
Proof. vm_compute. reflexivity. Qed.
Example go_ex5 : go "(define-macro (swap a b) `(let ((t ,a)) (set! ,a ,b) (set! ,b t))) (define x 1) (define y 2) (swap x y) (list x y)" = Some (VList [VInt 2; VInt 1] false, []).
Proof. vm_compute. reflexivity. Qed.
Example go_ex6 : go "(define p (delay (begin (display 7) 3))) (+ (force p) (force p))" = Some (VInt 6, bs "7").
Proof. vm_compute. reflexivity. Qed.
Example go_ex7 : go "(do ((i 0 (+ i 1)) (acc '() (cons i acc))) ((= i 3) acc) (display i))" = Some (VList [VInt 2; VInt 1; VInt 0] false, bs "012").
Proof. vm_compute. reflexivity. Qed.
