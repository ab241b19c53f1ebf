(** Model of the interactive loop, src/c/repl.cc, and of running a script,
    do_eval and my_eval of src/main.cc.

    Simplifications.
    - The lines are what the terminal delivers; a line is its bytes with the
      final newline and has no NUL byte.  malloc/realloc never fail, and the int
      [depth] does not overflow.
    - What the loop itself prints (prompts, the expression, the value) is the
      list of values: [Some v], or [None] for the <null> printed after an error.
    - The interpreter is ApiModel/EvalModel, with their simplifications. *)
From Verif Require Import Base ParseModel PrintModel EnvModel EvalModel ApiModel.
Local Open Scope list_scope.

(* repl.cc is_balanced 8-57: depth, in_string, escaped, in_comment *)
Fixpoint balanced (depth : Z) (in_string escaped in_comment : bool) (s : list Z) : bool :=
  match s with
  | [] => depth =? 0
  | c :: r =>
      if c =? 0 then depth =? 0
      else if escaped then balanced depth in_string false in_comment r
      else if c =? 92 then balanced depth in_string true in_comment r
      else if in_comment then balanced depth in_string false (negb (c =? 10)) r
      else if c =? 34 then balanced depth (negb in_string) false false r
      else if in_string then balanced depth true false false r
      else if c =? 59 then balanced depth false false true r
      else if c =? 40 then balanced (depth + 1) false false false r
      else if c =? 41 then
        if depth - 1 <? 0 then false else balanced (depth - 1) false false false r
      else balanced depth false false false r
  end.
(* repl.cc is_balanced 8-57 *)
Definition is_balanced (s : list Z) : bool := balanced 0 false false false s.
(* fgets into line_buffer[4096] and the truncation of 80-88 *)
(* repl.cc repl 60-145 *)
Definition fgets_line (l : list Z) : list Z := firstn 4095 l.
(* 113-119: nothing but blanks *)
(* repl.cc repl 60-145 *)
Fixpoint blank_only (s : list Z) : bool :=
  match s with
  | [] => true
  | c :: r => if (c =? 32) || (c =? 9) || (c =? 10) || (c =? 13) then blank_only r else false
  end.

(* The texts handed to the reader, one per completed input, and the text still
   waiting at the end of the input: the loop 72-140 without the interpreter *)
(* repl.cc repl 60-145 *)
Fixpoint submissions (buf : list Z) (lines : list (list Z)) : list (list Z) * list Z :=
  match lines with
  | [] => ([], buf)
  | l :: r =>
      let b := buf ++ fgets_line l in
      if is_balanced b then
        if blank_only b then submissions [] r
        else let '(x, w) := submissions [] r in (b :: x, w)
      else submissions b r
  end.

Section Repl.
Variable prim : list Z -> list val -> pres.
(* 119-129: parse is called outside any catch, eval is pscm_eval (eval.cc 3-6 of
   main.cc's wrapper).  The session's answers so far, newest last, and how it
   ended *)
Inductive rout :=
| RDone (vals : list (option val)) (s : api)      (* end of the input: exit status 0 *)
| RStop (vals : list (option val)) (o : aout).    (* the process left the loop *)
(* repl.cc repl 60-145: what one submission leads to *)
Fixpoint answer (n : nat) (texts : list (list Z)) (vals : list (option val)) (s : api) : rout :=
  match texts with
  | [] => RDone vals s
  | t :: r =>
      match read_one t s with
      | AOk (Some x) s1 =>
          match pscm_eval prim n x s1 with
          | AOk v s2 => answer n r (vals ++ [v]) s2
          | o => RStop vals o
          end
      | o => RStop vals o
      end
  end.
(* repl.cc repl 60-145 *)
Definition repl (n : nat) (lines : list (list Z)) (s : api) : rout :=
  answer n (fst (submissions [] lines)) [] s.

(* do_eval, main.cc 42-57: None is a file that cannot be read.  The list of
   results (None: pscm_eval returned NULL) and the exit status *)
Inductive sout := SDone (vals : list (option val)) (status : Z) (s : api) | SStop (vals : list (option val)) (o : aout).
(* main.cc do_eval 42-57: the loop over the expressions *)
Fixpoint run_forms (n : nat) (xs : list val) (vals : list (option val)) (s : api) : sout :=
  match xs with
  | [] => SDone vals 0 s
  | x :: r => match pscm_eval prim n x s with
              | AOk v s' => run_forms n r (vals ++ [v]) s'
              | o => SStop vals o
              end
  end.
(* main.cc do_eval 42-57, my_eval 15-26 *)
Definition do_eval (n : nat) (contents : option (list Z)) (s : api) : sout :=
  match contents with
  | None => SDone [] 1 s
  | Some text =>
      match parse_all text with
      | Ok [] => SDone [] 1 s
      | Ok l => match programs l with Some xs => run_forms n xs [] s | None => SStop [] AFuel end
      | Err => SStop [] (lift err s)
      | Abort => SStop [] AAbort
      | UB => SStop [] AUB
      | Fuel => SStop [] AFuel
      end
  end.
(* main.cc my_eval 15-26: what is printed for a form: nothing for NULL or the
   unspecified value *)
Definition printed (v : option val) : option val :=
  match v with None | Some VNone => None | Some w => Some w end.
End Repl.
