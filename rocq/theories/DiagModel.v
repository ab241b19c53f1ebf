(** Model of error reporting during evaluation: source_location.cc
    get_source_location_str, error.cc (type_error, eval_error, the evaluation call
    stack) and the entry and exit of eval.cc eval_with_env.

    Simplifications.
    - An object is an identity (its address), a type and a location; the text that
      print.cc prints for it is a parameter of [expr].
    - new and tmpfile do not fail.
    - C strings contain no NUL; a printed text may. *)
From Coq Require Import String.
From Verif Require Import Base ParseModel PrintModel.
Local Open Scope string_scope.
Local Open Scope list_scope.
Local Open Scope Z_scope.

(** ** types and locations *)
(* pscm_types.h 18-41: SCM::Type *)
Inductive stype :=
| TyNone | TyNil | TyList | TyProc | TyCont | TyFunc | TyNum | TyFloat | TyChar | TyBool | TySym | TyStr | TyMacro
| TyHash | TyRatio | TyVector | TyPort | TyPromise | TyModule | TySmob | TyVariable.
(* error.cc get_type_name 141-164 *)
Definition type_name (t : stype) : list Z :=
  bs match t with
  | TyNone => "none" | TyNil => "nil" | TyList => "pair/list" | TyProc => "procedure" | TyCont => "continuation"
  | TyFunc => "function" | TyNum => "number" | TyFloat => "float" | TyChar => "character" | TyBool => "boolean"
  | TySym => "symbol" | TyStr => "string" | TyMacro => "macro" | TyHash => "hash-table" | TyRatio => "ratio"
  | TyVector => "vector" | TyPort => "port" | TyPromise => "promise" | TyModule => "module" | _ => "unknown"
  end.
(* pscm_types.h SCM_SourceLocation: file name, line, column *)
Definition sloc : Type := option (list Z) * Z * Z.
(* pscm_types.h 16-46: SCM, with its address *)
Record obj := mkO { o_id : nat; o_type : stype; o_loc : option sloc }.
(* source_location.cc get_source_location_str 63-74: snprintf into a buffer of 512 *)
Definition loc_str (l : sloc) : list Z :=
  match l with (f, line, col) =>
    firstn 511 ((match f with Some n => n | None => bs "<unknown>" end) ++ 58 :: dec line ++ 58 :: dec col)
  end.
(* source_location.cc get_source_location_str 63-74: NULL for NULL and for objects without location *)
Definition obj_loc (o : option obj) : option (list Z) :=
  match o with Some x => option_map loc_str (o_loc x) | None => None end.

(** ** messages *)
(* error.cc 166-199, 201-250: pos += snprintf(buf + pos, sizeof(buf) - pos, "%s", t).  The
   state is the C string in the buffer and pos; sizeof(buf) - pos is unsigned, so
   a pos behind the end of the buffer gives a write out of bounds *)
Definition snprintf_at (size : Z) (st : list Z * Z) (t : list Z) : res (list Z * Z) :=
  let (s, pos) := st in
  if size <? pos then UB
  else Ok (s ++ firstn (Z.to_nat (size - pos - 1)) t, pos + Z.of_nat (length t)).
(* error.cc eval_error 201-250: the string that is thrown with the key error.  [msg]: format and arguments, formatted *)
Definition eval_error (ctx : option obj) (msg : list Z) : res (list Z) :=
  let message := firstn 1023 msg in                                  (* vsnprintf, 1024 *)
  do st <- match obj_loc ctx with Some l => snprintf_at 2048 ([], 0) (l ++ bs ": ") | None => Ok ([], 0) end;
  do st <- snprintf_at 2048 st message;
  Ok (fst st).
(* error.cc type_error 166-199 *)
Definition type_error (data ctx : option obj) (expected : list Z) : res (list Z) :=
  let loc := match obj_loc data with Some l => Some l | None => obj_loc ctx end in
  do st <- match loc with Some l => snprintf_at 1024 ([], 0) (l ++ bs ": ") | None => Ok ([], 0) end;
  do st <- snprintf_at 1024 st (bs "Type error: expected " ++ expected ++ bs ", but got ");
  do st <- snprintf_at 1024 st (match data with Some d => type_name (o_type d) | None => bs "null" end);
  do st <- match ctx with
    | Some c =>
        if match data with Some d => Nat.eqb (o_id c) (o_id d) | None => false end then Ok st
        else match obj_loc ctx with
             | Some l => snprintf_at 1024 st (10 :: bs "  While evaluating at " ++ l)
             | None => Ok st
             end
    | None => Ok st
    end;
  eval_error ctx (fst st).

(** ** the evaluation call stack *)
(* the argument of eval_with_env: the object and its printed text (print.cc, display mode) *)
Record expr := mkX { x_obj : obj; x_text : list Z }.
(* error.h 6-10: EvalStackFrame *)
Record frame := mkF { f_loc : list Z; f_text : list Z }.
(* error.cc expr_to_string 16-52, max_len = 200: file size, buffer size, what fread
   reads, and the appended dots, with the bounds of the buffer *)
Definition expr_string (t : list Z) : res (list Z) :=
  let n := Z.of_nat (length t) in
  let size := if n <? 200 then n + 1 else 205 in
  let rd := Z.min n 200 in
  if size <=? rd then UB
  else if 200 <? n then (if size <? 200 + 4 then UB else Ok (firstn 200 t ++ bs "..."))
  else Ok (firstn (Z.to_nat rd) t).
(* error.cc 12-13, error.h 13-14: g_eval_stack, g_stack_depth and g_current_eval_context;
   the C frames of eval_with_env that are active, with their ast and old_context *)
Record dstate := mkD { d_stack : list frame; d_depth : Z; d_ctx : option expr; d_open : list (expr * option expr) }.
(* error.h 13-14, error.cc 12-13: initial values *)
Definition dstart : dstate := mkD [] 0 None [].
(* error.cc push_eval_stack 55-92 *)
Definition push_stack (x : expr) (d : dstate) : res dstate :=
  if 100 <=? d_depth d then Ok d
  else match obj_loc (Some (x_obj x)) with
  | None => Ok d
  | Some l => do t <- expr_string (x_text x); Ok (mkD (mkF l t :: d_stack d) (d_depth d + 1) (d_ctx d) (d_open d))
  end.
(* error.cc pop_eval_stack 95-108 *)
Definition pop_stack (d : dstate) : dstate :=
  match d_stack d with [] => d | _ :: r => mkD r (d_depth d - 1) (d_ctx d) (d_open d) end.
(* what happens to them: eval_with_env is entered, returns, or is left by a longjmp
   (throw.cc, continuation.cc) after which [fs] are the active C frames *)
Inductive event := Enter (x : expr) | Leave | Escape (fs : list (expr * option expr)).
(* eval.cc eval_with_env 257-275 (entry, RETURN_WITH_CONTEXT); throw.cc scm_throw
   134-191 and continuation.cc scm_dynthrow 100-113 touch none of the globals *)
Definition handle (d : dstate) (e : event) : res dstate :=
  match e with
  | Enter x => do d' <- push_stack x d; Ok (mkD (d_stack d') (d_depth d') (Some x) ((x, d_ctx d) :: d_open d'))
  | Leave =>
      match d_open d with
      | [] => Ok d
      | (_, old) :: r => Ok (pop_stack (mkD (d_stack d) (d_depth d) old r))
      end
  | Escape fs => Ok (mkD (d_stack d) (d_depth d) (d_ctx d) fs)
  end.
(* model only: a history of events *)
Fixpoint history (d : dstate) (es : list event) : res dstate :=
  match es with [] => Ok d | e :: r => do d' <- handle d e; history d' r end.

(** ** the report *)
(* error.cc print_eval_stack 119-132: one frame *)
Definition print_frame (i : Z) (f : frame) : list Z :=
  bs "  #" ++ dec i ++ bs ": " ++ f_loc f ++ 10 :: bs "      " ++ until_nul (f_text f) ++ [10; 10].
(* error.cc print_eval_stack 119-132: while (frame && depth < 20); the frames left and depth *)
Fixpoint print_frames (n : nat) (i : Z) (st : list frame) : list Z * list frame * Z :=
  match n, st with
  | S n, f :: r => let '(t, rest, d) := print_frames n (i + 1) r in (print_frame i f ++ t, rest, d)
  | _, _ => ([], st, i)
  end.
(* error.cc print_eval_stack 111-138: what is printed on stderr *)
Definition print_eval_stack (d : dstate) : list Z :=
  match d_stack d with
  | [] => 10 :: bs "Evaluation call stack: (empty)" ++ [10]
  | st =>
      10 :: bs "Evaluation call stack (most recent first):" ++ 10 ::
      (let '(t, rest, n) := print_frames 20 0 st in
       t ++ match rest with [] => [] | _ => bs "  ... (" ++ dec (d_depth d - n) ++ bs " more frames)" ++ [10] end)
  end.
