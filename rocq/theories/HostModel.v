(** Model of src/c/load.cc (load, primitive-load), src/c/exit.cc (exit), and of
    the parts of src/c/throw.cc that EvalModel leaves out: the message for an
    uncaught throw and the handlers of scm_c_with_throw_handler.

    Simplifications.
    - A file is its contents, or unreadable.  The [load] lines on stderr are not
      modelled.
    - A file whose data contain floats or ratios is outside EvalModel's values;
      [load] then stands for "not modelled" (OFuel).
    - exit: the C library's exit is the end of the process. *)
From Coq Require Import String.
From Verif Require Import Base NumModel HeapModel StrNumModel ParseModel EnvModel EvalModel ApiModel.
Local Open Scope list_scope.

(** ** load.cc *)
Section Load.
Variable prim : list Z -> list val -> pres.
(* load.cc scm_c_primitive_load 24-35 with scm_eval_expression_list 6-21, and
   scm_c_primitive_load_with_env 42-59; g_env.parent is null, so the former is the
   latter with &g_env.  parse_file returns null for a file that cannot be read and
   for one without any datum *)
Definition load_with_env (n : nat) (contents : option (list Z)) (e : env) : EM val :=
  match contents with
  | None => err
  | Some text =>
      match parse_all text with
      | Ok [] => err
      | Ok l => match programs l with
                | Some xs => eval_last (eval prim n) e xs VNone
                | None => fuel
                end
      | Err => err
      | Abort => abort
      | UB => ub
      | Fuel => fuel
      end
  end.
(* load.cc scm_c_primitive_load 24-35, scm_eval_expression_list 6-21 *)
Definition load (n : nat) (contents : option (list Z)) : EM val := load_with_env n contents g_env.
End Load.

(** ** exit.cc 6-26 *)
(* the argument of exit(3); Err: eval_error *)
Definition exit_code (arg : option obj) : res Z :=
  match arg with
  | None => Ok 0
  | Some (ONum z) => Ok (to_int32 z)
  | Some (OFloat d) =>
      match dtrunc d with
      | Some z => if (- 2 ^ 31 <=? z) && (z <=? 2 ^ 31 - 1) then Ok z else UB
      | None => UB
      end
  | Some _ => Err
  end.
(* what the parent process sees of exit(code) *)
(* exit.cc scm_c_exit 6-24: the status POSIX passes on *)
Definition parent_sees (code : Z) : Z := code mod 256.

(** ** throw.cc: the message for an uncaught throw *)
(* %s of a buffer: up to its first NUL *)
Fixpoint upto_nul (s : list Z) : list Z :=
  match s with [] => [] | c :: r => if c =? 0 then [] else c :: upto_nul r end.
(* char msg[1024]: the bytes stored so far, and pos *)
(* throw.cc handler_message 220-277 *)
Definition msg_size : Z := 1024.
(* pos += snprintf(msg + pos, sizeof(msg) - pos, ..) of the bytes [t]: with
   pos > 1024 the address is outside msg and the size wraps around *)
(* throw.cc handler_message 220-277 *)
Definition put_msg (t : list Z) (m : list Z * Z) : res (list Z * Z) :=
  let '(stored, pos) := m in
  if msg_size <? pos then UB
  else Ok (stored ++ firstn (Z.to_nat (msg_size - 1 - pos)) t, pos + Z.of_nat (length t)).
(* what throw.cc handler_message 220-277 looks at in the key and the arguments *)
Inductive tkey := KSym (name : list Z) | KOther.
(* throw.cc handler_message 220-277: the shapes of args it distinguishes *)
Inductive targs := ANull | AStr (s : list Z) | AList | AOther.   (* null; a list whose first element is a string; another list; anything else *)
(* throw.cc handler_message 220-277 *)
Definition key_text (k : tkey) : list Z :=
  match k with KSym n => 39 :: upto_nul n | KOther => bs "<non-symbol>" end.
(* throw.cc handler_message 220-277 *)
Definition args_text (a : targs) : list Z :=
  match a with ANull => bs "()" | AStr s => upto_nul s | AList | AOther => bs "<args>" end.
(* throw.cc handler_message 220-277 *)
Definition handler_message (prog : option (list Z)) (k : tkey) (a : targs) : res (list Z) :=
  do m1 <- put_msg ((match prog with Some p => upto_nul p | None => bs "pscm" end) ++ bs ": uncaught throw to ") ([], 0);
  do m2 <- put_msg (key_text k) m1;
  do m3 <- put_msg (bs ": ") m2;
  do m4 <- put_msg (args_text a) m3;
  do m5 <- put_msg [10] m4;
  Ok (fst m5).
(* throw.cc scm_uncaught_throw 304-314: message, then exit status 1; and
   scm_handle_by_message_noexit 280-301 *)
Inductive hout := HExit (msg : list Z) (status : Z) | HReturn (msg : list Z) | HUB.
(* throw.cc scm_uncaught_throw 304-314 *)
Definition uncaught (k : tkey) (a : targs) : hout :=
  match handler_message None k a with Ok m => HExit m 1 | _ => HUB end.
(* [n]: the first argument, if it is an integer *)
(* throw.cc scm_handle_by_message_noexit 280-301 *)
Definition by_message_noexit (prog : option (list Z)) (k : tkey) (a : targs) (n : option Z) : hout :=
  match k with
  | KSym q => if beq (upto_nul q) (bs "quit") then HExit [] (match n with Some z => to_int32 z | None => 0 end)
              else match handler_message prog k a with Ok m => HReturn m | _ => HUB end
  | KOther => match handler_message prog k a with Ok m => HReturn m | _ => HUB end
  end.

(** ** throw.cc: scm_c_with_throw_handler *)
(* the SCM objects in wind chain entries; a list is the data of its cells *)
Inductive wv := WSym (n : list Z) | WTrue | WNum (z : Z) | WProc | WList (cells : list wv).
(* throw.cc tags_match 41-56 *)
Definition w_match (tag key : wv) : bool :=
  match tag, key with WTrue, _ => true | WSym a, WSym b => beq a b | _, _ => false end.
(* g_wind_chain, lazy_catch_storage_top, and the catch stack (identity, tag),
   innermost first *)
(* throw.cc 8-38, 324-337: the globals *)
Record lst := mkLst { l_chain : list wv; l_top : Z; l_catch : list (nat * wv) }.
(* throw.cc scm_throw 134-191: the storage index of the first lazy entry for the key *)
Fixpoint lazy_index (chain : list wv) (key : wv) : option Z :=
  match chain with
  | [] => None
  | WList (tag :: WList (WSym m :: WList (WNum i :: _) :: _) :: _) :: r =>
      if w_match tag key && beq m (bs "__lazy_catch__") && (0 <=? i) && (i <? 100) then Some i else lazy_index r key
  | _ :: r => lazy_index r key
  end.
(* throw.cc scm_throw 134-191: the search of the catch stack *)
Fixpoint catch_for (l : list (nat * wv)) (key : wv) : option nat :=
  match l with [] => None | (id, t) :: r => if w_match t key then Some id else catch_for r key end.
(* where a throw goes.  The array lazy_catch_storage of scm_throw is not the one
   that scm_c_with_throw_handler fills: its handlers are null *)
(* throw.cc scm_throw 134-191 *)
Inductive target := ToCatch (id : nat) | ToNowhere | ToNull.
(* throw.cc scm_throw 134-191 *)
Definition throw_target (st : lst) (key : wv) : target :=
  match lazy_index (l_chain st) key with
  | Some _ => ToNull
  | None => match catch_for (l_catch st) key with Some id => ToCatch id | None => ToNowhere end
  end.
(* how a C function ends: it returns, or a throw with that key is on its way to a
   catch; LRefused: eval_error "too many nested lazy catches" *)
(* throw.cc 134-191, 340-406 *)
Inductive lout (A : Type) := LRet (a : A) (st : lst) | LThrow (id : nat) (key : wv) (st : lst) | LExit (st : lst) | LRefused | LNull.
Arguments LRet {A} _ _. Arguments LThrow {A} _ _ _. Arguments LExit {A} _. Arguments LRefused {A}. Arguments LNull {A}.
(* throw.cc scm_throw 134-191 *)
Definition l_throw {A} (key : wv) (st : lst) : lout A :=
  match throw_target st key with ToCatch id => LThrow id key st | ToNowhere => LExit st | ToNull => LNull end.
(* the wind chain entry of scm_c_with_throw_handler 374-391, and that of dynamic-wind
   (dynwind.cc 195-206) *)
Definition lazy_entry (tag : wv) (i : Z) : wv := WList [tag; WSym (bs "__lazy_catch__"); WNum i].
(* throw.cc scm_c_with_throw_handler 340-406: the entry it pushes on the wind
   chain *)
Definition wind_entry : wv := WList [WProc; WProc].
(* throw.cc scm_c_with_throw_handler 340-406 *)
Definition with_throw_handler {A} (tag : wv) (body : lst -> lout A) (st : lst) : lout A :=
  if 100 <=? l_top st then LRefused
  else
    match body (mkLst (lazy_entry tag (l_top st) :: l_chain st) (l_top st + 1) (l_catch st)) with
    | LRet a st' => LRet a (mkLst (l_chain st) (l_top st' - 1) (l_catch st'))
    | o => o
    end.
(* throw.cc scm_c_catch 59-131: the wind chain is not restored when a throw arrives *)
Definition l_catching {A} (id : nat) (tag : wv) (body : lst -> lout A) (h : wv -> lst -> lout A) (st : lst) : lout A :=
  match body (mkLst (l_chain st) (l_top st) ((id, tag) :: l_catch st)) with
  | LRet a st' => LRet a (mkLst (l_chain st') (l_top st') (tl (l_catch st')))
  | LThrow j key st' =>
      if Nat.eqb j id then h key (mkLst (l_chain st') (l_top st') (tl (l_catch st'))) else LThrow j key st'
  | o => o
  end.
