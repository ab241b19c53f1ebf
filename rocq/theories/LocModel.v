(** Model of the parts of the reader that ParseModel.v leaves out: the line and
    column counters, the source location stored in every object read, the stack
    of open constructs printed with syntax errors, and where an error is reported
    (src/c/parse.cc 1-257 and the counters in every function, src/c/source_location.cc
    7-21, the shared constants of src/c/symbol.cc 7-22).

    Lexical scanning reuses ParseModel's functions; what is new here is the state
    threaded through them.  Simplification: the counters are unbounded integers
    (C ints: the same for texts of less than 2^31 bytes). *)
From Coq Require Import String Ascii.
From Verif Require Import Base NumModel HeapModel StringModel ParseModel.
Local Open Scope list_scope.
Local Open Scope Z_scope.

(* SCM_SourceLocation, pscm_types.h: file name (null for strings), line, column *)
Definition loc := (option (list Z) * Z * Z)%type.

(* An object read.  #t, #f and () are shared constants (symbol.cc 19-22), so the
   object itself carries no location of its own: [LSing].  [LAbbr] is the two
   element list built for ' ` , ,@ (parse.cc 878-886, 901-909, 935-943, 962-1026):
   its SCM object comes zeroed from gc_alloc and gets no location, and its
   symbol is the shared one. *)
Inductive ld : Type :=
| LAtom (d : rdatum) (l : loc)
| LSing (d : rdatum)
| LVec (els : list ld) (l : loc)
| LList (h : ld) (r : list ld) (t : option ld) (l : loc)
| LAbbr (sym : string) (d : ld).

(* parse.cc ParseStackFrame 22-28.  start_pos is a pointer into a text: which text, and
   how many bytes were left *)
Record pframe := mkF { f_kind : string; f_line : Z; f_col : Z; f_tid : nat; f_left : nat }.

(* what was consumed, for the theorems only: layout, or part of a token *)
(* model only: ghost of parse.cc 261-309 *)
Inductive lexeme := Space (t : list Z) | Token (t : list Z).

(* the shared constants whose location field the reader overwrites *)
(* symbol.cc 7-22: scm_nil, #t, #f, as located by parse.cc 786-804 and
   parse_list 1034-1188 *)
Record sing := mkS { s_nil : option loc; s_true : option loc; s_false : option loc }.

(* struct parse.cc Parser 13-19 plus the global stack; [lex] is a ghost *)
Record pst := mkP {
  rest : list Z; ln : Z; cl : Z; fname : option (list Z); tid : nat;
  stk : list pframe; sg : sing; lex : list lexeme }.

(* model only: how a function of parse.cc ends *)
Inductive pr (A : Type) : Type :=
| POk (a : A) (st : pst)
| PErr (msg : list Z) (st : pst)
| PAbort
| PUB
| PFuel.
Arguments POk {A} a st.  Arguments PErr {A} msg st.
Arguments PAbort {A}.  Arguments PUB {A}.  Arguments PFuel {A}.
(* model only: C++ sequencing; parse_error, parse.cc 147-258, ends the parse *)
Definition pbind {A B} (m : pr A) (f : A -> pst -> pr B) : pr B :=
  match m with
  | POk a st => f a st
  | PErr e st => PErr e st
  | PAbort => PAbort
  | PUB => PUB
  | PFuel => PFuel
  end.
Notation "'pdo' x , st <- m ; k" := (pbind m (fun x st => k))
  (at level 200, x name, st name, m at level 100, k at level 200, right associativity).

(* parse.cc push_parse_stack 34-58 *)
Definition push (k : string) (st : pst) : pst :=
  if Nat.leb 50 (length (stk st)) then st
  else mkP (rest st) (ln st) (cl st) (fname st) (tid st)
         (mkF k (ln st) (cl st) (tid st) (length (rest st)) :: stk st) (sg st) (lex st).
(* parse.cc pop_parse_stack 61-67 *)
Definition pop (st : pst) : pst :=
  mkP (rest st) (ln st) (cl st) (fname st) (tid st) (tl (stk st)) (sg st) (lex st).
(* the loops of parse.cc 1454-1456, 1462-1464, 1512-1514, 1520-1522 *)
Definition clear_stack (st : pst) : pst :=
  mkP (rest st) (ln st) (cl st) (fname st) (tid st) [] (sg st) (lex st).

(* parse.cc parse_error 147-258: print_parse_stack (70-144) follows the start_pos of the
   first 20 frames.  For a frame left over from another text it compares
   pointers into different (possibly freed) buffers and then reads between
   them: undefined behaviour.  Otherwise the report goes to stderr and
   eval_error("Parse error: %s") leaves the reader; the C stack is unwound by
   longjmp, so nothing is popped. *)
Definition stale (st : pst) : bool :=
  existsb (fun f => negb (Nat.eqb (f_tid f) (tid st))) (firstn 20 (stk st)).
(* parse.cc parse_error 147-258 *)
Definition perr {A} (msg : list Z) (st : pst) : pr A :=
  if stale st then PUB else PErr msg st.

(* every "p->pos++; p->column++" (and "+= 2") of the scanners: the column grows by
   the number of bytes consumed, whatever they are *)
(* parse.cc 261-309, 312-571, 666-847 *)
Definition move (r : list Z) (st : pst) : pst :=
  let k := (length (rest st) - length r)%nat in
  mkP r (ln st) (cl st + Z.of_nat k) (fname st) (tid st) (stk st) (sg st)
      (Token (firstn k (rest st)) :: lex st).
(* parse.cc 297-309 *)
Definition padv {A} (st : pst) (k : pst -> pr A) : pr A :=
  match adv (rest st) with Ok r => k (move r st) | _ => PUB end.
(* parse.cc 297-309, += 2 *)
Definition padv2 {A} (st : pst) (k : pst -> pr A) : pr A :=
  match adv2 (rest st) with Ok r => k (move r st) | _ => PUB end.

(* parse.cc skip_whitespace 261-282 *)
Fixpoint ws_pos (comment : bool) (s : list Z) (l c : Z) : Z * Z :=
  match s with
  | [] => (l, c)
  | x :: r =>
      if comment then
        if x =? 0 then (l, c)
        else if x =? 10 then ws_pos false r (l + 1) 1
        else ws_pos true r l (c + 1)
      else if isspace x then
        if x =? 10 then ws_pos false r (l + 1) 1 else ws_pos false r l (c + 1)
      else if x =? 59 then ws_pos true r l (c + 1)
      else (l, c)
  end.
(* parse.cc skip_whitespace 261-282 *)
Definition pskip (st : pst) : pst :=
  let r := skip (rest st) in
  let '(l, c) := ws_pos false (rest st) (ln st) (cl st) in
  mkP r l c (fname st) (tid st) (stk st) (sg st)
      (Space (firstn (length (rest st) - length r) (rest st)) :: lex st).

(* parse.cc: start_line, start_column of each function *)
Definition here (st : pst) : loc := (fname st, ln st, cl st).
(* set_source_location (source_location.cc 7-21) on a shared constant: a null
   file name leaves the old one in place *)
Definition reloc (o : option loc) (l : loc) : option loc :=
  let '(f, a, b) := l in
  Some (match f with Some _ => f | None => match o with Some (g, _, _) => g | None => None end end, a, b).
(* source_location.cc set_source_location 7-21 *)
Definition touch (d : rdatum) (l : loc) (st : pst) : pst :=
  let s := sg st in
  let s' := match d with
            | RNil => mkS (reloc (s_nil s) l) (s_true s) (s_false s)
            | RBool true => mkS (s_nil s) (reloc (s_true s) l) (s_false s)
            | RBool false => mkS (s_nil s) (s_true s) (reloc (s_false s) l)
            | _ => s
            end in
  mkP (rest st) (ln st) (cl st) (fname st) (tid st) (stk st) s' (lex st).

(* parse.cc parse_number 312-428: where it stands when the exponent has no digit (386-388) *)
Fixpoint digits_off (s : list Z) : list Z :=
  match s with c :: r => if isdigit c then digits_off r else s | [] => [] end.
(* parse.cc parse_number 312-336: the sign *)
Definition opt_off (p : Z -> bool) (s : list Z) : list Z :=
  match s with c :: r => if p c then r else s | [] => [] end.
(* parse.cc parse_number 384-388: where the error is reported *)
Definition exponent_stop (s : list Z) : list Z :=
  let s1 := digits_off (opt_off (fun c => (c =? 43) || (c =? 45)) s) in
  let s2 := if at0 s1 =? 46 then digits_off (opt_off (fun c => c =? 46) s1) else s1 in
  opt_off (fun c => (c =? 43) || (c =? 45)) (opt_off (fun c => (c =? 101) || (c =? 69)) s2).
(* parse.cc parse_number 312-428 *)
Definition l_number (st : pst) : pr (option ld) :=
  match p_number (rest st) with
  | Ok None => POk None st
  | Ok (Some (d, r)) => POk (Some (LAtom d (here st))) (move r st)
  | Err => perr (bs "expected digit after exponent marker") (move (exponent_stop (rest st)) st)
  | Abort => PAbort
  | UB => PUB
  | Fuel => PFuel
  end.

(* parse.cc parse_char 431-571 *)
Definition l_char (st : pst) : pr ld :=
  match p_char (rest st) with
  | Ok (b, r) => POk (LAtom (RChar b) (here st)) (move r st)
  | Err => padv2 st (fun st2 => perr (bs "unexpected end of input in character literal") st2)
  | Abort => PAbort
  | UB => PUB
  | Fuel => PFuel
  end.

(* the first pass of parse.cc parse_string 681-704: a newline resets the
   column to 1 and is then counted itself; an escaped newline is not noticed *)
Fixpoint str_pos (escape : bool) (body : list Z) (l c : Z) : Z * Z :=
  match body with
  | [] => (l, c)
  | x :: r =>
      if escape then str_pos false r l (c + 1)
      else if x =? 92 then str_pos true r l (c + 1)
      else if x =? 10 then str_pos false r (l + 1) 2
      else str_pos false r l (c + 1)
  end.
(* model only: assignment to p->line, p->column *)
Definition at_pos (lc : Z * Z) (tok r : list Z) (st : pst) : pst :=
  mkP r (fst lc) (snd lc) (fname st) (tid st) (stk st) (sg st) (Token tok :: lex st).
(* parse.cc parse_string 666-776: one push, but two pops on success *)
Definition l_string (st : pst) : pr ld :=
  let st1 := push "string" st in
  padv st1 (fun st2 =>
  let '(body, k) := str_scan false (rest st2) in
  let st3 := at_pos (str_pos false body (ln st2) (cl st2)) body k st2 in
  if negb (at0 k =? 34) then perr (bs "unterminated string") (pop st3)
  else padv st3 (fun st4 =>
       POk (LAtom (RStr (unescape false body)) (here st)) (pop (pop st4)))).

(* parse.cc parse_symbol 779-847 *)
Definition l_symbol (st : pst) : pr (option ld) :=
  match p_symbol (rest st) with
  | Ok None => POk None st
  | Ok (Some (RBool b, r)) => POk (Some (LSing (RBool b))) (touch (RBool b) (here st) (move r st))
  | Ok (Some (d, r)) => POk (Some (LAtom d (here st))) (move r st)
  | Err => PErr [] st
  | Abort => PAbort
  | UB => PUB
  | Fuel => PFuel
  end.

(* parse.cc parse_expr 1241-1249, the symbol syntax with braces: after a
   newline the column restarts at 0 *)
Fixpoint brace_pos (body : list Z) (l c : Z) : Z * Z :=
  match body with
  | [] => (l, c)
  | x :: r => if x =? 10 then brace_pos r (l + 1) 0 else brace_pos r l (c + 1)
  end.
(* the text up to a NUL or the end, when no matching brace is found *)
(* parse.cc parse_expr 1241-1253 *)
Fixpoint to_nul (s : list Z) : list Z :=
  match s with [] => [] | c :: r => if c =? 0 then [] else c :: to_nul r end.
(* parse.cc parse_expr 1241-1253 *)
Fixpoint from_nul (s : list Z) : list Z :=
  match s with [] => [] | c :: r => if c =? 0 then s else from_nul r end.
(* parse.cc parse_expr 1232-1271 *)
Definition l_brace (st : pst) : pr ld :=
  padv2 st (fun st2 =>
  match brace_scan 1 (rest st2) with
  | None =>
      let body := to_nul (rest st2) in
      perr (bs "unterminated #{...}# reader syntax")
           (at_pos (brace_pos body (ln st2) (cl st2)) body (from_nul (rest st2)) st2)
  | Some (name, k) =>
      let st3 := at_pos (brace_pos name (ln st2) (cl st2)) name k st2 in
      padv st3 (fun st4 =>
      if negb (at0 (rest st4) =? 35) then perr (bs "expected # after } in #{...}#") st4
      else padv st4 (fun st5 => POk (LAtom (RSym name) (here st)) st5))
  end).

(* parse.cc parse_expr 1312-1321: %02x *)
Definition hexdig (n : Z) : Z := if n <? 10 then 48 + n else 87 + n.
(* libc isprint in the C locale, parse.cc 1316 *)
Definition isprint (c : Z) : bool := (32 <=? c) && (c <=? 126).
(* parse.cc parse_expr 1312-1321 *)
Definition unexpected (c : Z) : list Z :=
  let hex := [hexdig (c / 16); hexdig (c mod 16)] in
  if c =? 0 then bs "unexpected end of input"
  else if isprint c then bs "unexpected character '" ++ [c] ++ bs "' (0x" ++ hex ++ bs ")"
  else bs "unexpected character (0x" ++ hex ++ bs ")".

(* parse.cc parse_list 1034-1188: the chain of nodes *)
Definition build (els : list ld) (tl : option ld) (l : loc) (st : pst) : pr (option ld) :=
  match els with
  | [] => POk (Some (LSing RNil)) (touch RNil l st)
  | h :: r => POk (Some (LList h r tl l)) st
  end.

(* parse.cc parse_expr 1191-1323 *)
Fixpoint l_expr (n : nat) (st0 : pst) {struct n} : pr (option ld) :=
  (* parse.cc parse_expr 1191-1323 *)
  match n with
  | O => PFuel
  | S n =>
      let st := pskip st0 in
      let s := rest st in
      let c := at0 s in
      if c =? 0 then POk None st
      else if c =? 39 then pdo d, k <- l_quote n st; POk (Some d) k
      else if c =? 96 then
        (* parse_quasiquote 912-944 *)
        padv (push "quasiquote" st) (fun st1 =>
        pdo d, st2 <- (if at0 (rest st1) =? 44 then pdo x, k <- l_unq n st1; POk (Some x) k else l_expr n st1);
        match d with
        | Some d => POk (Some (LAbbr "quasiquote" d)) (pop st2)
        | None => perr (bs "expected expression after quasiquote") (pop st2)
        end)
      else if c =? 40 then
        (* parse.cc parse_list 1034-1188: the empty list returns without popping (1052-1058) *)
        padv (push "list" st) (fun st1 =>
        let st1 := pskip st1 in
        if at0 (rest st1) =? 41 then
          padv st1 (fun st2 => POk (Some (LSing RNil)) (touch RNil (here st) st2))
        else
          pdo e, st2 <- l_elems n st1;
          if negb (at0 (rest st2) =? 41) then perr (bs "expected ')' to close list") (pop st2)
          else padv st2 (fun st3 => build (fst e) (snd e) (here st) (pop st3)))
      else if c =? 34 then pdo d, k <- l_string st; POk (Some d) k
      else if (c =? 35) && (at1 s =? 58) then
        (* 1221-1230: p->pos += 2 without touching the column *)
        match adv2 s with
        | Ok r =>
            let st1 := mkP r (ln st) (cl st) (fname st) (tid st) (stk st) (sg st)
                           (Token (firstn 2 s) :: lex st) in
            pdo x, st2 <- l_symbol st1;
            match x with
            | Some d => POk (Some d) st2
            | None => perr (bs "expected identifier after #:") st2
            end
        | _ => PUB
        end
      else if (c =? 35) && (at1 s =? 123) then pdo d, k <- l_brace st; POk (Some d) k
      else if (c =? 35) && (at1 s =? 92) then pdo d, k <- l_char st; POk (Some d) k
      else if (c =? 35) && (at1 s =? 40) then
        (* parse.cc parse_vector 578-663: only the empty vector and the error 622 pop *)
        padv2 (push "vector" st) (fun st1 =>
        let st1 := pskip st1 in
        if at0 (rest st1) =? 41 then
          padv st1 (fun st2 => POk (Some (LVec [] (here st))) (pop st2))
        else
          pdo els, st2 <- l_vec n st1;
          if negb (at0 (rest st2) =? 41) then perr (bs "expected ')' to close vector") st2
          else padv st2 (fun st3 => POk (Some (LVec els (here st))) st3))
      else
        let number_or_symbol :=
          pdo x, st1 <- l_number st;
          match x with
          | Some d => POk (Some d) st1
          | None =>
              pdo y, st2 <- l_symbol st1;
              match y with
              | Some d => POk (Some d) st2
              | None => perr (unexpected (at0 (rest st2))) st2
              end
          end in
        if (c =? 49) && ((at1 s =? 43) || (at1 s =? 45)) && tok_end (at2 s) then
          pdo x, st1 <- l_symbol st;
          match x with Some d => POk (Some d) st1 | None => number_or_symbol end
        else number_or_symbol
  end
(* parse.cc parse_quote 855-910: the character shortcut (869-888) does not pop *)
with l_quote (n : nat) (st : pst) {struct n} : pr ld :=
  match n with
  | O => PFuel
  | S n =>
      padv (push "quote" st) (fun st1 =>
      if (at0 (rest st1) =? 35) && (at1 (rest st1) =? 92) then
        pdo d, st2 <- l_char st1; POk (LAbbr "quote" d) st2
      else
        pdo d, st2 <- (if at0 (rest st1) =? 44 then pdo x, k <- l_unq n st1; POk (Some x) k else l_expr n st1);
        match d with
        | Some d => POk (LAbbr "quote" d) (pop st2)
        | None => perr (bs "expected expression after quote") (pop st2)
        end)
  end
(* parse.cc parse_unquote_in_list 948-1031 *)
with l_unq (n : nat) (st : pst) {struct n} : pr ld :=
  match n with
  | O => PFuel
  | S n =>
      if at1 (rest st) =? 64 then
        padv2 st (fun st1 =>
        pdo d, st2 <- l_expr n st1;
        match d with
        | Some d => POk (LAbbr "unquote-splicing" d) st2
        | None => perr (bs "expected expression after unquote-splicing") st2
        end)
      else
        padv st (fun st1 =>
        let st1 := pskip st1 in
        if at0 (rest st1) =? 39 then pdo d, st2 <- l_quote n st1; POk (LAbbr "unquote" d) st2
        else if at0 (rest st1) =? 44 then pdo d, st2 <- l_unq n st1; POk (LAbbr "unquote" d) st2
        else
          pdo d, st2 <- l_expr n st1;
          match d with
          | Some d => POk (LAbbr "unquote" d) st2
          | None => perr (bs "expected expression after unquote") st2
          end)
  end
(* the element loop of parse.cc parse_list 1061-1165 *)
with l_elems (n : nat) (st : pst) {struct n} : pr (list ld * option ld) :=
  match n with
  | O => PFuel
  | S n =>
      if (at0 (rest st) =? 0) || (at0 (rest st) =? 41) then POk ([], None) st
      else
        pdo d, st1 <-
          (if at0 (rest st) =? 39 then pdo x, k <- l_quote n st; POk (Some x) k
           else if at0 (rest st) =? 44 then pdo x, k <- l_unq n st; POk (Some x) k
           else l_expr n st);
        match d with
        | None => perr (bs "expected expression in list") (pop st1)
        | Some d =>
            let st2 := pskip st1 in
            if (at0 (rest st2) =? 46) && negb (dot_symbol (rest st2)) then
              padv st2 (fun st3 =>
              let st4 := pskip st3 in
              pdo e, st5 <-
                (if at0 (rest st4) =? 44 then pdo x, k <- l_unq n st4; POk (Some x) k else l_expr n st4);
              match e with
              | None => perr (bs "expected expression after dot") (pop st5)
              | Some e => POk ([d], Some e) (pskip st5)
              end)
            else
              pdo e, st3 <- l_elems n st2;
              POk (d :: fst e, snd e) st3
        end
  end
(* the element loop of parse.cc parse_vector 612-631 *)
with l_vec (n : nat) (st : pst) {struct n} : pr (list ld) :=
  match n with
  | O => PFuel
  | S n =>
      if (at0 (rest st) =? 0) || (at0 (rest st) =? 41) then POk [] st
      else
        pdo d, st1 <-
          (if at0 (rest st) =? 44 then pdo x, k <- l_unq n st; POk (Some x) k else l_expr n st);
        match d with
        | None => perr (bs "expected expression in vector") (pop st1)
        | Some d => pdo els, st2 <- l_vec n (pskip st1); POk (d :: els) st2
        end
  end.

(* the globals that survive from one text to the next *)
(* parse.cc 22-67: g_parse_stack, and symbol.cc 7-22 *)
Record glob := mkG { g_stk : list pframe; g_sg : sing; g_next : nat }.
(* parse.cc 30-32: the stack at start-up *)
Definition glob0 : glob := mkG [] (mkS None None None) 0.
(* a fresh Parser: parse.cc 1327-1332, 1419-1424, 1477-1482 *)
Definition start (g : glob) (f : option (list Z)) (text : list Z) : pst :=
  mkP text 1 1 f (g_next g) (g_stk g) (g_sg g) [].
(* model only: the globals after a call *)
Definition finish (st : pst) : glob := mkG (stk st) (sg st) (S (tid st)).

(* parse.cc parse 1326-1388 *)
Definition l_one (st : pst) : pr (option ld) := l_expr (parse_fuel (rest st)) st.
(* parse.cc parse 1326-1388.  The first 60 printable bytes it quotes in its messages are
   abbreviated here to the fixed part of the message *)
Definition l_parse (st : pst) : pr ld :=
  pdo d, st1 <- l_one st;
  match d with
  | None => perr (bs "expected expression") (pskip st1)
  | Some d =>
      let st2 := pskip st1 in
      if negb (at0 (rest st2) =? 0) then perr (bs "extra input after expression") st2
      else POk d st2
  end.
(* the loop of parse.cc parse_file 1430-1460 and parse_string 1488-1518.  is_eof and the
   skip_whitespace after each expression are both here *)
Fixpoint l_loop (n : nat) (st : pst) : pr (list ld) :=
  match n with
  | O => PFuel
  | S n =>
      let st1 := pskip st in
      if at0 (rest st1) =? 0 then POk [] (clear_stack st1)
      else
        pdo d, st2 <- l_one st1;
        match d with
        | None =>
            if Nat.eqb (length (rest st2)) (length (rest st1))
            then perr (bs "failed to parse expression (parser made no progress)") st2
            else POk [] (clear_stack st2)
        | Some d =>
            pdo ds, st3 <- l_loop n (pskip (clear_stack st2));
            POk (d :: ds) st3
        end
  end.
(* parse.cc parse_file 1413-1468, parse_string 1472-1525 *)
Definition l_all (st : pst) : pr (list ld) := l_loop (S (length (rest st))) st.

(* forgetting the locations *)
(* Coq only: ParseModel.v's datum *)
Fixpoint erase (d : ld) : rdatum :=
  match d with
  | LAtom d _ => d
  | LSing d => d
  | LVec els _ => RVec (map erase els)
  | LList h r t _ => RList (erase h) (map erase r) (option_map erase t)
  | LAbbr s d => two s (erase d)
  end.
