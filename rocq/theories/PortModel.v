(** Model of string ports: src/c/port.cc and the writers of src/c/string.cc.
    Not modelled: file ports (C stdio), soft ports (they call back into the
    evaluator), the current-port variables. *)
From Verif Require Import Base NumModel StringModel ParseModel PrintModel.
Local Open Scope list_scope.

(** ** Input: SCM_Port with port_type PORT_STRING_INPUT (pscm_types.h 143-160).
    [ip_data] is string_data without its terminating NUL, [ip_pos]/[ip_len] are
    the C ints string_pos/string_len. *)
Record iport := mkIport { ip_data : list Z; ip_pos : Z; ip_len : Z; ip_closed : bool }.

(* string_data[i]; the allocation has string_len + 1 bytes (port.cc 196-198) *)
Definition data_at (p : iport) (i : Z) : res Z :=
  if (i <? 0) || (Z.of_nat (length (ip_data p)) <? i) then UB
  else Ok (nth (Z.to_nat i) (ip_data p) 0).
(* port.cc scm_c_open_input_string 185-207 *)
Definition open_input_string (s : list Z) : iport := mkIport s 0 (Z.of_nat (length s)) false.
(* port.cc read_char_from_port 262-303: None is EOF *)
Definition read_char_port (p : iport) : res (option Z * iport) :=
  if ip_closed p then Ok (None, p)
  else if ip_pos p >=? ip_len p then Ok (None, p)
  else
    do c <- data_at p (ip_pos p);
    do i <- (if int_max <=? ip_pos p then UB else Ok (ip_pos p + 1));
    Ok (Some c, mkIport (ip_data p) i (ip_len p) (ip_closed p)).
(* port.cc peek_char_from_port 323-345 *)
Definition peek_char_port (p : iport) : res (option Z) :=
  if ip_closed p then Ok None
  else if ip_pos p >=? ip_len p then Ok None
  else do c <- data_at p (ip_pos p); Ok (Some c).

(* port.cc scm_c_read_char 700-737, scm_c_peek_char 740-771, scm_c_char_ready
   872-912, scm_c_close_input_port 119-148 on such a port *)
Inductive iop := OpRead | OpPeek | OpReady | OpCloseIn.
(* port.cc 700-912: what these procedures return *)
Inductive ians := AChar (c : Z) | AEof | ABool (b : bool) | ANone.
(* port.cc 262-303: the byte as a character, or the EOF object *)
Definition ans_of (o : option Z) : ians := match o with Some c => AChar c | None => AEof end.
(* port.cc 119-148, 700-771, 872-912 *)
Definition iport_step (p : iport) (op : iop) : res (ians * iport) :=
  match op with
  | OpRead => do '(o, p') <- read_char_port p; Ok (ans_of o, p')
  | OpPeek => do o <- peek_char_port p; Ok (ans_of o, p)
  | OpReady => if ip_closed p then Ok (ABool false, p) else Ok (ABool (ip_pos p <? ip_len p), p)
  | OpCloseIn => Ok (ANone, mkIport (ip_data p) (ip_pos p) (ip_len p) true)
  end.
(* model only: a history of such calls *)
Fixpoint iport_run (p : iport) (ops : list iop) : res (list ians * iport) :=
  match ops with
  | [] => Ok ([], p)
  | op :: r =>
      do '(a, p1) <- iport_step p op;
      do '(l, p2) <- iport_run p1 r;
      Ok (a :: l, p2)
  end.

(** ** Output: PORT_STRING_OUTPUT.  [op_buf] is the malloc'ed block of
    output_capacity bytes. *)
(* pscm_types.h 143-165: the output fields of SCM_Port *)
Record oport := mkOport { op_buf : list Z; op_len : Z; op_cap : Z; op_closed : bool }.
(* port.cc write_char_to_port_string 348-390: buffer[i] = c *)
Definition buf_set (p : oport) (i x : Z) : res oport :=
  if (i <? 0) || (Z.of_nat (length (op_buf p)) <=? i) then UB
  else Ok (mkOport (set_byte (op_buf p) (Z.to_nat i) x) (op_len p) (op_cap p) (op_closed p)).
(* port.cc write_char_to_port_string 348-390: output_len = n *)
Definition set_len (p : oport) (n : Z) : oport := mkOport (op_buf p) n (op_cap p) (op_closed p).
(* C int arithmetic *)
(* port.cc 348-390, string.cc 121-140 *)
Definition int_ok (z : Z) : res Z := if int_max <? z then UB else Ok z.
(* realloc to twice the size: the old bytes survive; the new ones are
   unspecified (0 here; no byte is read before being written) *)
(* port.cc write_char_to_port_string 348-390, string.cc write_string_to_port
   121-140 *)
Definition grow (p : oport) : res oport :=
  do c <- int_ok (if op_cap p =? 0 then 256 else op_cap p * 2);
  Ok (mkOport (firstn (Z.to_nat c) (op_buf p) ++ repeat 0 (Z.to_nat c - length (op_buf p))) (op_len p) c (op_closed p)).
(* port.cc scm_c_open_output_string 210-225 *)
Definition open_output_string : oport := mkOport (repeat 0 256) 0 256 false.
(* write_char_to_port_string port.cc 344-360, and its copy in string.cc 144-163 *)
Definition write_char_port (p : oport) (ch : Z) : res oport :=
  if op_closed p then Ok p
  else
    do n1 <- int_ok (op_len p + 1);
    do p1 <- (if n1 >=? op_cap p then grow p else Ok p);
    do p2 <- buf_set p1 (op_len p1) ch;
    let p3 := set_len p2 n1 in
    buf_set p3 (op_len p3) 0.
(* write_string_to_port string.cc 121-140; [fuel] bounds the doubling loop: an
   int doubles at most 32 times before overflowing *)
Fixpoint grow_loop (fuel : nat) (p : oport) (len : Z) : res oport :=
  match fuel with
  | O => Fuel
  | S n =>
      do need <- int_ok (op_len p + len + 1);
      if need >=? op_cap p then do p' <- grow p; grow_loop n p' len else Ok p
  end.
(* string.cc write_string_to_port 121-140: memcpy *)
Fixpoint buf_copy (p : oport) (i : Z) (s : list Z) : res oport :=
  match s with
  | [] => Ok p
  | c :: r => do p' <- buf_set p i c; buf_copy p' (i + 1) r
  end.
(* string.cc scm_c_display 164-220, scm_c_write 224-280, scm_c_newline
   283-305 to a string port *)
Definition write_text_port (p : oport) (text : list Z) : res oport :=
  if op_closed p then Ok p
  else
    let str := until_nul text in          (* str is a C string: strlen *)
    do len <- int_ok (Z.of_nat (length str));
    do p1 <- grow_loop 40 p len;
    do p2 <- buf_copy p1 (op_len p1) str;
    do n <- int_ok (op_len p2 + len);
    let p3 := set_len p2 n in
    buf_set p3 (op_len p3) 0.
(* port.cc scm_c_get_output_string 242-259 *)
Definition get_output (p : oport) : list Z := firstn (Z.to_nat (op_len p)) (op_buf p).
(* write-char 817-866, newline 272-295 of string.cc, display/write 165-270 of
   string.cc ([OpText]: the text print_ast produced, collected through a
   temporary file), close-output-port 148-179 *)
Inductive oop := OpChar (c : Z) | OpNewline | OpText (t : list Z) | OpCloseOut.
(* port.cc 151-182, 242-259, 827-869; string.cc 121-305 *)
Definition oport_step (p : oport) (op : oop) : res oport :=
  match op with
  | OpChar c => write_char_port p c
  | OpNewline => write_char_port p 10
  | OpText t => write_text_port p t
  | OpCloseOut => Ok (mkOport (op_buf p) (op_len p) (op_cap p) true)
  end.
(* model only: a history of such calls *)
Fixpoint oport_run (p : oport) (ops : list oop) : res oport :=
  match ops with [] => Ok p | op :: r => do p' <- oport_step p op; oport_run p' r end.

(** ** read: port.cc read_expr_from_port 561-697.  [s] is the rest of the port's text
    (string_data from string_pos): C35 shows that read_char/peek_char deliver
    exactly these bytes. *)
(* port.cc 577-618: leading whitespace and comments; [c]: in a comment; after a comment
   ended by CR an immediately following LF is eaten too -- whitespace anyway *)
Fixpoint rd_skip (c : bool) (s : list Z) : list Z :=
  match s with
  | [] => []
  | ch :: r =>
      if c then if (ch =? 10) || (ch =? 13) then rd_skip false r else rd_skip true r
      else if isspace ch then rd_skip false r
      else if ch =? 59 then rd_skip true r
      else s
  end.
(* port.cc 624-688: the bytes put in the buffer and the rest of the text; None: end of
   text inside parentheses or a string (answer: the EOF object).  The buffer
   resizing code 636-646 is dead: the loop condition is its negation. *)
Fixpoint collect (s : list Z) (pos depth : Z) (instr esc : bool) : option (list Z * list Z) :=
  if pos >=? 4095 then Some ([], s)
  else
    match s with
    | [] => if (depth =? 0) && negb instr then Some ([], []) else None
    | ch :: r =>
        let keep d i e :=
          match collect r (pos + 1) d i e with Some (b, k) => Some (ch :: b, k) | None => None end in
        if esc then keep depth instr false
        else if (ch =? 92) && instr then keep depth instr true
        else if ch =? 34 then keep depth (negb instr) false
        else if instr then keep depth instr false
        else if ch =? 40 then keep (depth + 1) instr false
        else if ch =? 41 then
          if (depth - 1 <? 0) || (depth - 1 =? 0) then Some ([ch], r) else keep (depth - 1) instr false
        else if (depth =? 0) && ((ch =? 32) || (ch =? 9) || (ch =? 10) || (ch =? 13)) then Some ([], r)
        else keep depth instr false
    end.
(* the datum (None: the EOF object) and the rest of the text.  When the text
   ends inside an expression everything has been consumed *)
(* port.cc read_expr_from_port 561-697, scm_c_read 774-801 *)
Definition read_port (s : list Z) : res (option rdatum * list Z) :=
  match rd_skip false s with
  | [] => Ok (None, [])
  | s1 =>
      match collect s1 0 0 false false with
      | None => Ok (None, [])
      | Some (buf, rest) => do d <- parse buf; Ok (Some d, rest)
      end
  end.
