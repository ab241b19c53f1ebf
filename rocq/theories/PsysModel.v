(** Model of the whole port system: src/c/port.cc (1-1237) and the printing
    primitives of src/c/string.cc (120-304): file ports, string ports, soft
    ports, the three current ports, and the call-with-... wrappers.

    What the C library and the operating system do is in [cfg] and the FILE
    part of [world]: stdio's buffering (when it moves bytes to the file, how
    many bytes one refill reads) is left open, so is which paths may be opened
    and what the procedures of a soft port answer.  Every theorem quantifies
    over [cfg].
    Not modelled: `read` (see PortModel for its text processing), write errors
    (disk full), tmpfile() failing inside display/write, soft-port procedures
    that themselves call port primitives, mutation of a soft port's vector
    after make-soft-port, two path names for one file, other processes. *)
From Verif Require Import Base NumModel StringModel ParseModel PrintModel PortModel.
Local Open Scope list_scope.

(** ** The file system and C's FILE objects *)
(* what a FILE is connected to: 0/1/2 = stdin, stdout, stderr, or a named file *)
(* model only: what fopen of port.cc 61-116 names *)
Inductive fpath := FStd (n : nat) | FName (name : list Z).
(* Coq only: equality of file names *)
Definition zs_eqb (a b : list Z) : bool := if list_eq_dec Z.eq_dec a b then true else false.
(* Coq only: equality of file names *)
Definition path_eqb (a b : fpath) : bool :=
  match a, b with
  | FStd n, FStd m => Nat.eqb n m
  | FName s, FName t => zs_eqb s t
  | _, _ => false
  end.
(* a FILE open for reading: [hi_buf] bytes read ahead (and pushed back by
   ungetc), [hi_off] where the next refill starts, [hi_eof] its end-of-file flag *)
(* libc FILE, as used by port.cc 262-345 *)
Record hin := mkHin { hi_path : fpath; hi_off : nat; hi_buf : list Z; hi_eof : bool }.
(* a FILE open for writing: [ho_pend] bytes not yet moved to the file, which go
   to offset [ho_off] *)
(* libc FILE, as used by port.cc 348-415 *)
Record hout := mkHout { ho_path : fpath; ho_off : nat; ho_pend : list Z }.
(* [HFree]: after fclose; any use of the FILE is undefined *)
(* libc FILE, as used by port.cc 61-182 *)
Inductive handle := HIn (h : hin) | HOut (h : hout) | HFree.

(** ** Ports (pscm_types.h 143-167) *)
(* an element of a soft port's procedure vector: #f, a procedure, anything else *)
Inductive slot := SlFalse | SlProc (n : nat) | SlJunk.
(* pscm_types.h PortType 143-165 *)
Inductive pkind :=
| KFileIn (h : option nat)            (* PORT_FILE_INPUT; file, None when NULL *)
| KFileOut (h : option nat)           (* PORT_FILE_OUTPUT *)
| KStrIn (p : iport)                  (* PORT_STRING_INPUT *)
| KStrOut (p : oport)                 (* PORT_STRING_OUTPUT *)
| KSoft (procs : list slot) (modes : list Z).  (* PORT_SOFT *)
(* pscm_types.h SCM_Port 143-165 *)
Record port := mkPort { pt_kind : pkind; pt_input : bool; pt_closed : bool }.

(* what a soft port's procedure gives back; [SaRaise]: it exits non-locally *)
(* port.cc call_soft_port_thunk 22-40: the value of the procedure *)
Inductive sans := SaChar (c : Z) | SaEof | SaFalse | SaOther | SaRaise.
(* port.cc call_soft_port_thunk 22-40: the call *)
Definition call := (nat * list Z)%type.  (* the procedure and its arguments *)

(* port.cc 418-528: the globals, with the file system *)
Record world := mkWorld {
  w_files : fpath -> option (list Z);   (* None: no such file *)
  w_handles : list handle;
  w_ports : list port;
  w_in : nat; w_out : nat; w_err : nat; (* the current ports, port.cc 418, 455-456 *)
  w_calls : list call;                  (* calls made to soft-port procedures *)
  w_tick : nat }.                       (* number of primitives executed *)

(* model only: the environment of the program: what files and soft port
   procedures do *)
Record cfg := mkCfg {
  (* after a write, how many of the pending bytes stdio moves to the file now *)
  c_auto : nat -> fpath -> list Z -> nat;
  (* how many bytes beyond the first one refill reads *)
  c_more : nat -> fpath -> nat;
  (* may the file be opened for reading (false) / writing (true) *)
  c_may : fpath -> bool -> bool;
  (* the answer of procedure n to arguments, given the calls before *)
  c_soft : nat -> list Z -> list call -> sans }.

(** ** stdio *)
(* model only: assignment through a pointer *)
Definition set_nth {A} (l : list A) (n : nat) (x : A) : list A :=
  firstn n l ++ match skipn n l with [] => [] | _ :: r => x :: r end.
(* model only: assignment to a FILE *)
Definition set_handle (w : world) (i : nat) (h : handle) : world :=
  mkWorld (w_files w) (set_nth (w_handles w) i h) (w_ports w) (w_in w) (w_out w) (w_err w) (w_calls w) (w_tick w).
(* model only: assignment to a file *)
Definition set_file (w : world) (p : fpath) (c : list Z) : world :=
  mkWorld (fun q => if path_eqb q p then Some c else w_files w q) (w_handles w) (w_ports w)
          (w_in w) (w_out w) (w_err w) (w_calls w) (w_tick w).
(* model only: assignment to *port, port.cc *)
Definition set_port (w : world) (k : nat) (p : port) : world :=
  mkWorld (w_files w) (w_handles w) (set_nth (w_ports w) k p) (w_in w) (w_out w) (w_err w) (w_calls w) (w_tick w).
(* fopen, port.cc 61-116 *)
Definition add_handle (w : world) (h : handle) : world :=
  mkWorld (w_files w) (w_handles w ++ [h]) (w_ports w) (w_in w) (w_out w) (w_err w) (w_calls w) (w_tick w).
(* port.cc wrap_port 12-18 *)
Definition add_port (w : world) (p : port) : world :=
  mkWorld (w_files w) (w_handles w) (w_ports w ++ [p]) (w_in w) (w_out w) (w_err w) (w_calls w) (w_tick w).
(* model only: records a call of port.cc call_soft_port_thunk 22-40 *)
Definition set_calls (w : world) (l : list call) : world :=
  mkWorld (w_files w) (w_handles w) (w_ports w) (w_in w) (w_out w) (w_err w) l (w_tick w).
(* port.cc 441-454, 480-493, 515-528: the current ports *)
Definition set_cur (w : world) (i o e : nat) : world :=
  mkWorld (w_files w) (w_handles w) (w_ports w) i o e (w_calls w) (w_tick w).
(* model only: counts the primitives *)
Definition tick (w : world) : world :=
  mkWorld (w_files w) (w_handles w) (w_ports w) (w_in w) (w_out w) (w_err w) (w_calls w) (S (w_tick w)).

(* pwrite: put [s] at offset [off] *)
(* model only: libc write behind port.cc 348-415 *)
Definition overwrite (c : list Z) (off : nat) (s : list Z) : list Z :=
  firstn off c ++ repeat 0 (off - length c) ++ s ++ skipn (off + length s) c.
(* model only: the content of a file *)
Definition content (w : world) (p : fpath) : list Z := match w_files w p with Some c => c | None => [] end.
(* move the first [n] pending bytes of the FILE to its file *)
(* model only: libc stdio buffering behind port.cc 348-415 *)
Definition push (w : world) (i : nat) (h : hout) (n : nat) : world :=
  let s := firstn n (ho_pend h) in
  set_handle (set_file w (ho_path h) (overwrite (content w (ho_path h)) (ho_off h) s)) i
             (HOut (mkHout (ho_path h) (ho_off h + length s) (skipn n (ho_pend h)))).
(* fputc / fputs / putchar / printf *)
(* libc stdio, as called by port.cc 348-390 and string.cc 121-305 *)
Definition fput (c : cfg) (w : world) (i : nat) (s : list Z) : res world :=
  match nth_error (w_handles w) i with
  | Some (HOut h) =>
      let h' := mkHout (ho_path h) (ho_off h) (ho_pend h ++ s) in
      Ok (push w i h' (c_auto c (w_tick w) (ho_path h) (ho_pend h')))
  | _ => UB
  end.
(* libc fflush, as called by port.cc 393-415, 531-557 *)
Definition fflush (w : world) (i : nat) : res world :=
  match nth_error (w_handles w) i with
  | Some (HOut h) => Ok (push w i h (length (ho_pend h)))
  | _ => UB
  end.
(* libc fclose, as called by port.cc 119-182 *)
Definition fclose (w : world) (i : nat) : res world :=
  match nth_error (w_handles w) i with
  | Some (HOut h) => Ok (set_handle (push w i h (length (ho_pend h))) i HFree)
  | Some (HIn h) => Ok (set_handle w i HFree)
  | _ => UB
  end.
(* fgetc: None is EOF; the end-of-file flag is sticky *)
(* libc fgetc, as called by port.cc 262-303 *)
Definition fgetc (c : cfg) (w : world) (i : nat) : res (option Z * world) :=
  match nth_error (w_handles w) i with
  | Some (HIn h) =>
      match hi_buf h with
      | b :: r => Ok (Some b, set_handle w i (HIn (mkHin (hi_path h) (hi_off h) r (hi_eof h))))
      | [] =>
          if hi_eof h then Ok (None, w)
          else
            let got := firstn (S (c_more c (w_tick w) (hi_path h))) (skipn (hi_off h) (content w (hi_path h))) in
            match got with
            | [] => Ok (None, set_handle w i (HIn (mkHin (hi_path h) (hi_off h) [] true)))
            | b :: r => Ok (Some b, set_handle w i (HIn (mkHin (hi_path h) (hi_off h + length got) r false)))
            end
      end
  | _ => UB
  end.
(* ungetc of a character just read *)
(* libc ungetc, as called by port.cc 306-345 *)
Definition ungetc (w : world) (i : nat) (b : Z) : res world :=
  match nth_error (w_handles w) i with
  | Some (HIn h) => Ok (set_handle w i (HIn (mkHin (hi_path h) (hi_off h) (b :: hi_buf h) false)))
  | _ => UB
  end.

(** ** Arguments and answers of the primitives *)
(* port.cc 700-912: the argument checks *)
Inductive arg := APort (k : nat) | ANil | AOther.   (* a port, '(), anything else *)
(* port.cc 61-912: what the procedures return *)
Inductive ans :=
| RPort (k : nat) | RChar' (c : Z) | REof | RBool (b : bool) | RNone | RStr (s : list Z)
| RRaise.                                             (* left through eval_error *)

(* port.cc call_soft_port_thunk 22-40, and the one-argument call of 374-389: a slot
   that is #f or not a procedure is not called *)
Definition call_slot (c : cfg) (w : world) (s : slot) (args : list Z) : option sans * world :=
  match s with
  | SlProc n => (Some (c_soft c n args (w_calls w)), set_calls w (w_calls w ++ [(n, args)]))
  | _ => (None, w)
  end.
(* port.cc make-soft-port 1108-1173: the elements of the vector *)
Definition slot_at (procs : list slot) (i : nat) : slot := nth i procs SlFalse.

(* port.cc scm_c_open_input_file 61-87: fopen(s->data, "r") -- the name ends
   at its first NUL. [None]: the argument is not a string *)
Definition open_input_file (c : cfg) (w : world) (name : option (list Z)) : res (ans * world) :=
  match name with
  | None => Ok (RRaise, w)
  | Some s =>
      let p := FName (until_nul s) in
      match w_files w p with
      | Some _ =>
          if c_may c p false then
            let i := length (w_handles w) in
            Ok (RPort (length (w_ports w)),
                add_port (add_handle w (HIn (mkHin p 0 [] false))) (mkPort (KFileIn (Some i)) true false))
          else Ok (RRaise, w)
      | None => Ok (RRaise, w)
      end
  end.
(* port.cc scm_c_open_output_file 90-116: fopen(s->data, "w") creates or
   empties the file *)
Definition open_output_file (c : cfg) (w : world) (name : option (list Z)) : res (ans * world) :=
  match name with
  | None => Ok (RRaise, w)
  | Some s =>
      let p := FName (until_nul s) in
      if c_may c p true then
        let i := length (w_handles w) in
        Ok (RPort (length (w_ports w)),
            add_port (add_handle (set_file w p []) (HOut (mkHout p 0 []))) (mkPort (KFileOut (Some i)) false false))
      else Ok (RRaise, w)
  end.
(* port.cc scm_c_open_input_string 185-207 *)
Definition open_in_string (w : world) (s : option (list Z)) : res (ans * world) :=
  match s with
  | None => Ok (RRaise, w)
  | Some s => Ok (RPort (length (w_ports w)), add_port w (mkPort (KStrIn (open_input_string s)) true false))
  end.
(* port.cc scm_c_open_output_string 210-225 *)
Definition open_out_string (w : world) : res (ans * world) :=
  Ok (RPort (length (w_ports w)), add_port w (mkPort (KStrOut open_output_string) false false)).
(* make-soft-port 1103-1175.  [None]: not a vector / not a string.  The mode
   characters are looked for in all of the string *)
(* port.cc scm_c_make_soft_port 1108-1173 *)
Definition has (ch : Z) (s : list Z) : bool := existsb (Z.eqb ch) s.
(* port.cc scm_c_make_soft_port 1108-1173 *)
Definition make_soft_port (w : world) (procs : option (list slot)) (modes : option (list Z)) : res (ans * world) :=
  match procs, modes with
  | Some pv, Some m =>
      if (Nat.ltb (length pv) 5 || Nat.ltb 6 (length pv))%bool then Ok (RRaise, w)
      else if (has 114 m || has 119 m)%bool then
        Ok (RPort (length (w_ports w)), add_port w (mkPort (KSoft pv m) (has 114 m) false))
      else Ok (RRaise, w)
  | _, _ => Ok (RRaise, w)
  end.

(* port.cc 119-182: the argument check *)
Definition get_port (w : world) (a : arg) : option (nat * port) :=
  match a with
  | APort k => match nth_error (w_ports w) k with Some p => Some (k, p) | None => None end
  | _ => None
  end.
(* the common part of port.cc scm_c_close_input_port 119-148 and
   scm_c_close_output_port 151-182 *)
Definition close_port (c : cfg) (w : world) (k : nat) (p : port) : res (ans * world) :=
  if pt_closed p then Ok (RNone, w)
  else
    match pt_kind p with
    | KSoft procs m =>
        (* the closing procedure, slot 4; when it exits non-locally the port
           stays open *)
        match call_slot c w (slot_at procs 4) [] with
        | (Some SaRaise, w') => Ok (RRaise, w')
        | (_, w') => Ok (RNone, set_port w' k (mkPort (pt_kind p) (pt_input p) true))
        end
    | KFileIn (Some i) => do w' <- fclose w i; Ok (RNone, set_port w' k (mkPort (KFileIn None) (pt_input p) true))
    | KFileOut (Some i) => do w' <- fclose w i; Ok (RNone, set_port w' k (mkPort (KFileOut None) (pt_input p) true))
    | KStrIn q => Ok (RNone, set_port w k (mkPort (KStrIn (mkIport (ip_data q) (ip_pos q) (ip_len q) true)) (pt_input p) true))
    | KStrOut q => Ok (RNone, set_port w k (mkPort (KStrOut (mkOport (op_buf q) (op_len q) (op_cap q) true)) (pt_input p) true))
    | _ => Ok (RNone, set_port w k (mkPort (pt_kind p) (pt_input p) true))
    end.
(* port.cc scm_c_close_input_port 119-148 *)
Definition close_in (c : cfg) (w : world) (a : arg) : res (ans * world) :=
  match get_port w a with
  | None => Ok (RRaise, w)
  | Some (k, p) => if pt_input p then close_port c w k p else Ok (RRaise, w)
  end.
(* port.cc scm_c_close_output_port 151-182 *)
Definition close_out (c : cfg) (w : world) (a : arg) : res (ans * world) :=
  match get_port w a with
  | None => Ok (RRaise, w)
  | Some (k, p) => if pt_input p then Ok (RRaise, w) else close_port c w k p
  end.
(* port.cc scm_c_get_output_string 242-259 *)
Definition get_string (w : world) (a : arg) : res (ans * world) :=
  match get_port w a with
  | Some (_, p) => match pt_kind p with KStrOut q => Ok (RStr (get_output q), w) | _ => Ok (RRaise, w) end
  | None => Ok (RRaise, w)
  end.

(* port.cc 262-303: the byte as a character, or the EOF object *)
Definition char_ans (o : option Z) : ans := match o with Some b => RChar' b | None => REof end.
(* port.cc read_char_from_port 262-303 *)
Definition read_from (c : cfg) (w : world) (k : nat) (p : port) : res (ans * world) :=
  if pt_closed p then Ok (REof, w)
  else
    match pt_kind p with
    | KFileIn (Some i) => do '(o, w') <- fgetc c w i; Ok (char_ans o, w')
    | KStrIn q =>
        do '(o, q') <- read_char_port q;
        Ok (char_ans o, set_port w k (mkPort (KStrIn q') (pt_input p) (pt_closed p)))
    | KSoft procs _ =>
        if pt_input p then
          match call_slot c w (slot_at procs 3) [] with
          | (Some (SaChar b), w') => Ok (RChar' b, w')
          | (Some SaRaise, w') => Ok (RRaise, w')
          | (_, w') => Ok (REof, w')
          end
        else Ok (REof, w)
    | _ => Ok (REof, w)
    end.
(* port.cc peek_char_from_port 323-345: no case for soft ports *)
Definition peek_from (c : cfg) (w : world) (p : port) : res (option Z * world) :=
  if pt_closed p then Ok (None, w)
  else
    match pt_kind p with
    | KFileIn (Some i) =>
        do '(o, w') <- fgetc c w i;
        match o with
        | Some b => do w2 <- ungetc w' i b; Ok (Some b, w2)
        | None => Ok (None, w')
        end
    | KStrIn q => do o <- peek_char_port q; Ok (o, w)
    | _ => Ok (None, w)
    end.
(* write_char_to_port_string of port.cc 348-391 (used by write-char) *)
Definition write_char_to (c : cfg) (w : world) (k : nat) (p : port) (ch : Z) : res (ans * world) :=
  if pt_closed p then Ok (RNone, w)
  else
    match pt_kind p with
    | KFileOut (Some i) => do w' <- fput c w i [ch]; Ok (RNone, w')
    | KStrOut q =>
        do q' <- write_char_port q ch;
        Ok (RNone, set_port w k (mkPort (KStrOut q') (pt_input p) (pt_closed p)))
    | KSoft procs _ =>
        if pt_input p then Ok (RNone, w)
        else match call_slot c w (slot_at procs 0) [ch] with
             | (Some SaRaise, w') => Ok (RRaise, w')
             | (_, w') => Ok (RNone, w')
             end
    | _ => Ok (RNone, w)
    end.
(* write_string_to_port of string.cc 120-141 and its own
   write_char_to_port_string 143-162: no case for soft ports *)
Definition print_to (c : cfg) (w : world) (k : nat) (p : port) (o : oop) : res (ans * world) :=
  if pt_closed p then Ok (RNone, w)
  else
    match pt_kind p with
    | KFileOut (Some i) =>
        do w' <- fput c w i (match o with OpText t => until_nul t | OpNewline => [10] | OpChar b => [b] | OpCloseOut => [] end);
        Ok (RNone, w')
    | KStrOut q =>
        do q' <- oport_step q o;
        Ok (RNone, set_port w k (mkPort (KStrOut q') (pt_input p) (pt_closed p)))
    | _ => Ok (RNone, w)
    end.
(* port.cc flush_port 393-415 *)
Definition flush_port (c : cfg) (w : world) (p : port) : res (ans * world) :=
  if pt_closed p then Ok (RNone, w)
  else
    match pt_kind p with
    | KFileOut (Some i) => do w' <- fflush w i; Ok (RNone, w')
    | KSoft procs _ =>
        if pt_input p then Ok (RNone, w)
        else match call_slot c w (slot_at procs 2) [] with
             | (Some SaRaise, w') => Ok (RRaise, w')
             | (_, w') => Ok (RNone, w')
             end
    | _ => Ok (RNone, w)
    end.

(** ** The primitives (registered by init_port 1175-1228 and string.cc).  An
    optional argument is [None] when absent; '() counts as absent. *)
Inductive op :=
| OpenIn (name : option (list Z)) | OpenOut (name : option (list Z))
| OpenInStr (s : option (list Z)) | OpenOutStr
| MakeSoft (procs : option (list slot)) (modes : option (list Z))
| CloseIn (a : arg) | CloseOut (a : arg) | GetStr (a : arg)
| ReadChar (a : option arg) | PeekChar (a : option arg) | CharReady (a : option arg)
| WriteChar (ch : option Z) (a : option arg)
| Print (text : list Z) (a : option arg)    (* display / write; [text]: what print_ast produces *)
| Newline (a : option arg)
| IsInput (a : arg) | IsOutput (a : arg)
| CurIn | CurOut | CurErr | SetIn (a : arg) | SetOut (a : arg) | SetErr (a : arg)
| ForceOutput (a : option arg).

(* an optional port argument: absent / given *)
(* port.cc 700-912: an optional port argument *)
Definition opt_arg (a : option arg) : option arg :=
  match a with Some ANil => None | o => o end.
(* soft ports are checked by strchr in the mode string, which stops at a NUL *)
(* port.cc 262-390 *)
Definition soft_has (ch : Z) (m : list Z) : bool := has ch (until_nul m).

(* port.cc scm_c_read_char 700-737 *)
Definition prim_read (c : cfg) (w : world) (a : option arg) : res (ans * world) :=
  match opt_arg a with
  | None => Ok (RRaise, w)                (* "stdin port not yet implemented" *)
  | Some a =>
      match get_port w a with
      | None => Ok (RRaise, w)
      | Some (k, p) =>
          let ok := match pt_kind p with KSoft _ m => soft_has 114 m | _ => pt_input p end in
          if ok then read_from c w k p else Ok (RRaise, w)
      end
  end.
(* port.cc scm_c_peek_char 740-771 *)
Definition prim_peek (c : cfg) (w : world) (a : option arg) : res (ans * world) :=
  match opt_arg a with
  | None => Ok (RRaise, w)
  | Some a =>
      match get_port w a with
      | None => Ok (RRaise, w)
      | Some (k, p) =>
          if pt_input p then do '(o, w') <- peek_from c w p; Ok (char_ans o, w') else Ok (RRaise, w)
      end
  end.
(* port.cc scm_c_char_ready 872-912 *)
Definition prim_ready (c : cfg) (w : world) (a : option arg) : res (ans * world) :=
  match opt_arg a with
  | None => Ok (RBool true, w)
  | Some a =>
      match get_port w a with
      | None => Ok (RRaise, w)
      | Some (k, p) =>
          if pt_input p then
            if pt_closed p then Ok (RBool false, w)
            else
              match pt_kind p with
              | KFileIn (Some i) =>
                  do '(o, w') <- peek_from c w p;
                  Ok (RBool (match o with Some _ => true | None => false end), w')
              | KStrIn q => Ok (RBool (ip_pos q <? ip_len q), w)
              | _ => Ok (RBool false, w)
              end
          else Ok (RRaise, w)
      end
  end.
(* port.cc scm_c_write_char 827-869 *)
Definition prim_write_char (c : cfg) (w : world) (ch : option Z) (a : option arg) : res (ans * world) :=
  match ch with
  | None => Ok (RRaise, w)
  | Some b =>
      match opt_arg a with
      | None => do w' <- fput c w 1 [b]; Ok (RNone, w')       (* putchar *)
      | Some a =>
          match get_port w a with
          | None => Ok (RRaise, w)
          | Some (k, p) =>
              let ok := match pt_kind p with KSoft _ m => soft_has 119 m | _ => negb (pt_input p) end in
              if ok then write_char_to c w k p b else Ok (RRaise, w)
          end
      end
  end.
(* display 166-219, write 223-276, newline 279-304 of string.cc; without a port
   the text goes to stdout *)
Definition prim_print (c : cfg) (w : world) (o : oop) (text : list Z) (a : option arg) : res (ans * world) :=
  match opt_arg a with
  | None => do w' <- fput c w 1 text; Ok (RNone, w')
  | Some a =>
      match get_port w a with
      | None => Ok (RRaise, w)
      | Some (k, p) => if pt_input p then Ok (RRaise, w) else print_to c w k p o
      end
  end.
(* port.cc scm_force_output 531-557; without a port: fflush(stdout) *)
Definition prim_force (c : cfg) (w : world) (a : option arg) : res (ans * world) :=
  match opt_arg a with
  | None => do w' <- fflush w 1; Ok (RNone, w')
  | Some a =>
      match get_port w a with
      | None => Ok (RRaise, w)
      | Some (k, p) => if pt_input p then Ok (RRaise, w) else flush_port c w p
      end
  end.

(* port.cc init_port 1175-1228: the procedures, as data *)
Definition prim (c : cfg) (w : world) (o : op) : res (ans * world) :=
  match o with
  | OpenIn s => open_input_file c w s
  | OpenOut s => open_output_file c w s
  | OpenInStr s => open_in_string w s
  | OpenOutStr => open_out_string w
  | MakeSoft pv m => make_soft_port w pv m
  | CloseIn a => close_in c w a
  | CloseOut a => close_out c w a
  | GetStr a => get_string w a
  | ReadChar a => prim_read c w a
  | PeekChar a => prim_peek c w a
  | CharReady a => prim_ready c w a
  | WriteChar ch a => prim_write_char c w ch a
  | Print t a => prim_print c w (OpText t) t a
  | Newline a => prim_print c w OpNewline [10] a
  (* input-port? 809-815, output-port? 818-824 *)
  | IsInput a => Ok (RBool (match get_port w a with Some (_, p) => pt_input p | None => false end), w)
  | IsOutput a => Ok (RBool (match get_port w a with Some (_, p) => negb (pt_input p) | None => false end), w)
  (* current-...-port 421-438, 458-476, 493-511; set-current-...-port 441-452, 478-490, 513-525 *)
  | CurIn => Ok (RPort (w_in w), w)
  | CurOut => Ok (RPort (w_out w), w)
  | CurErr => Ok (RPort (w_err w), w)
  | SetIn a =>
      match get_port w a with
      | Some (k, p) => if pt_input p then Ok (RPort (w_in w), set_cur w k (w_out w) (w_err w)) else Ok (RRaise, w)
      | None => Ok (RRaise, w)
      end
  | SetOut a =>
      match get_port w a with
      | Some (k, p) => if pt_input p then Ok (RRaise, w) else Ok (RPort (w_out w), set_cur w (w_in w) k (w_err w))
      | None => Ok (RRaise, w)
      end
  | SetErr a =>
      match get_port w a with
      | Some (k, p) => if pt_input p then Ok (RRaise, w) else Ok (RPort (w_err w), set_cur w (w_in w) (w_out w) k)
      | None => Ok (RRaise, w)
      end
  | ForceOutput a => prim_force c w a
  end.
(* port.cc init_port 1175-1228 *)
Definition step (c : cfg) (w : world) (o : op) : res (ans * world) := prim c (tick w) o.
(* a program's sequence of primitive calls; a raised error is caught by the
   program, which goes on *)
(* model only: a history of calls of port.cc *)
Fixpoint run (c : cfg) (w : world) (h : list op) : res (list ans * world) :=
  match h with
  | [] => Ok ([], w)
  | o :: r =>
      do '(a, w1) <- step c w o;
      do '(l, w2) <- run c w1 r;
      Ok (a :: l, w2)
  end.

(* port.cc init_port 1179-1188: error port 0, input port 1, output port 2 *)
Definition boot (files : list Z -> option (list Z)) (input : list Z) : world :=
  mkWorld (fun q => match q with FName s => files s | FStd 0 => Some input | FStd _ => Some [] end)
          [HIn (mkHin (FStd 0) 0 [] false); HOut (mkHout (FStd 1) 0 []); HOut (mkHout (FStd 2) 0 [])]
          [mkPort (KFileOut (Some 2%nat)) false false; mkPort (KFileIn (Some 0%nat)) true false;
           mkPort (KFileOut (Some 1%nat)) false false]
          1 2 0 [] 0.

(** ** call-with-output-file 962-1008, call-with-input-file 911-957,
    call-with-output-string 1059-1100, call-with-input-string 1011-1056.
    [body k]: the primitives the procedure performs when given port [k];
    [result]: what it returns; [None] when it exits through a throw or an escape. *)
(* port.cc 915-1105: how the body of a call-with procedure ends *)
Inductive outcome := Returns (a : ans) | Leaves.
(* port.cc scm_c_call_with_input_file 915-962, scm_c_call_with_output_file
   965-1012 *)
Definition with_file (op_open : option (list Z) -> op) (op_close : arg -> op)
    (c : cfg) (w : world) (name : option (list Z)) (body : nat -> list op) (result : option ans) : res (outcome * world) :=
  do '(a, w1) <- step c w (op_open name);
  match a with
  | RPort k =>
      do '(_, w2) <- run c w1 (body k);
      match result with
      | Some v => do '(_, w3) <- step c w2 (op_close (APort k)); Ok (Returns v, w3)
      | None => Ok (Leaves, w2)
      end
  | _ => Ok (Leaves, w1)
  end.
(* port.cc scm_c_call_with_output_file 965-1012 *)
Definition with_output_file := with_file OpenOut CloseOut.
(* the string port is not closed *)
(* port.cc scm_c_call_with_input_string 1015-1061 *)
Definition with_input_string (c : cfg) (w : world) (s : option (list Z)) (body : nat -> list op) (result : option ans) : res (outcome * world) :=
  do '(a, w1) <- step c w (OpenInStr s);
  match a with
  | RPort k => do '(_, w2) <- run c w1 (body k); Ok (match result with Some v => Returns v | None => Leaves end, w2)
  | _ => Ok (Leaves, w1)
  end.
(* port.cc scm_c_call_with_input_file 915-962 *)
Definition with_input_file := with_file OpenIn CloseIn.
(* port.cc scm_c_call_with_output_string 1064-1105 *)
Definition with_output_string (c : cfg) (w : world) (body : nat -> list op) (result : option ans) : res (outcome * world) :=
  do '(a, w1) <- step c w OpenOutStr;
  match a with
  | RPort k =>
      do '(_, w2) <- run c w1 (body k);
      match result with
      | Some _ => do '(r, w3) <- step c w2 (GetStr (APort k)); Ok (Returns r, w3)
      | None => Ok (Leaves, w2)
      end
  | _ => Ok (Leaves, w1)
  end.
