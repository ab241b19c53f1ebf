(** Model of the reader, src/c/parse.cc.

    A datum is a finite tree [rdatum] (the reader only builds fresh objects and
    never shares or mutates them, so the heap is not needed).  A list object is
    its chain of cells: first element, further elements, and optionally the data
    of a final cell flagged [is_dotted].  Note that [(a . (b c))] reads as two
    cells, the second one flagged and holding the list [(b c)].

    The input is the byte string between p->pos and its terminating NUL; the
    model's list may itself contain 0, which then ends the text like in C.
    Not modelled: line/column counters, source locations, the parse stack and
    the diagnostics printed by parse_error (parse.cc 1-257), which never
    influence the datum read. parse_error ends in eval_error: [Err]. *)
From Coq Require Import String Ascii SpecFloat.
From Verif Require Import Base NumModel HeapModel StringModel.
Local Open Scope list_scope.

(* what parse.cc parse_expr 1191-1323 builds: the types of pscm_types.h 17-44
   it can produce *)
Inductive rdatum : Type :=
| RInt (z : Z)
| RFloat (f : dbl)
| RRatio (n d : Z)
| RChar (b : Z)                (* the byte *)
| RBool (b : bool)
| RSym (name : list Z)
| RStr (s : list Z)
| RNil
| RVec (l : list rdatum)
| RList (hd : rdatum) (rest : list rdatum) (tail : option rdatum).

(* bytes of an ASCII literal of the C++ source *)
(* Coq only: a literal of parse.cc as bytes *)
Definition bs (s : string) : list Z :=
  map (fun a => Z.of_N (N_of_ascii a)) (list_ascii_of_string s).

(* *p->pos, p->pos[1], p->pos[2]: 0 at the end of the text.  The later ones are
   only ever read after the earlier ones were found to be non-NUL *)
(* parse.cc 261-309 *)
Definition at0 (s : list Z) : Z := nth 0 s 0.
(* parse.cc 261-309: p->pos[1] *)
Definition at1 (s : list Z) : Z := nth 1 s 0.
(* parse.cc 261-309: p->pos[2] *)
Definition at2 (s : list Z) : Z := nth 2 s 0.
(* p->pos++ and p->pos += 2: stepping over the terminating NUL would make the
   next read out of bounds *)
(* parse.cc 261-309 *)
Definition adv (s : list Z) : res (list Z) :=
  match s with [] => UB | _ :: r => Ok r end.
(* parse.cc 261-309: p->pos += 2 *)
Definition adv2 (s : list Z) : res (list Z) := do r <- adv s; adv r.

(* libc isalnum in the C locale, parse.cc 809, 1092 *)
Definition isalnum (c : Z) : bool := isalpha c || isdigit c.

(* parse.cc skip_whitespace 261-282; [comment]: inside the loop of 273-276 *)
Fixpoint skip_ws (comment : bool) (s : list Z) : list Z :=
  match s with
  | [] => []
  | c :: r =>
      if comment then
        if c =? 0 then s
        else if c =? 10 then skip_ws false r   (* then 265-270 eat the newline *)
        else skip_ws true r
      else if isspace c then skip_ws false r
      else if c =? 59 then skip_ws true r
      else s
  end.
Notation skip := (skip_ws false).

(* parse.cc parse_number 312-428.  int_part: a C long *)
Fixpoint int_digits (acc : Z) (s : list Z) : res (Z * list Z) :=
  match s with
  | [] => Ok (acc, [])
  | c :: r =>
      if isdigit c then do v <- i64 (acc * 10 + (c - 48)); int_digits v r
      else Ok (acc, s)
  end.
(* parse.cc parse_number 358-363 *)
Fixpoint frac_digits (frac div : dbl) (s : list Z) : dbl * dbl * list Z :=
  match s with
  | [] => (frac, div, [])
  | c :: r =>
      if isdigit c
      then frac_digits (dadd (dmul frac (d_of_Z 10)) (d_of_Z (c - 48))) (dmul div (d_of_Z 10)) r
      else (frac, div, s)
  end.
(* parse.cc parse_number 338-427, after the sign; [neg] is the C++ [negative] *)
Definition p_unsigned (neg : bool) (s : list Z) : res (rdatum * list Z) :=
  do '(ip, s1) <- int_digits 0 s;
  do '(isf1, fv1, s2) <-
    (if at0 s1 =? 46 then
       do s' <- adv s1;
       let '(frac, div, s'') := frac_digits dzero (d_of_Z 1) s' in
       Ok (true, dadd (d_of_Z ip) (ddiv frac div), s'')
     else Ok (false, d_of_Z ip, s1));
  do '(isf2, fv2, s3) <-
    (if (at0 s2 =? 101) || (at0 s2 =? 69) then
       do s' <- adv s2;
       let eneg := at0 s' =? 45 in
       do s'' <- (if (at0 s' =? 45) || (at0 s' =? 43) then adv s' else Ok s');
       if negb (isdigit (at0 s'')) then Err
       else
         do '(ex, s''') <- int_digits 0 s'';
         let mult := Z.iter ex (fun m => dmul m (d_of_Z 10)) (d_of_Z 1) in
         Ok (true, if eneg then ddiv fv1 mult else dmul fv1 mult, s''')
     else Ok (isf1, fv1, s2));
  if isf2 : bool then Ok (RFloat (if neg then SFopp fv2 else fv2), s3)
  else do v <- (if neg then i64 (- ip) else Ok ip); Ok (RInt v, s3).
(* parse.cc parse_number 312-428 *)
Definition p_number (s : list Z) : res (option (rdatum * list Z)) :=
  if at0 s =? 45 then
    if negb (isdigit (at1 s)) then Ok None
    else do r <- adv s; do x <- p_unsigned true r; Ok (Some x)
  else if at0 s =? 43 then
    if negb (isdigit (at1 s)) then Ok None
    else do r <- adv s; do x <- p_unsigned false r; Ok (Some x)
  else if negb (isdigit (at0 s)) then Ok None
  else do x <- p_unsigned false s; Ok (Some x).

(* libc strcmp of a name in parse.cc parse_char 431-571 *)
Fixpoint beq (a b : list Z) : bool :=
  match a, b with
  | [], [] => true
  | x :: a', y :: b' => (x =? y) && beq a' b'
  | _, _ => false
  end.
(* parse.cc parse_char 431-571 *)
Fixpoint alpha_run (s : list Z) : list Z * list Z :=
  match s with
  | c :: r => if isalpha c then let '(n, k) := alpha_run r in (c :: n, k) else ([], s)
  | [] => ([], [])
  end.
(* called with s at "#\" *)
(* parse.cc parse_char 431-571 *)
Definition p_char (s : list Z) : res (Z * list Z) :=
  do r <- adv2 s;
  if at0 r =? 0 then Err
  else if isspace (at0 r) then do r' <- adv r; Ok (at0 r, r')
  else if isalpha (at0 r) then
    let '(name, rest) := alpha_run r in
    let low := map tolower name in
    if beq low (bs "space") then Ok (32, rest)
    else if beq low (bs "newline") then Ok (10, rest)
    else if beq low (bs "tab") || beq low (bs "ht") then Ok (9, rest)
    else do r' <- adv r; Ok (at0 r, r')
  else do r' <- adv r; Ok (at0 r, r').

(* parse.cc parse_string 666-776 (the static one): first pass 681-704 *)
Fixpoint str_scan (escape : bool) (s : list Z) : list Z * list Z :=
  match s with
  | [] => ([], [])
  | c :: r =>
      if c =? 0 then ([], s)
      else if escape then let '(b, k) := str_scan false r in (c :: b, k)
      else if c =? 92 then let '(b, k) := str_scan true r in (c :: b, k)
      else if c =? 34 then ([], s)
      else let '(b, k) := str_scan false r in (c :: b, k)
  end.
(* parse.cc parse_string 666-776: third pass 736-760; the second pass
   computes the length of the result *)
Definition esc_char (c : Z) : Z :=
  if c =? 110 then 10 else if c =? 116 then 9 else if c =? 114 then 13 else c.
(* parse.cc parse_string 736-760 *)
Fixpoint unescape (escape : bool) (b : list Z) : list Z :=
  match b with
  | [] => []
  | c :: r =>
      if escape then esc_char c :: unescape false r
      else if c =? 92 then unescape true r
      else c :: unescape false r
  end.
(* called with s at the opening quote *)
(* parse.cc parse_string 666-776 *)
Definition p_string (s : list Z) : res (rdatum * list Z) :=
  do r <- adv s;
  let '(body, k) := str_scan false r in
  if negb (at0 k =? 34) then Err
  else do k' <- adv k; Ok (RStr (unescape false body), k').

(* parse.cc parse_symbol 779-847 *)
Definition tok_end (c : Z) : bool :=
  (c =? 0) || isspace c || (c =? 41) || (c =? 40) || (c =? 59).
(* libc strchr in parse.cc 811, 1093 *)
Definition mem (c : Z) (l : list Z) : bool := existsb (fun x => c =? x) l.
(* parse.cc parse_symbol 808-811 *)
Definition symchar (c : Z) : bool := isalnum c || mem c (bs "!$%&*+-./:<=>?@^_~|").
(* parse.cc parse_symbol 815-816 *)
Definition esc_ok (c : Z) : bool :=
  negb ((c =? 0) || isspace c || (c =? 40) || (c =? 41) || (c =? 59)).
(* parse.cc parse_symbol 806-824 *)
Fixpoint sym_scan (s : list Z) : list Z * list Z :=
  match s with
  | [] => ([], [])
  | c :: r =>
      if c =? 0 then ([], s)
      else if c =? 92 then
        match r with
        | c2 :: r2 =>
            if esc_ok c2 then let '(n, k) := sym_scan r2 in (c :: c2 :: n, k)
            else let '(n, k) := sym_scan r in (c :: n, k)
        | [] => ([c], [])
        end
      else if symchar c then let '(n, k) := sym_scan r in (c :: n, k)
      else ([], s)
  end.
(* parse.cc parse_symbol 830-841 *)
Fixpoint sym_name (raw : list Z) : list Z :=
  match raw with
  | [] => []
  | c :: r =>
      if c =? 92 then match r with c2 :: r2 => c2 :: sym_name r2 | [] => [] end
      else c :: sym_name r
  end.
(* parse.cc parse_symbol 779-847 *)
Definition p_symbol (s : list Z) : res (option (rdatum * list Z)) :=
  if (at0 s =? 35) && (at1 s =? 116) && tok_end (at2 s) then do r <- adv2 s; Ok (Some (RBool true, r))
  else if (at0 s =? 35) && (at1 s =? 102) && tok_end (at2 s) then do r <- adv2 s; Ok (Some (RBool false, r))
  else
    let '(raw, rest) := sym_scan s in
    match raw with [] => Ok None | _ => Ok (Some (RSym (sym_name raw), rest)) end.

(* parse.cc parse_expr 1239-1249: the text up to the matching right brace *)
Fixpoint brace_scan (depth : nat) (s : list Z) : option (list Z * list Z) :=
  match s with
  | [] => None
  | c :: r =>
      if c =? 0 then None
      else
        let depth' := if c =? 123 then S depth else if c =? 125 then pred depth else depth in
        match depth' with
        | O => Some ([], s)
        | _ => match brace_scan depth' r with
               | Some (n, k) => Some (c :: n, k)
               | None => None
               end
        end
  end.
(* parse.cc parse_expr 1232-1271, s at "#{" *)
Definition p_brace (s : list Z) : res (rdatum * list Z) :=
  do r <- adv2 s;
  match brace_scan 1 r with
  | None => Err
  | Some (name, k) =>
      do k1 <- adv k;
      if negb (at0 k1 =? 35) then Err
      else do k2 <- adv k1; Ok (RSym name, k2)
  end.

(* list.cc scm_list2 9-12, as called by parse.cc 855-943 *)
Definition two (sym : string) (d : rdatum) : rdatum := RList (RSym (bs sym)) [d] None.
(* parse.cc parse_list 1085-1097: is the dot at s (at0 s = '.') the start of
   a symbol? strchr also finds the terminating NUL of its own table *)
Definition dot_symbol (s : list Z) : bool :=
  (at1 s =? 46) || isalnum (at1 s) || (at1 s =? 0) || mem (at1 s) (bs "!$%&*+-./:<=>?@^_~").
(* parse.cc parse_list 1034-1188: the chain of nodes *)
Definition build_list (els : list rdatum) (tl : option rdatum) : rdatum :=
  match els with [] => RNil | h :: r => RList h r tl end.

(** The mutually recursive part.  [n] bounds the nesting of calls; the theorems
    of ParseProofs.v show a sufficient bound for every input. *)
(* parse.cc parse_expr 1191-1323 *)
Fixpoint p_expr (n : nat) (s0 : list Z) {struct n} : res (option rdatum * list Z) :=
  (* parse.cc parse_expr 1191-1323; [None] is the C++ nullptr *)
  match n with
  | O => Fuel
  | S n =>
      let s := skip s0 in
      let c := at0 s in
      if c =? 0 then Ok (None, s)
      else if c =? 39 then do '(d, r) <- p_quote n s; Ok (Some d, r)
      else if c =? 96 then
        (* parse_quasiquote 908-942 *)
        do r <- adv s;
        do '(d, r') <- (if at0 r =? 44 then do '(x, k) <- p_unq n r; Ok (Some x, k) else p_expr n r);
        match d with Some d => Ok (Some (two "quasiquote" d), r') | None => Err end
      else if c =? 40 then
        (* parse.cc parse_list 1034-1188 *)
        do r <- adv s;
        let r := skip r in
        if at0 r =? 41 then do r' <- adv r; Ok (Some RNil, r')
        else
          do '(els, tl, r') <- p_elems n r;
          if negb (at0 r' =? 41) then Err
          else do r'' <- adv r'; Ok (Some (build_list els tl), r'')
      else if c =? 34 then do '(d, r) <- p_string s; Ok (Some d, r)
      else if (c =? 35) && (at1 s =? 58) then
        do r <- adv2 s;
        do x <- p_symbol r;
        match x with Some (d, r') => Ok (Some d, r') | None => Err end
      else if (c =? 35) && (at1 s =? 123) then do '(d, r) <- p_brace s; Ok (Some d, r)
      else if (c =? 35) && (at1 s =? 92) then do '(b, r) <- p_char s; Ok (Some (RChar b), r)
      else if (c =? 35) && (at1 s =? 40) then
        (* parse.cc parse_vector 578-663 *)
        do r <- adv2 s;
        let r := skip r in
        if at0 r =? 41 then do r' <- adv r; Ok (Some (RVec []), r')
        else
          do '(els, r') <- p_vec n r;
          if negb (at0 r' =? 41) then Err
          else do r'' <- adv r'; Ok (Some (RVec els), r'')
      else
        let number_or_symbol :=
          do x <- p_number s;
          match x with
          | Some (d, r) => Ok (Some d, r)
          | None =>
              do y <- p_symbol s;
              match y with Some (d, r) => Ok (Some d, r) | None => Err end
          end in
        if (c =? 49) && ((at1 s =? 43) || (at1 s =? 45)) && tok_end (at2 s) then
          do x <- p_symbol s;
          match x with Some (d, r) => Ok (Some d, r) | None => number_or_symbol end
        else number_or_symbol
  end
(* parse.cc parse_quote 855-905, s at the quote character *)
with p_quote (n : nat) (s : list Z) {struct n} : res (rdatum * list Z) :=
  match n with
  | O => Fuel
  | S n =>
      do r <- adv s;
      if (at0 r =? 35) && (at1 r =? 92) then
        do '(b, k) <- p_char r; Ok (two "quote" (RChar b), k)
      else
        do '(d, r') <- (if at0 r =? 44 then do '(x, k) <- p_unq n r; Ok (Some x, k) else p_expr n r);
        match d with Some d => Ok (two "quote" d, r') | None => Err end
  end
(* parse.cc parse_unquote_in_list 948-1031, s at the comma *)
with p_unq (n : nat) (s : list Z) {struct n} : res (rdatum * list Z) :=
  match n with
  | O => Fuel
  | S n =>
      if at1 s =? 64 then
        do r <- adv2 s;
        do '(d, r') <- p_expr n r;
        match d with Some d => Ok (two "unquote-splicing" d, r') | None => Err end
      else
        do r <- adv s;
        let r := skip r in
        if at0 r =? 39 then do '(d, r') <- p_quote n r; Ok (two "unquote" d, r')
        else if at0 r =? 44 then do '(d, r') <- p_unq n r; Ok (two "unquote" d, r')
        else
          do '(d, r') <- p_expr n r;
          match d with Some d => Ok (two "unquote" d, r') | None => Err end
  end
(* the element loop of parse.cc parse_list 1061-1151.  The two dotted-pair branches
   (1103-1130 and 1134-1150) run the same statements *)
with p_elems (n : nat) (s : list Z) {struct n} : res (list rdatum * option rdatum * list Z) :=
  match n with
  | O => Fuel
  | S n =>
      if (at0 s =? 0) || (at0 s =? 41) then Ok ([], None, s)
      else
        do '(d, s1) <-
          (if at0 s =? 39 then do '(x, k) <- p_quote n s; Ok (Some x, k)
           else if at0 s =? 44 then do '(x, k) <- p_unq n s; Ok (Some x, k)
           else p_expr n s);
        match d with
        | None => Err
        | Some d =>
            let s2 := skip s1 in
            if (at0 s2 =? 46) && negb (dot_symbol s2) then
              do s3 <- adv s2;
              let s4 := skip s3 in
              do '(e, s5) <-
                (if at0 s4 =? 44 then do '(x, k) <- p_unq n s4; Ok (Some x, k) else p_expr n s4);
              match e with
              | None => Err
              | Some e => Ok ([d], Some e, skip s5)
              end
            else
              do '(els, tl, s3) <- p_elems n s2;
              Ok (d :: els, tl, s3)
        end
  end
(* the element loop of parse.cc parse_vector 612-627 *)
with p_vec (n : nat) (s : list Z) {struct n} : res (list rdatum * list Z) :=
  match n with
  | O => Fuel
  | S n =>
      if (at0 s =? 0) || (at0 s =? 41) then Ok ([], s)
      else
        do '(d, s1) <-
          (if at0 s =? 44 then do '(x, k) <- p_unq n s; Ok (Some x, k) else p_expr n s);
        match d with
        | None => Err
        | Some d => do '(els, s2) <- p_vec n (skip s1); Ok (d :: els, s2)
        end
  end.

(* model only: a bound on the nesting of calls in parse.cc *)
Definition parse_fuel (s : list Z) : nat := (3 * length s + 3)%nat.
(* the result of parse_expr on a text: the datum (or nullptr) and what is left *)
(* parse.cc parse_expr 1191-1323 *)
Definition parse_expr (s : list Z) : res (option rdatum * list Z) := p_expr (parse_fuel s) s.
(* parse.cc parse 1326-1388 *)
Definition parse (s : list Z) : res rdatum :=
  do '(d, r) <- parse_expr s;
  match d with
  | None => Err
  | Some d => if negb (at0 (skip r) =? 0) then Err else Ok d
  end.
(* parse.cc parse_file 1413-1468 / parse_string(const char * ) 1470-1524: the list of all
   the data of a text.  parse_expr returns nullptr only at the end of the text,
   where is_eof already ended the loop *)
Fixpoint p_all (n : nat) (s : list Z) : res (list rdatum) :=
  match n with
  | O => Fuel
  | S n =>
      if at0 (skip s) =? 0 then Ok []
      else
        do '(d, r) <- parse_expr s;
        match d with
        | None => if Nat.eqb (length r) (length (skip s)) then Err else Ok []
        | Some d => do ds <- p_all n (skip r); Ok (d :: ds)
        end
  end.
(* parse.cc parse_file 1413-1468: all expressions of a text *)
Definition parse_all (s : list Z) : res (list rdatum) := p_all (S (length s)) s.
