(** Model of the printer, src/c/print.cc, on the data the reader can build
    (ParseModel.rdatum).  Output is the list of bytes sent to stdout.
    [pf] is printf's rendering of a double (print.cc 79-92: "%.1f" or "%.14g"),
    left abstract.  Symbol names contain no NUL (they are printed with %s).
    Not modelled: procedures, ports, modules, smobs and the other objects that
    have no external representation (printed as #<...>). *)
From Coq Require Import String.
From Verif Require Import Base NumModel HeapModel StringModel ParseModel.
Local Open Scope list_scope.

(* printf("%lld"): decimal digits *)
(* libc printf, called in print.cc 39-302 *)
Fixpoint dec_loop (n : nat) (z : Z) (acc : list Z) : list Z :=
  match n with
  | O => acc
  | S n => if z <? 10 then (48 + z) :: acc else dec_loop n (z / 10) ((48 + z mod 10) :: acc)
  end.
(* libc printf, called in print.cc 39-302 *)
Definition dec_nat (z : Z) : list Z := dec_loop (S (Z.to_nat (Z.log2 z))) z [].
(* libc printf, called in print.cc 39-302 *)
Definition dec (z : Z) : list Z := if z <? 0 then 45 :: dec_nat (- z) else dec_nat z.

(* print.cc _print_ast_with_context 39-302, is_str case, write mode: %03o *)
Definition octal3 (c : Z) : list Z := [92; 48 + c / 64; 48 + (c / 8) mod 8; 48 + c mod 8].
(* print.cc _print_ast_with_context 39-302, is_str case, write mode *)
Definition str_byte (c : Z) : list Z :=
  if c =? 92 then [92; 92]
  else if c =? 34 then [92; 34]
  else if c =? 10 then [92; 110]
  else if c =? 9 then [92; 116]
  else if c =? 13 then [92; 114]
  else if (32 <=? c) && (c <? 127) then [c]   (* char is signed: >= 128 is < 0 *)
  else octal3 c.
(* print.cc _print_ast_with_context 39-302, is_str case *)
Definition print_str (s : list Z) : list Z := 34 :: flat_map str_byte s ++ [34].
(* display of a string: printf("%s") stops at the first NUL *)
(* print.cc _print_ast_with_context 39-302, is_str case *)
Fixpoint until_nul (s : list Z) : list Z :=
  match s with [] => [] | c :: r => if c =? 0 then [] else c :: until_nul r end.
(* print.cc _print_ast_with_context 39-302, is_char case, write mode *)
Definition print_char (b : Z) : list Z :=
  if b =? 32 then bs "#\space"
  else if b =? 10 then bs "#\newline"
  else if b =? 9 then bs "#\ht"
  else [35; 92; b].
(* print.cc _print_ast_with_context 39-302, is_sym case *)
Definition print_sym (name : list Z) : list Z :=
  match name with
  | c :: _ => if c =? 58 then 35 :: name else name
  | [] => []
  end.
(* print.cc _list_starts_with 322-328 *)
Definition starts_with (d : rdatum) (name : string) : bool :=
  match d with RSym n => beq n (bs name) | _ => false end.

(* print.cc _print_ast_with_context 40-293 and _print_list 330-502.  [wm]: write_mode,
   [qq]/[uq]: PrintContext.in_quasiquote / in_unquote.  Lists always print their
   elements in write mode (182-191). *)
Fixpoint print (pf : dbl -> list Z) (wm qq uq : bool) (d : rdatum) {struct d} : list Z :=
  match d with
  | RInt z => dec z
  | RFloat f => pf f
  | RRatio n m => dec n ++ 47 :: dec m
  | RChar b => if wm then print_char b else [b]
  | RBool b => if b then bs "#t" else bs "#f"
  | RSym n => print_sym n
  | RStr s => if wm then print_str s else until_nul s
  | RNil => bs "()"
  | RVec [] => bs "#()"
  | RVec (x :: l) =>
      (bs "#(" ++ print pf wm qq uq x ++
      (fix go l := match l with [] => [] | x :: r => 32 :: print pf wm qq uq x ++ go r end) l ++ [41])
  | RList hd rest tail =>
      (* l->next->data, printed in a given context *)
      let second q u :=
        match rest, tail with
        | x :: _, _ => Some (print pf true q u x)
        | [], Some t => Some (print pf true q u t)
        | [], None => None
        end in
      let go :=
        fix go l := match l with [] => [] | x :: r => 32 :: print pf true qq uq x ++ go r end in
      if starts_with hd "quasiquote" then
        bs "(quasiquote " ++ match second true uq with Some p => p | None => bs "()" end ++ [41]
      else if starts_with hd "quote" then
        if qq && negb uq then 39 :: match second qq uq with Some p => p | None => bs "()" end
        else bs "(quote" ++ match second qq uq with Some p => 32 :: p | None => [] end ++ [41]
      else if starts_with hd "unquote" then
        bs "(unquote" ++ match second qq true with Some p => 32 :: p | None => [] end ++ [41]
      else if starts_with hd "unquote-splicing" then
        bs "(unquote-splicing" ++ match second qq uq with Some p => 32 :: p | None => [] end ++ [41]
      else
        40 :: print pf true qq uq hd ++ go rest ++
        match tail with
        | None => [41]
        | Some (RList h2 r2 None) => 32 :: print pf true qq uq h2 ++ go r2 ++ [41]
        | Some t => bs " . " ++ print pf true qq uq t ++ [41]
        end
  end.
(* write: print_ast(ast, true) *)
(* print.cc print_ast 34-37 *)
Definition write_datum (pf : dbl -> list Z) (d : rdatum) : list Z := print pf true false false d.
(* display: print_ast(ast, false) *)
(* print.cc print_ast 34-37 *)
Definition display_datum (pf : dbl -> list Z) (d : rdatum) : list Z := print pf false false false d.
