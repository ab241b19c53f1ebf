(** Model of src/c/read.cc and src/c/debug.cc: the reader and debugger option
    tables, read-options-interface / debug-options-interface, and the macros
    read-set!, read-enable, read-disable (and their debug- twins) as the
    operations they expand to.

    Simplifications, for the whole file:
    - Scheme data are finite trees [datum]; #t and #f are the interpreter's
      singletons (scm_bool_true/scm_bool_false are the only places that make
      booleans), so the pointer comparison with scm_bool_false() is a test on
      the value.  A stored option pointer is the datum it points to.
    - the argument list is a finite list (the C loop does not end on a
      circular one); [None] is a cell whose data pointer is null.
    - the two files contain the same code up to the three differences that are
      the parameters below (table, "#t is stored as 1", "copy implies
      positions"), so it is written once and instantiated twice. *)
From Coq Require Import String List ZArith Bool.
From Verif Require Import Base.
Import ListNotations.
Local Open Scope string_scope.
Local Open Scope Z_scope.
Local Open Scope list_scope.

(* model only: what read.cc 143-263 looks at in a Scheme value *)
Inductive datum : Type :=
| DBool (b : bool)
| DSym (s : string)
| DNum (z : Z)                                   (* SCM::NUM, an int64 *)
| DList (items : list (option datum))            (* a non-empty SCM_List *)
| DOther (n : nat).                              (* anything else: string, procedure, ... *)

(** SCM_OPTION_BOOLEAN / INTEGER / SCM: read.cc 18-20, debug.cc 18-20 *)
Inductive kind : Type := KBool | KInt | KScm.

(** scm_t_bits: an integer, or an object pointer: read.cc 7, debug.cc 7 *)
Inductive bits : Type := Bits (z : Z) | Ptr (d : datum).

(** scm_t_read_option / scm_t_debug_option without the documentation string:
    read.cc 10-15, debug.cc 10-15 *)
Record opt : Type := Opt { o_name : string; o_kind : kind; o_val : bits }.

(** scm_read_opts: read.cc 25-34 *)
Definition read_table : list opt :=
  [ Opt "copy" KBool (Bits 0);
    Opt "positions" KBool (Bits 1);
    Opt "case-insensitive" KBool (Bits 0);
    Opt "keywords" KScm (Bits 0) ].

(** scm_debug_opts: debug.cc 24-45 *)
Definition debug_table : list opt :=
  [ Opt "cheap" KBool (Bits 1);
    Opt "breakpoints" KBool (Bits 0);
    Opt "trace" KBool (Bits 0);
    Opt "procnames" KBool (Bits 1);
    Opt "backwards" KBool (Bits 0);
    Opt "width" KInt (Bits 79);
    Opt "indent" KInt (Bits 10);
    Opt "frames" KInt (Bits 3);
    Opt "maxdepth" KInt (Bits 1000);
    Opt "depth" KInt (Bits 20);
    Opt "backtrace" KBool (Bits 0);
    Opt "debug" KBool (Bits 0);
    Opt "stack" KInt (Bits 20000);
    Opt "show-file-name" KScm (Bits 1);
    Opt "warn-deprecated" KBool (Bits 0) ].

(** C truth of an option value ("if (scm_read_opts[2].val)"): read.cc 91, 99,
    107, 260; debug.cc 72 *)
Definition truthy (b : bits) : bool :=
  match b with Bits z => negb (z =? 0) | Ptr _ => true end.

(** is_bool: pscm.h 54-56; the test "is #f": read.cc 200, debug.cc 189 *)
Definition is_bool (d : datum) : bool := match d with DBool _ => true | _ => false end.
(* pscm.h is_false 83-88 *)
Definition is_false (d : datum) : bool := match d with DBool false => true | _ => false end.

(** the quote-form test shared by extract_symbol and the value extraction:
    read.cc 122-126 / 233-237, debug.cc 113-117 / 222-226.  Only the first two
    cells are looked at. *)
Definition quoted (d : datum) : option datum :=
  match d with
  | DList (Some (DSym q) :: Some x :: _) => if String.eqb q "quote" then Some x else None
  | _ => None
  end.

(** extract_symbol: read.cc 118-137, debug.cc 109-128 *)
Definition extract_symbol (d : datum) : option string :=
  match d with
  | DSym s => Some s
  | _ => match quoted d with Some (DSym s) => Some s | _ => None end
  end.

(** value of an SCM option, quote removed: read.cc 232-241, debug.cc 221-230 *)
Definition unquote (d : datum) : datum :=
  match quoted d with Some x => x | None => d end.

(** find_read_option / find_debug_option: read.cc 45-52, debug.cc 50-57.
    Returns the index and kind of the first option with that name. *)
Fixpoint find_option (tbl : list opt) (name : string) : option (nat * kind) :=
  match tbl with
  | [] => None
  | o :: r => if String.eqb (o_name o) name then Some (O, o_kind o)
              else match find_option r name with
                   | Some (i, k) => Some (S i, k)
                   | None => None
                   end
  end.

(** assignment temp_vals[i] = b *)
(* read.cc change_read_option_setting 143-263 *)
Fixpoint set_nth (i : nat) (b : bits) (l : list bits) : list bits :=
  match l, i with
  | [], _ => []
  | _ :: r, O => b :: r
  | x :: r, S j => x :: set_nth j b r
  end.

Section Flavor.
  (** debug.cc stores #t as 1 (234-242) and shows 1 as #t (90-92);
      read.cc does neither (244-248, 79-82) *)
  Variable true_is_one : bool.
  (** read.cc 259-262: copy implies positions; debug.cc has no such step *)
  Variable copy_rule : bool.

  (** what is stored for the value of an SCM option: read.cc 244-248,
      debug.cc 234-242 *)
  Definition store_scm (d : datum) : bits :=
    match d with
    | DBool false => Bits 0
    | DBool true => if true_is_one then Bits 1 else Ptr d
    | _ => Ptr d
    end.

  (** what is shown for it: read.cc 79-82, debug.cc 87-92.  [Bits z] with any
      other z would be a wild pointer; no such value is ever stored. *)
  Definition show_scm (b : bits) : datum :=
    match b with
    | Bits z => if z =? 0 then DBool false else DBool true
    | Ptr d => d
    end.

  (** long_to_scm((long)val): debug.cc 85 *)
  Definition show_int (b : bits) : datum :=
    match b with Bits z => DNum z | Ptr d => d end.

  (** one option's contribution to the setting list: read.cc 77-112,
      debug.cc 70-102 *)
  Definition show_opt (o : opt) : list (option datum) :=
    match o_kind o with
    | KBool => if truthy (o_val o) then [Some (DSym (o_name o))] else []
    | KInt => [Some (DSym (o_name o)); Some (show_int (o_val o))]
    | KScm => [Some (DSym (o_name o)); Some (show_scm (o_val o))]
    end.

  (** get_read_option_setting (read.cc 66-115: indices 3,2,1,0) and
      get_debug_option_setting (debug.cc 63-106: indices 14 down to 0) *)
  Definition get_setting (st : list opt) : list (option datum) :=
    concat (map show_opt (rev st)).

  (** the initial temp_vals: read.cc 149-160, debug.cc 138-149 *)
  Definition initial_temps (st : list opt) : list bits :=
    map (fun o => match o_kind o with KBool => Bits 0 | _ => o_val o end) st.

  (** the loop over the argument list: read.cc 164-252, debug.cc 153-246 *)
  Fixpoint walk (tbl : list opt) (temps : list bits) (cur : list (option datum))
    : res (list bits) :=
    match cur with
    | [] => Ok temps
    | None :: next => walk tbl temps next
    | Some d :: next =>
        if is_bool d then walk tbl temps next
        else match extract_symbol d with
        | None => walk tbl temps next
        | Some name =>
            match find_option tbl name with
            | None => Err
            | Some (i, KBool) =>
                match next with
                | Some v :: next2 =>
                    if is_false v then walk tbl temps next2
                    else walk tbl (set_nth i (Bits 1) temps) next
                | _ => walk tbl (set_nth i (Bits 1) temps) next
                end
            | Some (i, KInt) =>
                match next with
                | Some (DNum z) :: next2 => walk tbl (set_nth i (Bits z) temps) next2
                | _ => Err
                end
            | Some (i, KScm) =>
                match next with
                | Some v :: next2 =>
                    walk tbl (set_nth i (store_scm (unquote v)) temps) next2
                | _ => Err
                end
            end
        end
    end.

  (** writing temp_vals back: read.cc 255-257, debug.cc 249-251 *)
  Fixpoint commit (st : list opt) (temps : list bits) : list opt :=
    match st, temps with
    | o :: r, b :: t => Opt (o_name o) (o_kind o) b :: commit r t
    | _, _ => st
    end.

  (** read.cc 259-262; SCM_COPY_SOURCE_P is option 0, SCM_RECORD_POSITIONS_P
      option 1 (read.cc 39-40) *)
  Definition copy_implies_positions (st : list opt) : list opt :=
    if copy_rule then
      match st with
      | c :: p :: r =>
          if truthy (o_val c) then c :: Opt (o_name p) (o_kind p) (Bits 1) :: r else st
      | _ => st
      end
    else st.

  (** change_read_option_setting (read.cc 143-263), change_debug_option_setting
      (debug.cc 132-252): the outcome and the table afterwards.  An error
      leaves through eval_error before anything is written back. *)
  Definition change_setting (args : list (option datum)) (st : list opt)
    : res unit * list opt :=
    match args with
    | [] => (Ok tt, st)                           (* args == nullptr *)
    | _ => match walk st (initial_temps st) args with
           | Ok temps => (Ok tt, copy_implies_positions (commit st temps))
           | Err => (Err, st)
           | Abort => (Abort, st)
           | UB => (UB, st)
           | Fuel => (Fuel, st)
           end
    end.

  (** scm_c_read_options_interface (read.cc 266-287) and
      scm_c_debug_options_interface (debug.cc 255-276).  [args] is the
      argument list; the result is the setting list. *)
  Definition options_interface (args : list (option datum)) (st : list opt)
    : res (list (option datum)) * list opt :=
    match args with
    | Some (DList items) :: _ =>
        match change_setting items st with
        | (Ok _, st') => (Ok (get_setting st'), st')
        | (Err, st') => (Err, st')
        | (Abort, st') => (Abort, st')
        | (UB, st') => (UB, st')
        | (Fuel, st') => (Fuel, st')
        end
    | _ => (Ok (get_setting st), st)
    end.

  (** the call (…-options-interface l) on a Scheme list l: the empty list is
      not an SCM::LIST (is_pair, pscm.h 18-20) and selects the last branch *)
  Definition interface_on_list (l : list (option datum)) (st : list opt) :=
    match l with
    | [] => options_interface [Some (DOther 0)] st
    | _ => options_interface [Some (DList l)] st
    end.

  (** expansion of (read-set! opt val): read.cc 503-507, debug.cc 285-289.
      [val] is the value of the second operand. *)
  Definition opt_set (name : datum) (val : datum) (st : list opt) :=
    interface_on_list (get_setting st ++ [Some name; Some val]) st.

  (** expansion of (read-enable flag ...): read.cc 513-517, debug.cc 292-296.
      The operands are evaluated; [flags] are their values, taken to be
      symbols. *)
  Definition opt_enable (flags : list string) (st : list opt) :=
    interface_on_list (map (fun f => Some (DSym f)) flags ++ get_setting st) st.

  (** expansion of (read-disable flag ...): read.cc 523-537, debug.cc 299-313:
      every element of the setting that is memq in the flags is left out.  eq?
      on a symbol and any other object compares names (eq.cc). *)
  Definition is_flag (flags : list string) (d : option datum) : bool :=
    match d with
    | Some (DSym s) => existsb (String.eqb s) flags
    | _ => false
    end.
(* read.cc 523-537, debug.cc 299-313: the macros read-disable, debug-disable *)
  Definition opt_disable (flags : list string) (st : list opt) :=
    interface_on_list (filter (fun d => negb (is_flag flags d)) (get_setting st)) st.
End Flavor.

(** read.cc and debug.cc *)
Definition read_get := get_setting.
(* read.cc scm_c_read_options_interface 266-287 *)
Definition read_interface := options_interface false true.
(* read.cc 503-507: the macro read-set! *)
Definition read_set := opt_set false true.
(* read.cc 513-517: the macro read-enable *)
Definition read_enable := opt_enable false true.
(* read.cc 523-537: the macro read-disable *)
Definition read_disable := opt_disable false true.
(* debug.cc get_debug_option_setting 63-106 *)
Definition debug_get := get_setting.
(* debug.cc scm_c_debug_options_interface 255-276 *)
Definition debug_interface := options_interface true false.
(* debug.cc 285-289: the macro debug-set! *)
Definition debug_set := opt_set true false.
(* debug.cc 292-296: the macro debug-enable *)
Definition debug_enable := opt_enable true false.
(* debug.cc 299-313: the macro debug-disable *)
Definition debug_disable := opt_disable true false.

(** the run of debug_set_tests.scm *)
(* model only: test/base/debug_set_tests.scm *)
Definition run2 (f : list opt -> res (list (option datum)) * list opt) (st : list opt) := snd (f st).
Example debug_default :
  fst (debug_interface [] debug_table) =
  Ok (map Some [DSym "show-file-name"; DBool true; DSym "stack"; DNum 20000; DSym "depth"; DNum 20;
                DSym "maxdepth"; DNum 1000; DSym "frames"; DNum 3; DSym "indent"; DNum 10;
                DSym "width"; DNum 79; DSym "procnames"; DSym "cheap"]).
Proof. vm_compute. reflexivity. Qed.
Example read_default :
  fst (read_interface [] read_table) = Ok (map Some [DSym "keywords"; DBool false; DSym "positions"]).
Proof. vm_compute. reflexivity. Qed.
Example debug_enable_two :
  fst (debug_enable ["backtrace"; "debug"] debug_table) =
  Ok (map Some [DSym "show-file-name"; DBool true; DSym "stack"; DNum 20000; DSym "debug"; DSym "backtrace";
                DSym "depth"; DNum 20;
                DSym "maxdepth"; DNum 1000; DSym "frames"; DNum 3; DSym "indent"; DNum 10;
                DSym "width"; DNum 79; DSym "procnames"; DSym "cheap"]).
Proof. vm_compute. reflexivity. Qed.
