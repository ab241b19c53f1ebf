(** Vocabulary for the statements about options (C65).

    An option table is looked at through two questions: is a switch on, and
    what is the value of an option.  A setting list is described by the
    clauses it is made of. *)
From Coq Require Import String List ZArith Bool.
From Verif Require Import Base OptModel.
Import ListNotations.
Local Open Scope string_scope.
Local Open Scope list_scope.

(** The two option tables and the interface functions on them. *)
Inductive flavor : Type := Reader | Debugger.
Definition initial (f : flavor) : list opt :=
  match f with Reader => read_table | Debugger => debug_table end.
Definition interface (f : flavor) :=
  match f with Reader => read_interface | Debugger => debug_interface end.
Definition set_option (f : flavor) :=
  match f with Reader => read_set | Debugger => debug_set end.
Definition enable (f : flavor) :=
  match f with Reader => read_enable | Debugger => debug_enable end.
Definition disable (f : flavor) :=
  match f with Reader => read_disable | Debugger => debug_disable end.

(** The states a program can bring the table into: any sequence of calls with
    any arguments, failed ones included. *)
Inductive reachable (f : flavor) : list opt -> Prop :=
| reach_start : reachable f (initial f)
| reach_call : forall st args, reachable f st -> reachable f (snd (interface f args st)).

(** The first option with a name. *)
Definition lookup (st : list opt) (n : string) : option opt :=
  find (fun o => String.eqb (o_name o) n) st.

(** [n] is a switch / an integer option / an object option. *)
Definition has_kind (st : list opt) (n : string) (k : kind) : Prop :=
  exists o, lookup st n = Some o /\ o_kind o = k.

(** the switch [n] is on *)
Definition on (st : list opt) (n : string) : Prop :=
  exists o, lookup st n = Some o /\ o_kind o = KBool /\ o_val o <> Bits 0.

(** the value of the non-switch option [n], as a Scheme datum *)
Definition value (st : list opt) (n : string) (d : datum) : Prop :=
  exists o, lookup st n = Some o /\
    match o_kind o, o_val o with
    | KBool, _ => False
    | KInt, Bits z => d = DNum z
    | KInt, Ptr _ => False
    | KScm, Ptr x => d = x
    | KScm, Bits z => (z = 0%Z /\ d = DBool false) \/ (z = 1%Z /\ d = DBool true)
    end.

(** Clauses of a setting list.  A name may be written as a symbol or as
    (quote symbol). *)
Inductive name_form : Type := Plain (n : string) | Quoted (n : string).
Inductive clause : Type :=
| On (n : name_form)                      (* name       *)
| OnTrue (n : name_form)                  (* name #t    *)
| Off (n : name_form)                     (* name #f    *)
| Set_ (n : name_form) (v : datum).       (* name value *)

Definition the_name (n : name_form) : string := match n with Plain s => s | Quoted s => s end.
Definition write_name (n : name_form) : datum :=
  match n with
  | Plain s => DSym s
  | Quoted s => DList [Some (DSym "quote"); Some (DSym s)]
  end.
Definition write_clause (c : clause) : list datum :=
  match c with
  | On n => [write_name n]
  | OnTrue n => [write_name n; DBool true]
  | Off n => [write_name n; DBool false]
  | Set_ n v => [write_name n; v]
  end.
Definition write_clauses (cs : list clause) : list (option datum) :=
  map Some (concat (map write_clause cs)).

(** the clause uses an existing option in the way its kind allows *)
Definition clause_ok (st : list opt) (c : clause) : Prop :=
  match c with
  | On n | OnTrue n | Off n => has_kind st (the_name n) KBool
  | Set_ n v => (has_kind st (the_name n) KInt /\ exists z, v = DNum z) \/
                has_kind st (the_name n) KScm
  end.

(** the clauses switch [n] on *)
Definition switched_on (cs : list clause) (n : string) : Prop :=
  exists nm, the_name nm = n /\ (In (On nm) cs \/ In (OnTrue nm) cs).

(** [v] is the last value the clauses give to [n]; none of them mentions [n] *)
Definition last_given (cs : list clause) (n : string) (v : datum) : Prop :=
  exists nm cs1 cs2, the_name nm = n /\ cs = cs1 ++ Set_ nm v :: cs2 /\
    forall nm' v', In (Set_ nm' v') cs2 -> the_name nm' <> n.
Definition not_given (cs : list clause) (n : string) : Prop :=
  forall nm v, In (Set_ nm v) cs -> the_name nm <> n.

(** a value (quote x ...) stands for x *)
Inductive stands_for : datum -> datum -> Prop :=
| stands_quoted : forall x r, stands_for (DList (Some (DSym "quote") :: Some x :: r)) x
| stands_self : forall d,
    (forall x r, d <> DList (Some (DSym "quote") :: Some x :: r)) -> stands_for d d.

(** no option holds a quote form *)
Definition no_quote_values (st : list opt) : Prop :=
  forall n x r, ~ value st n (DList (Some (DSym "quote") :: Some x :: r)).

(** the reader's rule "copy implies positions" added to a set of switches *)
Definition with_copy_rule (f : flavor) (P : string -> Prop) (n : string) : Prop :=
  P n \/ (f = Reader /\ n = "positions" /\ P "copy").

(** the name [n], as a symbol or quoted, is an element of the list *)
Definition mentions (l : list (option datum)) (n : string) : Prop :=
  In (Some (DSym n)) l \/
  exists r, In (Some (DList (Some (DSym "quote") :: Some (DSym n) :: r))) l.
