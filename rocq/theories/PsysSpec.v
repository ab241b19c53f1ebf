(** Vocabulary for C88-C91, written from the English claims: which primitives
    of a history concern a given port, and what an ideal port answers. *)
From Verif Require Import Base PrintModel PortModel PortSpec PsysModel.
Local Open Scope list_scope.

(** *** Input: the operations of a history on port [k], and their answers *)
Definition on_in (k : nat) (o : op) : option iop :=
  match o with
  | ReadChar (Some (APort j)) => if Nat.eqb j k then Some OpRead else None
  | PeekChar (Some (APort j)) => if Nat.eqb j k then Some OpPeek else None
  | CharReady (Some (APort j)) => if Nat.eqb j k then Some OpReady else None
  | CloseIn (APort j) => if Nat.eqb j k then Some OpCloseIn else None
  | _ => None
  end.
Fixpoint view_in (k : nat) (h : list op) : list iop :=
  match h with
  | [] => []
  | o :: r => match on_in k o with Some i => i :: view_in k r | None => view_in k r end
  end.
Fixpoint answers_in (k : nat) (h : list op) (l : list ans) : list ans :=
  match h, l with
  | o :: r, a :: l' => match on_in k o with Some _ => a :: answers_in k r l' | None => answers_in k r l' end
  | _, _ => []
  end.
(* the answers of PortSpec's ideal byte stream, as answers of the primitives *)
Definition as_ans (a : ians) : ans :=
  match a with AChar c => RChar' c | AEof => REof | ABool b => RBool b | ANone => RNone end.
Definition ideal_reader (data : list Z) (k : nat) (h : list op) : list ans :=
  map as_ans (stream data false (view_in k h)).

(** *** Output: the writes of a history on port [k] *)
Definition on_out (k : nat) (o : op) : option oop :=
  match o with
  | WriteChar (Some b) (Some (APort j)) => if Nat.eqb j k then Some (OpChar b) else None
  | Print t (Some (APort j)) => if Nat.eqb j k then Some (OpText t) else None
  | Newline (Some (APort j)) => if Nat.eqb j k then Some OpNewline else None
  | CloseOut (APort j) => if Nat.eqb j k then Some OpCloseOut else None
  | _ => None
  end.
Fixpoint view_out (k : nat) (h : list op) : list oop :=
  match h with
  | [] => []
  | o :: r => match on_out k o with Some i => i :: view_out k r | None => view_out k r end
  end.
(* everything written to port [k] before it is closed (PortSpec.written) *)
Definition sent (k : nat) (h : list op) : list Z := written (view_out k h).
(* no text printed on port [k] contains a NUL byte *)
Definition no_nul (k : nat) (h : list op) : Prop := nul_free (view_out k h).

(** *** Writes without a port argument *)
Definition no_port (a : option arg) : bool := match a with None | Some ANil => true | _ => false end.
Fixpoint default_output (h : list op) : list Z :=
  match h with
  | [] => []
  | WriteChar (Some b) a :: r => if no_port a then b :: default_output r else default_output r
  | Print t a :: r => if no_port a then t ++ default_output r else default_output r
  | Newline a :: r => if no_port a then 10 :: default_output r else default_output r
  | _ :: r => default_output r
  end.

(** *** The port an operation is given, and whether it is an output operation
    without a port *)
Definition opt_target (a : option arg) : option nat := match a with Some (APort k) => Some k | _ => None end.
Definition arg_target (a : arg) : option nat := match a with APort k => Some k | _ => None end.
Definition target (o : op) : option nat :=
  match o with
  | CloseIn a | CloseOut a | GetStr a => arg_target a
  | ReadChar a | PeekChar a | CharReady a | WriteChar _ a | Print _ a | Newline a | ForceOutput a => opt_target a
  | _ => None
  end.
Definition to_stdout (o : op) : bool :=
  match o with
  | WriteChar _ a | Print _ a | Newline a | ForceOutput a => no_port a
  | _ => false
  end.

(** *** Files *)
(* the history never opens the file for output *)
Definition never_opens_out (p : list Z) (h : list op) : Prop :=
  forall s, In (OpenOut (Some s)) h -> until_nul s <> p.
(* no FILE is open for writing on the file *)
Definition no_writer (w : world) (p : fpath) : Prop :=
  forall i o, nth_error (w_handles w) i = Some (HOut o) -> ho_path o <> p.
(* what is in the file *)
Definition on_disk (w : world) (name : list Z) (s : list Z) : Prop := w_files w (FName name) = Some s.
(* states a program can reach *)
Definition reachable (c : cfg) (w : world) : Prop :=
  exists files input h l, run c (boot files input) h = Ok (l, w).
Definition is_prefix (a b : list Z) : Prop := exists r, b = a ++ r.

(** *** Current ports: the port given to the last setter that did not raise an
    error, or the initial one *)
Inductive which := Input | Output | Error.
Definition setter (x : which) (o : op) : option arg :=
  match x, o with Input, SetIn a => Some a | Output, SetOut a => Some a | Error, SetErr a => Some a | _, _ => None end.
Fixpoint last_set (x : which) (init : nat) (h : list op) (l : list ans) : nat :=
  match h, l with
  | o :: r, a :: l' =>
      match setter x o, a with
      | Some (APort k), RRaise => last_set x init r l'
      | Some (APort k), _ => last_set x k r l'
      | _, _ => last_set x init r l'
      end
  | _, _ => init
  end.
Definition getter (x : which) : op := match x with Input => CurIn | Output => CurOut | Error => CurErr end.
Definition set_op (x : which) (a : arg) : op := match x with Input => SetIn a | Output => SetOut a | Error => SetErr a end.
Definition right_direction (x : which) (a : arg) : op := match x with Input => IsInput a | _ => IsOutput a end.
Definition initial (x : which) : nat := match x with Input => 1 | Output => 2 | Error => 0 end%nat.

(** *** The screen: what goes to the process's standard output, in order: the
    writes on the initial output port (port 2) and those without a port *)
Definition to_screen (o : op) : list Z :=
  match on_out 2 o with
  | Some (OpChar b) => [b]
  | Some OpNewline => [10]
  | Some (OpText t) => t
  | _ => default_output [o]
  end.
Definition screen (h : list op) : list Z := concat (map to_screen h).

(** *** Soft ports *)
Definition soft_port (w : world) (k : nat) : Prop :=
  exists p pv m, nth_error (w_ports w) k = Some p /\ pt_kind p = KSoft pv m.
(* the call a slot of the vector leads to *)
Definition slot_call (pv : list slot) (i : nat) (args : list Z) : list call :=
  match nth_error pv i with Some (SlProc n) => [(n, args)] | _ => [] end.
(* a close of port [k] that was answered normally *)
Fixpoint closed_ok (k : nat) (h : list op) (l : list ans) : bool :=
  match h, l with
  | o :: r, a :: l' =>
      match o, a with
      | CloseIn (APort j), RNone => Nat.eqb j k || closed_ok k r l'
      | CloseOut (APort j), RNone => Nat.eqb j k || closed_ok k r l'
      | _, _ => closed_ok k r l'
      end
  | _, _ => false
  end.

(** *** How much a history prints in all *)
(* how much an operation can print *)
Definition osize (o : op) : Z :=
  match o with
  | WriteChar _ _ | Newline _ => 1
  | Print t _ => Z.of_nat (length t)
  | _ => 0
  end%Z.
Definition printed (h : list op) : Z := fold_right (fun o z => (osize o + z)%Z) 0%Z h.
