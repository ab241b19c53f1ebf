(** Vocabulary for C92-C96: histories of top-level forms, which files were
    evaluated, which module a name stands for, what a module exports. *)
From Coq Require Import String.
From Verif Require Import Base ParseModel EnvModel EnvSpec ModsysModel.
Local Open Scope list_scope.
Notation "[ ]" := (@nil _) : list_scope.

(** A form ended in this world, normally or with an error. *)
Definition ends {A} (r : outcome A) (w : world) : Prop := (exists a, r = Done a w) \/ r = Raised w.
(** A session: top-level forms one after the other; an error ends its form only. *)
Inductive session (fs : list (list Z * list form)) : world -> list form -> world -> Prop :=
| session_start : forall w, session fs w [] w
| session_step : forall w l w1 f fuel w2,
    session fs w l w1 -> ends (top fs fuel f w1) w2 -> session fs w (l ++ [f]) w2.
(** A world that some session reaches from a fresh interpreter. *)
Definition reachable (fs : list (list Z * list form)) (w : world) : Prop :=
  exists globals l, session fs (init_world globals) l w.

(** The module names whose file was evaluated, in order. *)
Fixpoint loads (l : list event) : list (list atom) :=
  match l with
  | [] => []
  | EvLoad n _ :: r => n :: loads r
  | _ :: r => loads r
  end.
(** The name stands for this module. *)
Definition names (w : world) (n : list atom) (m : nat) : Prop := In (n, m) (w_reg w).
(** The modules the user has: those with a name.  The others are interfaces. *)
Definition user_module (w : world) (m : nat) : Prop := exists n, names w n m.
Definition exported (w : world) (m : nat) (x : list Z) : Prop := In x (m_exports (nth m (s_mods (w_st w)) (mkMod [] [] [] None))).
Definition has_interface (w : world) (m p : nat) : Prop := m_pub (nth m (s_mods (w_st w)) (mkMod [] [] [] None)) = Some p.
Definition uses (w : world) (m : nat) : list nat := m_uses (nth m (s_mods (w_st w)) (mkMod [] [] [] None)).
Definition binds (w : world) (m : nat) (x : list Z) : option val := bound (w_st w) (InModule m) x.
Definition current (w : world) : nat := s_cur (w_st w).

(** * Files *)
(** The text of a module name: its elements, separated by slashes; only symbols
    have a text. *)
Fixpoint slashed (l : list (list Z)) : list Z :=
  match l with
  | [] => []
  | x :: r => match r with [] => x | _ => x ++ [47%Z] ++ slashed r end
  end.
Definition file_name (n : list atom) : list Z :=
  slashed (map (fun a => match a with ASym s => s | _ => [] end) n) ++ [46; 115; 99; 109]%Z.
(** A file name in a directory; the empty directory name is the current one. *)
Definition under (d p : list Z) : list Z :=
  match d with
  | [] => p
  | _ => if Z.eqb (last d 0%Z) 47 then d ++ p else d ++ [47%Z] ++ p
  end.
Definition strings_of (l : list val) : list (list Z) :=
  flat_map (fun v => match v with VStr s => [s] | _ => [] end) l.
(** The directories of %load-path. *)
Definition load_path (w : world) : list (list Z) :=
  match bound (w_st w) (InModule 0) (bs "%load-path") with Some (VList ns _) => strings_of ns | _ => [] end.
(** Where the file of a module may be, in order of preference. *)
Definition candidates (w : world) (n : list atom) : list (list Z) :=
  map (fun d => under d (file_name n)) (load_path w) ++ [file_name n].
Definition file_exists (fs : list (list Z * list form)) (p : list Z) : bool :=
  existsb (fun f => beq (fst f) p) fs.
(** * Plain module files: definitions with constant values. *)
Inductive plain : list form -> list (list Z * val) -> Prop :=
| plain_nil : plain [] []
| plain_var : forall x v l d, plain l d -> plain (FDefine x (RVal v) :: l) (d ++ [(x, v)])
| plain_proc : forall x v l d, plain l d -> plain (FDefineProc x v :: l) (d ++ [(x, v)]).
(* the last definition of a name comes first in the list, so assoc gives it *)

(** What code in module m sees under the name x, autoloads aside: its own
    variable, that of the most recently used module that has one, that of the root
    module. *)
Definition sees (w : world) (m : nat) (x : list Z) : option val :=
  option_map snd (first_bound (w_st w) (module_places (w_st w) m) x).
(** What a module shows to its users: its interface, if it has one. *)
Definition shown (w : world) (m : nat) : nat :=
  match m_pub (nth m (s_mods (w_st w)) (mkMod [] [] [] None)) with Some p => p | None => m end.
(** The options #:use-module n, for each n; symbols. *)
Definition sym (x : list Z) : datum := DAtom (ASym x).
Definition use_options (l : list (list atom)) : list datum := flat_map (fun n => [sym (bs "use-module"); DList n]) l.
(** The autoload options of module m mention x. *)
Definition autoloads (w : world) (m : nat) (x : list Z) : Prop := exists n xs, In (m, (n, xs)) (w_auto w) /\ In x xs.
(** The same world with these autoload options. *)
Definition with_auto (w : world) (l : list (nat * (list atom * list (list Z)))) : world := mkWorld (w_st w) (w_reg w) l (w_log w).
(** The first autoload option of m that lists x: l1 and l2 are the others. *)
Definition first_auto (w : world) (m : nat) (x : list Z) (t : list atom) (l1 l2 : list (nat * (list atom * list (list Z)))) : Prop :=
  exists xs, w_auto w = l1 ++ (m, (t, xs)) :: l2 /\ In x xs /\ (forall n ys, In (m, (n, ys)) l1 -> ~ In x ys).
