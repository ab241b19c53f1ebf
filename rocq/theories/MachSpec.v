(** What the theorems about re-entrant continuations say, independently of how the
    machine of MachModel works inside. *)
From Coq Require Import String List ZArith Bool Lia.
From Verif Require Import MachModel.
Import ListNotations.
Local Open Scope string_scope.
Local Open Scope list_scope.
Local Open Scope nat_scope.

(** ** executions *)
Inductive steps : mst -> mst -> Prop :=
| steps_refl s : steps s s
| steps_more s s1 s2 : step s = Next s1 -> steps s1 s2 -> steps s s2.
(* what happens when a program is run *)
Definition reachable (s : mst) : Prop := exists prog, steps (start prog) s.

(** ** capture and resumption *)
(* the receiver [f] of a call/cc has just been evaluated; [k] is the rest of the
   computation: the stack of the call/cc call *)
Definition at_capture (s : mst) (f : mv) (k : list frame) : Prop :=
  m_ctrl s = CRet f /\ exists e, m_stack s = FCallCC e :: k.
(* the guards have been run and the stack of continuation [j] is about to be copied back *)
Definition arriving (s : mst) (j : nat) (v : mv) : Prop := m_ctrl s = CJump j v.
(* the call/cc call whose rest of the computation is [k] returns [v], in the memory
   and with the catch stack and wind chain of [s] *)
Definition returns_from_callcc (s : mst) (k : list frame) (v : mv) (s' : mst) : Prop :=
  m_ctrl s' = CRet v /\ m_stack s' = k /\
  m_sto s' = m_sto s /\ m_conts s' = m_conts s /\ m_catch s' = m_catch s /\ m_under s' = m_under s /\ m_wind s' = m_wind s.
(* continuation [j], applied to [v], with the rest of the computation [k] to be abandoned *)
Definition invoking (s : mst) (j : nat) (v : mv) : Prop :=
  (m_ctrl s = CRet v /\ exists k, m_stack s = FContArg j :: k) \/ m_ctrl s = CApp1 (MCont j) v.

(** ** what a value looks like: the tree below it, to depth n *)
Inductive tree := TCut | TLeaf (v : mv) | TCell (d : tree) (dotted : bool) (n : option tree).
Fixpoint look (n : nat) (h : store) (v : mv) : tree :=
  match n with
  | O => TCut
  | S n =>
      match v with
      | MList a =>
          match get_cell h a with
          | Some c => TCell (look n h (c_data c)) (c_dot c) (match c_next c with Some b => Some (look n h (MList b)) | None => None end)
          | None => TLeaf v
          end
      | _ => TLeaf v
      end
  end.
(* the value has the same contents in both memories *)
Definition same_value (h h' : store) (v : mv) : Prop := forall n, look n h v = look n h' v.

(** ** which uses of continuations are safe *)
(* a frame that is building something a value will point to: the environment of a
   call whose arguments are being evaluated, a rest list, the result of a map *)
Definition building (f : frame) : bool :=
  match f with FBind _ _ _ _ _ _ _ | FRest _ _ _ _ _ _ _ | FMap3 _ _ _ _ _ => true | _ => false end.
(* the invocation escapes: the stack copied back is still there below the current
   one; or no procedure call or map is half done in it *)
Definition suffix {A} (a b : list A) : Prop := exists p, b = p ++ a.
Definition safe_arrival (s : mst) : Prop :=
  forall j v k w, m_ctrl s = CJump j v -> nth_error (m_conts s) j = Some (k, w) ->
    suffix k (m_stack s) \/ (forall f, In f k -> building f = false).
(* a step that is a set-car! or a set-cdr! *)
Definition mutates (s : mst) : Prop := exists p vs, m_ctrl s = CFunc p vs /\ (p = PSetCar \/ p = PSetCdr).
(* a step that is a set! or a define of x *)
Definition assigns (s : mst) (x : string) : Prop :=
  exists v e k, m_ctrl s = CRet v /\ (m_stack s = FSet e x :: k \/ m_stack s = FDef e x :: k).
(* an execution all of whose states before the last satisfy P *)
Inductive steps_all (P : mst -> Prop) : mst -> mst -> Prop :=
| sa_refl s : steps_all P s s
| sa_more s s1 s2 : P s -> step s = Next s1 -> steps_all P s1 s2 -> steps_all P s s2.

(** ** example programs *)
Definition I (z : Z) : expr := EAtom (AInt z).
Definition V (x : string) : expr := EVar x.
Definition F : expr := EAtom (ABool false).
Definition lam (ps : list string) (b : list expr) : expr := ELam ps None b.
Definition call (f : string) (l : list expr) : expr := ECall (V f) l.
(* (call/cc (lambda (c) (set! n c) v)) *)
Definition cap (n : string) (v : expr) : expr := ECallCC (lam ["c"] [ESet n (V "c"); v]).
(* (let ((x e)) b ...): expand_let, let.cc *)
Definition let1 (x : string) (e : expr) (b : list expr) : expr := ECall (lam [x] b) [e].
(* how a program ends, with the final value shown as a tree *)
Inductive ending := Value (t : tree) | ExitUncaught (key : string) | Undefined | Other.
Definition ends (p : list expr) : ending :=
  match run 3000 (start p) with
  | Final v s => Value (look 50 (m_sto s) v)
  | Uncaught k _ => ExitUncaught k
  | Undef => Undefined
  | _ => Other
  end.
Definition int (z : Z) : tree := TLeaf (MA (AInt z)).
Fixpoint listof (l : list Z) : option tree :=
  match l with [] => None | z :: r => Some (TCell (int z) false (listof r)) end.

(** ** values and variables a program can get at *)
(* the value has just been computed, or is the value of a variable *)
Definition known (s : mst) (v : mv) : Prop := m_ctrl s = CRet v \/ exists e x, binding (m_sto s) e x = Some v.
(* code is being evaluated in the environment, or a known procedure was made in it *)
Definition in_use (s : mst) (e : nat) : Prop := (exists x, m_ctrl s = CEval e x) \/ exists ps r b, known s (MProc ps r b e).

(** ** catch *)
(* the catches whose bodies are being evaluated, innermost first *)
Fixpoint bodies (k : list frame) : list nat :=
  match k with [] => [] | FCatch id _ _ true _ :: r => id :: bodies r | _ :: r => bodies r end.
(* a jump goes from one point to another inside the same catch bodies *)
Definition stays_in_bodies (s : mst) : Prop :=
  forall j v k w, m_ctrl s = CJump j v -> nth_error (m_conts s) j = Some (k, w) -> bodies k = bodies (m_stack s).
(* what a catch with this tag is for *)
Definition covers (t : mv) (key : string) : Prop := t = MA (ABool true) \/ t = MA (ASym key).
(* a throw inside some catch bodies has a key that the innermost of them catches *)
Definition innermost_catches (s : mst) : Prop :=
  forall key args p id t h w k, m_ctrl s = CThrow key args -> m_stack s = p ++ FCatch id t h true w :: k -> bodies p = [] -> covers t key.

(** ** running for a number of steps, checking each state on the way *)
Fixpoint go_on (b : mst -> bool) (n : nat) (s : mst) : option mst :=
  match n with
  | O => Some s
  | S n => if b s then match step s with Next s' => go_on b n s' | _ => None end else None
  end.
Definition anything (s : mst) : bool := true.
Definition no_mutation (s : mst) : bool := match m_ctrl s with CFunc PSetCar _ | CFunc PSetCdr _ => false | _ => true end.
Definition no_assignment (x : string) (s : mst) : bool :=
  match m_ctrl s, m_stack s with
  | CRet _, FSet _ y :: _ | CRet _, FDef _ y :: _ => negb (String.eqb y x)
  | _, _ => true
  end.

(** ** in guards *)
(* an in guard that a jump has called ends under the wind chain its dynamic-wind was
   called under (third component of the entry of m_guards) *)
Definition in_guard_neutral (s : mst) : Prop :=
  forall v j u i ins k a b w, m_ctrl s = CRet v -> m_stack s = FDynIn j u i ins :: k ->
    nth_error (m_guards s) i = Some (a, b, w) -> m_wind s = w.
