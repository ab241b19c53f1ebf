(** When list nodes on the heap represent a written expression or value, and when a state with
    nodes represents a state of EvalModel. *)
From Coq Require Import String.
From Verif Require Import Base ParseModel PrintModel EnvModel EvalModel CellModel.
Local Open Scope list_scope.

(* the object, with nodes h none of which is in X, is the value (a tree) on the right *)
Inductive rep (X : list nat) (h : list cell) : cval -> val -> Prop :=
| rep_none : rep X h CNone VNone
| rep_nil : rep X h CNil VNil
| rep_bool b : rep X h (CBool b) (VBool b)
| rep_int z : rep X h (CInt z) (VInt z)
| rep_char c : rep X h (CChar c) (VChar c)
| rep_str s : rep X h (CStr s) (VStr s)
| rep_sym s : rep X h (CSym s) (VSym s)
| rep_func n a : rep X h (CFunc n a) (VFunc n a)
| rep_promise a : rep X h (CPromise a) (VPromise a)
| rep_pair a vs d : reps X h a vs d -> rep X h (CPair a) (VList vs d)
| rep_thunk b e bs db : reps X h b bs db -> rep X h (CProc None b e) (VProc [] false bs e)
| rep_proc p b e ps d bs db : reps X h p ps d -> reps X h b bs db -> rep X h (CProc (Some p) b e) (VProc ps d bs e)
(* the chain of nodes from a holds the values; d: the last one stands after a dot *)
with reps (X : list nat) (h : list cell) : nat -> list val -> bool -> Prop :=
| reps_last a c v : nth_error h a = Some c -> ~ In a X -> c_next c = None -> rep X h (c_data c) v -> reps X h a [v] (c_dot c)
| reps_more a c v b vs d : nth_error h a = Some c -> ~ In a X -> c_next c = Some b -> c_dot c = false -> rep X h (c_data c) v ->
    reps X h b vs d -> reps X h a (v :: vs) d.
(* a null pointer or a chain *)
Definition tails (X : list nat) (h : list cell) (l : option nat) (vs : list val) : Prop :=
  match l with None => vs = [] | Some a => exists d, reps X h a vs d end.
(* the same names in the same order, with values that are represented *)
Definition same_alist (X : list nat) (h : list cell) (l : list (list Z * cval)) (m : list (list Z * val)) : Prop :=
  Forall2 (fun p q => fst p = fst q /\ rep X h (snd p) (snd q)) l m.
Definition same_module (X : list nat) (h : list cell) (m : cmod) (k : modl) : Prop :=
  same_alist X h (cm_ob m) (m_ob k) /\ cm_uses m = m_uses k.
(* the same promise: delayed expression, environment, and value if there is one already *)
Definition same_promise (X : list nat) (h : list cell) (p : cprom) (q : prom) : Prop :=
  reps X h (cp_body p) [pr_body q] false /\ cp_env p = pr_env q /\
  match cp_val p, pr_val q with Some v, Some w => rep X h v w | None, None => True | _, _ => False end.
(* a state with nodes and a state of EvalModel *)
Record same_state (X : list nat) (s : cstate) (st : state) : Prop := mkSame {
  same_frames : Forall2 (same_alist X (cs_cells s)) (cs_frames s) (s_frames st);
  same_mods : Forall2 (same_module X (cs_cells s)) (cs_mods s) (s_mods st);
  same_cur : cs_cur s = s_cur st;
  same_out : cs_out s = d_out (s_dyn st);
  same_proms : Forall2 (same_promise X (cs_cells s)) (cs_proms s) (s_proms st) }.
(* no node was changed *)
Definition unchanged (h h' : list cell) : Prop := forall a c, nth_error h a = Some c -> nth_error h' a = Some c.
(* the primitives do what those of EvalModel do, and only make new nodes *)
Definition prims_agree (cprim : list Z -> list cval -> list cell -> option (cval * list cell * list Z)) (prim : list Z -> list val -> pres) : Prop :=
  forall X h nm args vs, (forall a, In a X -> a < length h)%nat -> Forall2 (rep X h) args vs ->
  match cprim nm args h with
  | Some (r, new, o) => exists v, prim nm vs = PVal v o /\ rep X (h ++ new) r v
  | None => prim nm vs = PErr
  end.
(* an expression with no function object in it: what the reader makes *)
Inductive written : val -> Prop :=
| wr_none : written VNone
| wr_nil : written VNil
| wr_bool b : written (VBool b)
| wr_int z : written (VInt z)
| wr_char c : written (VChar c)
| wr_str s : written (VStr s)
| wr_sym s : written (VSym s)
| wr_list ns d : Forall written ns -> written (VList ns d).
(* the nodes of a list with these elements *)
Fixpoint holds (h : list cell) (l : option nat) (vs : list cval) : Prop :=
  match vs with
  | [] => l = None
  | v :: r => exists a c, l = Some a /\ nth_error h a = Some c /\ c_data c = v /\ c_dot c = false /\ holds h (c_next c) r
  end.
(* the state in which a run ended, if it ended in one *)
Definition end_state {A} (o : cout A) : option cstate := match o with CRet _ s | CErr s | CWrong _ s => Some s | _ => None end.
