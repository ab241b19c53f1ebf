(** What the theorems about error reports say. *)
From Coq Require Import String.
From Verif Require Import Base ParseModel PrintModel DiagModel.
Local Open Scope string_scope.
Local Open Scope list_scope.
Local Open Scope Z_scope.

(** ** texts *)
(* FILE:LINE:COLUMN, cut to 511 bytes; nothing if there is no location *)
Definition place (o : option obj) : option (list Z) :=
  match o with
  | Some (mkO _ _ (Some (f, l, c))) =>
      Some (firstn 511 (match f with Some n => n | None => bs "<unknown>" end ++ bs ":" ++ dec l ++ bs ":" ++ dec c))
  | _ => None
  end.
(* the word for a type in a type error *)
Definition type_words : list (stype * string) :=
  [(TyNone, "none"); (TyNil, "nil"); (TyList, "pair/list"); (TyProc, "procedure"); (TyCont, "continuation"); (TyFunc, "function");
   (TyNum, "number"); (TyFloat, "float"); (TyChar, "character"); (TyBool, "boolean"); (TySym, "symbol"); (TyStr, "string");
   (TyMacro, "macro"); (TyHash, "hash-table"); (TyRatio, "ratio"); (TyVector, "vector"); (TyPort, "port"); (TyPromise, "promise");
   (TyModule, "module"); (TySmob, "unknown"); (TyVariable, "unknown")].
Definition lead (p : option (list Z)) : list Z := match p with Some l => l ++ bs ": " | None => [] end.
(* the text of a type error: the place of the datum, or of the evaluation if it has
   none; what was expected and found; where it was being evaluated *)
Definition type_text (data ctx : option obj) (expected : list Z) : list Z :=
  lead (match place data with Some l => Some l | None => place ctx end) ++
  bs "Type error: expected " ++ expected ++ bs ", but got " ++
  match data with Some d => type_name (o_type d) | None => bs "null" end ++
  match data, ctx with
  | Some d, Some c => if Nat.eqb (o_id d) (o_id c) then [] else match place ctx with Some l => 10 :: bs "  While evaluating at " ++ l | None => [] end
  | _, _ => match place ctx with Some l => 10 :: bs "  While evaluating at " ++ l | None => [] end
  end.

(** ** the call stack *)
Definition located (x : expr) : Prop := o_loc (x_obj x) <> None.
(* the entry of an expression: its place, and its text, of long ones the first 200
   bytes and three dots *)
Definition entry (x : expr) : frame :=
  mkF (match place (Some (x_obj x)) with Some l => l | None => [] end)
      (if (length (x_text x) <=? 200)%nat then x_text x else firstn 200 (x_text x) ++ bs "...").
(* the evaluations that are going on, innermost first *)
Definition going_on (d : dstate) : list expr := map fst (d_open d).
(* no evaluation is left by a throw or a continuation *)
Definition no_escape (es : list event) : Prop := forall fs, ~ In (Escape fs) es.
Definition all_located (es : list event) : Prop := forall x, In (Enter x) es -> located x.
(* at no time more than n evaluations are going on *)
Definition nested (n : nat) (es : list event) : Prop :=
  forall a b d, es = a ++ b -> history dstart a = Ok d -> (length (going_on d) <= n)%nat.
(* the i-th line of a report *)
Definition line (i : nat) (f : frame) : list Z :=
  bs "  #" ++ dec (Z.of_nat i) ++ bs ": " ++ f_loc f ++ 10 :: bs "      " ++ until_nul (f_text f) ++ [10; 10].
(* the report for a stack of frames: the first 20 frames, numbered, and how many more there are *)
Definition report (fs : list frame) : list Z :=
  match fs with
  | [] => 10 :: bs "Evaluation call stack: (empty)" ++ [10]
  | _ =>
      10 :: bs "Evaluation call stack (most recent first):" ++ 10 ::
      concat (map (fun p => line (fst p) (snd p)) (combine (seq 0 20) fs)) ++
      (if (length fs <=? 20)%nat then [] else bs "  ... (" ++ dec (Z.of_nat (length fs - 20)) ++ bs " more frames)" ++ [10])
  end.
