(** Vocabulary of C76-C78, independent of the code. *)
From Verif Require Import Base HeapModel ParseModel PredModel.

(** the answer of a predicate on an object: #t or #f, and the heap unchanged *)
Definition says (p : addr -> M addr) (h : heap) (a : addr) (b : bool) : Prop := p a h = Ok (bool_a b, h).

(** the nine types that R5RS 3.2 declares disjoint *)
Definition nine : list (addr -> M addr) :=
  [boolean_p; null_p; pair_p; number_p; symbol_p; string_p; char_p; vector_p; procedure_p].

(** names that occur in a datum *)
Inductive occurs (x : list Z) : rdatum -> Prop :=
| oc_sym : occurs x (RSym x)
| oc_vec l d : In d l -> occurs x d -> occurs x (RVec l)
| oc_hd h r t : occurs x h -> occurs x (RList h r t)
| oc_rest h r t d : In d r -> occurs x d -> occurs x (RList h r t)
| oc_tail h r d : occurs x d -> occurs x (RList h r (Some d)).
(** the text does not use the #{...}# notation *)
Definition no_braces (s : list Z) : Prop := forall a b, s <> a ++ 35 :: 123 :: b.

(** gensyms in a history: the heap may change in any way between two calls.
    [gens i h l]: from counter [i], the calls so far made the names [l] *)
Inductive gens : Z -> heap -> list (list Z) -> Prop :=
| gens_start h : gens 0 h []
| gens_other i h h' l : gens i h l -> gens i h' l
| gens_call i h l a i' h' n :
    gens i h l -> gensym i h = Ok ((a, i'), h') -> h_obj h' a = Some (OSym n) -> gens i' h' (l ++ [n]).

(** the value of a variable according to the history of operations alone: that
    of the last write to it, or of its creation.  [made] counts creations *)
Fixpoint made (ops : list vop) : nat :=
  match ops with
  | [] => 0
  | OpMake _ :: r | OpMakeUndef :: r => S (made r)
  | _ :: r => made r
  end.
(* [l]: the history, newest operation first *)
Fixpoint holds (i : nat) (l : list vop) : option (option EnvModel.val) :=
  match l with
  | [] => None
  | OpMake v :: r => if Nat.eqb i (made r) then Some (Some v) else holds i r
  | OpMakeUndef :: r => if Nat.eqb i (made r) then Some None else holds i r
  | OpSet (Var j) v :: r =>
      if Nat.eqb i j then match holds i r with Some _ => Some (Some v) | None => None end else holds i r
  | _ :: r => holds i r
  end.
