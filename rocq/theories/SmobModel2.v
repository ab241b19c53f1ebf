(** Printing a smob (print.cc 210-228, smob.cc 33-52) and a smob in operator
    position (eval.cc 560-600), on top of SmobModel.

    Simplifications.
    - What %p writes for an address is a parameter, and so is what an installed
      print function writes.
    - The evaluation of an operand and a call of an installed apply function are
      parameters: they end with a value and a new world, or do not return.
    - The apply functions of the type are not changed while operands are evaluated. *)
From Coq Require Import List ZArith Bool String.
From Verif Require Import Base ParseModel PrintModel SmobModel.
Import ListNotations.
Local Open Scope Z_scope.
Local Open Scope list_scope.

(* smob.cc 347: the name is copied and ended with a null character, and smob.cc 47: %s *)
Fixpoint c_string (s : list Z) : list Z :=
  match s with [] => [] | c :: r => if c =? 0 then [] else c :: c_string r end.
Section Print.
Variable pointer : Z -> list Z.
(* smob.cc default_smob_print 33-52; an index outside the registered ones does not occur *)
Definition default_print (a : nat) (st : state) : res (list Z) :=
  do s <- deref st a;
  do num <- get_smob_num (s_tag s);
  match (if num <? 0 then None else nth_error (registry st) (Z.to_nat num)) with
  | Some d => Ok (bs "#<" ++ c_string (d_name d) ++ (if 0 <? d_size d then bs " " ++ pointer (s_data s) else bs " " ++ dec (s_data s)) ++ bs ">")
  | None => UB
  end.
Variable custom : nat -> nat -> bool -> list Z.
(* print.cc 210-228 *)
Definition print_smob (a : nat) (write : bool) (st : state) : res (list Z) :=
  do s <- deref st a;
  do d <- get_descriptor st (s_tag s);
  match d with
  | Some de => match d_fn de FPrint with
               | O => default_print a st
               | S O => default_print a st
               | id => Ok (custom id a write)
               end
  | None => default_print a st
  end.
End Print.

Section Apply.
Variables X V W : Type.
(* eval.cc eval_with_env 257-927: an operand *)
Variable ev : X -> W -> option (V * W).
(* a call of an installed function (smob.h 20-23) on the smob and the values *)
Variable fcall : nat -> nat -> list V -> W -> option (V * W).
(* eval.cc 560-600: how it ends; Gone: an operand or the function did not return *)
Inductive applied := Gives (v : V) (w : W) | Gone | Refused (w : W) | Undefined.
(* smob.h 20-23: apply_0 to apply_3 *)
Definition apply_slot (n : nat) : option fn :=
  match n with O => Some FApply0 | 1%nat => Some FApply1 | 2%nat => Some FApply2 | 3%nat => Some FApply3 | _ => None end.
(* eval.cc 583-593: the operands, in order *)
Fixpoint operands (l : list X) (w : W) : option (list V * W) :=
  match l with
  | [] => Some ([], w)
  | x :: r => match ev x w with
              | Some (v, w1) => match operands r w1 with Some (vs, w2) => Some (v :: vs, w2) | None => None end
              | None => None
              end
  end.
(* eval.cc 560-600 *)
Definition apply_smob (st : state) (a : nat) (args : list X) (w : W) : applied :=
  match deref st a with
  | Ok s =>
      match get_descriptor st (s_tag s) with
      | Ok (Some d) =>
          match apply_slot (length args) with
          | Some slot =>
              match d_fn d slot with
              | O => Refused w
              | id => match operands args w with
                      | Some (vs, w1) => match fcall id a vs w1 with Some (v, w2) => Gives v w2 | None => Gone end
                      | None => Gone
                      end
              end
          | None => Refused w
          end
      | Ok None => Refused w
      | _ => Undefined
      end
  | _ => Undefined
  end.
End Apply.
Arguments Gives {V W}.
Arguments Gone {V W}.
Arguments Refused {V W}.
Arguments Undefined {V W}.
