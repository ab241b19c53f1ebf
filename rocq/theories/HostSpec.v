(** Vocabulary of C82-C84. *)
From Coq Require Import String.
From Verif Require Import Base ParseModel EnvModel EvalModel HostModel.
Local Open Scope list_scope.

(** a loading computation has outcome [o]: for some amount of stack *)
Definition outcome {A} (m : nat -> EM A) (st : state) (o : out A) : Prop := exists n, m n st = o /\ o <> OFuel.

(** the wind chains a process can have: entries of dynamic-wind and of
    with-throw-handlers whose tag is a symbol or #t *)
Inductive chain_ok : list wv -> Prop :=
| ck_nil : chain_ok []
| ck_wind c : chain_ok c -> chain_ok (wind_entry :: c)
| ck_lazy x i c : chain_ok c -> chain_ok (lazy_entry (WSym x) i :: c)
| ck_lazy_t i c : chain_ok c -> chain_ok (lazy_entry WTrue i :: c).
(** the innermost catch whose tag is #t or the key *)
Inductive innermost (key : list Z) : list (nat * wv) -> option nat -> Prop :=
| in_none : innermost key [] None
| in_here id t r : t = WTrue \/ t = WSym key -> innermost key ((id, t) :: r) (Some id)
| in_later id t r o : t <> WTrue -> t <> WSym key -> innermost key r o -> innermost key ((id, t) :: r) o.
