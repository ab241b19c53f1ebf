(** Vocabulary for C38-C44: places that can hold a binding, and the order in
    which a reference is promised to look at them. *)
From Verif Require Import Base ParseModel EnvModel.
Local Open Scope list_scope.

Inductive place := InFrame (a : nat) | InModule (m : nat).
(** What a place binds x to. *)
Definition bound (st : state) (p : place) (x : list Z) : option val :=
  match p with
  | InFrame a => assoc x (nth a (s_frames st) [])
  | InModule m => assoc x (m_ob (nth m (s_mods st) (mkMod [] [] [] None)))
  end.
(** The first place of a list that binds x. *)
Fixpoint first_bound (st : state) (l : list place) (x : list Z) : option (place * val) :=
  match l with
  | [] => None
  | p :: r => match bound st p x with Some v => Some (p, v) | None => first_bound st r x end
  end.
(** The names a module resolves: its own, those of the modules it uses (the most
    recently used first), those of the root module. *)
Definition module_places (st : state) (m : nat) : list place :=
  InModule m :: map InModule (m_uses (nth m (s_mods st) (mkMod [] [] [] None))) ++ [InModule 0].
(** An environment: a chain of frames ending in the global one, frame 0, which
    occurs nowhere else. *)
Definition proper_env (e : env) : Prop := exists l, e_chain e = l ++ [0%nat] /\ ~ In 0%nat l.
Definition lexical (e : env) : list place := map InFrame (removelast (e_chain e)).
Definition module_of (st : state) (e : env) : list place :=
  match e_mod e with Some m => module_places st m | None => [] end.
(** The promised order. *)
Definition promised (st : state) (e : env) : list place :=
  lexical e ++ module_of st e ++ module_places st (s_cur st) ++ [InFrame 0].
(** The order the code follows: the global table comes right after the lexical
    frames. *)
Definition actual (st : state) (e : env) : list place :=
  lexical e ++ [InFrame 0] ++ module_of st e ++ module_places st (s_cur st).

(** Only the binding of x in place p may differ. *)
Definition only_changed (st st' : state) (p : place) (x : list Z) : Prop :=
  forall q y, q <> p \/ y <> x -> bound st' q y = bound st q y.
(** The place exists. *)
Definition exists_place (st : state) (p : place) : Prop :=
  match p with
  | InFrame a => (a < length (s_frames st))%nat
  | InModule m => (m < length (s_mods st))%nat
  end.
Definition places_exist (st : state) (e : env) : Prop :=
  Forall (fun a => exists_place st (InFrame a)) (e_chain e) /\
  exists_place st (InModule (s_cur st)) /\
  (forall m, e_mod e = Some m -> exists_place st (InModule m)) /\
  exists_place st (InModule 0) /\ exists_place st (InFrame 0) /\
  (forall m u, In u (m_uses (nth m (s_mods st) (mkMod [] [] [] None))) -> exists_place st (InModule u)).
