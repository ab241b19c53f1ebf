(** Model of src/c/smob.cc and src/c/smob.h: the registry of small-object
    types, smob objects and their accessors, the four Scheme procedures, and
    the smob case of equal? (src/c/eq.cc 364-382).

    Simplifications: pointers stored in a smob are integers; a function
    pointer is a number, 0 for nullptr and 1 for the default function of
    smob.cc; descriptors 0 .. g_numsmob-1 are a list (the rest of the array is
    never read: every access is guarded by the count); objects live in a list,
    an object's address is its position (gc_alloc never returns an address
    that is in use: C52). *)
From Coq Require Import List ZArith Bool.
From Verif Require Import Base.
Import ListNotations.
Local Open Scope Z_scope.
Local Open Scope list_scope.

(** SCM_SmobDescriptor: smob.h 11-23 *)
Inductive fn : Type := FMark | FFree | FPrint | FEqualp | FApply0 | FApply1 | FApply2 | FApply3.
(* model only: equality of C function pointers *)
Definition fn_eqb (a b : fn) : bool :=
  match a, b with
  | FMark, FMark | FFree, FFree | FPrint, FPrint | FEqualp, FEqualp
  | FApply0, FApply0 | FApply1, FApply1 | FApply2, FApply2 | FApply3, FApply3 => true
  | _, _ => false
  end.
(* smob.h SCM_SmobDescriptor 11-23 *)
Record desc : Type := Desc { d_name : list Z; d_size : Z; d_fn : fn -> nat }.

(** SCM_Smob: smob.h 26-32 *)
Record smob : Type := Smob { s_tag : Z; s_data : Z; s_data2 : Z; s_data3 : Z; s_flags : Z }.

(** g_smobs[0 .. g_numsmob-1] and the heap: smob.cc 8-9 *)
Record state : Type := State { registry : list desc; objects : list smob }.

(** init_smob: smob.cc 411-413 *)
Definition init_smob : state := State [] [].

(** SCM_SMOB_BASE_TAG, MAX_SMOB_COUNT: smob.h 35-36 *)
Definition base_tag : Z := 16777216.
(* smob.cc 60-94: MAX_SMOB_COUNT *)
Definition max_smob_count : Z := 256.

(** make_smob_tag, get_smob_num: smob.h 39-45 (long arithmetic) *)
Definition make_smob_tag (num : Z) : res Z := i64 (base_tag + num).
(* smob.h get_smob_num 43-45 *)
Definition get_smob_num (tag : Z) : res Z := i64 (tag - base_tag).

(* smob.cc 60-94: scm_numsmob *)
Definition numsmob (st : state) : Z := Z.of_nat (length (registry st)).

(** the guard "num < 0 || num >= g_numsmob" shared by all functions that take
    a tag: smob.cc 61-64, 98-102, 107-111, 116-120, 125-129, 138-142, 151-155,
    174-178, 197-201, 220-224; [k] gets the index *)
Definition with_tag {A} (st : state) (tag : Z) (k : nat -> res A) : res A :=
  do num <- get_smob_num tag;
  if (num <? 0) || (numsmob st <=? num) then Err else k (Z.to_nat num).

(** scm_get_smob_descriptor: smob.cc 60-66 (None is nullptr) *)
Definition get_descriptor (st : state) (tag : Z) : res (option desc) :=
  do num <- get_smob_num tag;
  if (num <? 0) || (numsmob st <=? num) then Ok None else Ok (nth_error (registry st) (Z.to_nat num)).

(** the functions of a fresh descriptor: smob.cc 80-91 *)
Definition default_fn (size : Z) (w : fn) : nat :=
  match w with
  | FMark | FPrint | FEqualp => 1
  | FFree => if 0 <? size then 1 else 0
  | _ => 0
  end.

(** scm_make_smob_type: smob.cc 69-94.  [size] is a size_t. *)
Definition make_smob_type (name : list Z) (size : Z) (st : state) : res Z * state :=
  if max_smob_count <=? numsmob st then (Err, st)
  else let d := Desc name size (default_fn size) in
       (make_smob_tag (numsmob st), State (registry st ++ [d]) (objects st)).

(* model only: assignment to one descriptor *)
Fixpoint update {A} (i : nat) (f : A -> A) (l : list A) : list A :=
  match l, i with
  | [], _ => []
  | x :: r, O => f x :: r
  | x :: r, S j => x :: update j f r
  end.

(** scm_set_smob_mark / _free / _print / _equalp: smob.cc 97-131, and one slot
    of scm_set_smob_apply: 133-147 (which assigns the four slots after the
    same check) *)
Definition set_desc_fn (w : fn) (id : nat) (d : desc) : desc :=
  Desc (d_name d) (d_size d) (fun w' => if fn_eqb w w' then id else d_fn d w').
(* smob.cc 97-147: scm_set_smob_mark, _free, _print, _equalp, _apply *)
Definition set_smob_fn (w : fn) (tag : Z) (id : nat) (st : state) : res unit * state :=
  match with_tag st tag (fun i => Ok i) with
  | Ok i => (Ok tt, State (update i (set_desc_fn w id) (registry st)) (objects st))
  | Err => (Err, st) | Abort => (Abort, st) | UB => (UB, st) | Fuel => (Fuel, st)
  end.

(** scm_make_smob, scm_make_smob_with_data, _with_data2, _with_data3:
    smob.cc 150-239.  The first two set data2 and data3 to 0, the third data3;
    flags start at 0.  The result is the object's address. *)
Definition make_smob3 (tag d1 d2 d3 : Z) (st : state) : res nat * state :=
  match with_tag st tag (fun i => Ok i) with
  | Ok _ => (Ok (length (objects st)), State (registry st) (objects st ++ [Smob tag d1 d2 d3 0]))
  | Err => (Err, st) | Abort => (Abort, st) | UB => (UB, st) | Fuel => (Fuel, st)
  end.
(* smob.cc scm_make_smob_with_data2 196-216 *)
Definition make_smob2 (tag d1 d2 : Z) := make_smob3 tag d1 d2 0.
(* smob.cc scm_make_smob 150-170, scm_make_smob_with_data 173-193 *)
Definition make_smob (tag d1 : Z) := make_smob3 tag d1 0 0.

(** Scheme values as far as these functions look at them *)
(* model only: what smob.cc 333-408 looks at in a Scheme value *)
Inductive value : Type := VNum (z : Z) | VStr (s : list Z) | VSmob (a : nat) | VOther (n : nat).

(* smob.h SCM_Smob 26-32 *)
Inductive field : Type := Data | Data2 | Data3 | Flags.
(* smob.cc 242-276: scm_smob_data, data2, data3, flags *)
Definition get_field (w : field) (s : smob) : Z :=
  match w with Data => s_data s | Data2 => s_data2 s | Data3 => s_data3 s | Flags => s_flags s end.
(* smob.cc 279-313: scm_set_smob_data, data2, data3, flags *)
Definition put_field (w : field) (z : Z) (s : smob) : smob :=
  match w with
  | Data => Smob (s_tag s) z (s_data2 s) (s_data3 s) (s_flags s)
  | Data2 => Smob (s_tag s) (s_data s) z (s_data3 s) (s_flags s)
  | Data3 => Smob (s_tag s) (s_data s) (s_data2 s) z (s_flags s)
  | Flags => Smob (s_tag s) (s_data s) (s_data2 s) (s_data3 s) z
  end.

(** cast<SCM_Smob>: pscm.h 537-542; a dangling address is undefined *)
Definition deref (st : state) (a : nat) : res smob :=
  match nth_error (objects st) a with Some s => Ok s | None => UB end.

(** scm_smob_data / _data2 / _data3 / _flags: smob.cc 242-276 *)
Definition smob_field (w : field) (v : value) (st : state) : res Z :=
  match v with
  | VSmob a => do s <- deref st a; Ok (get_field w s)
  | _ => Err
  end.

(** scm_set_smob_data / _data2 / _data3 / _flags: smob.cc 279-313 *)
Definition set_smob_field (w : field) (v : value) (z : Z) (st : state) : res unit * state :=
  match v with
  | VSmob a => match nth_error (objects st) a with
               | Some _ => (Ok tt, State (registry st) (update a (put_field w z) (objects st)))
               | None => (UB, st)
               end
  | _ => (Err, st)
  end.

(** is_smob_type: smob.h 48-54 *)
Definition is_smob_type (v : value) (tag : Z) (st : state) : res bool :=
  match v with
  | VSmob a => do s <- deref st a; Ok (s_tag s =? tag)
  | _ => Ok false
  end.

(** scm_assert_smob_type: smob.cc 316-322 *)
Definition assert_smob_type (tag : Z) (v : value) (st : state) : res unit :=
  do b <- is_smob_type v tag st;
  if b then Ok tt else (do _ <- get_descriptor st tag; Err).

(** (size_t)size_val: smob.cc 351 *)
Definition to_size_t (z : Z) : Z := z mod 2 ^ 64.

(** scm_c_make_smob_type, the Scheme procedure scm-make-smob-type:
    smob.cc 333-359 *)
Definition c_make_smob_type (name size : value) (st : state) : res value * state :=
  match name, size with
  | VStr s, VNum z =>
      match make_smob_type s (to_size_t z) st with
      | (Ok t, st') => (Ok (VNum t), st')
      | (Err, st') => (Err, st') | (Abort, st') => (Abort, st')
      | (UB, st') => (UB, st') | (Fuel, st') => (Fuel, st')
      end
  | _, _ => (Err, st)
  end.

(** scm_c_make_smob, scm-make-smob: smob.cc 361-380 *)
Definition c_make_smob (tag data : value) (st : state) : res value * state :=
  match tag, data with
  | VNum t, VNum d =>
      match make_smob t d st with
      | (Ok a, st') => (Ok (VSmob a), st')
      | (Err, st') => (Err, st') | (Abort, st') => (Abort, st')
      | (UB, st') => (UB, st') | (Fuel, st') => (Fuel, st')
      end
  | _, _ => (Err, st)
  end.

(** scm_c_smob_data, scm-smob-data: smob.cc 382-404 *)
Definition c_smob_data (v : value) (st : state) : res value :=
  match v with
  | VSmob a =>
      do s <- deref st a;
      do d <- get_descriptor st (s_tag s);
      match d with
      | Some de => if 0 <? d_size de then Err else Ok (VNum (s_data s))
      | None => Ok (VNum (s_data s))
      end
  | _ => Err
  end.

(** scm_c_smob_p, scm-smob?: smob.cc 406-408 *)
Definition c_smob_p (v : value) : bool := match v with VSmob _ => true | _ => false end.

(** the smob case of equal?, eq.cc 364-382, on two smobs; [custom] is what a
    user-supplied equality function answers.  default_smob_equalp (smob.cc
    54-57) compares the SCM wrappers; [w1], [w2] are their identities (an SCM
    object wrapping a smob is made once, by scm_make_smob, smob.cc 164-169,
    so wrapper and smob identities coincide). *)
Definition smob_equal (custom : nat -> nat -> nat -> bool) (a b : nat) (st : state) : res bool :=
  do s1 <- deref st a;
  do s2 <- deref st b;
  if negb (s_tag s1 =? s_tag s2) then Ok false
  else do d <- get_descriptor st (s_tag s1);
       match d with
       | Some de => match d_fn de FEqualp with
                    | O => Ok (Nat.eqb a b)
                    | S O => Ok (Nat.eqb a b)
                    | id => Ok (custom id a b)
                    end
       | None => Ok (Nat.eqb a b)
       end.

(** smob_tests.scm *)
Example smob_test :
  let '(t1, st) := c_make_smob_type (VStr [105;109]) (VNum 0) init_smob in
  match t1 with
  | Ok t => let '(o, st) := c_make_smob t (VNum 42) st in
            match o with Ok v => c_smob_data v st = Ok (VNum 42) | _ => False end
  | _ => False
  end.
Proof. vm_compute. reflexivity. Qed.
