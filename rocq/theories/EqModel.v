(** Model of src/c/eq.cc (eq?, eqv?, equal?, and the internal comparison _eq
    used by member, assoc, case and equal-keyed hash tables) and of _eqv in
    src/c/list.cc 454-477. *)
From Verif Require Import Base NumModel HeapModel.

(* SCM::Type tag equality: [lhs->type != rhs->type] *)
(* pscm_types.h 18-40: the numbers of enum Type *)
Definition tag (o : obj) : nat :=
  match o with
  | ONone => 0 | ONil => 1 | OList _ => 2 | ONum _ => 6 | OFloat _ => 7 | OChar _ => 8
  | OBool _ => 9 | OSym _ => 10 | OStr _ => 11 | OHash _ _ => 13 | ORatio _ _ => 14 | OVec _ => 15
  | OOpaque t => 100 + t
  end%nat.

(* pscm.h 22-32: is_num, is_float, is_ratio *)
Definition as_num (o : obj) : nval :=
  match o with
  | ONum z => VInt z
  | OFloat f => VFloat f
  | ORatio n d => VRatio n d
  | _ => VOther
  end.

(* strncmp(a, b, n) == 0 : stops at the first NUL of either string *)
(* libc strncmp as used in eq.cc 151-208, 212-262, 319-386 *)
Fixpoint strncmp_eq (n : nat) (a b : list Z) : bool :=
  match n with
  | O => true
  | S k =>
      match a, b with
      | x :: a', y :: b' => if x =? y then (if x =? 0 then true else strncmp_eq k a' b') else false
      | _, _ => true        (* not reached: both have at least n bytes *)
      end
  end.
(* strcmp == 0 on NUL-terminated symbol names *)
(* eq.cc _sym_eq 9-34: the bytes strcmp looks at *)
Definition c_str (s : list Z) : list Z :=
  (fix go s := match s with [] => [] | x :: r => if x =? 0 then [] else x :: go r end) s.
(* eq.cc _sym_eq 9-34: equal contents *)
Fixpoint zlist_eqb (a b : list Z) : bool :=
  match a, b with
  | [], [] => true
  | x :: a', y :: b' => (x =? y) && zlist_eqb a' b'
  | _, _ => false
  end.
(* _sym_eq, eq.cc 9-34 *)
Definition sym_eq (a b : list Z) : bool := zlist_eqb (c_str a) (c_str b).
(* eq.cc 151-208, 212-262, 319-386: the STR cases *)
Definition str_eq (a b : list Z) : bool :=
  if Nat.eqb (length a) (length b) then strncmp_eq (length a) a b else false.

(* eq.cc 151-208, 212-262, 319-386: the mixed NUM and FLOAT case *)
Definition num_vs_float (a b : obj) : bool :=
  match a, b with
  | ONum _, OFloat _ | OFloat _, ONum _ => true
  | _, _ => false
  end.

(* eq.cc scm_c_is_eq 212-262 and scm_c_is_eqv 266-316 (the two bodies are identical) *)
Definition eq_p (a b : addr) : M bool :=
  if Nat.eqb a b then ret true
  else
    let! oa := get a in
    let! ob := get b in
    if num_vs_float oa ob then lift (number_eq (as_num oa) (as_num ob))
    else if negb (Nat.eqb (tag oa) (tag ob)) then ret false
    else match oa, ob with
    | ONone, _ | ONil, _ => ret true
    | ONum _, _ | OFloat _, _ | ORatio _ _, _ => lift (number_eq (as_num oa) (as_num ob))
    | OChar x, OChar y => ret (x =? y)
    | OBool x, OBool y => ret (Bool.eqb x y)
    | OSym x, OSym y => ret (sym_eq x y)
    | OStr x, OStr y => ret (str_eq x y)
    | _, _ => ret false
    end.
(* eq.cc scm_c_is_eqv 266-316 *)
Definition eqv_p : addr -> addr -> M bool := eq_p.

(* _eqv, list.cc 454-477 (used by memv): no string/symbol/ratio content *)
Definition eqv_list (a b : addr) : M bool :=
  if Nat.eqb a b then ret true
  else
    let! oa := get a in
    let! ob := get b in
    if num_vs_float oa ob then lift (number_eq (as_num oa) (as_num ob))
    else if negb (Nat.eqb (tag oa) (tag ob)) then ret false
    else match oa, ob with
    | ONum _, _ | OFloat _, _ => lift (number_eq (as_num oa) (as_num ob))
    | OChar x, OChar y => ret (x =? y)
    | OBool x, OBool y => ret (Bool.eqb x y)
    | _, _ => ret false
    end.

(* pscm.h is_pair 18-20 *)
Definition is_pair_at (a : addr) : M (option addr) :=
  let! o := get a in ret (match o with OList c => Some c | _ => None end).

(** equal?: eq.cc _equal_recursive 319-386, _list_equal 41-92, _vector_equal 112-129.
    SMOBs without an equalp hook and the opaque types compare by identity. *)
Fixpoint equal_rec (fuel : nat) (a b : addr) : M bool :=
  match fuel with
  | O => fail Fuel
  | S k =>
      if Nat.eqb a b then ret true
      else
        let! oa := get a in
        let! ob := get b in
        if num_vs_float oa ob then lift (number_eq (as_num oa) (as_num ob))
        else if negb (Nat.eqb (tag oa) (tag ob)) then ret false
        else match oa, ob with
        | ONone, _ | ONil, _ => ret true
        | OList c, OList d => list_equal k c d
        | OVec v, OVec w =>
            if Nat.eqb (length v) (length w) then
              (fix go (v w : list addr) : M bool :=
                 match v, w with
                 | x :: v', y :: w' =>
                     let! e := equal_rec k x y in if e then go v' w' else ret false
                 | _, _ => ret true
                 end) v w
            else ret false
        | ONum _, _ | OFloat _, _ | ORatio _ _, _ => lift (number_eq (as_num oa) (as_num ob))
        | OChar x, OChar y => ret (x =? y)
        | OBool x, OBool y => ret (Bool.eqb x y)
        | OSym x, OSym y => ret (sym_eq x y)
        | OStr x, OStr y => ret (str_eq x y)
        | _, _ => ret false
        end
  end
with list_equal (fuel : nat) (c d : addr) : M bool :=
  match fuel with
  | O => fail Fuel
  | S k =>
      let! x := getc c in
      let! y := getc d in
      let! e := equal_rec k (c_data x) (c_data y) in
      if negb e then ret false
      else
        let! nx := match c_next x with None => ret None | Some n => let! z := getc n in ret (Some (n, z)) end in
        let! ny := match c_next y with None => ret None | Some n => let! z := getc n in ret (Some (n, z)) end in
        let dot (n : option (addr * cell)) :=
          match n with Some (_, z) => c_dotted z | None => false end in
        match nx, ny with
        | Some (n, z), Some (m, w) =>
            if c_dotted z && c_dotted w then equal_rec k (c_data z) (c_data w)
            else if c_dotted z then
              (* l1_cdr = z->data, l2_cdr = wrap(m): equal only if both pairs *)
              let! p := is_pair_at (c_data z) in
              match p with Some pc => list_equal k pc m | None => ret false end
            else if c_dotted w then
              let! p := is_pair_at (c_data w) in
              match p with Some pc => list_equal k n pc | None => ret false end
            else list_equal k n m
        | Some (_, z), None =>
            if c_dotted z then equal_rec k (c_data z) nil_a else ret false
        | None, Some (_, w) =>
            if c_dotted w then equal_rec k nil_a (c_data w) else ret false
        | None, None => ret true
        end
  end.

(** eq.cc _eq 151-208, _list_eq 95-109, _vector_eq 132-149: ignores is_dotted, has
    no case for PORT PROMISE MODULE SMOB VARIABLE (eval_error) *)
Definition legacy_supported (t : nat) : bool :=
  (* OOpaque tags: 3 PROC, 4 CONT, 5 FUNC, 12 MACRO *)
  Nat.eqb t 3 || Nat.eqb t 4 || Nat.eqb t 5 || Nat.eqb t 12.
(* eq.cc _eq 151-208 with _list_eq 95-109 and _vector_eq 132-149 *)
Fixpoint legacy_eq (fuel : nat) (a b : addr) : M bool :=
  match fuel with
  | O => fail Fuel
  | S k =>
      let! oa := get a in
      let! ob := get b in
      if num_vs_float oa ob then lift (number_eq (as_num oa) (as_num ob))
      else if negb (Nat.eqb (tag oa) (tag ob)) then ret false
      else match oa, ob with
      | ONone, _ | ONil, _ => ret true
      | OList c, OList d => legacy_list_eq k (Some c) (Some d)
      | OVec v, OVec w =>
          if Nat.eqb (length v) (length w) then
            (fix go (v w : list addr) : M bool :=
               match v, w with
               | x :: v', y :: w' =>
                   let! e := legacy_eq k x y in if e then go v' w' else ret false
               | _, _ => ret true
               end) v w
          else ret false
      | ONum _, _ | OFloat _, _ | ORatio _ _, _ => lift (number_eq (as_num oa) (as_num ob))
      | OChar x, OChar y => ret (x =? y)
      | OBool x, OBool y => ret (Bool.eqb x y)
      | OSym x, OSym y => ret (sym_eq x y)
      | OStr x, OStr y => ret (str_eq x y)
      | OHash _ _, OHash _ _ => ret (Nat.eqb a b)
      | OOpaque t, OOpaque _ => if legacy_supported t then ret (Nat.eqb a b) else fail Err
      | _, _ => ret false
      end
  end
with legacy_list_eq (fuel : nat) (l1 l2 : option addr) : M bool :=
  match fuel with
  | O => fail Fuel
  | S k =>
      match l1, l2 with
      | Some c, Some d =>
          let! x := getc c in
          let! y := getc d in
          let! e := legacy_eq k (c_data x) (c_data y) in
          if negb e then ret false else legacy_list_eq k (c_next x) (c_next y)
      | None, None => ret true
      | _, _ => ret false
      end
  end.
