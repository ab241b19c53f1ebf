(** Model of src/c/alist.cc (association lists) on the heap of HeapModel.v. *)
From Verif Require Import Base NumModel HeapModel EqModel ListModel.

(* is_eq_pointer, alist.cc 9-36: symbols by content, integers by value, the
   rest by identity (strings: same payload, which the heap model identifies
   with the same object) *)
Definition is_eq_pointer (a b : addr) : M bool :=
  if Nat.eqb a b then ret true
  else
    let! oa := get a in
    let! ob := get b in
    match oa, ob with
    | OSym x, OSym y => ret (zlist_eqb x y)
    | ONum x, ONum y => ret (x =? y)
    | _, _ => ret false
    end.

(* scm_c_acons, alist.cc 39-47 *)
Definition acons (fuel : nat) (k v al : addr) : M addr :=
  let! p := cons fuel k v in
  let! o := get al in
  match o with
  | ONil => let! c := alloc_cell (mkCell p None false) in wrap (Some c)
  | _ => cons fuel p al
  end.

(* key of an alist element: "is_pair(l->data) ... pair->data" *)
(* alist.cc 55-63 *)
Definition entry_key (x : addr) : M (option addr) :=
  let! o := get x in
  match o with
  | OList c => let! k := getc c in ret (Some (c_data k))
  | _ => ret None
  end.
(* does the element match?  [p] compares the key with the entry's key *)
(* alist.cc 55-63, 73-81, 250-262 *)
Definition entry_matches (p : addr -> M bool) (x : addr) : M bool :=
  let! k := entry_key x in
  match k with
  | None => ret false
  | Some k => p k
  end.

(* loop of assq 55-63, assoc 73-81, assv 250-258 *)
(* alist.cc scm_c_assq 50-65, scm_c_assoc 68-83, scm_c_assv 245-264 *)
Fixpoint ass_loop (fuel : nat) (p : addr -> M bool) (cur : option addr) : M addr :=
  match cur with
  | None => ret false_a
  | Some c =>
      match fuel with
      | O => fail Fuel
      | S f =>
          let! x := getc c in
          let! b := entry_matches p (c_data x) in
          if b then ret (c_data x) else ass_loop f p (c_next x)
      end
  end.
(* cast<SCM_List>(alist) raises a type error for a non-list *)
(* alist.cc scm_c_assq 50-65, scm_c_assoc 68-83 *)
Definition ass_prim (fuel : nat) (p : addr -> M bool) (al : addr) : M addr :=
  let! o := get al in
  match o with
  | ONil => ret false_a
  | OList c => ass_loop fuel p (Some c)
  | _ => fail Err
  end.
(* alist.cc scm_c_assq 50-65 *)
Definition assq (fuel : nat) (k al : addr) : M addr := ass_prim fuel (is_eq_pointer k) al.
(* alist.cc scm_c_assoc 68-83 *)
Definition assoc (fuel : nat) (k al : addr) : M addr := ass_prim fuel (legacy_eq fuel k) al.
(* alist.cc scm_c_assv 245-264: also compares with _eq; a non-list fails an assert *)
Definition assv (fuel : nat) (k al : addr) : M addr :=
  let! o := get al in
  match o with
  | ONil => ret false_a
  | OList c => ass_loop fuel (legacy_eq fuel k) (Some c)
  | _ => fail Abort
  end.

(* alist.cc scm_c_assoc_ref 86-97 *)
Definition assoc_ref (fuel : nat) (al k : addr) : M addr :=
  let! r := assoc fuel k al in
  let! o := get r in
  match o with
  | OBool false | ONil => ret false_a
  | OList c =>
      let! x := getc c in
      match c_next x with
      | None => ret false_a
      | Some n => let! y := getc n in ret (c_data y)
      end
  | _ => fail Err
  end.

(* main loop of assoc-set! 111-134 / assq-set! 164-187: returns the builder
   and the "found" flag *)
(* alist.cc scm_c_assoc_set 100-151, scm_c_assq_set 154-205 *)
Fixpoint set_loop (fuel cf : nat) (p : addr -> M bool) (k v : addr) (b : builder) (found : bool)
         (cur : option addr) : M (builder * bool) :=
  match cur with
  | None => ret (b, found)
  | Some c =>
      match fuel with
      | O => fail Fuel
      | S f =>
          let! x := getc c in
          let! m := entry_matches p (c_data x) in
          if m then
            let! np := cons cf k v in
            let! b' := b_push b np in
            set_loop f cf p k v b' true (c_next x)
          else
            let! b' := b_push b (c_data x) in
            set_loop f cf p k v b' found (c_next x)
      end
  end.
(* alist.cc scm_c_assoc_set 100-151, scm_c_assq_set 154-205 *)
Definition set_prim (fuel : nat) (p : addr -> M bool) (al k v : addr) : M addr :=
  let! o := get al in
  match o with
  | ONil => acons fuel k v nil_a
  | OList c =>
      let! r := set_loop fuel fuel p k v b_empty false (Some c) in
      let '(b, found) := r in
      if found : bool then wrap (b_first b)
      else
        let! np := cons fuel k v in
        let! n := alloc_cell (mkCell np (b_first b) false) in
        wrap (Some n)
  | _ => fail Err
  end.
(* alist.cc scm_c_assoc_set 100-151 *)
Definition assoc_set (fuel : nat) (al k v : addr) : M addr := set_prim fuel (legacy_eq fuel k) al k v.
(* alist.cc scm_c_assq_set 154-205 *)
Definition assq_set (fuel : nat) (al k v : addr) : M addr := set_prim fuel (is_eq_pointer k) al k v.

(* alist.cc scm_c_assoc_remove 208-243 *)
Fixpoint remove_loop (fuel : nat) (p : addr -> M bool) (b : builder) (removed : bool)
         (cur : option addr) : M builder :=
  match cur with
  | None => ret b
  | Some c =>
      match fuel with
      | O => fail Fuel
      | S f =>
          let! x := getc c in
          let! m := if removed then ret false else entry_matches p (c_data x) in
          if m then remove_loop f p b true (c_next x)
          else
            let! b' := b_push b (c_data x) in
            remove_loop f p b' removed (c_next x)
      end
  end.
(* alist.cc scm_c_assoc_remove 208-243 *)
Definition assoc_remove (fuel : nat) (al k : addr) : M addr :=
  let! o := get al in
  match o with
  | ONil => ret nil_a
  | OList c =>
      let! b := remove_loop fuel (legacy_eq fuel k) b_empty false (Some c) in
      wrap (b_first b)
  | _ => fail Err
  end.
