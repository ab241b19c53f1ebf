(** Model of src/c/hash_table.cc on the heap of HeapModel.v.

    A table object is [OHash buckets size].  Simplification: a bucket is the
    list of its entries (the addresses of the entry cells, head first); the
    spine nodes and wrappers that hold them (hash_table.cc 195-205) are private
    to the table and are not represented.  The pointer hash is a parameter
    [pa] of the model (the machine address of each object): theorems hold for
    every [pa]. *)
From Verif Require Import Base NumModel HeapModel EqModel ListModel.

(** which family a primitive belongs to: hashq-*, hashv-*, hash-* *)
(* hash_table.cc 438-500: the three sets of wrappers *)
Inductive family := Feq | Feqv | Fequal.

(* hash_table.cc 6-95: uint64_t and size_t arithmetic wraps *)
Definition u64 (z : Z) : Z := z mod 2 ^ 64.   (* unsigned long arithmetic *)
(* hash_table.cc hash_string_content 6-12 *)
Definition hash_bytes (s : list Z) : Z := fold_left (fun h c => u64 (h * 31 + c)) s 0.

(* hash_table.cc scm_hash_code_eq 15-25 *)
Definition hash_eq (pa : addr -> Z) (a : addr) : M Z :=
  let! o := get a in
  match o with
  | OSym s => ret (hash_bytes s)
  | _ => ret (u64 (pa a))
  end.
(* hash_table.cc scm_hash_code_eqv 28-40 *)
Definition hash_eqv (pa : addr -> Z) (a : addr) : M Z :=
  let! o := get a in
  match o with
  | ONum z => ret (u64 z)
  | OChar c => ret (c mod 256)
  | OBool b => ret (if b then 1 else 0)
  | _ => hash_eq pa a
  end.
(* hash_table.cc hash_list_content 44-71 *)
Fixpoint hash_list (fuel : nat) (pa : addr -> Z) (acc : Z) (cur : option addr) : M Z :=
  match cur with
  | None => ret acc
  | Some c =>
      match fuel with
      | O => fail Fuel
      | S f =>
          let! k := getc c in
          let! o := get (c_data k) in
          let! ch := match o with
                     | OSym s | OStr s => ret (hash_bytes s)
                     | ONum z => ret (u64 z)
                     | OList d => hash_list f pa 0 (Some d)
                     | _ => ret (u64 (pa (c_data k)))
                     end in
          hash_list f pa (u64 (acc * 31 + ch)) (c_next k)
      end
  end.
(* hash_table.cc scm_hash_code_equal 73-95 *)
Definition hash_equal (fuel : nat) (pa : addr -> Z) (a : addr) : M Z :=
  let! o := get a in
  match o with
  | OSym s | OStr s => ret (hash_bytes s)
  | ONum z => ret (u64 z)
  | OList c => hash_list fuel pa 0 (Some c)
  | _ => hash_eq pa a
  end.
(* hash_table.cc 15-95: the hash function passed by the wrappers 438-496 *)
Definition hash_code (fam : family) (fuel : nat) (pa : addr -> Z) (a : addr) : M Z :=
  match fam with
  | Feq => hash_eq pa a
  | Feqv => hash_eqv pa a
  | Fequal => hash_equal fuel pa a
  end.

(* hash_table.cc scm_cmp_eq 98-112 *)
Definition cmp_eq (a b : addr) : M bool :=
  let! oa := get a in
  let! ob := get b in
  match oa, ob with
  | OSym x, OSym y => ret (zlist_eqb x y)
  | _, _ => ret (Nat.eqb a b)
  end.
(* hash_table.cc scm_cmp_eqv 114-127 *)
Definition cmp_eqv (a b : addr) : M bool :=
  let! oa := get a in
  let! ob := get b in
  match oa, ob with
  | ONum x, ONum y => ret (x =? y)
  | OChar x, OChar y => ret (x =? y)
  | OBool x, OBool y => ret (Bool.eqb x y)
  | _, _ => ret (Nat.eqb a b)
  end.
(* hash_table.cc scm_cmp_equal 129-131 *)
Definition cmp (fam : family) (fuel : nat) (a b : addr) : M bool :=
  match fam with
  | Feq => cmp_eq a b
  | Feqv => cmp_eqv a b
  | Fequal => legacy_eq fuel a b
  end.

(* hash_table.cc scm_c_make_hash_table 240-264.  calloc is assumed to succeed for sizes the
   machine can represent; a negative size becomes a huge size_t, calloc
   returns null and the initialisation loop writes through it *)
Definition make_hash_table (size_arg : option addr) : M addr :=
  match size_arg with
  | None => alloc (OHash (repeat [] 31) 0)
  | Some a =>
      let! o := get a in
      match o with
      | ONil => alloc (OHash (repeat [] 31) 0)
      | ONum z =>
          if z <? 0 then fail UB
          else if z =? 0 then alloc (OHash (repeat [] 31) 0)
          else alloc (OHash (repeat [] (Z.to_nat z)) 0)
      | _ => fail Err
      end
  end.

(* hash_table.cc validate_and_get_bucket_idx 135-146: table contents and bucket index;
   hash % 0 cannot happen for tables made by make-hash-table *)
Definition locate (fam : family) (fuel : nat) (pa : addr -> Z) (t k : addr)
  : M (list (list addr) * Z * nat) :=
  let! o := get t in
  match o with
  | OHash bs sz =>
      let! hc := hash_code fam fuel pa k in
      if Nat.eqb (length bs) 0 then fail UB
      else ret (bs, sz, Z.to_nat (hc mod Z.of_nat (length bs)))
  | _ => fail Err
  end.
(* hash_table.cc find_entry_in_bucket 160-175 *)
Fixpoint find_entry (fam : family) (fuel : nat) (k : addr) (bucket : list addr) : M (option addr) :=
  match bucket with
  | [] => ret None
  | e :: r =>
      let! x := getc e in
      let! b := cmp fam fuel k (c_data x) in
      if b then ret (Some e) else find_entry fam fuel k r
  end.
(* hash_table.cc update_entry_value 149-157 *)
Definition update_entry (e v : addr) : M unit :=
  let! x := getc e in
  match c_next x with
  | Some n =>
      let! y := getc n in
      setc n (mkCell v (c_next y) true)
  | None =>
      let! n := alloc_cell (mkCell v None true) in
      setc e (mkCell (c_data x) (Some n) (c_dotted x))
  end.
(* hash_table.cc 181-205: buckets[idx] = ... *)
Fixpoint set_nth {A} (n : nat) (x : A) (l : list A) : list A :=
  match l, n with
  | [], _ => []
  | _ :: r, O => x :: r
  | y :: r, S m => y :: set_nth m x r
  end.
(* hash_table.cc insert_entry_to_bucket 181-205; result: wrap(entry_pair) *)
Definition insert_entry (t : addr) (bs : list (list addr)) (sz : Z) (idx : nat) (k v : addr) : M addr :=
  let! n := alloc_cell (mkCell v None true) in
  let! e := alloc_cell (mkCell k (Some n) false) in
  let! _ := seto t (OHash (set_nth idx (e :: nth idx bs []) bs) (sz + 1)) in
  wrap (Some e).
(* hash_table.cc scm_c_hash_set 267-286 *)
Definition hash_set (fam : family) (fuel : nat) (pa : addr -> Z) (t k v : addr) : M addr :=
  let! l := locate fam fuel pa t k in
  let '(bs, sz, idx) := l in
  let! e := find_entry fam fuel k (nth idx bs []) in
  match e with
  | Some e => let! _ := update_entry e v in ret v
  | None => let! _ := insert_entry t bs sz idx k v in ret v
  end.
(* hash_table.cc scm_c_hash_ref 289-312 *)
Definition hash_ref (fam : family) (fuel : nat) (pa : addr -> Z) (t k : addr) : M addr :=
  let! l := locate fam fuel pa t k in
  let '(bs, sz, idx) := l in
  let! e := find_entry fam fuel k (nth idx bs []) in
  match e with
  | Some e =>
      let! x := getc e in
      match c_next x with
      | Some n => let! y := getc n in ret (c_data y)
      | None => ret nil_a
      end
  | None => ret false_a
  end.
(* hash_table.cc scm_c_hash_get_handle 315-332 *)
Definition hash_get_handle (fam : family) (fuel : nat) (pa : addr -> Z) (t k : addr) : M addr :=
  let! l := locate fam fuel pa t k in
  let '(bs, sz, idx) := l in
  let! e := find_entry fam fuel k (nth idx bs []) in
  match e with
  | Some e => wrap (Some e)
  | None => ret false_a
  end.
(* hash_table.cc scm_c_hash_create_handle 335-354 *)
Definition hash_create_handle (fam : family) (fuel : nat) (pa : addr -> Z) (t k v : addr) : M addr :=
  let! l := locate fam fuel pa t k in
  let '(bs, sz, idx) := l in
  let! e := find_entry fam fuel k (nth idx bs []) in
  match e with
  | Some e =>
      let! _ := update_entry e v in
      let! x := getc e in
      match c_next x with
      | Some n => let! y := getc n in cons fuel (c_data x) (c_data y)
      | None => fail UB
      end
  | None => insert_entry t bs sz idx k v
  end.
(* hash_table.cc remove_entry_from_bucket 209-237: the remaining entries *)
Fixpoint remove_entry (fam : family) (fuel : nat) (k : addr) (bucket : list addr) : M (option (list addr)) :=
  match bucket with
  | [] => ret None
  | e :: r =>
      let! x := getc e in
      let! b := cmp fam fuel k (c_data x) in
      if b then ret (Some r)
      else
        let! q := remove_entry fam fuel k r in
        ret (match q with Some r' => Some (e :: r') | None => None end)
  end.
(* hash_table.cc scm_c_hash_remove 357-371 *)
Definition hash_remove (fam : family) (fuel : nat) (pa : addr -> Z) (t k : addr) : M addr :=
  let! l := locate fam fuel pa t k in
  let '(bs, sz, idx) := l in
  let! q := remove_entry fam fuel k (nth idx bs []) in
  match q with
  | Some b' =>
      let! _ := seto t (OHash (set_nth idx b' bs) (sz - 1)) in
      ret none_a
  | None => ret none_a
  end.
(* hash-fold 373-432 visits the entries bucket by bucket, head first, and skips
   entries without a value node: the (key, value) pairs in visiting order *)
(* hash_table.cc scm_c_hash_fold 374-428 *)
Fixpoint fold_entries (es : list addr) : M (list (addr * addr)) :=
  match es with
  | [] => ret []
  | e :: r =>
      let! x := getc e in
      match c_next x with
      | Some n =>
          let! y := getc n in
          let! l := fold_entries r in
          ret ((c_data x, c_data y) :: l)
      | None => fold_entries r
      end
  end.
(* hash_table.cc scm_c_hash_fold 374-428 *)
Definition hash_fold_visits (t : addr) : M (list (addr * addr)) :=
  let! o := get t in
  match o with
  | OHash bs _ => fold_entries (concat bs)
  | _ => fail Err
  end.
