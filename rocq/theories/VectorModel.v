(** Model of src/c/vector.cc on the heap of HeapModel.v.  The SCM_Vector payload
    is the element list stored in the object.  Allocation of the element array
    is assumed to succeed. *)
From Verif Require Import Base NumModel HeapModel ListModel.

(* vector.cc scm_c_make_vector_impl 5-32, scm_c_make_vector 35-44 *)
Definition make_vector (len : addr) (fill : option addr) : M addr :=
  let! o := get len in
  match o with
  | ONum z =>
      if z <? 0 then fail Err
      else alloc (OVec (repeat (match fill with Some f => f | None => none_a end) (Z.to_nat z)))
  | _ => fail Err
  end.
(* vector.cc scm_c_vector 47-72; the arguments arrive as an evaluated list *)
Definition vector (args : list addr) : M addr := alloc (OVec args).
(* vector.cc scm_c_vector_length 75-86 *)
Definition vector_length (v : addr) : M addr :=
  let! o := get v in
  match o with
  | OVec es => alloc (ONum (Z.of_nat (length es)))
  | _ => fail Err
  end.
(* vector.cc scm_c_vector_ref 89-108 *)
Definition vector_ref (v k : addr) : M addr :=
  let! o := get v in
  match o with
  | OVec es =>
      let! ok := get k in
      match ok with
      | ONum idx =>
          if (idx <? 0) || (Z.of_nat (length es) <=? idx) then fail Err
          else match nth_error es (Z.to_nat idx) with Some x => ret x | None => fail UB end
      | _ => fail Err
      end
  | _ => fail Err
  end.
(* v->elements[i] = x *)
(* vector.cc scm_c_vector_set 111-131 *)
Fixpoint set_elem (es : list addr) (i : nat) (x : addr) : list addr :=
  match es, i with
  | [], _ => []
  | _ :: r, O => x :: r
  | e :: r, S j => e :: set_elem r j x
  end.
(* vector.cc scm_c_vector_set 111-131 *)
Definition vector_set (v k x : addr) : M addr :=
  let! o := get v in
  match o with
  | OVec es =>
      let! ok := get k in
      match ok with
      | ONum idx =>
          if (idx <? 0) || (Z.of_nat (length es) <=? idx) then fail Err
          else if (Z.to_nat idx <? length es)%nat
               then let! _ := seto v (OVec (set_elem es (Z.to_nat idx) x)) in ret none_a
               else fail UB
      | _ => fail Err
      end
  | _ => fail Err
  end.
(** (int)z for a size_t value: two's complement truncation to 32 bits *)
(* vector.cc scm_c_vector_to_list 134-157 *)
Definition to_int (z : Z) : Z := let m := z mod 2 ^ 32 in if m <? 2 ^ 31 then m else m - 2 ^ 32.
(* the loop of vector->list, 147-153: [n] elements are still to be consed, the
   last of them first *)
(* vector.cc scm_c_vector_to_list 134-157 *)
Fixpoint vtl_loop (es : list addr) (n : nat) (result : option addr) : M (option addr) :=
  match n with
  | O => ret result
  | S i =>
      match nth_error es i with
      | Some x => let! c := alloc_cell (mkCell x result false) in vtl_loop es i (Some c)
      | None => fail UB
      end
  end.
(* vector.cc scm_c_vector_to_list 134-157; `(int)v->length - 1` overflows for INT_MIN *)
Definition vector_to_list (v : addr) : M addr :=
  let! o := get v in
  match o with
  | OVec es =>
      match es with
      | [] => ret nil_a
      | _ =>
          let n := to_int (Z.of_nat (length es)) in
          if n =? - 2 ^ 31 then fail UB
          else let! l := vtl_loop es (Z.to_nat n) None in wrap l
      end
  | _ => fail Err
  end.
(* the data of the cells from [cur] on: 178-185 counts, 191-197 copies; the two
   passes read the same cells *)
(* vector.cc scm_c_list_to_vector 160-201 *)
Fixpoint elems_loop (fuel : nat) (cur : option addr) : M (list addr) :=
  match cur with
  | None => ret []
  | Some c =>
      match fuel with
      | O => fail Fuel
      | S f =>
          let! k := getc c in
          let! r := elems_loop f (c_next k) in
          ret (c_data k :: r)
      end
  end.
(* vector.cc scm_c_list_to_vector 160-201 *)
Definition list_to_vector (fuel : nat) (l : addr) : M addr :=
  let! o := get l in
  match o with
  | ONil => alloc (OVec [])
  | OList c => let! es := elems_loop fuel (Some c) in alloc (OVec es)
  | _ => fail Err
  end.
