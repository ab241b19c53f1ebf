(** Model of src/c/list.cc, of car/cdr/cadr (src/c/pscm.h 590-640) and of list?
    (src/c/predicate.cc 79-117) on the heap of HeapModel.v.  Loops over [next]
    run on explicit fuel: [Fuel] stands for a loop that does not terminate
    (a circular list). *)
From Verif Require Import Base NumModel HeapModel EqModel.

(* car, pscm.h 590-599 *)
Definition car (a : addr) : M addr :=
  let! o := get a in
  match o with
  | OList c => let! k := getc c in ret (c_data k)
  | _ => fail Err
  end.

(* cdr, pscm.h 601-624: a fresh LIST object pointing at the next cell, the
   data of a dotted cell, or nil *)
Definition cdr (a : addr) : M addr :=
  let! o := get a in
  match o with
  | OList c =>
      let! k := getc c in
      match c_next k with
      | None => ret nil_a
      | Some n =>
          let! k' := getc n in
          if c_dotted k' then ret (c_data k') else alloc (OList n)
      end
  | _ => fail Err
  end.

(* cadr, pscm.h 630-644: reads the next cell's data without looking at is_dotted *)
Definition cadr (a : addr) : M addr :=
  let! o := get a in
  match o with
  | OList c =>
      let! k := getc c in
      match c_next k with
      | None => fail Err
      | Some n => let! k' := getc n in ret (c_data k')
      end
  | _ => fail Err
  end.

(* while (last->next) last = last->next;  (list.cc 75-78, 103-106, 147-150) *)
Fixpoint last_cell (fuel : nat) (c : addr) : M addr :=
  match fuel with
  | O => fail Fuel
  | S k =>
      let! x := getc c in
      match c_next x with
      | None => ret c
      | Some n => last_cell k n
      end
  end.

(* scm_cons, list.cc 68-90, including the walk to the last cell of the cdr *)
Definition cons (fuel : nat) (a d : addr) : M addr :=
  let! od := get d in
  match od with
  | OList n =>
      let! c := alloc_cell (mkCell a (Some n) false) in
      let! _ := last_cell fuel n in
      wrap (Some c)
  | ONil =>
      let! c := alloc_cell (mkCell a None false) in
      wrap (Some c)
  | _ =>
      let! n := alloc_cell (mkCell d None true) in
      let! c := alloc_cell (mkCell a (Some n) false) in
      wrap (Some c)
  end.

(* scm_c_set_car, list.cc 284-294 *)
Definition set_car (p v : addr) : M addr :=
  let! o := get p in
  match o with
  | OList c =>
      let! k := getc c in
      let! _ := setc c (mkCell v (c_next k) (c_dotted k)) in
      ret none_a
  | _ => fail Err
  end.

(* scm_c_set_cdr, list.cc 297-315 *)
Definition set_cdr (p v : addr) : M addr :=
  let! o := get p in
  match o with
  | OList c =>
      let! ov := get v in
      match ov with
      | OList n =>
          let! k := getc c in
          let! _ := setc c (mkCell (c_data k) (Some n) (c_dotted k)) in ret none_a
      | ONil =>
          let! k := getc c in
          let! _ := setc c (mkCell (c_data k) None (c_dotted k)) in ret none_a
      | _ =>
          let! n := alloc_cell (mkCell v None true) in
          let! k := getc c in
          let! _ := setc c (mkCell (c_data k) (Some n) (c_dotted k)) in ret none_a
      end
  | _ => fail Err
  end.

(* A list under construction: the "dummy node + tail pointer" idiom
   (list.cc 46-55, 156-189, 231-241).  [first] is dummy.next, [tail] the last
   cell, if any. *)
Record builder := mkB { b_first : option addr; b_tail : option addr }.
(* list.cc 46-55: the dummy node *)
Definition b_empty : builder := mkB None None.
(* node = make_list(data); tail->next = node; tail = node *)
(* list.cc 46-55, 156-189, 231-241 *)
Definition b_push (b : builder) (x : addr) : M builder :=
  let! c := alloc_cell (mkCell x None false) in
  match b_tail b with
  | None => ret (mkB (Some c) (Some c))
  | Some t =>
      let! k := getc t in
      let! _ := setc t (mkCell (c_data k) (Some c) (c_dotted k)) in
      ret (mkB (b_first b) (Some c))
  end.

(* scm_list_impl, list.cc 42-61; the arguments arrive as an evaluated list *)
Fixpoint b_push_all (b : builder) (xs : list addr) : M builder :=
  match xs with
  | [] => ret b
  | x :: r => let! b' := b_push b x in b_push_all b' r
  end.
(* list.cc scm_list_impl 42-61, scm_list 63-65 *)
Definition scm_list (args : list addr) : M addr :=
  let! b := b_push_all b_empty args in wrap (b_first b).

(* while (src) { copy src->data; src = src->next }  list.cc 175-180 *)
Fixpoint copy_loop (fuel : nat) (b : builder) (src : option addr) : M builder :=
  match src with
  | None => ret b
  | Some c =>
      match fuel with
      | O => fail Fuel
      | S k =>
          let! x := getc c in
          let! b' := b_push b (c_data x) in
          copy_loop k b' (c_next x)
      end
  end.

(* _is_dotted_pair, list.cc 98-108 *)
Definition is_dotted_pair (fuel : nat) (c : addr) : M bool :=
  let! k := getc c in
  match c_next k with
  | None => ret false
  | Some _ => let! l := last_cell fuel c in let! kl := getc l in ret (c_dotted kl)
  end.

(* one argument of the main loop of scm_append, list.cc 160-189;
   [dotted_last] is "current == last_arg && last_is_dotted_pair" *)
Definition append_arg (fuel : nat) (b : builder) (dotted_last : bool) (a : addr) : M builder :=
  let! o := get a in
  match o with
  | OList c =>
      if dotted_last then let! k := getc c in b_push b (c_data k)
      else copy_loop fuel b (Some c)
  | ONil => ret b
  | _ => b_push b a
  end.
(* list.cc scm_append 160-189: the loop over the arguments *)
Fixpoint append_args (fuel : nat) (b : builder) (last_dotted : bool) (args : list addr) : M builder :=
  match args with
  | [] => ret b
  | a :: r =>
      let! b' := append_arg fuel b (match r with [] => last_dotted | _ => false end) a in
      append_args fuel b' last_dotted r
  end.
(* lines 134-153: is the last argument a dotted pair, and if so its final cdr *)
(* list.cc scm_append 134-153 *)
Definition last_dotted_cdr (fuel : nat) (a : addr) : M (option addr) :=
  let! o := get a in
  match o with
  | OList c =>
      let! d := is_dotted_pair fuel c in
      if d then let! l := last_cell fuel c in let! k := getc l in ret (Some (c_data k))
      else ret None
  | _ => ret None
  end.
(* scm_append, list.cc 112-209 *)
Definition append_general (fuel : nat) (args : list addr) : M addr :=
  let! dc := last_dotted_cdr fuel (last args nil_a) in
  let! b := append_args fuel b_empty (match dc with Some _ => true | None => false end) args in
  let! b' :=
    match dc with
    | None => ret b
    | Some d =>
        let! c := alloc_cell (mkCell d None true) in
        match b_tail b with
        | None => ret (mkB (Some c) None)
        | Some t =>
            let! k := getc t in
            let! _ := setc t (mkCell (c_data k) (Some c) (c_dotted k)) in ret b
        end
    end in
  wrap (b_first b').
(* list.cc scm_append 112-209 *)
Definition append (fuel : nat) (args : list addr) : M addr :=
  match args with
  | [] => ret nil_a
  | [a] => ret a
  | [a; b] =>
      let! o := get a in
      match o with ONil => ret b | _ => append_general fuel args end
  | _ => append_general fuel args
  end.

(* (size_t)(int64_t)k : list.cc 218, 265 *)
Definition to_size_t (z : Z) : Z := z mod 2 ^ 64.

(* loop of scm_c_list_head, list.cc 235-241; returns the remaining count *)
Fixpoint head_loop (fuel : nat) (b : builder) (count : Z) (cur : option addr) : M (builder * Z) :=
  if count =? 0 then ret (b, count)
  else match cur with
  | None => ret (b, count)
  | Some c =>
      match fuel with
      | O => fail Fuel
      | S k =>
          let! x := getc c in
          let! b' := b_push b (c_data x) in
          head_loop k b' (count - 1) (c_next x)
      end
  end.
(* scm_c_list_head, list.cc 212-252 *)
Definition list_head (fuel : nat) (lst k : addr) : M addr :=
  let! ok := get k in
  match ok with
  | ONum z =>
      let count := to_size_t z in
      if count =? 0 then ret nil_a
      else
        let! o := get lst in
        match o with
        | OList c =>
            let! r := head_loop fuel b_empty count (Some c) in
            let '(b, rest) := r in
            if rest =? 0 then wrap (b_first b) else fail Err
        | _ => fail Err
        end
  | _ => fail Err
  end.

(* scm_c_list_tail, list.cc 255-281 *)
Fixpoint tail_loop (fuel : nat) (count : Z) (cur : option addr) : M (option addr) :=
  if count =? 0 then ret cur
  else match cur with
  | None => fail Err
  | Some c =>
      match fuel with
      | O => fail Fuel
      | S k => let! x := getc c in tail_loop k (count - 1) (c_next x)
      end
  end.
(* list.cc scm_c_list_tail 255-281 *)
Definition list_tail (fuel : nat) (lst k : addr) : M addr :=
  let! o := get lst in
  match o with
  | OList _ | ONil =>
      let! ok := get k in
      match ok with
      | ONum z =>
          let! r := tail_loop fuel (to_size_t z) (match o with OList c => Some c | _ => None end) in
          wrap r
      | _ => fail Err
      end
  | _ => fail Err
  end.

(* scm_c_last_pair, list.cc 318-353, Floyd's loop *)
Fixpoint last_pair_loop (fuel : nat) (tortoise hare : addr) : M addr :=
  match fuel with
  | O => fail Fuel
  | S k =>
      let! h1 := getc hare in
      match c_next h1 with
      | None => wrap (Some tortoise)
      | Some hare1 =>
          let! h2 := getc hare1 in
          match c_next h2 with
          | None => wrap (Some hare1)
          | Some hare2 =>
              let! t := getc tortoise in
              match c_next t with
              | None => fail UB
              | Some t' => if Nat.eqb hare2 t' then fail Err else last_pair_loop k t' hare2
              end
          end
      end
  end.
(* list.cc scm_c_last_pair 318-353 *)
Definition last_pair (fuel : nat) (lst : addr) : M addr :=
  let! o := get lst in
  match o with
  | ONil => ret nil_a
  | OList c => last_pair_loop fuel c c
  | _ => fail Err
  end.

(* scm_c_reverse, list.cc 355-382 *)
Fixpoint reverse_loop (fuel : nat) (result : option addr) (cur : option addr) : M (option addr) :=
  match cur with
  | None => ret result
  | Some c =>
      match fuel with
      | O => fail Fuel
      | S k =>
          let! x := getc c in
          let! n := alloc_cell (mkCell (c_data x) result false) in
          reverse_loop k (Some n) (c_next x)
      end
  end.
(* list.cc scm_c_reverse 355-382 *)
Definition reverse (fuel : nat) (lst : addr) : M addr :=
  let! o := get lst in
  match o with
  | ONil => ret nil_a
  | OList c => let! r := reverse_loop fuel None (Some c) in wrap r
  | _ => fail Err
  end.

(* scm_c_list_ref, list.cc 384-420 *)
Fixpoint ref_loop (fuel : nat) (i idx : Z) (cur : option addr) : M addr :=
  match cur with
  | None => fail Err
  | Some c =>
      match fuel with
      | O => fail Fuel
      | S k =>
          let! x := getc c in
          if i =? idx then ret (c_data x) else ref_loop k (i + 1) idx (c_next x)
      end
  end.
(* list.cc scm_c_list_ref 384-420 *)
Definition list_ref (fuel : nat) (lst k : addr) : M addr :=
  let! o := get lst in
  match o with
  | OList c =>
      let! ok := get k in
      match ok with
      | ONum idx => if idx <? 0 then fail Err else ref_loop fuel 0 idx (Some c)
      | _ => fail Err
      end
  | _ => fail Err
  end.

(* scm_c_length, list.cc 422-451 (the int counter is unbounded here: lists
   longer than 2^31-1 do not fit in memory) *)
Fixpoint length_loop (fuel : nat) (count : Z) (cur : option addr) : M Z :=
  match cur with
  | None => ret count
  | Some c =>
      match fuel with
      | O => fail Fuel
      | S k => let! x := getc c in length_loop k (count + 1) (c_next x)
      end
  end.
(* list.cc scm_c_length 422-451 *)
Definition length_prim (fuel : nat) (lst : addr) : M addr :=
  let! o := get lst in
  match o with
  | ONil => alloc (ONum 0)
  | OList c => let! n := length_loop fuel 0 (Some c) in alloc (ONum n)
  | _ => fail Err
  end.

(* the common loop of memq/memv/member, list.cc 491-509, 523-537, 551-565 *)
Fixpoint mem_loop (fuel : nat) (p : addr -> M bool) (cur : option addr) : M addr :=
  match cur with
  | None => ret false_a
  | Some c =>
      match fuel with
      | O => fail Fuel
      | S k =>
          let! x := getc c in
          let! b := p (c_data x) in
          if b then wrap (Some c) else mem_loop k p (c_next x)
      end
  end.
(* list.cc 482-566: the argument checks of memq, memv, member *)
Definition mem_prim (fuel : nat) (p : addr -> M bool) (lst : addr) : M addr :=
  let! o := get lst in
  match o with
  | ONil => ret false_a
  | OList c => mem_loop fuel p (Some c)
  | _ => fail Err
  end.
(* list.cc scm_c_memq 482-510 *)
Definition memq (fuel : nat) (x lst : addr) : M addr := mem_prim fuel (eq_p x) lst.
(* list.cc scm_c_memv 514-538 *)
Definition memv (fuel : nat) (x lst : addr) : M addr := mem_prim fuel (eqv_list x) lst.
(* list.cc scm_c_member 542-566 *)
Definition member (fuel : nat) (x lst : addr) : M addr := mem_prim fuel (legacy_eq fuel x) lst.

(* scm_c_is_list, predicate.cc 79-117; MAX_COUNT = 10000 *)
Fixpoint is_list_loop (fuel : nat) (count : Z) (c : addr) : M bool :=
  if count >? 10000 then ret false
  else match fuel with
  | O => fail Fuel
  | S k =>
      let! x := getc c in
      if c_dotted x then ret false
      else match c_next x with
           | None => ret true
           | Some n => is_list_loop k (count + 1) n
           end
  end.
(* predicate.cc scm_c_is_list 79-117 *)
Definition is_list_prim (fuel : nat) (a : addr) : M addr :=
  let! o := get a in
  match o with
  | ONil => ret true_a
  | OList c => let! b := is_list_loop fuel 0 c in ret (bool_a b)
  | _ => ret false_a
  end.
