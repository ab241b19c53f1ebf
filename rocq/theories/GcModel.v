(** Model of src/c/gc.h and src/c/gc.cc: the mark-sweep collector and its
    allocator.

    Memory.  An address is an integer.  The collector only ever looks at block
    headers and, through the trace and sweep functions, at the struct that
    follows a header; so memory is a finite map from header addresses to
    blocks.  Simplifications:
    - a 16-byte aligned word that is not a header written by [gc_alloc] never
      happens to contain the 21-bit magic (the comment on [gc_magic], gc.h
      17-24, makes the same assumption);
    - the chain [free_lists[i] -> next_free -> ...] is the list of its blocks;
    - the C++ arrays a struct owns (vector elements, hash buckets, environment
      entries, a continuation's saved stack) are part of the struct;
    - [size_t] accounting (allocated bytes, thresholds) does not wrap. *)
From Verif Require Import Base.
From Coq Require Import Lia.

(** enum TypeTag, gc.h 27-46 *)
Inductive tag :=
| GC_SCM | GC_LIST | GC_PROC | GC_FUNC | GC_CONT | GC_MODULE | GC_PORT
| GC_VECTOR | GC_HASH | GC_ENV | GC_STRING | GC_SYMBOL | GC_NUMBER
| GC_PROMISE | GC_MACRO | GC_VARIABLE | GC_SMOB.

(** enum SCM::Type, pscm_types.h 18-40 *)
Inductive scm_type :=
| T_NONE | T_NIL | T_LIST | T_PROC | T_CONT | T_FUNC | T_NUM | T_FLOAT | T_CHAR
| T_BOOL | T_SYM | T_STR | T_MACRO | T_HASH_TABLE | T_RATIO | T_VECTOR | T_PORT
| T_PROMISE | T_MODULE | T_SMOB | T_VARIABLE.

(** The payload of a block: the pointer-sized fields of each struct of
    pscm_types.h 17-182 and smob.h 26-32.  0 is the null pointer.
    Arrays: [None] is a null array pointer. *)
Inductive gobj :=
| SScm (ty : scm_type) (value : Z)                              (* 17-44 *)
| SList (data next : Z) (dotted : bool)                         (* 51-55 *)
| SProc (name args body env : Z)                                (* 76-81 *)
| SFunc (name : Z) (n_args : Z) (func_ptr generic : Z)          (* 83-88 *)
| SCont (saved_stack : option (list Z)) (arg wind_chain saved_module : Z)  (* 90-99 *)
| SModule (obarray uses binder eval_closure transformer name kind
             public_interface exports autoload_specs : Z)       (* 124-135 *)
| SPort (soft_procedures : Z)                                   (* 145-165 *)
| SVector (elements : option (list Z)) (length : Z)             (* 113-116 *)
| SHash (buckets : option (list Z)) (capacity size : Z)         (* 107-111 *)
| SEnv (entries : list (option Z)) (parent module : Z)          (* 167-182 *)
| SString | SSymbol | SNumber                                   (* 57-74 *)
| SPromise (thunk value : Z) (is_forced : bool)                 (* 118-122 *)
| SMacro (name transformer env : Z)                             (* 101-105 *)
| SVariable (value : Z)                                         (* 138-140 *)
| SSmob (data data2 data3 : Z).                                 (* smob.h 26-32 *)

(** which struct the code casts a block with a given tag to (gc.cc 490-760) *)
Definition tag_of (o : gobj) : tag :=
  match o with
  | SScm _ _ => GC_SCM | SList _ _ _ => GC_LIST | SProc _ _ _ _ => GC_PROC
  | SFunc _ _ _ _ => GC_FUNC | SCont _ _ _ _ => GC_CONT
  | SModule _ _ _ _ _ _ _ _ _ _ => GC_MODULE | SPort _ => GC_PORT
  | SVector _ _ => GC_VECTOR | SHash _ _ _ => GC_HASH | SEnv _ _ _ => GC_ENV
  | SString => GC_STRING | SSymbol => GC_SYMBOL | SNumber => GC_NUMBER
  | SPromise _ _ _ => GC_PROMISE | SMacro _ _ _ => GC_MACRO
  | SVariable _ => GC_VARIABLE | SSmob _ _ _ => GC_SMOB
  end.

(** the zeroed struct: memset(obj_start, 0, size), gc.cc 281-283 *)
Definition zero_obj (t : tag) : gobj :=
  match t with
  | GC_SCM => SScm T_NONE 0 | GC_LIST => SList 0 0 false | GC_PROC => SProc 0 0 0 0
  | GC_FUNC => SFunc 0 0 0 0 | GC_CONT => SCont None 0 0 0
  | GC_MODULE => SModule 0 0 0 0 0 0 0 0 0 0 | GC_PORT => SPort 0
  | GC_VECTOR => SVector None 0 | GC_HASH => SHash None 0 0 | GC_ENV => SEnv [] 0 0
  | GC_STRING => SString | GC_SYMBOL => SSymbol | GC_NUMBER => SNumber
  | GC_PROMISE => SPromise 0 0 false | GC_MACRO => SMacro 0 0 0
  | GC_VARIABLE => SVariable 0 | GC_SMOB => SSmob 0 0 0
  end.

(** struct GCBlock (gc.h 17-23) followed by its payload.  [age] is never read. *)
Record block := mkblock { bmark : bool; btag : tag; bsize : Z; bobj : gobj }.

(** struct HeapSegment, gc.cc 50-55 *)
Record seg := mkseg { sstart : Z; ssize : Z; sbump : Z }.

(** gc.cc 21-31 *)
Definition INITIAL_HEAP_SIZE : Z := 8 * 1024 * 1024.
(* gc.cc 21-31 *)
Definition GROWTH_SIZE : Z := 4 * 1024 * 1024.
(* gc.cc 21-31 *)
Definition MIN_THRESHOLD : Z := 2 * 1024 * 1024.
(* gc.cc 21-31 *)
Definition MAX_SEGMENTS : nat := 64.
(* gc.cc 21-31 *)
Definition NUM_FIXED_BUCKETS : nat := 4.
(* gc.cc 21-31 *)
Definition LARGE_BUCKET : nat := 4.
(* gc.cc 21-31 *)
Definition NUM_BUCKETS : nat := 5.
(* sizeof(GCBlock), gc.h 16-23 *)
Definition HEADER : Z := 16.

(** The global state of gc.cc 38-77.  [segs] are the segments that are no
    longer bumped, in list order; [cur] is [g_current_seg], always the last
    one appended (gc.cc 196-205). *)
Record gc := mkgc {
  mem : list (Z * block);
  segs : list seg;
  cur : seg;
  heap_lo : Z;
  heap_hi : Z;
  free : nat -> list Z;
  since : Z;
  live_bytes : Z;
  threshold : Z
}.
(* gc.cc 50-60: the segment list *)
Definition all_segs (s : gc) : list seg := segs s ++ [cur s].

(* model only: assignment to memory *)
Definition with_mem (s : gc) (m : list (Z * block)) : gc :=
  mkgc m (segs s) (cur s) (heap_lo s) (heap_hi s) (free s) (since s) (live_bytes s) (threshold s).
(* model only: assignment to free_lists, gc.cc 141-145 *)
Definition with_free (s : gc) (f : nat -> list Z) : gc :=
  mkgc (mem s) (segs s) (cur s) (heap_lo s) (heap_hi s) f (since s) (live_bytes s) (threshold s).

(** memory as a finite map *)
(* model only: the memory behind the pointers of gc.cc *)
Fixpoint lookup (m : list (Z * block)) (a : Z) : option block :=
  match m with
  | [] => None
  | (k, b) :: r => if k =? a then Some b else lookup r a
  end.
(* model only: a write to the memory behind the pointers of gc.cc *)
Fixpoint store (m : list (Z * block)) (a : Z) (b : block) : list (Z * block) :=
  match m with
  | [] => [(a, b)]
  | (k, c) :: r => if k =? a then (k, b) :: r else (k, c) :: store r a b
  end.

(** Reading the header at [a]: only mapped memory can be read. *)
(* model only: which addresses the segments of gc.cc 50-60 cover *)
Definition mapped (s : gc) (a : Z) : bool :=
  existsb (fun g => (sstart g <=? a) && (a + 16 <=? sstart g + ssize g)) (all_segs s).
(** the block with a valid magic at [a], if there is one; reading outside every
    segment is undefined behaviour *)
(* gc.h is_valid_block 85-90: block->magic *)
Definition read_header (s : gc) (a : Z) : res (option block) :=
  if mapped s a then Ok (lookup (mem s) a) else UB.

(** is_valid_block, gc.h 85-90 *)
Definition valid_block (s : gc) (a : Z) : res (option block) :=
  if (heap_lo s <=? a) && (a + 16 <=? heap_hi s) && (Z.land a 15 =? 0)
  then read_header s a
  else Ok None.

(* block->mark = v, gc.h GCBlock 16-23 *)
Definition set_mark (b : block) (v : bool) : block := mkblock v (btag b) (bsize b) (bobj b).

(** push_if_unmarked, gc.cc 117-123.  [std::vector] push_back/back/pop_back
    are the head of the list. *)
Definition push_if_unmarked (a : Z) (c : gc * list Z) : res (gc * list Z) :=
  let '(s, stk) := c in
  do o <- valid_block s a;
  match o with
  | None => Ok (s, stk)
  | Some b =>
      if bmark b then Ok (s, stk)
      else Ok (with_mem s (store (mem s) a (set_mark b true)), a :: stk)
  end.

(** trace_ptr, gc.cc 105-111 *)
Definition trace_ptr (p : Z) (c : gc * list Z) : res (gc * list Z) :=
  if p =? 0 then Ok c
  else
    do o <- valid_block (fst c) (p - HEADER);
    match o with
    | None => Ok c
    | Some _ => push_if_unmarked (p - HEADER) c
    end.

(** mark_if_valid_block, gc.cc 314-330 *)
Definition mark_if_valid_block (p : Z) (c : gc * list Z) : res (gc * list Z) :=
  if p =? 0 then Ok c
  else if (p <? heap_lo (fst c)) || (heap_hi (fst c) <=? p) then Ok c
  else if negb (Z.land (p - HEADER) 15 =? 0) then Ok c
  else
    do o <- read_header (fst c) (p - HEADER);
    match o with
    | None => Ok c
    | Some _ => push_if_unmarked (p - HEADER) c
    end.

(* model only: a for loop of gc.cc 332-389 *)
Fixpoint each (f : Z -> gc * list Z -> res (gc * list Z)) (ps : list Z) (c : gc * list Z)
  : res (gc * list Z) :=
  match ps with
  | [] => Ok c
  | p :: r => do c' <- f p c; each f r c'
  end.

(** The roots at the time of a collection, gc.cc 332-390: the registered root
    slots ([None]: a null slot pointer), the values of the global environment
    ([None]: a null entry), the registers saved by setjmp, and the words of the
    C stack ([None]: gc_set_stack_top was never called). *)
Record roots := mkroots {
  r_registered : list (option Z);
  r_globals : list (option Z);
  r_registers : list Z;
  r_stack : option (list Z)
}.
(* gc.cc 332-350: skipping null slots *)
Definition present (l : list (option Z)) : list Z :=
  flat_map (fun o => match o with Some p => [p] | None => [] end) l.

(** scan_conservative_roots, gc.cc 332-389 *)
Definition scan_roots (r : roots) (c : gc * list Z) : res (gc * list Z) :=
  do c1 <- each mark_if_valid_block (present (r_registered r)) c;
  do c2 <- each mark_if_valid_block
             (filter (fun p => negb (p =? 0)) (present (r_globals r))) c1;
  do c3 <- each mark_if_valid_block (r_registers r) c2;
  match r_stack r with
  | None => Ok c3
  | Some ws => each mark_if_valid_block ws c3
  end.

(** array reads: [elements[i]] for i < n *)
(* gc.cc trace_vector 578-583, trace_hash 586-591 *)
Definition array (a : option (list Z)) (n : Z) : res (list Z) :=
  if n <=? 0 then Ok []
  else match a with
       | None => UB
       | Some l => if n <=? Z.of_nat (length l) then Ok (firstn (Z.to_nat n) l) else UB
       end.

(** The trace functions, gc.cc 492-660 and 748-751: the pointers each one
    passes to trace_ptr, in order.  A payload of another struct than the tag
    says would be a wild cast. *)
(* gc.cc trace_scm 485-519 *)
Definition trace_scm (o : gobj) : res (list Z) :=
  match o with
  | SScm ty v =>
      if v =? 0 then Ok []
      else match ty with
           | T_LIST | T_PROC | T_CONT | T_FUNC | T_MACRO | T_HASH_TABLE | T_VECTOR
           | T_PORT | T_MODULE | T_VARIABLE | T_PROMISE | T_SMOB | T_STR | T_SYM
           | T_RATIO => Ok [v]
           | T_NUM | T_FLOAT | T_CHAR | T_BOOL | T_NONE | T_NIL => Ok []
           end
  | _ => UB
  end.
(* gc.cc trace_list 522-526 *)
Definition trace_list (o : gobj) : res (list Z) :=
  match o with SList d n _ => Ok [d; n] | _ => UB end.
(* gc.cc trace_proc 529-535 *)
Definition trace_proc (o : gobj) : res (list Z) :=
  match o with SProc nm ar bo en => Ok [nm; ar; bo; en] | _ => UB end.
(* gc.cc trace_func 538-543 *)
Definition trace_func (o : gobj) : res (list Z) :=
  match o with SFunc nm _ _ g => Ok [nm; g] | _ => UB end.
(* gc.cc trace_cont 546-552 *)
Definition trace_cont (o : gobj) : res (list Z) :=
  match o with SCont _ ar wc sm => Ok [ar; sm; wc] | _ => UB end.
(* gc.cc trace_module 555-567 *)
Definition trace_module (o : gobj) : res (list Z) :=
  match o with
  | SModule ob us bi ec tr nm ki pu ex au => Ok [ob; us; bi; ec; tr; nm; ki; pu; ex; au]
  | _ => UB
  end.
(* gc.cc trace_port 570-575 *)
Definition trace_port (o : gobj) : res (list Z) :=
  match o with SPort sp => Ok [sp] | _ => UB end.
(* gc.cc trace_vector 578-583 *)
Definition trace_vector (o : gobj) : res (list Z) :=
  match o with SVector el n => array el n | _ => UB end.
(* gc.cc trace_hash 586-591 *)
Definition trace_hash (o : gobj) : res (list Z) :=
  match o with SHash bs cap _ => array bs cap | _ => UB end.
(* gc.cc trace_env 594-611 *)
Definition trace_env (o : gobj) : res (list Z) :=
  match o with SEnv es pa mo => Ok (present es ++ [pa; mo]) | _ => UB end.
(* gc.cc trace_promise 629-633 *)
Definition trace_promise (o : gobj) : res (list Z) :=
  match o with SPromise th v _ => Ok [th; v] | _ => UB end.
(* gc.cc trace_macro 636-641 *)
Definition trace_macro (o : gobj) : res (list Z) :=
  match o with SMacro nm tr en => Ok [nm; tr; en] | _ => UB end.
(* gc.cc trace_variable 644-647 *)
Definition trace_variable (o : gobj) : res (list Z) :=
  match o with SVariable v => Ok [v] | _ => UB end.

(** the table trace_fns as filled in by gc_init, gc.cc 785-802; strings,
    symbols, rationals and smobs trace nothing (626-638, 748-751) *)
Definition trace_fn (t : tag) (o : gobj) : res (list Z) :=
  match t with
  | GC_SCM => trace_scm o | GC_LIST => trace_list o | GC_PROC => trace_proc o
  | GC_FUNC => trace_func o | GC_CONT => trace_cont o | GC_MODULE => trace_module o
  | GC_PORT => trace_port o | GC_VECTOR => trace_vector o | GC_HASH => trace_hash o
  | GC_ENV => trace_env o | GC_STRING | GC_SYMBOL | GC_NUMBER | GC_SMOB => Ok []
  | GC_PROMISE => trace_promise o | GC_MACRO => trace_macro o
  | GC_VARIABLE => trace_variable o
  end.

(** the loop of mark_phase, gc.cc 402-411 *)
Fixpoint mark_loop (fuel : nat) (c : gc * list Z) : res gc :=
  match snd c with
  | [] => Ok (fst c)
  | a :: stk =>
      match fuel with
      | O => Fuel
      | S f =>
          match lookup (mem (fst c)) a with
          | None => UB
          | Some b =>
              do ps <- trace_fn (btag b) (bobj b);
              do c' <- each trace_ptr ps (fst c, stk);
              mark_loop f c'
          end
      end
  end.
(** mark_phase, gc.cc 395-411 *)
Definition mark_phase (r : roots) (s : gc) : res gc :=
  do c <- scan_roots r (s, []);
  mark_loop (S (length (mem s))) c.

(** size_to_bucket, gc.cc 129-135 *)
Definition size_to_bucket (n : Z) : nat :=
  if n <=? 16 then 0%nat else if n <=? 32 then 1%nat else if n <=? 64 then 2%nat
  else if n <=? 128 then 3%nat else LARGE_BUCKET.
(** SIZE_CLASSES, gc.cc 25 *)
Definition class_size (b : nat) : Z :=
  match b with O => 16 | 1%nat => 32 | 2%nat => 64 | _ => 128 end.

(* free_lists[b] = ..., gc.cc 141-145 *)
Definition set_free (f : nat -> list Z) (b : nat) (l : list Z) : nat -> list Z :=
  fun i => if Nat.eqb i b then l else f i.

(** free_to_list, gc.cc 141-145 *)
Definition free_to_list (s : gc) (a : Z) (b : block) : gc :=
  let k := size_to_bucket (bsize b) in
  with_free s (set_free (free s) k (a :: free s k)).

(** The sweep functions, gc.cc 666-745: what they leave in the struct.  Strings,
    symbols and ports only release C memory the model does not represent. *)
Definition sweep_fn (t : tag) (o : gobj) : gobj :=
  match t, o with
  | GC_ENV, SEnv _ pa mo => SEnv [] pa mo                    (* 667-682 *)
  | GC_VECTOR, SVector _ n => SVector None n                 (* 697-703 *)
  | GC_HASH, SHash _ c n => SHash None c n                   (* 706-712 *)
  | GC_CONT, SCont _ a w m => SCont None a w m               (* 738-745 *)
  | _, _ => o
  end.

(** one iteration of the inner loop of sweep_phase, gc.cc 431-461; the second
    component is [total_live_bytes] *)
Definition sweep_block (a : Z) (b : block) (c : gc * Z) : gc * Z :=
  let '(s, tot) := c in
  if bmark b
  then (with_mem s (store (mem s) a (set_mark b false)), tot + (HEADER + bsize b))
  else
    let b' := mkblock (bmark b) (btag b) (bsize b) (sweep_fn (btag b) (bobj b)) in
    (free_to_list (with_mem s (store (mem s) a b')) a b', tot).
(** the inner loop of sweep_phase, gc.cc 430-462 *)
Fixpoint sweep_seg (fuel : nat) (ptr fin : Z) (c : gc * Z) : res (gc * Z) :=
  if fin <=? ptr then Ok c
  else
    match fuel with
    | O => Fuel
    | S f =>
        do o <- read_header (fst c) ptr;
        match o with
        | None => Ok c
        | Some b => sweep_seg f (ptr + (HEADER + bsize b)) fin (sweep_block ptr b c)
        end
    end.
(* model only: fuel for the inner loop of gc.cc 417-463 *)
Definition seg_fuel (g : seg) : nat := Z.to_nat ((sbump g - sstart g) / 16 + 1).
(* gc.cc sweep_phase 417-463: the loop over the segments *)
Fixpoint sweep_segs (gs : list seg) (c : gc * Z) : res (gc * Z) :=
  match gs with
  | [] => Ok c
  | g :: r => do c' <- sweep_seg (seg_fuel g) (sstart g) (sbump g) c; sweep_segs r c'
  end.
(** sweep_phase, gc.cc 417-463 *)
Definition sweep_phase (s : gc) : res gc :=
  do '(s1, tot) <- sweep_segs (all_segs s) (with_free s (fun _ => []), 0);
  let th := tot * 3 / 2 in
  Ok (mkgc (mem s1) (segs s1) (cur s1) (heap_lo s1) (heap_hi s1) (free s1) (since s1)
        tot (if th <? MIN_THRESHOLD then MIN_THRESHOLD else th)).

(** run_gc, gc.cc 469-473 *)
Definition run_gc (r : roots) (s : gc) : res gc :=
  do s1 <- mark_phase r s;
  do s2 <- sweep_phase s1;
  Ok (mkgc (mem s2) (segs s2) (cur s2) (heap_lo s2) (heap_hi s2) (free s2) 0
        (live_bytes s2) (threshold s2)).

(* gc.cc bump_allocate 151-208 *)
Definition round_up (n m : Z) : Z := (n + m - 1) / m * m.

(** bump_allocate, gc.cc 151-208.  [os] is the answer mmap would give to a
    request of that many bytes: [None] is MAP_FAILED (fatal). *)
Definition bump_allocate (os : Z -> option Z) (page : Z) (total : Z) (s : gc) : res (Z * gc) :=
  let total := if Z.land total 15 =? 0 then total else round_up total 16 in
  let bump := sbump (cur s) in
  let bump := if Z.land bump 15 =? 0 then bump else round_up bump 16 in
  if bump + total >? sstart (cur s) + ssize (cur s)
  then
    let grow := if total >? GROWTH_SIZE then total else GROWTH_SIZE in
    let grow := round_up grow page in
    match os grow with
    | None => Abort
    | Some st =>
        if Nat.leb MAX_SEGMENTS (S (length (segs s)))
        then UB     (* returns nullptr, 182-186; gc_alloc then writes through it *)
        else
          Ok (st, mkgc (mem s) (all_segs s) (mkseg st grow (st + total))
                    (Z.min (heap_lo s) st) (Z.max (heap_hi s) (st + grow))
                    (free s) (since s) (live_bytes s) (threshold s))
    end
  else
    Ok (bump, mkgc (mem s) (segs s) (mkseg (sstart (cur s)) (ssize (cur s)) (bump + total))
                (heap_lo s) (heap_hi s) (free s) (since s) (live_bytes s) (threshold s)).

(** the first-fit search of the large bucket, gc.cc 239-253: the block found
    and the list without it *)
Fixpoint first_fit (m : list (Z * block)) (n : Z) (l : list Z) : option (Z * list Z) :=
  match l with
  | [] => None
  | a :: r =>
      match lookup m a with
      | Some b => if n <=? bsize b then Some (a, r)
                  else match first_fit m n r with Some (x, r') => Some (x, a :: r') | None => None end
      | None => None
      end
  end.

(** the header written at the end of gc_alloc, gc.cc 270-283; [sz] is the size
    field at that point (a 32-bit bit-field, gc.h 21) *)
Definition install (a : Z) (t : tag) (sz : Z) (s : gc) : gc :=
  with_mem s (store (mem s) a (mkblock false t (sz mod 2 ^ 32) (zero_obj t))).

(** gc_alloc, gc.cc 214-289.  [r] are the roots should it collect. *)
Definition gc_alloc (os : Z -> option Z) (page : Z) (r : roots) (t : tag) (size : Z) (s : gc)
  : res (Z * gc) :=
  do s1 <- (if threshold s <=? since s then run_gc r s else Ok s);
  let s2 := mkgc (mem s1) (segs s1) (cur s1) (heap_lo s1) (heap_hi s1) (free s1)
              (since s1 + (16 + size)) (live_bytes s1) (threshold s1) in
  let k := size_to_bucket size in
  if Nat.ltb k NUM_FIXED_BUCKETS
  then
    match free s2 k with
    | a :: rest => Ok (a + HEADER, install a t (class_size k) (with_free s2 (set_free (free s2) k rest)))
    | [] => do '(a, s3) <- bump_allocate os page (16 + class_size k) s2;
            Ok (a + HEADER, install a t (class_size k) s3)
    end
  else
    match first_fit (mem s2) size (free s2 LARGE_BUCKET) with
    | Some (a, rest) =>
        let s3 := with_free s2 (set_free (free s2) LARGE_BUCKET rest) in
        match lookup (mem s3) a with
        | Some b => Ok (a + HEADER, install a t (bsize b) s3)
        | None => UB
        end
    | None => do '(a, s3) <- bump_allocate os page (16 + size) s2;
              Ok (a + HEADER, install a t size s3)
    end.

(** gc_init, gc.cc 758-821; [st] is where mmap put the first segment *)
Definition gc_init (st page : Z) : gc :=
  let size := round_up INITIAL_HEAP_SIZE page in
  mkgc [] [] (mkseg st size st) st (st + size) (fun _ => []) 0 0 (INITIAL_HEAP_SIZE / 2).

(** what the rest of the program does to a block it holds: it overwrites the
    struct behind the pointer *)
(* model only: stores by the rest of the program *)
Definition write_obj (s : gc) (p : Z) (o : gobj) : res gc :=
  match lookup (mem s) (p - HEADER) with
  | Some b => Ok (with_mem s (store (mem s) (p - HEADER) (mkblock (bmark b) (btag b) (bsize b) o)))
  | None => UB
  end.

(** sizeof of each struct handed to gc_alloc by the program (LP64, glibc
    jmp_buf of 200 bytes); see the [gc_alloc(GC_x, sizeof(SCM_x))] calls *)
(* pscm_types.h 17-182: sizeof of the structs *)
Definition sizeof (t : tag) : Z :=
  match t with
  | GC_SCM => 24 | GC_LIST => 24 | GC_PROC => 32 | GC_FUNC => 32 | GC_CONT => 256
  | GC_MODULE => 80 | GC_PORT => 64 | GC_VECTOR => 16 | GC_HASH => 24 | GC_ENV => 32
  | GC_STRING => 16 | GC_SYMBOL => 16 | GC_NUMBER => 16 | GC_PROMISE => 24
  | GC_MACRO => 24 | GC_VARIABLE => 8 | GC_SMOB => 40
  end.
