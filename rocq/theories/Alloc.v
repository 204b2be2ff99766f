(** Managed allocation: heap and stack memory of a function, and the pass that moves
    malloc/alloca to the entry and free to the exits.

    Modelled: sdfg/src/passes/memory/allocation_management.cpp:16-216
    (can_be_applied_allocation, apply_allocation, can_be_applied_deallocation,
    apply_deallocation), the code of managed containers at function entry and exit
    (sdfg/src/codegen/code_generators/c_code_generator.cpp:161-227) and at a return
    (sdfg/src/codegen/dispatchers/while_dispatcher.cpp:92-112), the library nodes
    Malloc, Alloca and Free (sdfg/src/data_flow/library_nodes/stdlib).
    Simplified: a statement does one access (blocks with several nodes are several
    statements), scalars are integers, memory is a sequence of cells indexed from 0,
    sizes count cells; reading a cell never written, accesses outside a buffer,
    through an undefined or released pointer, and releasing anything but the start of
    a live heap buffer are undefined (no execution). Break and continue are left out.
    A buffer is identified by the container it was allocated for and a counter (the
    addresses malloc returns are not observable). *)
From Verif Require Import Sym SymFacts.

Inductive kind := Heap | Stack.
Record buffer := Buf { b_kind : kind; b_size : Z; b_cells : Z -> option Z }.
Definition ident : Type := string * nat.
(** Scalars, pointers (buffer and offset; None: uninitialised), memory, and the number
    of allocations made so far for each container. *)
Record machine := Mc { data : env; ptr : string -> option (ident * Z); heap : ident -> option buffer; cnt : string -> nat }.

(** Statements of a function: scalar assignment, load [y = x[e]], store [x[e] = v],
    pointer assignment [y = x + e] (reference memlet), allocation, release, branches,
    loops, return. *)
Inductive stm :=
| SSet (y : string) (e : expr)
| SLoad (y x : string) (e : expr)
| SStore (x : string) (e v : expr)
| SView (y x : string) (e : expr)
| SAlloc (x : string) (k : kind) (n : expr)
| SFree (x : string)
| SIf (c : cond) (p q : list stm)
| SWhile (c : cond) (p : list stm)
| SReturn (e : option expr).

Definition ideqb (a b : ident) : bool := String.eqb (fst a) (fst b) && Nat.eqb (snd a) (snd b).
Definition upd {A} (f : string -> A) (x : string) (v : A) : string -> A := fun y => if String.eqb x y then v else f y.
Definition updh {A} (f : ident -> A) (b : ident) (v : A) : ident -> A := fun c => if ideqb b c then v else f c.
Definition set_data (m : machine) (y : string) (v : Z) : machine := Mc (upd (data m) y v) (ptr m) (heap m) (cnt m).
Definition set_ptr (m : machine) (y : string) (p : ident * Z) : machine := Mc (data m) (upd (ptr m) y (Some p)) (heap m) (cnt m).
Definition set_heap (m : machine) (b : ident) (B : option buffer) : machine := Mc (data m) (ptr m) (updh (heap m) b B) (cnt m).
(** [x = malloc(n)] / [x = alloca(n)]: a new buffer with undefined contents
    (stdlib/malloc.cpp, alloca.cpp: dispatch_code). *)
Definition alloc (m : machine) (x : string) (k : kind) (n : Z) : machine :=
  Mc (data m) (upd (ptr m) x (Some ((x, cnt m x), 0))) (updh (heap m) (x, cnt m x) (Some (Buf k n (fun _ => None))))
     (upd (cnt m) x (S (cnt m x))).
Definition cell_upd (f : Z -> option Z) (i v : Z) : Z -> option Z := fun j => if Z.eqb i j then Some v else f j.

Inductive outcome := Next | Ret (v : option Z).

(** [released m x m']: free(x) (stdlib/free.cpp: dispatch_code). *)
Inductive released (m : machine) (x : string) : machine -> Prop :=
| Released b n f : ptr m x = Some (b, 0) -> heap m b = Some (Buf Heap n f) -> released m x (set_heap m b None).

(** [at_cell m x e b i B]: x[e] is cell i of the live buffer b with contents B. *)
Definition at_cell (m : machine) (x : string) (e : expr) (b : ident) (i : Z) (B : buffer) : Prop :=
  exists k j, ptr m x = Some (b, k) /\ heap m b = Some B /\ eval (data m) e = Some j /\ i = k + j /\ 0 <= i < b_size B.

Inductive run : stm -> machine -> outcome -> machine -> Prop :=
| X_set y e m v : eval (data m) e = Some v -> run (SSet y e) m Next (set_data m y v)
| X_load y x e m b i B v : at_cell m x e b i B -> b_cells B i = Some v -> run (SLoad y x e) m Next (set_data m y v)
| X_store x e v m b i B z : at_cell m x e b i B -> eval (data m) v = Some z ->
    run (SStore x e v) m Next (set_heap m b (Some (Buf (b_kind B) (b_size B) (cell_upd (b_cells B) i z))))
| X_view y x e m b k j : ptr m x = Some (b, k) -> eval (data m) e = Some j -> run (SView y x e) m Next (set_ptr m y (b, k + j))
| X_alloc x k n m z : eval (data m) n = Some z -> 0 <= z -> run (SAlloc x k n) m Next (alloc m x k z)
| X_free x m m' : released m x m' -> run (SFree x) m Next m'
| X_if c p q m t o m' : cev (data m) c = Some t -> runs (if t : bool then p else q) m o m' -> run (SIf c p q) m o m'
| X_stop c p m : cev (data m) c = Some false -> run (SWhile c p) m Next m
| X_again c p m m1 o m' : cev (data m) c = Some true -> runs p m Next m1 -> run (SWhile c p) m1 o m' -> run (SWhile c p) m o m'
| X_leave c p m v m' : cev (data m) c = Some true -> runs p m (Ret v) m' -> run (SWhile c p) m (Ret v) m'
| X_ret m : run (SReturn None) m (Ret None) m
| X_retv e m v : eval (data m) e = Some v -> run (SReturn (Some e)) m (Ret (Some v)) m
with runs : list stm -> machine -> outcome -> machine -> Prop :=
| X_nil m : runs [] m Next m
| X_cons a p m m1 o m' : run a m Next m1 -> runs p m1 o m' -> runs (a :: p) m o m'
| X_exit a p m v m' : run a m (Ret v) m' -> runs (a :: p) m (Ret v) m'.

(** types::StorageType of a pointer container: location, allocation size, and who
    allocates and releases it (sdfg/include/sdfg/types/type.h). *)
Record storage := Sto { st_kind : kind; st_size : option expr; st_alloc : bool; st_free : bool }.
(** A function: names of its arguments, storage types of its pointer containers, root. *)
Record func := Fun { f_args : list string; f_types : list (string * storage); f_root : list stm }.

(** c_code_generator.cpp:176-200: managed allocations at function entry, one container
    after the other. *)
Inductive entry : list (string * storage) -> machine -> machine -> Prop :=
| E_nil m : entry [] m m
| E_skip x t r m m' : st_alloc t = false -> entry r m m' -> entry ((x, t) :: r) m m'
| E_alloc x t r m n z m' : st_alloc t = true -> st_size t = Some n -> eval (data m) n = Some z -> 0 <= z ->
    entry r (alloc m x (st_kind t) z) m' -> entry ((x, t) :: r) m m'.
(** c_code_generator.cpp:209-225 and while_dispatcher.cpp:95-110: managed releases at
    the end and before every return (heap containers only). *)
Inductive exits : list (string * storage) -> machine -> machine -> Prop :=
| Q_nil m : exits [] m m
| Q_skip x t r m m' : st_free t = false \/ st_kind t = Stack -> exits r m m' -> exits ((x, t) :: r) m m'
| Q_free x t r m m1 m' : st_free t = true -> st_kind t = Heap -> released m x m1 -> exits r m1 m' -> exits ((x, t) :: r) m m'.
(** memory obtained with alloca disappears when the function returns *)
Definition drop_stack (m : machine) : machine :=
  Mc (data m) (ptr m) (fun b => match heap m b with Some (Buf Stack _ _) => None | h => h end) (cnt m).
(** One call of the function. *)
Inductive call (F : func) (m : machine) (o : outcome) : machine -> Prop :=
| Call m1 m2 m3 : entry (f_types F) m m1 -> runs (f_root F) m1 o m2 -> exits (f_types F) m2 m3 -> call F m o (drop_stack m3).

(** The uses of pointer container [x] (Users: reads, writes, views and moves;
    users.cpp:81-200). *)
Fixpoint uses (x : string) (s : stm) : bool :=
  match s with
  | SSet _ _ | SReturn _ => false
  | SLoad _ z _ | SStore z _ _ | SAlloc z _ _ | SFree z => String.eqb x z
  | SView y z _ => String.eqb x y || String.eqb x z
  | SIf _ p q => existsb (uses x) p || existsb (uses x) q
  | SWhile _ p => existsb (uses x) p
  end.
(** a return somewhere in the statement *)
Fixpoint has_ret (s : stm) : bool :=
  match s with
  | SReturn _ => true
  | SIf _ p q => existsb has_ret p || existsb has_ret q
  | SWhile _ p => existsb has_ret p
  | _ => false
  end.
(** a return that can follow a use of [x] on some path of the users graph *)
Fixpoint ret_after (x : string) (s : stm) : bool :=
  let fix go (l : list stm) : bool :=
    match l with [] => false | a :: r => ret_after x a || (uses x a && existsb has_ret r) || go r end in
  match s with
  | SIf _ p q => go p || go q
  | SWhile _ p => existsb (uses x) p && existsb has_ret p
  | _ => false
  end.
Fixpoint rets_after (x : string) (l : list stm) : bool :=
  match l with [] => false | a :: r => ret_after x a || (uses x a && existsb has_ret r) || rets_after x r end.
(** the scalars a statement writes *)
Fixpoint sets (y : string) (s : stm) : bool :=
  match s with
  | SSet z _ | SLoad z _ _ => String.eqb y z
  | SIf _ p q => existsb (sets y) p || existsb (sets y) q
  | SWhile _ p => existsb (sets y) p
  | _ => false
  end.

(** can_be_applied_allocation (allocation_management.cpp:16-82) for the child after
    [pre] of the root: an allocation; its size uses arguments only; it dominates all
    other uses. Simplified: a root child dominates exactly the later children (the
    earlier ones are reached first), so the criterion is that no earlier child uses the
    container; code after a return is not looked at. *)
Definition can_alloc (F : func) (pre : list stm) (s : stm) : bool :=
  match s with
  | SAlloc x _ n => forallb (fun y => existsb (String.eqb y) (f_args F)) (atoms n) && negb (existsb (uses x) pre)
  | _ => false
  end.
(** can_be_applied_deallocation (allocation_management.cpp:127-179): a release that
    post-dominates all other uses: none comes later, and no return can follow one that
    comes earlier. *)
Definition can_free (pre : list stm) (s : stm) (post : list stm) : bool :=
  match s with
  | SFree x => negb (existsb (uses x) post) && negb (rets_after x pre)
  | _ => false
  end.
Definition set_type (x : string) (f : storage -> storage) (l : list (string * storage)) : list (string * storage) :=
  map (fun p => if String.eqb x (fst p) then (fst p, f (snd p)) else p) l.
(** apply_allocation (allocation_management.cpp:84-125), apply_deallocation (181-205) *)
Definition apply_alloc (F : func) (pre : list stm) (s : stm) (post : list stm) : func :=
  match s with
  | SAlloc x k n => Fun (f_args F) (set_type x (fun t => Sto k (Some n) true (st_free t)) (f_types F)) (pre ++ post)
  | _ => F
  end.
Definition apply_free (F : func) (pre : list stm) (s : stm) (post : list stm) : func :=
  match s with
  | SFree x => Fun (f_args F) (set_type x (fun t => Sto Heap (st_size t) (st_alloc t) true) (f_types F)) (pre ++ post)
  | _ => F
  end.
(** accept (allocation_management.cpp:207-224), one application of the pass. *)
Inductive managed : func -> func -> Prop :=
| M_alloc F pre s post : f_root F = pre ++ s :: post -> can_alloc F pre s = true -> managed F (apply_alloc F pre s post)
| M_free F pre s post : f_root F = pre ++ s :: post -> can_free pre s post = true -> managed F (apply_free F pre s post).
