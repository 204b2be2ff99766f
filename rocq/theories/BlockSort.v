(** Code motion before offloading: the pass that sorts the blocks of a sequence, moving
    allocations, memsets and references up and releases down.

    Modelled: opt/src/passes/offloading/code_motion/block_sorting.cpp:33-349
    (BlockSortingPass: bubble_up, bubble_down, sort, can_be_bubbled_up,
    can_be_bubbled_down, get_prio_and_order, is_reference_block, is_libnode_block),
    the container uses of a block (sdfg/src/analysis/users.cpp:81-173), and memset
    (sdfg/src/data_flow/library_nodes/stdlib/memset.cpp), on the memory of Alloc.v.
    Simplified: a block is a list of single accesses; memory holds integers (no
    Dereference memlets) and sizes count cells; calloc, data offloading nodes and
    library nodes with effects outside memory are left out; a conditional has two
    branches; a structured loop runs its initialisation, then tests, body and update;
    the assignments of a transition run in list order. *)
From Verif Require Import Sym SymFacts Alloc.

(** The accesses a block is made of: [Set y e] scalar tasklet, [Load]/[Store] tasklets
    reading or writing x[e], [View] a reference memlet y = x + e, [New]/[Free]/[Fill]
    the library nodes malloc/alloca, free and memset (value v, n cells). *)
Inductive ins :=
| Put (y : string) (e : expr)
| Load (y x : string) (e : expr)
| Store (x : string) (e v : expr)
| View (y x : string) (e : expr)
| New (x : string) (k : kind) (n : expr)
| Free (x : string)
| Fill (x : string) (v n : expr).

(** Control flow: a child of a sequence carries the assignments of its transition. *)
Inductive node :=
| NBlk (l : list ins)
| NSeq (p : list (node * list ins))
| NIf (c : cond) (p q : list (node * list ins))
| NLoop (init : list ins) (c : cond) (upd : list ins) (p : list (node * list ins))
| NBreak | NCont | NReturn.
Definition child : Type := node * list ins.

(** One access. *)
Inductive step : ins -> machine -> machine -> Prop :=
| P_put y e m v : eval (data m) e = Some v -> step (Put y e) m (set_data m y v)
| P_load y x e m b i B v : at_cell m x e b i B -> b_cells B i = Some v -> step (Load y x e) m (set_data m y v)
| P_store x e v m b i B z : at_cell m x e b i B -> eval (data m) v = Some z ->
    step (Store x e v) m (set_heap m b (Some (Buf (b_kind B) (b_size B) (cell_upd (b_cells B) i z))))
| P_view y x e m b k j : ptr m x = Some (b, k) -> eval (data m) e = Some j -> step (View y x e) m (set_ptr m y (b, k + j))
| P_new x k n m z : eval (data m) n = Some z -> 0 <= z -> step (New x k n) m (alloc m x k z)
| P_free x m m' : released m x m' -> step (Free x) m m'
| P_fill x v n m b k B z j : ptr m x = Some (b, k) -> heap m b = Some B -> eval (data m) v = Some z -> eval (data m) n = Some j ->
    0 <= k -> 0 <= j -> k + j <= b_size B ->
    step (Fill x v n) m (set_heap m b (Some (Buf (b_kind B) (b_size B) (fun i => if (k <=? i) && (i <? k + j) then Some z else b_cells B i)))).
Inductive steps : list ins -> machine -> machine -> Prop :=
| S_nil m : steps [] m m
| S_cons a l m m1 m2 : step a m m1 -> steps l m1 m2 -> steps (a :: l) m m2.

Inductive out := Nxt | Brk | Cnt | Rtn.
Inductive exec : node -> machine -> out -> machine -> Prop :=
| X_blk l m m1 : steps l m m1 -> exec (NBlk l) m Nxt m1
| X_seq p m o m1 : execs p m o m1 -> exec (NSeq p) m o m1
| X_if c p q m t o m1 : cev (data m) c = Some t -> execs (if t : bool then p else q) m o m1 -> exec (NIf c p q) m o m1
| X_loop init c upd p m m1 o m2 : steps init m m1 -> iter c upd p m1 o m2 -> exec (NLoop init c upd p) m o m2
| X_brk m : exec NBreak m Brk m
| X_cnt m : exec NCont m Cnt m
| X_rtn m : exec NReturn m Rtn m
with execs : list child -> machine -> out -> machine -> Prop :=
| X_nil m : execs [] m Nxt m
| X_cons n tr p m m1 m2 o m3 : exec n m Nxt m1 -> steps tr m1 m2 -> execs p m2 o m3 -> execs ((n, tr) :: p) m o m3
| X_exit n tr p m o m1 : exec n m o m1 -> o <> Nxt -> execs ((n, tr) :: p) m o m1
with iter : cond -> list ins -> list child -> machine -> out -> machine -> Prop :=
| T_stop c upd p m : cev (data m) c = Some false -> iter c upd p m Nxt m
| T_again c upd p m o1 m1 m2 o m3 : cev (data m) c = Some true -> execs p m o1 m1 -> o1 = Nxt \/ o1 = Cnt -> steps upd m1 m2 ->
    iter c upd p m2 o m3 -> iter c upd p m o m3
| T_break c upd p m m1 : cev (data m) c = Some true -> execs p m Brk m1 -> iter c upd p m Nxt m1
| T_return c upd p m m1 : cev (data m) c = Some true -> execs p m Rtn m1 -> iter c upd p m Rtn m1.

(** users.cpp:81-173: the containers a block uses, the symbols of subsets and library
    nodes included. *)
Definition names1 (a : ins) : list string :=
  match a with
  | Put y e => y :: atoms e
  | Load y x e => y :: x :: atoms e
  | Store x e v => x :: atoms e ++ atoms v
  | View y x e => y :: x :: atoms e
  | New x _ n => x :: atoms n
  | Free x => [x]
  | Fill x v n => x :: atoms v ++ atoms n
  end.
Definition names (l : list ins) : list string := flat_map names1 l.
Definition inb (x : string) (l : list string) : bool := existsb (String.eqb x) l.

(** can_be_bubbled_up (258-273), with is_reference_block (320-333) and is_libnode_block
    (335-345): a single reference, or a single malloc, alloca or memset. *)
Definition can_up (l : list ins) : bool :=
  match l with [View _ _ _] | [New _ _ _] | [Fill _ _ _] => true | _ => false end.
(** can_be_bubbled_down (275-285) *)
Definition can_down (l : list ins) : bool := match l with [Free _] => true | _ => false end.
(** get_prio_and_order (287-318); [None] is INT_MIN *)
Definition prio (l : list ins) : option Z * string :=
  match l with
  | [New x _ _] | [Free x] => (Some 300, x)
  | [Fill x _ _] => (Some 200, x)
  | [View _ _ _] => (Some 100, "")
  | _ => (None, "")
  end%string.
(** [cur] stays before [nxt] by priority (99-105, 177-183): higher priority, or the
    same priority and an order not greater. *)
Definition before (cur nxt : option Z * string) : bool :=
  match fst cur, fst nxt with
  | Some a, Some b => (b <? a) || ((a =? b) && String.leb (snd cur) (snd nxt))
  | Some _, None => true
  | None, Some _ => false
  | None, None => String.leb (snd cur) (snd nxt)
  end.
Definition is_nil {A} (l : list A) : bool := match l with [] => true | _ => false end.
(** the tests shared by bubble_up (39-105) and bubble_down (117-183): no assignments,
    both blocks, no container in common, the moved block may move, its priority. *)
Definition may (can : list ins -> bool) (cur nxt : child) : bool :=
  match cur, nxt with
  | (NBlk a, ta), (NBlk b, tb) =>
      is_nil ta && is_nil tb && forallb (fun x => negb (inb x (names a))) (names b) && can b && negb (before (prio a) (prio b))
  | _, _ => false
  end.
(** the inner loops of sort (226-231, 237-242): a child moves up over the (reversed)
    children before it, or down over the ones after it, as long as it may. *)
Fixpoint ins_up (x : child) (acc : list child) : list child :=
  match acc with
  | c :: r => if may can_up c x then c :: ins_up x r else x :: c :: r
  | [] => [x]
  end.
Fixpoint ins_down (x : child) (r : list child) : list child :=
  match r with
  | c :: r' => if may can_down c x then c :: ins_down x r' else x :: c :: r'
  | [] => [x]
  end.
Definition jump (n : node) : bool := match n with NBreak | NCont | NReturn => true | _ => false end.
(** sort, first loop (202-233) with recursion [f]: returns the (reversed) children up
    to and including the first jump, and the rest. *)
Section Sort.
Variable f : node -> node.
Fixpoint up_loop (acc p : list child) : list child * list child :=
  match p with
  | [] => (acc, [])
  | (n, tr) :: r => if jump n then ((n, tr) :: acc, r) else up_loop (ins_up (f n, tr) acc) r
  end.
(** sort, second loop (236-244) *)
Definition sort_with (p : list child) : list child :=
  let (acc, r) := up_loop [] p in fold_right ins_down [] (rev acc) ++ r.
End Sort.
Fixpoint sort_node (n : node) : node :=
  match n with
  | NSeq p => NSeq (sort_with sort_node p)
  | NIf c p q => NIf c (sort_with sort_node p) (sort_with sort_node q)
  | NLoop i c u p => NLoop i c u (sort_with sort_node p)
  | _ => n
  end.
(** BlockSortingPass::sort on a sequence (run_pass, 248-250, calls it on the root). *)
Definition sort (p : list child) : list child := sort_with sort_node p.
