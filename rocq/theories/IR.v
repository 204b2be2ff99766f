(** Structured SDFGs and their execution.

    Models sdfg/include/sdfg/structured_control_flow/*.h and the meaning the C
    code generator gives them (sdfg/src/codegen/dispatchers/*.cpp).

    Simplifications:
    - one flat store maps (container, multi-index) to integers; an integer
      scalar (symbol) is the container read at the empty index; containers do
      not alias and have no bounds;
    - a block is the list of its tasklets in the topological order in which
      block_dispatcher.cpp:50-71 emits them; reference/dereference memlets and
      library nodes are not part of a block here;
    - tasklet op-codes are interpreted by an arbitrary function
      [I : nat -> list Z -> option Z] ([None] = trap), so theorems hold for
      every tasklet semantics;
    - transition assignments (an unordered_map in the code) are a list executed
      in order: theorems quantify over every order. *)
From Verif Require Export Sym.

Definition store := string -> list Z -> Z.
(** symbol values *)
Definition env_of (st : store) : env := fun x => st x [].
Fixpoint idx_eqb (i j : list Z) : bool :=
  match i, j with
  | [], [] => true
  | a :: i', b :: j' => (a =? b) && idx_eqb i' j'
  | _, _ => false
  end.
Definition wr (st : store) (x : string) (i : list Z) (v : Z) : store :=
  fun y j => if String.eqb x y && idx_eqb i j then v else st y j.

(** Tasklet inputs: ConstantNode, or AccessNode + memlet subset
    (data_flow/access_node.h, data_flow/memlet.h). *)
Inductive operand := OConst (z : Z) | ORead (x : string) (sub : list expr).
(** A tasklet with its memlets (data_flow/tasklet.h). *)
Record op := { o_code : nat; o_ins : list operand; o_out : string; o_sub : list expr }.
Definition block := list op.

Definition assigns := list (string * expr).

Inductive kind := KFor | KMap.     (* structured_control_flow/for.h, map.h *)

(** ControlFlowNode / Sequence / IfElse cases.  [SCons n a r]: child [n] with
    the assignments [a] of its transition, followed by [r] (sequence.h). *)
Inductive node :=
| NBlock (b : block)
| NSeq (s : seq)
| NIf (bs : brs)
| NWhile (s : seq)
| NLoop (k : kind) (i : string) (init : expr) (c : cond) (u : expr) (s : seq)
| NBreak | NContinue | NReturn (r : string)
with seq := SNil | SCons (n : node) (a : assigns) (r : seq)
with brs := BNil | BCons (c : cond) (s : seq) (r : brs).

Scheme node_mind := Induction for node Sort Prop
with seq_mind := Induction for seq Sort Prop
with brs_mind := Induction for brs Sort Prop.
Combined Scheme ir_mind from node_mind, seq_mind, brs_mind.

(** How control leaves a node. *)
Inductive outcome := ONorm | OBrk | OCont | ORet (r : string).

Fixpoint evals (s : env) (l : list expr) : option (list Z) :=
  match l with
  | [] => Some []
  | e :: l' => match eval s e, evals s l' with Some v, Some vs => Some (v :: vs) | _, _ => None end
  end.

Section Semantics.
  Variable I : nat -> list Z -> option Z.

  Definition read_in (st : store) (o : operand) : option Z :=
    match o with
    | OConst z => Some z
    | ORead x sub => match evals (env_of st) sub with Some i => Some (st x i) | None => None end
    end.
  Fixpoint reads_in (st : store) (l : list operand) : option (list Z) :=
    match l with
    | [] => Some []
    | o :: l' => match read_in st o, reads_in st l' with Some v, Some vs => Some (v :: vs) | _, _ => None end
    end.
  (** block_dispatcher.cpp:245-330 (dispatch_tasklet): load the inputs into
      locals, compute, store the output. *)
  Definition exec_op (st : store) (o : op) : option store :=
    match reads_in st (o_ins o), evals (env_of st) (o_sub o) with
    | Some vs, Some i => match I (o_code o) vs with Some v => Some (wr st (o_out o) i v) | None => None end
    | _, _ => None
    end.
  Fixpoint exec_block (st : store) (b : block) : option store :=
    match b with [] => Some st | o :: b' => match exec_op st o with Some st' => exec_block st' b' | None => None end end.
  (** sequence_dispatcher.cpp:35-45 *)
  Fixpoint exec_assigns (st : store) (a : assigns) : option store :=
    match a with
    | [] => Some st
    | (x, e) :: a' => match eval (env_of st) e with Some v => exec_assigns (wr st x [] v) a' | None => None end
    end.

  (** Big-step execution: [run n st o st'] holds iff [n] started in [st]
      terminates without undefined behaviour in [st'], leaving via [o].
      - while: "while (1) { ... }", while_dispatcher.cpp:22-38;
      - loops: "for (i = init; cond; i = update) { ... }", for_dispatcher.cpp:24-49,
        map_dispatcher.cpp:51-78 (sequential schedule);
      - if/else-if chain, if_else_dispatcher.cpp:22-52. *)
  Inductive run : node -> store -> outcome -> store -> Prop :=
  | R_block b st st' : exec_block st b = Some st' -> run (NBlock b) st ONorm st'
  | R_seq s st o st' : runs s st o st' -> run (NSeq s) st o st'
  | R_if bs st o st' : runb bs st o st' -> run (NIf bs) st o st'
  | R_while s st o st' : runw s st o st' -> run (NWhile s) st o st'
  | R_loop k i init c u s st v o st' :
      eval (env_of st) init = Some v -> runl i c u s (wr st i [] v) o st' ->
      run (NLoop k i init c u s) st o st'
  | R_break st : run NBreak st OBrk st
  | R_continue st : run NContinue st OCont st
  | R_return r st : run (NReturn r) st (ORet r) st
  with runs : seq -> store -> outcome -> store -> Prop :=
  | R_nil st : runs SNil st ONorm st
  | R_cons n a r st st1 st2 o st' :
      run n st ONorm st1 -> exec_assigns st1 a = Some st2 -> runs r st2 o st' ->
      runs (SCons n a r) st o st'
  | R_exit n a r st o st' : run n st o st' -> o <> ONorm -> runs (SCons n a r) st o st'
  with runb : brs -> store -> outcome -> store -> Prop :=
  | R_bnil st : runb BNil st ONorm st
  | R_btrue c s r st o st' : cev (env_of st) c = Some true -> runs s st o st' -> runb (BCons c s r) st o st'
  | R_bfalse c s r st o st' : cev (env_of st) c = Some false -> runb r st o st' -> runb (BCons c s r) st o st'
  with runw : seq -> store -> outcome -> store -> Prop :=
  | R_wnext s st o1 st1 o st' :
      runs s st o1 st1 -> o1 = ONorm \/ o1 = OCont -> runw s st1 o st' -> runw s st o st'
  | R_wbreak s st st' : runs s st OBrk st' -> runw s st ONorm st'
  | R_wret s st r st' : runs s st (ORet r) st' -> runw s st (ORet r) st'
  with runl : string -> cond -> expr -> seq -> store -> outcome -> store -> Prop :=
  | R_lend i c u s st : cev (env_of st) c = Some false -> runl i c u s st ONorm st
  | R_lnext i c u s st o1 st1 v o st' :
      cev (env_of st) c = Some true -> runs s st o1 st1 -> o1 = ONorm \/ o1 = OCont ->
      eval (env_of st1) u = Some v -> runl i c u s (wr st1 i [] v) o st' -> runl i c u s st o st'
  | R_lbreak i c u s st st' :
      cev (env_of st) c = Some true -> runs s st OBrk st' -> runl i c u s st ONorm st'
  | R_lret i c u s st r st' :
      cev (env_of st) c = Some true -> runs s st (ORet r) st' -> runl i c u s st (ORet r) st'.

  (** Executable interpreter (used for the refutation witnesses). *)
  Fixpoint xnode (n : nat) (p : node) (st : store) {struct n} : option (outcome * store) :=
    match n with
    | O => None
    | S n =>
      match p with
      | NBlock b => option_map (fun st' => (ONorm, st')) (exec_block st b)
      | NSeq s => xseq n s st
      | NIf bs => xbrs n bs st
      | NWhile s => match xseq n s st with
                    | Some (ONorm, st1) | Some (OCont, st1) => xnode n (NWhile s) st1
                    | Some (OBrk, st1) => Some (ONorm, st1)
                    | r => r
                    end
      | NLoop k i init c u s =>
          match eval (env_of st) init with Some v => xloop n i c u s (wr st i [] v) | None => None end
      | NBreak => Some (OBrk, st)
      | NContinue => Some (OCont, st)
      | NReturn r => Some (ORet r, st)
      end
    end
  with xseq (n : nat) (p : seq) (st : store) {struct n} : option (outcome * store) :=
    match n with
    | O => None
    | S n =>
      match p with
      | SNil => Some (ONorm, st)
      | SCons q a r => match xnode n q st with
                       | Some (ONorm, st1) => match exec_assigns st1 a with Some st2 => xseq n r st2 | None => None end
                       | res => res
                       end
      end
    end
  with xbrs (n : nat) (p : brs) (st : store) {struct n} : option (outcome * store) :=
    match n with
    | O => None
    | S n =>
      match p with
      | BNil => Some (ONorm, st)
      | BCons c s r => match cev (env_of st) c with
                       | Some true => xseq n s st
                       | Some false => xbrs n r st
                       | None => None
                       end
      end
    end
  with xloop (n : nat) (i : string) (c : cond) (u : expr) (s : seq) (st : store) {struct n} : option (outcome * store) :=
    match n with
    | O => None
    | S n =>
      match cev (env_of st) c with
      | Some false => Some (ONorm, st)
      | Some true =>
          match xseq n s st with
          | Some (ONorm, st1) | Some (OCont, st1) =>
              match eval (env_of st1) u with Some v => xloop n i c u s (wr st1 i [] v) | None => None end
          | Some (OBrk, st1) => Some (ONorm, st1)
          | res => res
          end
      | None => None
      end
    end.
End Semantics.

Scheme run_ind' := Minimality for run Sort Prop
with runs_ind' := Minimality for runs Sort Prop
with runb_ind' := Minimality for runb Sort Prop
with runw_ind' := Minimality for runw Sort Prop
with runl_ind' := Minimality for runl Sort Prop.
Combined Scheme run_mind from run_ind', runs_ind', runb_ind', runw_ind', runl_ind'.

Fixpoint sapp (s t : seq) : seq :=
  match s with SNil => t | SCons n a r => SCons n a (sapp r t) end.
Fixpoint slen (s : seq) : nat := match s with SNil => O | SCons _ _ r => S (slen r) end.
Fixpoint blen (s : brs) : nat := match s with BNil => O | BCons _ _ r => S (blen r) end.

(** All container names occurring (read or written), and those written. *)
Definition opnames (o : operand) : list string :=
  match o with OConst _ => [] | ORead x sub => x :: concat (map atoms sub) end.
Definition op_names (o : op) : list string :=
  o_out o :: concat (map opnames (o_ins o)) ++ concat (map atoms (o_sub o)).
Definition block_names (b : block) : list string := concat (map op_names b).
Definition asg_names (a : assigns) : list string := concat (map (fun xe => fst xe :: atoms (snd xe)) a).

Fixpoint nnames (n : node) : list string :=
  match n with
  | NBlock b => block_names b
  | NSeq s | NWhile s => snames s
  | NIf bs => bnames bs
  | NLoop _ i init c u s => i :: atoms init ++ catoms c ++ atoms u ++ snames s
  | NReturn r => [r]
  | NBreak | NContinue => []
  end
with snames (s : seq) : list string :=
  match s with SNil => [] | SCons n a r => nnames n ++ asg_names a ++ snames r end
with bnames (b : brs) : list string :=
  match b with BNil => [] | BCons c s r => catoms c ++ snames s ++ bnames r end.

Fixpoint nwrites (n : node) : list string :=
  match n with
  | NBlock b => map o_out b
  | NSeq s | NWhile s => swrites s
  | NIf bs => bwrites bs
  | NLoop _ i init c u s => i :: swrites s
  | NBreak | NContinue | NReturn _ => []
  end
with swrites (s : seq) : list string :=
  match s with SNil => [] | SCons n a r => nwrites n ++ map fst a ++ swrites r end
with bwrites (b : brs) : list string :=
  match b with BNil => [] | BCons c s r => swrites s ++ bwrites r end.

(** Names whose value is read (symbols in expressions, access-node reads). *)
Definition block_reads (b : block) : list string :=
  concat (map (fun o => concat (map opnames (o_ins o)) ++ concat (map atoms (o_sub o))) b).
Definition asg_reads (a : assigns) : list string := concat (map (fun xe => atoms (snd xe)) a).
Fixpoint nreads (n : node) : list string :=
  match n with
  | NBlock b => block_reads b
  | NSeq s | NWhile s => sreads s
  | NIf bs => breads bs
  | NLoop _ i init c u s => atoms init ++ catoms c ++ atoms u ++ sreads s
  | NReturn r => [r]
  | NBreak | NContinue => []
  end
with sreads (s : seq) : list string :=
  match s with SNil => [] | SCons n a r => nreads n ++ asg_reads a ++ sreads r end
with breads (b : brs) : list string :=
  match b with BNil => [] | BCons c s r => catoms c ++ sreads s ++ breads r end.

(** [node.replace(x, r)]: substitution of a symbol by an expression in a
    subtree.  sequence.cpp:95-110,149-157; structured_loop.cpp:48-57;
    if_else.cpp:59-64; memlet.cpp:328-334; data_flow_graph.cpp:98-106;
    access_node.cpp:50-62 (access nodes, loop variables and assignment targets
    are renamed only if [r] is itself a symbol). *)
Definition rename (x : string) (r : expr) (y : string) : string :=
  match r with ESym z => if String.eqb x y then z else y | _ => y end.
Definition repl_operand (x : string) (r : expr) (o : operand) : operand :=
  match o with
  | OConst z => OConst z
  | ORead y sub => ORead (rename x r y) (map (fun e => subs e x r) sub)
  end.
Definition repl_op (x : string) (r : expr) (o : op) : op :=
  {| o_code := o_code o; o_ins := map (repl_operand x r) (o_ins o);
     o_out := rename x r (o_out o); o_sub := map (fun e => subs e x r) (o_sub o) |}.
Definition repl_asg (x : string) (r : expr) (a : assigns) : assigns :=
  map (fun ye => (rename x r (fst ye), subs (snd ye) x r)) a.
Fixpoint repl_node (x : string) (r : expr) (n : node) : node :=
  match n with
  | NBlock b => NBlock (map (repl_op x r) b)
  | NSeq s => NSeq (repl_seq x r s)
  | NWhile s => NWhile (repl_seq x r s)
  | NIf bs => NIf (repl_brs x r bs)
  | NLoop k i init c u s =>
      NLoop k (rename x r i) (subs init x r) (csubs c x r) (subs u x r) (repl_seq x r s)
  | NBreak => NBreak | NContinue => NContinue | NReturn q => NReturn q
  end
with repl_seq (x : string) (r : expr) (s : seq) : seq :=
  match s with SNil => SNil | SCons n a q => SCons (repl_node x r n) (repl_asg x r a) (repl_seq x r q) end
with repl_brs (x : string) (r : expr) (b : brs) : brs :=
  match b with BNil => BNil | BCons c s q => BCons (csubs c x r) (repl_seq x r s) (repl_brs x r q) end.
