(** Dataflow graphs of blocks and the order in which their nodes are emitted
    (sdfg/src/data_flow/data_flow_graph.cpp). *)
From Coq Require Import List String Ascii ZArith Bool Arith.
From Verif Require Import Sym IR.
Import ListNotations.
Local Open Scope nat_scope.

(** data_flow/access_node.h, tasklet.h, library_node.h.  A constant node is an
    access node whose data is the literal; [z] is the literal's value.  The
    enumerator value of TaskletCode is [code] (tasklet.h:95-165).  Library nodes
    are present for the ordering only. *)
Inductive dkind :=
| KAcc (data : string) | KCst (data : string) (z : Z)
| KTask (code : nat) (ins : list string) (out : string)
| KLib (code : string) (ins outs : list string).
(** DataFlowNode with its element id (element.h), the node's identity here. *)
Record vert := Vt { v_id : nat; v_kind : dkind }.
(** data_flow/memlet.h; only Computational memlets carry a subset that matters here *)
Record memlet := Ml { m_src : nat; m_sconn : string; m_dst : nat; m_dconn : string; m_sub : list expr }.
(** data_flow_graph.h:  nodes_ and edges_ are unordered maps; here lists, whose
    order stands for the (arbitrary) iteration order. *)
Record dfg := Dfg { g_nodes : list vert; g_edges : list memlet }.

Definition mem (x : nat) (l : list nat) : bool := existsb (Nat.eqb x) l.
Definition memP (x : nat * nat) (l : list (nat * nat)) : bool :=
  existsb (fun y => Nat.eqb (fst x) (fst y) && Nat.eqb (snd x) (snd y)) l.
Fixpoint dedup (seen l : list nat) : list nat :=
  match l with [] => [] | x :: r => if mem x seen then dedup seen r else x :: dedup (x :: seen) r end.
(** std::sort with a strict weak order (insertion sort; on a total order every
    correct sort gives the same list) *)
Fixpoint insert {A} (lt : A -> A -> bool) (x : A) (l : list A) : list A :=
  match l with [] => [x] | y :: r => if lt y x then y :: insert lt x r else x :: l end.
Definition isort {A} (lt : A -> A -> bool) (l : list A) : list A := fold_right (insert lt) [] l.
Fixpoint index {A} (p : A -> bool) (l : list A) : option nat :=
  match l with [] => None | x :: r => if p x then Some 0 else option_map S (index p r) end.
Fixpoint assoc {B} (x : nat) (l : list (nat * B)) : option B :=
  match l with [] => None | (y, b) :: r => if Nat.eqb x y then Some b else assoc x r end.

Section Graph.
  Variable g : dfg.
  Definition ids : list nat := map v_id (g_nodes g).
  Definition kind_of (x : nat) : option dkind := option_map v_kind (find (fun v => Nat.eqb (v_id v) x) (g_nodes g)).
  (** data_flow_graph.cpp:90-96, in_edges/out_edges *)
  Definition out_edges (x : nat) : list memlet := filter (fun e => Nat.eqb (m_src e) x) (g_edges g).
  Definition in_edges (x : nat) : list memlet := filter (fun e => Nat.eqb (m_dst e) x) (g_edges g).
  Definition outdeg (x : nat) : nat := List.length (out_edges x).
  Definition indeg (x : nat) : nat := List.length (in_edges x).

  (** data_flow_graph.cpp:345-353 and 400-408: tasklet code, 52 + the sum of the
      characters of a library node's code, 0 otherwise *)
  Fixpoint str_sum (s : string) : nat := match s with EmptyString => 0 | String c r => nat_of_ascii c + str_sum r end.
  Definition prio (x : nat) : nat :=
    match kind_of x with Some (KTask c _ _) => c | Some (KLib c _ _) => 52 + str_sum c | _ => 0 end.
  (** data_flow_graph.cpp:356-359, 411-414 *)
  Definition prio_lt (x y : nat) : bool := (prio y <? prio x) || ((prio x =? prio y) && (x <? y)).

  (** data_flow_graph.cpp:320-366: the position of [succ] among the outputs of [cur] *)
  Definition dep_id (cur succ : nat) : option nat :=
    let code outs := match find (fun e => Nat.eqb (m_dst e) succ) (out_edges cur) with
                     | Some e => index (fun c => String.eqb (m_sconn e) c) outs | None => None end in
    match kind_of cur with
    | Some (KTask _ _ out) => code [out]
    | Some (KLib _ _ outs) => code outs
    | _ => index (Nat.eqb succ) (isort prio_lt (dedup [] (map m_dst (out_edges cur))))
    end.
  (** data_flow_graph.cpp:382-418: predecessors in the order they are pushed *)
  Definition preds (x : nat) : list nat :=
    let code ins := dedup [] (flat_map (fun c =>
          match find (fun e => String.eqb (m_dconn e) c) (in_edges x) with Some e => [m_src e] | None => [] end) ins) in
    match kind_of x with
    | Some (KTask _ ins _) => code ins
    | Some (KLib _ ins _) => code ins
    | _ => isort prio_lt (dedup [] (map m_src (in_edges x)))
    end.

  (** an exception, or more steps than the fuel allows (never, see DataFlowProofs) *)
  Inductive res (A : Type) := Ok (a : A) | Throw | Fuel.
  Arguments Ok {A} a. Arguments Throw {A}. Arguments Fuel {A}.

  Record ph1 := Ph1 { queue : list nat; vis : list nat; lists : list (nat * list nat);
                      deps : list (nat * list (nat * nat)); bdeps : list ((nat * nat) * nat) }.
  (** data_flow_graph.cpp:308-419: one reversed depth-first search.  The stack
      holds (node, successor); the successor of [start] (nullptr) is not looked at. *)
  Fixpoint chunk (fuel start : nat) (stack : list (nat * nat)) (q v l : list nat) (d : list (nat * nat)) (b : list ((nat * nat) * nat))
    : res (list nat * list nat * list nat * list (nat * nat) * list ((nat * nat) * nat)) :=
    match stack with
    | [] => Ok (q, v, l, d, b)
    | (cur, succ) :: stk =>
      match fuel with
      | O => Fuel
      | S fuel' =>
        if negb (cur =? start) && (1 <? outdeg cur) then
          match dep_id cur succ with
          | None => Throw
          | Some j => if memP (cur, j) (map fst b) then Throw
                      else chunk fuel' start stk (q ++ [cur]) v l ((cur, j) :: d) (((cur, j), start) :: b)
          end
        else if mem cur v then Throw
        else chunk fuel' start (rev (map (fun p => (p, cur)) (preds cur)) ++ stk) q (cur :: v) (cur :: l) d b
      end
    end.
  (** data_flow_graph.cpp:298-421 *)
  Fixpoint searches (cfuel fuel : nat) (s : ph1) : res ph1 :=
    match queue s with
    | [] => Ok s
    | x :: q =>
      match fuel with
      | O => Fuel
      | S fuel' =>
        if mem x (vis s) then searches cfuel fuel' (Ph1 q (vis s) (lists s) (deps s) (bdeps s))
        else match chunk cfuel x [(x, x)] q (vis s) [] [] (bdeps s) with
             | Ok (q', v', l, d, b') => searches cfuel fuel' (Ph1 q' v' ((x, l) :: lists s) ((x, d) :: deps s) b')
             | Throw => Throw | Fuel => Fuel
             end
      end
    end.

  (** data_flow_graph.cpp:424-456 *)
  Definition sink_lt (a b : nat) : bool :=
    match kind_of a, kind_of b with
    | Some (KTask c _ _), Some (KTask c' _ _) => (c <? c') || ((c =? c') && (a <? b))
    | Some (KTask _ _ _), Some _ => true
    | Some (KLib c _ _), Some (KLib c' _ _) => String.ltb c c' || (String.eqb c c' && (a <? b))
    | Some (KLib _ _ _), Some (KAcc _ | KCst _ _) => true
    | Some (KAcc d | KCst d _), Some (KAcc d' | KCst d' _) => String.ltb d d' || (String.eqb d d' && (a <? b))
    | _, _ => false
    end.

  (** data_flow_graph.cpp:471-494: the next start that must be emitted first *)
  Fixpoint blocked (bd : list ((nat * nat) * nat)) (v : list nat) (d : list (nat * nat)) : option nat :=
    match d with
    | [] => None
    | (n, j) :: d' =>
      if negb (mem n v) then Some n
      else match find (fun s => negb (mem s v))
                   (flat_map (fun i => match find (fun x => Nat.eqb (fst (fst x)) n && Nat.eqb (snd (fst x)) i) bd with
                                       | Some x => [snd x] | None => [] end) (List.seq 0 j)) with
           | Some s => Some s
           | None => blocked bd v d'
           end
    end.
  (** data_flow_graph.cpp:466-503 *)
  Fixpoint stitch (fuel : nat) (s : ph1) (stack v out : list nat) : res (list nat * list nat) :=
    match stack with
    | [] => Ok (v, out)
    | cur :: stk =>
      match fuel with
      | O => Fuel
      | S fuel' =>
        match assoc cur (deps s), assoc cur (lists s) with
        | Some d, Some l =>
          let v' := cur :: v in
          match blocked (bdeps s) v' d with
          | Some n => stitch fuel' s (n :: stack) v' out
          | None => stitch fuel' s stk v' (out ++ l)
          end
        | _, _ => Throw
        end
      end
    end.
  Fixpoint stitches (fuel : nat) (s : ph1) (sinks v out : list nat) : res (list nat) :=
    match sinks with
    | [] => Ok out
    | x :: r => if mem x v then stitches fuel s r v out
                else match stitch fuel s [x] v out with
                     | Ok (v', out') => stitches fuel s r v' out' | Throw => Throw | Fuel => Fuel end
    end.
  Definition fuel0 : nat := 3 + 2 * List.length (g_nodes g) + List.length (g_edges g).
  (** data_flow_graph.cpp:271-503: one weakly connected component *)
  Definition sort_comp (c : list nat) : res (list nat) :=
    match filter (fun x => outdeg x =? 0) c with
    | [] => Throw
    | sinks => match searches fuel0 fuel0 (Ph1 sinks [] [] [] []) with
               | Ok s => stitches fuel0 s (isort sink_lt sinks) [] []
               | Throw => Throw | Fuel => Fuel
               end
    end.

  (** graph.cpp:63-87 (boost::connected_components of the undirected graph) *)
  Definition grow (s : list nat) : list nat :=
    filter (fun x => mem x s || existsb (fun e => (Nat.eqb (m_src e) x && mem (m_dst e) s) || (Nat.eqb (m_dst e) x && mem (m_src e) s)) (g_edges g)) ids.
  Definition closure (x : nat) : list nat := Nat.iter (List.length ids) grow [x].
  Fixpoint comps (fuel : nat) (rest : list nat) : list (list nat) :=
    match fuel, rest with
    | S fuel', x :: _ => let c := closure x in
        filter (fun y => mem y c) rest :: comps fuel' (filter (fun y => negb (mem y c)) rest)
    | _, _ => []
    end.
  Definition components : list (list nat) := comps (List.length ids) ids.

  Fixpoint mapR {A B} (f : A -> res B) (l : list A) : res (list B) :=
    match l with
    | [] => Ok []
    | x :: r => match f x with Ok y => match mapR f r with Ok z => Ok (y :: z) | Throw => Throw | Fuel => Fuel end
                | Throw => Throw | Fuel => Fuel end
    end.
  (** data_flow_graph.cpp:507-511 *)
  Definition comp_lt (a b : list nat) : bool :=
    (List.length b <? List.length a) ||
    ((List.length a =? List.length b) && match a, b with x :: _, y :: _ => x <? y | _, _ => false end).
  (** DataFlowGraph::topological_sort, data_flow_graph.cpp:266-521 (the non-const
      overload 523-778 is the same text) *)
  Definition topological_sort : res (list nat) :=
    match mapR sort_comp components with
    | Ok cs => Ok (List.concat (isort comp_lt cs))
    | Throw => Throw | Fuel => Fuel
    end.

  (** The statement generated for a node: a tasklet reads each input connector
      from the container of its memlet's source and writes its first outgoing
      memlet (block_dispatcher.cpp:219-330). *)
  Definition operand_of (x : nat) (c : string) : list operand :=
    match find (fun e => String.eqb (m_dconn e) c) (in_edges x) with
    | Some e => match kind_of (m_src e) with
                | Some (KAcc d) => [ORead d (m_sub e)]
                | Some (KCst _ z) => [OConst z]
                | _ => [] end
    | None => [] end.
  Definition op_of (x : nat) : option op :=
    match kind_of x with
    | Some (KTask c ins _) =>
      match out_edges x with
      | e :: _ => match kind_of (m_dst e) with
                  | Some (KAcc d) => Some {| o_code := c; o_ins := flat_map (operand_of x) ins; o_out := d; o_sub := m_sub e |}
                  | _ => None end
      | [] => None end
    | _ => None end.
  Definition lower (l : list nat) : block := flat_map (fun x => match op_of x with Some o => [o] | None => [] end) l.
  (** block_dispatcher.cpp:47-70 *)
  Definition block_code : res block :=
    match topological_sort with Ok l => Ok (lower l) | Throw => Throw | Fuel => Fuel end.
End Graph.
Arguments Ok {A} a. Arguments Throw {A}. Arguments Fuel {A}.

(** data_flow_graph.cpp:804-813 *)
Fixpoint last_access (g : dfg) (d : string) (l : list nat) (acc : option nat) : option nat :=
  match l with
  | [] => acc
  | x :: r => last_access g d r (match kind_of g x with
                                 | Some (KAcc y | KCst y _) => if String.eqb y d then Some x else acc
                                 | _ => acc end)
  end.
