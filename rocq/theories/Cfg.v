(** * Unstructured programs (states and guarded edges) and their structuring *)
From Coq Require Import ZArith List Bool String Lia PeanoNat.
From Verif Require Import Sym SymFuns IR.
Import ListNotations.
Local Open Scope string_scope.
Local Open Scope list_scope.
Local Open Scope nat_scope.

(** An edge between two states, control_flow/interstate_edge.h. [e_id] is the
    element id, by which the C++ pointers are told apart. *)
Record edge := E { e_id : nat; e_src : nat; e_dst : nat; e_cond : cond; e_asg : assigns }.
(** sdfg.h: states are numbers; [g_blk s] is the dataflow of state [s] as the list of
    its operations in emission order (C47); [g_ret s] the value returned by a
    return state. *)
Record cfg := G { g_start : nat; g_edges : list edge; g_blk : nat -> block; g_ret : nat -> option string }.
(** sdfg.h: out_edges, in_edges (insertion order) *)
Definition out (g : cfg) (s : nat) : list edge := filter (fun e => e_src e =? s) (g_edges g).
Definition inn (g : cfg) (s : nat) : list edge := filter (fun e => e_dst e =? s) (g_edges g).
Definition mem (s : nat) (l : list nat) : bool := existsb (Nat.eqb s) l.
Definition eqe (e f : edge) : bool := e_id e =? e_id f.
Definition memE (e : edge) (l : list edge) : bool := existsb (eqe e) l.

Section SEM.
  Variable I : nat -> list Z -> option Z.
  Variable g : cfg.
  (** One step: the dataflow of the state, then an edge whose condition holds. *)
  Inductive cstep : nat -> store -> nat -> store -> Prop :=
  | C_step s st st1 e st2 : In e (out g s) -> exec_block I st (g_blk g s) = Some st1 ->
      cev (env_of st1) (e_cond e) = Some true -> exec_assigns st1 (e_asg e) = Some st2 -> cstep s st (e_dst e) st2.
  (** A terminating execution: [crun n s st r st'] starts in state [s] with store [st],
      follows [n] edges and returns [r] with store [st']. *)
  Inductive crun : nat -> nat -> store -> string -> store -> Prop :=
  | C_ret s st st' r : out g s = [] -> exec_block I st (g_blk g s) = Some st' -> g_ret g s = Some r -> crun 0 s st r st'
  | C_next n s st s1 st1 r st' : cstep s st s1 st1 -> crun n s1 st1 r st' -> crun (S n) s st r st'.
End SEM.

(** At most one of the edges that leave a state can be taken. *)
Definition exclusive (g : cfg) : Prop := forall s e f st, In e (out g s) -> In f (out g s) -> e <> f ->
  cev (env_of st) (e_cond e) = Some true -> cev (env_of st) (e_cond f) = Some false.
(** Element ids are unique. *)
Definition unique_ids (g : cfg) : Prop := NoDup (map e_id (g_edges g)).
(** Some edge can be taken wherever a state has several. *)
Definition total (g : cfg) : Prop := forall s st, 1 < List.length (out g s) -> exists e, In e (out g s) /\ cev (env_of st) (e_cond e) = Some true.

Section STRUCTURE.
  Variable g : cfg.
  (** back edges of the depth-first search (sdfg.cpp: back_edges), the post-dominator
      tree (None: no parent) and dominance *)
  Variable back : edge -> bool.
  Variable pdom : nat -> option nat.
  Variable dom : nat -> nat -> bool.

  (** structured_sdfg_builder.cpp:20-40: states from which [start] is reached
      without passing [stop] *)
  Fixpoint backwards (fuel : nat) (stop : nat) (queue visited : list nat) : list nat :=
    match fuel, queue with
    | S f, s :: q => if mem s visited then backwards f stop q visited
                     else if s =? stop then backwards f stop q (s :: visited)
                     else backwards f stop (q ++ map e_src (inn g s)) (s :: visited)
    | _, _ => visited
    end.
  (** targets of edges that leave a set of states *)
  Definition leaving (nodes : list nat) (from : list nat) : list nat :=
    map e_dst (filter (fun e => mem (e_src e) from && negb (mem (e_dst e) nodes)) (g_edges g)).
  (** structured_sdfg_builder.cpp:53-79 *)
  Definition stop_nodes (start stop : nat) (nodes : list nat) : list nat :=
    match leaving nodes [stop] with
    | [] => match leaving nodes [start] with [] => leaving nodes nodes | l => l end
    | l => l
    end.
  (** structured_sdfg_builder.cpp:81-106 *)
  Fixpoint extend (fuel : nat) (stop : nat) (stops nodes : list nat) : list nat :=
    match fuel with
    | O => nodes
    | S f => match filter (fun s => negb (mem s stops) && dom stop s) (leaving nodes nodes) with
             | [] => nodes
             | l => extend f stop stops (l ++ nodes)
             end
    end.
  (** structured_sdfg_builder.cpp:19-109: determine_loop_nodes *)
  Definition loop_nodes (start stop : nat) : list nat :=
    let nodes := backwards (2 + List.length (g_edges g)) stop [start] [] in
    extend (2 + List.length (g_edges g)) stop (stop_nodes start stop nodes) nodes.

  (** structured_sdfg_builder.cpp:179-200 *)
  Definition header (s : nat) : bool := existsb back (inn g s).
  Definition body (h : nat) : list nat := concat (map (fun e => loop_nodes (e_src e) (e_dst e)) (filter back (inn g h))).
  (** structured_sdfg_builder.cpp:203-215 *)
  Definition exits (h : nat) : list edge :=
    filter (fun e => mem (e_src e) (body h) && negb (mem (e_dst e) (body h)) && negb (back e)) (g_edges g).
  (** one element, as a set *)
  Definition single (l : list nat) : option nat :=
    match l with x :: r => if forallb (Nat.eqb x) r then Some x else None | [] => None end.
  (** structured_sdfg_builder.cpp:217-234: return states (no outgoing edges) do not count
      when exactly one other exit remains *)
  Definition exit_state (h : nat) : option nat :=
    let xs := map e_dst (exits h) in
    match single xs with
    | Some x => Some x
    | None => single (filter (fun s => match g_ret g s with Some _ => false | None => negb (match out g s with [] => true | _ => false end) end) xs)
    end.

  (** structured_sdfg_builder.cpp:111-129 *)
  Fixpoint post_dominates (fuel : nat) (p n : nat) : bool :=
    (p =? n) || match fuel with S f => match pdom n with Some m => post_dominates f p m | None => false end | O => false end.
  (** structured_sdfg_builder.cpp:313-336 *)
  Definition merge_point (cur : nat) (exit : option nat) (visited : list nat) : option nat :=
    let m := pdom cur in
    let m := match exit, m with Some x, Some p => if post_dominates (List.length (g_edges g)) p x then Some x else m | _, _ => m end in
    let m := match m with Some p => if mem p visited then exit else m | None => m end in
    match m with None => exit | _ => m end.

  (** A block is only added for a state with dataflow. *)
  Definition emit (b : block) (a : assigns) (r : seq) : seq :=
    match b, a with [], [] => r | _, _ => SCons (NBlock b) a r end.

  Fixpoint all_some {A} (l : list (option A)) : option (list A) :=
    match l with [] => Some [] | Some x :: r => option_map (cons x) (all_some r) | None :: _ => None end.
  Fixpoint brs_of (l : list (cond * seq)) : brs := match l with [] => BNil | (c, s) :: r => BCons c s (brs_of r) end.

  (** structured_sdfg_builder.cpp:151-371: structure_region. [cur] is the state reached
      (None: null), [first] holds for the entry of a loop body, [lp] when a
      loop is being built. None stands for UnstructuredControlFlowException (or a failed
      assertion). Left out: the cutoff on the number of elements (164-166), which can
      only raise the exception more often, and debug information. *)
  Fixpoint region (fuel : nat) (cur exit : option nat) (breaks : list edge) (visited : list nat) (first lp : bool) : option seq :=
    match fuel with
    | O => None
    | S f =>
      match cur with
      | None => Some SNil
      | Some s =>
        if match exit with Some x => s =? x | None => false end then Some SNil
        else if mem s visited then None
        else if negb first && header s then
          match exit_state s with
          | None => None
          | Some x =>
            match region f (Some s) (Some x) (exits s ++ breaks) visited true true, region f (Some x) exit breaks (s :: visited) false lp with
            | Some b, Some r => Some (SCons (NWhile b) [] r)
            | _, _ => None
            end
          end
        else
          let visited := s :: visited in
          match out g s with
          | [] => match g_ret g s with Some r => Some (emit (g_blk g s) [] (SCons (NReturn r) [] SNil)) | None => None end
          | [e] =>
              match e_cond e with
              | CBool true =>
                  if back e then if lp then Some (emit (g_blk g s) (e_asg e) (SCons NContinue [] SNil)) else None
                  else if memE e breaks then if lp then Some (emit (g_blk g s) (e_asg e) (SCons NBreak [] SNil)) else None
                  else option_map (emit (g_blk g s) (e_asg e)) (region f (Some (e_dst e)) exit breaks visited false lp)
              | _ => None
              end
          | es =>
              let m := merge_point s exit visited in
              match all_some (map (fun e => option_map (fun r => (e_cond e, emit [] (e_asg e) r))
                      (if back e then if lp then Some (SCons NContinue [] SNil) else None
                       else if memE e breaks then if lp then Some (SCons NBreak [] SNil) else None
                       else region f (Some (e_dst e)) m breaks visited false lp)) es),
                    region f m exit breaks visited false lp with
              | Some l, Some r => Some (emit (g_blk g s) [] (SCons (NIf (brs_of l)) [] r))
              | _, _ => None
              end
          end
      end
    end.
  (** structured_sdfg_builder.cpp:132-149: traverse *)
  Definition structure (fuel : nat) : option seq := region fuel (Some (g_start g)) None [] [] false false.

  (** Properly nested loops with one exit. *)
  Record proper : Prop := {
    has_header : forall h, header h = true -> In h (body h);
    one_exit : forall h e, header h = true -> In e (exits h) -> exit_state h = Some (e_dst e);
    nested : forall h h', header h = true -> header h' = true -> In h' (body h) -> h' <> h ->
      incl (body h') (body h) /\ (forall x, exit_state h' = Some x -> In x (body h));
    disjoint : forall h h' s, header h = true -> header h' = true -> In s (body h) -> In s (body h') -> In h' (body h) \/ In h (body h');
    one_entry : forall h e, header h = true -> In e (g_edges g) -> In (e_dst e) (body h) -> In (e_src e) (body h) \/ e_dst e = h;
    one_level : forall h e, header h = true -> In e (g_edges g) -> back e = true -> In (e_src e) (body h) ->
      e_dst e = h \/ exists h', header h' = true /\ In h' (body h) /\ h' <> h /\ In (e_src e) (body h')
  }.
End STRUCTURE.

(** ** The graph analyses, computed from their definitions *)
(** states reachable from [todo] without entering [avoid] *)
Fixpoint forward (g : cfg) (fuel : nat) (avoid : nat -> bool) (todo visited : list nat) : list nat :=
  match fuel, todo with
  | S f, s :: q => if mem s visited || avoid s then forward g f avoid q visited
                   else forward g f avoid (q ++ map e_dst (out g s)) (s :: visited)
  | _, _ => visited
  end.
Definition reach (g : cfg) (avoid : nat -> bool) (from : nat) : list nat := forward g (2 + List.length (g_edges g)) avoid [from] [].
(** sdfg.cpp: dominator_tree *)
Definition dominates (g : cfg) (a b : nat) : bool := (a =? b) || mem b (reach g (fun _ => false) (g_start g)) && negb (mem b (reach g (Nat.eqb a) (g_start g))).
(** [p] lies on every path from [n] to a state without successors *)
Definition pdominates (g : cfg) (p n : nat) : bool :=
  (p =? n) || negb (existsb (fun s => match out g s with [] => true | _ => false end) (reach g (Nat.eqb p) n)).
(** sdfg.cpp: post_dominator_tree; the immediate post-dominator *)
Definition ipdom (g : cfg) (n : nat) : option nat :=
  let ps := filter (fun p => negb (p =? n) && pdominates g p n) (reach g (fun _ => false) n) in
  find (fun p => forallb (fun q => pdominates g q p) ps) ps.
(** graph.cpp: back_edges; edges to a state on the stack of the depth-first search *)
Fixpoint dfs (g : cfg) (fuel : nat) (gray black : list nat) (s : nat) : list nat * list edge :=
  match fuel with
  | O => (black, [])
  | S f =>
    let '(b, l) := fold_left (fun acc e => let '(b, l) := acc in
        if mem (e_dst e) (s :: gray) then (b, e :: l)
        else if mem (e_dst e) b then (b, l)
        else let '(b', l') := dfs g f (s :: gray) b (e_dst e) in (b', l' ++ l)) (out g s) (black, []) in
    (s :: b, l)
  end.
Definition back_edges (g : cfg) : list edge := snd (dfs g (2 + List.length (g_edges g)) [] [] (g_start g)).
Definition is_back (g : cfg) (e : edge) : bool := memE e (back_edges g).
Definition structured (g : cfg) : option seq := structure g (is_back g) (ipdom g) (dominates g) (4 + List.length (g_edges g) + List.length (g_edges g)).
