(** Loop-carried dependency analysis and the For2Map pass.

    Models sdfg/src/analysis/data_dependency_analysis.cpp and
    sdfg/src/passes/structured_control_flow/for2map.cpp on loop bodies made of
    blocks, nested sequences and transitions ([straight]); if/else, inner loops,
    while and return inside the body are not modelled.

    The three set questions the analysis asks (answered by ISL in the code) are
    a parameter: [is_disjoint] (symbolic/sets.cpp), [is_subset]
    (symbolic/sets.cpp) and [intersects] (symbolic/maps.cpp). Theorems say what
    they need of the answers. *)
From Coq Require Import Permutation.
From Verif Require Import Sym SymFacts SymFuns IR IRFacts IRRefine PassCFG PassInline PassCFGProofs2 LoopTile LoopIter Trace Reorder.

Record oracle := {
  is_disjoint : list expr -> list expr -> bool;   (* current, previous *)
  is_subset : list expr -> list expr -> bool;     (* previous, current *)
  intersects : list expr -> list expr -> bool     (* previous, current; different iterations *)
}.

(** users.h: an access to a container through a subset *)
Definition user := (string * list expr)%type.
Inductive access := Rd (u : user) | RdSym (x : string) | Wr (u : user).

(** Accesses of a tasklet in visiting order (data_dependency_analysis.cpp:66-180):
    inputs, symbols of the memlets, output. *)
Definition symr (l : list expr) : list access := map (fun x => Rd (x, [])) (concat (map atoms l)).
Definition in_acc (o : operand) : list access := match o with OConst _ => [] | ORead x sub => Rd (x, sub) :: symr sub end.
Definition op_acc (o : op) : list access := concat (map in_acc (o_ins o)) ++ symr (o_sub o) ++ [Wr (o_out o, o_sub o)].
(** Transitions (visit_sequence, :655-694): first all reads, then all writes. *)
Definition asg_acc (a : assigns) : list access :=
  concat (map (fun xe => map RdSym (atoms (snd xe))) a) ++ map (fun xe => Wr (fst xe, [])) a.
Fixpoint nacc (n : node) : list access :=
  match n with NBlock b => concat (map op_acc b) | NSeq s => sacc s | _ => [] end
with sacc (s : seq) : list access := match s with SNil => [] | SCons n a r => nacc n ++ asg_acc a ++ sacc r end.
Fixpoint nstraight (n : node) : bool := match n with NBlock _ => true | NSeq s => straight s | _ => false end
with straight (s : seq) : bool := match s with SNil => true | SCons n _ r => nstraight n && straight r end.

Section Analysis.
  Variable O : oracle.
  (** sc x: the container's type is Scalar *)
  Variable sc : string -> bool.

  (** DataDependencyAnalysis::depends (:877-918), detailed *)
  Definition depends (prev cur : user) : bool :=
    String.eqb (fst prev) (fst cur) && (sc (fst prev) || negb (is_disjoint O (snd cur) (snd prev))).
  (** DataDependencyAnalysis::closes (:828-875), detailed; post-dominance always
      holds in a straight-line body *)
  Definition closes (prev cur : user) : bool :=
    String.eqb (fst prev) (fst cur) && (sc (fst prev) || is_subset O (snd prev) (snd cur)).
  (** DataDependencyAnalysis::loop_depends (:696-751) *)
  Definition loop_depends (prev cur : user) : bool :=
    String.eqb (fst prev) (fst cur) && (sc (fst prev) || intersects O (snd prev) (snd cur)).

  (** (undefined reads, open definitions) after one access *)
  Definition state := (list user * list user)%type.
  Definition visit (s : state) (a : access) : state :=
    match a with
    | Rd u => if existsb (fun d => depends d u) (snd s) then s else (u :: fst s, snd s)
    | RdSym x => if existsb (fun d => String.eqb (fst d) x) (snd s) then s else ((x, []) :: fst s, snd s)
    | Wr u => (fst s, u :: filter (fun d => negb (closes d u)) (snd s))
    end.
  Definition visits (s : state) (l : list access) : state := fold_left visit l s.
  (** visit_for (:232-281): the body from an empty state, then the reads of the
      update expression *)
  Definition loop_state (body : seq) (u : expr) : state := visits ([], []) (sacc body ++ symr [u]).

  (** Loop-carried dependencies of a container (:346-372) *)
  Definition dep_rw (s : state) (x : string) : bool :=
    existsb (fun r => String.eqb (fst r) x && existsb (fun w => loop_depends w r) (snd s)) (fst s).
  Definition dep_ww (s : state) (x : string) : bool :=
    existsb (fun w => String.eqb (fst w) x && existsb (fun w2 => loop_depends w w2) (snd s)) (snd s).
  (** [deps s]: the reported containers with [true] for READ_WRITE, [false] for WRITE_WRITE *)
  Definition reported_rw (body : seq) (u : expr) (x : string) : bool := dep_rw (loop_state body u) x.
  Definition reported (body : seq) (u : expr) (x : string) : bool := dep_rw (loop_state body u) x || dep_ww (loop_state body u) x.
End Analysis.

(** "Constant scalar assignment" (for2map.cpp:80-97): exactly one write, in a
    transition, of an integer literal, and no read in the body. *)
Definition writes_of (body : seq) (x : string) : list access :=
  filter (fun a => match a with Wr u => String.eqb (fst u) x | _ => false end) (sacc body).
Fixpoint nasgs (n : node) : assigns := match n with NSeq s => sasgs s | _ => [] end
with sasgs (s : seq) : assigns := match s with SNil => [] | SCons n a r => nasgs n ++ a ++ sasgs r end.
Definition const_scalar (sc : string -> bool) (body : seq) (x : string) : bool :=
  sc x && Nat.eqb (List.length (writes_of body x)) 1 && negb (existsb (String.eqb x) (sreads body)) &&
  match filter (fun xe => String.eqb (fst xe) x) (sasgs body) with
  | [(_, EInt _)] => true
  | _ => false
  end.

(** For2MapPass::can_be_applied (for2map.cpp:14-131) for straight-line bodies;
    [locals x]: every use of [x] is inside the loop body (users.cpp:1023-1041).
    Pointers (:103-124) are not modelled: no container here is a pointer. *)
Definition for2map (O : oracle) (sc locals : string -> bool) (A : assumptions) (n : node) : option node :=
  match n with
  | NLoop KFor i init c u body =>
      if series_is_monotonic u i A && straight body &&
         forallb (fun x => negb (reported_rw O sc body u x)) (map fst (fst (loop_state O sc body u))) &&
         forallb (fun x => negb (reported O sc body u x) || locals x || const_scalar sc body x) (map fst (snd (loop_state O sc body u)))
      then Some (NLoop KMap i init c u body) else None
  | _ => None
  end.
