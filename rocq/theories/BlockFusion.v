(** BlockFusion: two consecutive blocks become one
    (sdfg/src/passes/structured_control_flow/block_fusion.cpp). *)
From Coq Require Import List String ZArith Bool Arith.
From Verif Require Import Sym IR DataFlow.
Import ListNotations.
Local Open Scope nat_scope.

Definition acc_data (k : dkind) : option string := match k with KAcc d => Some d | _ => None end.
(** AccessNode::data() also of constant nodes *)
Definition any_data (k : dkind) : option string := match k with KAcc d => Some d | KCst d _ => Some d | _ => None end.
Definition is_lib (k : dkind) : bool := match k with KLib _ _ _ => true | _ => false end.

Section Pass.
  (** types::IType::is_symbol of the container *)
  Variable sym : string -> bool.
  (** block_fusion.cpp:21-51: symbols written by the graph *)
  Definition written (g : dfg) : list string :=
    flat_map (fun v => match v_kind v with KAcc d => if (0 <? indeg g (v_id v)) && sym d then [d] else [] | _ => [] end) (g_nodes g).
  (** block_fusion.cpp:53-84 *)
  Definition subsets_avoid (g : dfg) (w : list string) : bool :=
    forallb (fun e => forallb (fun x => negb (existsb (String.eqb x) w)) (concat (map atoms (m_sub e)))) (g_edges g).
  (** block_fusion.cpp:132-156 *)
  Definition matches (g1 g2 : dfg) (c1 c2 : list nat) : list (nat * nat) :=
    flat_map (fun n1 => flat_map (fun n2 =>
      match kind_of g1 n1, kind_of g2 n2 with
      | Some (KAcc d), Some (KAcc d') => if String.eqb d d' then [(n1, n2)] else []
      | _, _ => [] end) c2) c1.
  Definition pair_ok (g1 g2 : dfg) (c1 c2 : list nat) : bool :=
    match matches g1 g2 c1 c2 with
    | [] => true
    | ms => existsb (fun n => (outdeg g1 (fst n) =? 0) && (indeg g2 (snd n) =? 0)) ms
    end.
  (** block_fusion.cpp:15-160 for graphs without reference and dereference
      memlets; every library node is taken to have side effects. *)
  Definition can_fuse (g1 : dfg) (a1 : assigns) (g2 : dfg) : bool :=
    negb (existsb (fun v => is_lib (v_kind v)) (g_nodes g1)) && negb (existsb (fun v => is_lib (v_kind v)) (g_nodes g2)) &&
    subsets_avoid g1 (written g2) && subsets_avoid g2 (written g1) &&
    match a1 with [] => true | _ => false end &&
    forallb (fun c1 => forallb (fun c2 => pair_ok g1 g2 c1 c2) (components g2)) (components g1).

  (** block_fusion.cpp:173-189 *)
  Definition connector (g1 : dfg) (l1 : list nat) (g2 : dfg) (y : nat) : option nat :=
    if indeg g2 y =? 0 then
      match kind_of g2 y with
      | Some k => match any_data k with Some d => last_access g1 d l1 None | None => None end
      | None => None end
    else None.
  (** block_fusion.cpp:191-223; [fresh] gives the element ids of the copies
      (builder_.copy_node), which depend on the iteration order *)
  Definition moved (fresh : nat -> nat) (g1 : dfg) (l1 : list nat) (g2 : dfg) (y : nat) : nat :=
    match connector g1 l1 g2 y with Some x => x | None => fresh y end.
  Definition moved_edge (fresh : nat -> nat) (g1 : dfg) (l1 : list nat) (g2 : dfg) (e : memlet) : memlet :=
    Ml (moved fresh g1 l1 g2 (m_src e)) (m_sconn e) (moved fresh g1 l1 g2 (m_dst e)) (m_dconn e) (m_sub e).
  Definition fused (fresh : nat -> nat) (g1 : dfg) (l1 : list nat) (g2 : dfg) : dfg :=
    Dfg (g_nodes g1 ++ flat_map (fun v => match connector g1 l1 g2 (v_id v) with
                                          | Some _ => [] | None => [Vt (fresh (v_id v)) (v_kind v)] end) (g_nodes g2))
        (g_edges g1 ++ map (moved_edge fresh g1 l1 g2) (g_edges g2)).
  (** block_fusion.cpp:162-224: the fused graph with its transition *)
  Definition fuse (fresh : nat -> nat) (g1 : dfg) (a1 : assigns) (g2 : dfg) (a2 : assigns) : res (dfg * assigns) :=
    if can_fuse g1 a1 g2 then
      match topological_sort g1 with
      | Ok l1 => Ok (fused fresh g1 l1 g2, (a2 ++ a1)%list)
      | Throw => Throw | Fuel => Fuel end
    else Throw.
End Pass.
