(** Deep copies of programs: model of StructuredSDFGDeepCopy
    (sdfg/src/deepcopy/structured_sdfg_deep_copy.cpp:8-153) and of the builder functions it
    calls (sdfg/src/builder/structured_sdfg_builder.cpp: add_block 652-671, add_dataflow
    1597-1620, add_sequence, add_if_else, add_case, add_while, add_for, add_map, add_break,
    add_continue, add_return), on the programs of Serial.v.  [c] is the next identifier the
    builder hands out.  The nodes and edges of a block are copied in the order of the lists
    (the code goes over an unordered map).  The returned node mapping is not modelled. *)
From Coq Require Import String List ZArith Bool Lia.
From Verif Require Import Sym SymFacts SymFuns Json Types Serial Dbg.
Import ListNotations.
Local Open Scope list_scope.
Local Open Scope Z_scope.

(** add_dataflow, lines 1597-1620: clones with new identifiers *)
Fixpoint copy_nodes (c : Z) (l : list (elem * dnode)) : list (elem * dnode) :=
  match l with [] => [] | (e, d) :: r => ((c, snd e), d) :: copy_nodes (c + 1) r end.
Fixpoint copy_edges (c : Z) (l : list dedge) : list dedge :=
  match l with
  | [] => []
  | g :: r => {| g_elem := (c, snd (g_elem g)); g_src := g_src g; g_dst := g_dst g; g_sconn := g_sconn g; g_dconn := g_dconn g; g_subset := g_subset g; g_type := g_type g |} :: copy_edges (c + 1) r
  end.
(** the identifier of the transition after a node that got [c]: loops take one for their body
    first (add_while, add_for, add_map) *)
Definition tid (c : Z) (n : cnode) : Z := match n with XWhile _ _ | XFor _ _ _ _ _ _ | XMap _ _ _ _ _ _ _ => c + 2 | _ => c + 1 end.
(** append, lines 8-79; a loop's body gets the loop's location, a transition that of the node
    in front of it *)
Fixpoint copy_n (c : Z) (n : cnode) : cnode * Z :=
  match n with
  | XBlock e ns es => (XBlock (c, snd e) (copy_nodes (c + 2) ns) (copy_edges (c + 2 + Z.of_nat (List.length ns)) es), c + 2 + Z.of_nat (List.length ns) + Z.of_nat (List.length es))
  | XSeq (CSeq e k) => let (k', c') := copy_k (c + 2) k in (XSeq (CSeq (c, snd e) k'), c')
  | XIf e b => let (b', c') := copy_b (c + 2) b in (XIf (c, snd e) b', c')
  | XWhile e (CSeq _ k) => let (k', c') := copy_k (c + 3) k in (XWhile (c, snd e) (CSeq (c + 1, snd e) k'), c')
  | XFor e i a cd u (CSeq _ k) => let (k', c') := copy_k (c + 3) k in (XFor (c, snd e) i a cd u (CSeq (c + 1, snd e) k'), c')
  | XMap e i a cd u h (CSeq _ k) => let (k', c') := copy_k (c + 3) k in (XMap (c, snd e) i a cd u h (CSeq (c + 1, snd e) k'), c')
  | XBreak e => (XBreak (c, snd e), c + 2)
  | XContinue e => (XContinue (c, snd e), c + 2)
  | XReturn e d t => (XReturn (c, snd e) d t, c + 2)
  end
with copy_k (c : Z) (k : ckids) : ckids * Z :=
  match k with
  | KNil => (KNil, c)
  | KCons n te a k => let (n', c1) := copy_n c n in let (k', c2) := copy_k c1 k in (KCons n' (tid c n, top n) a k', c2)
  end
with copy_b (c : Z) (b : cbrs) : cbrs * Z :=
  match b with
  | QNil => (QNil, c)
  | QCons cd (CSeq e k) b => let (k', c1) := copy_k (c + 1) k in let (b', c2) := copy_b c1 b in (QCons cd (CSeq (c, snd e) k') b', c2)
  end.
Fixpoint kapp (a b : ckids) : ckids := match a with KNil => b | KCons n te x a => KCons n te x (kapp a b) end.
(** StructuredSDFGDeepCopy::insert, lines 155-164: the children of [src] behind those of [root] *)
Definition insert_into (c : Z) (root src : cseq) : cseq * Z :=
  match root, src with CSeq e k, CSeq _ s => let (s', c') := copy_k c s in (CSeq e (kapp k s'), c') end.
(** StructuredSDFGDeepCopy::copy, lines 149-153 and 81-142: the node behind the children of
    [root], with no assignments; a conditional loses its location (line 91) *)
Definition copy_into (c : Z) (root : cseq) (n : cnode) : cseq * Z :=
  let (n', c') := copy_n c n in
  match root with CSeq e k =>
    match n' with
    | XIf i b => (CSeq e (kapp k (KCons (XIf (fst i, dbg0) b) (tid c n, dbg0) [] KNil)), c')
    | _ => (CSeq e (kapp k (KCons n' (tid c n, top n) [] KNil)), c')
    end
  end.

(* ---------------------------------------------------------------- *)
(** * Specification *)
(** a program without identifiers and without the locations of control flow *)
Definition noid (e : elem) : elem := (0, snd e).
Definition none (e : elem) : elem := (0, dbg0).
Definition edge0 (g : dedge) : dedge := {| g_elem := noid (g_elem g); g_src := g_src g; g_dst := g_dst g; g_sconn := g_sconn g; g_dconn := g_dconn g; g_subset := g_subset g; g_type := g_type g |}.
Fixpoint code_n (n : cnode) : cnode :=
  match n with
  | XBlock e ns es => XBlock (noid e) (map (fun x => (noid (fst x), snd x)) ns) (map edge0 es)
  | XSeq (CSeq e k) => XSeq (CSeq (noid e) (code_k k))
  | XIf e b => XIf (noid e) (code_b b)
  | XWhile e (CSeq x k) => XWhile (noid e) (CSeq (none x) (code_k k))
  | XFor e i a c u (CSeq x k) => XFor (noid e) i a c u (CSeq (none x) (code_k k))
  | XMap e i a c u h (CSeq x k) => XMap (noid e) i a c u h (CSeq (none x) (code_k k))
  | XBreak e => XBreak (noid e)
  | XContinue e => XContinue (noid e)
  | XReturn e d t => XReturn (noid e) d t
  end
with code_k (k : ckids) : ckids := match k with KNil => KNil | KCons n te a k => KCons (code_n n) (none te) a (code_k k) end
with code_b (b : cbrs) : cbrs := match b with QNil => QNil | QCons c (CSeq e k) b => QCons c (CSeq (noid e) (code_k k)) (code_b b) end.
(** the children of a sequence with their transitions *)
Fixpoint klist (k : ckids) : list (cnode * elem * asgs) := match k with KNil => [] | KCons n te a k => (n, te, a) :: klist k end.
(** all identifiers in a program *)
Fixpoint ids_n (n : cnode) : list Z :=
  match n with
  | XBlock e ns es => fst e :: map (fun x => fst (fst x)) ns ++ map (fun g => fst (g_elem g)) es
  | XSeq q => ids_s q
  | XIf e b => fst e :: ids_b b
  | XWhile e q | XFor e _ _ _ _ q | XMap e _ _ _ _ _ q => fst e :: ids_s q
  | XBreak e | XContinue e | XReturn e _ _ => [fst e]
  end
with ids_s (q : cseq) : list Z := match q with CSeq e k => fst e :: ids_k k end
with ids_k (k : ckids) : list Z := match k with KNil => [] | KCons n te _ k => ids_n n ++ fst te :: ids_k k end
with ids_b (b : cbrs) : list Z := match b with QNil => [] | QCons _ q b => ids_s q ++ ids_b b end.
