(** Source locations: model of DebugInfo::merge (sdfg/src/element.cpp:39-82) and of the
    pass DebugInfoPropagation (sdfg/src/passes/debug_info_propagation.cpp:8-52), over the
    programs of Serial.v.  The locations of a block's nodes and edges are merged in the
    order in which the graph lists them, here the order of the lists. *)
From Coq Require Import String List ZArith Bool Lia.
From Verif Require Import Sym SymFacts SymFuns Json Types Serial.
Import ListNotations.
Local Open Scope string_scope.
Local Open Scope list_scope.
Local Open Scope Z_scope.

(** DebugInfo::merge, element.cpp:39-82 *)
Definition merge (l r : dbg) : dbg :=
  if negb (d_has l) then r
  else if negb (d_has r) then l
  else if negb (String.eqb (d_file l) (d_file r)) then l
  else if negb (String.eqb (d_func l) (d_func r)) && negb (String.eqb (d_func l) "") && negb (String.eqb (d_func r) "") then l
  else
    let s := if d_l1 l <? d_l1 r then l else r in
    let e := if d_l2 r <? d_l2 l then l else r in
    {| d_has := true; d_file := d_file l; d_func := if String.eqb (d_func l) "" then d_func r else d_func l;
       d_l1 := d_l1 s; d_c1 := d_c1 s; d_l2 := d_l2 e; d_c2 := d_c2 e |}.
(** the loops of debug_info_propagation.cpp:12-30 *)
Definition mergeall (d : dbg) (l : list dbg) : dbg := fold_left merge l d.
(** Element::set_debug_info, element.cpp:90 *)
Definition set (e : elem) (d : dbg) : elem := (fst e, d).

(** Element::debug_info of a control flow node *)
Definition top_s (q : cseq) : dbg := match q with CSeq e _ => snd e end.
Definition top (n : cnode) : dbg :=
  match n with
  | XBlock e _ _ | XIf e _ | XWhile e _ | XFor e _ _ _ _ _ | XMap e _ _ _ _ _ _ | XBreak e | XContinue e | XReturn e _ _ => snd e
  | XSeq q => top_s q
  end.
(** what a sequence and a conditional merge: lines 20-30 *)
Fixpoint tops_k (k : ckids) : list dbg := match k with KNil => [] | KCons n te _ k => top n :: snd te :: tops_k k end.
Fixpoint tops_b (b : cbrs) : list dbg := match b with QNil => [] | QCons _ q b => top_s q :: tops_b b end.

(** DebugInfoPropagation::propagate, lines 8-46 *)
Fixpoint prop_n (n : cnode) : cnode :=
  match n with
  | XBlock e ns es => XBlock (set e (mergeall (snd e) (map (fun x => snd (fst x)) ns ++ map (fun g => snd (g_elem g)) es))) ns es
  | XSeq q => XSeq (prop_s q)
  | XIf e b => XIf (set e (mergeall (snd e) (tops_b (prop_b b)))) (prop_b b)
  | XWhile e q => XWhile (set e (merge (snd e) (top_s (prop_s q)))) (prop_s q)
  | XFor e i a c u q => XFor (set e (merge (snd e) (top_s (prop_s q)))) i a c u (prop_s q)
  | XMap e i a c u h q => XMap (set e (merge (snd e) (top_s (prop_s q)))) i a c u h (prop_s q)
  | XBreak e => XBreak (set e (merge (snd e) (snd e)))
  | XContinue e => XContinue (set e (merge (snd e) (snd e)))
  | XReturn e d t => XReturn (set e (merge (snd e) (snd e))) d t
  end
with prop_s (q : cseq) : cseq := match q with CSeq e k => CSeq (set e (mergeall (snd e) (tops_k (prop_k k)))) (prop_k k) end
with prop_k (k : ckids) : ckids := match k with KNil => KNil | KCons n te a k => KCons (prop_n n) te a (prop_k k) end
with prop_b (b : cbrs) : cbrs := match b with QNil => QNil | QCons c q b => QCons c (prop_s q) (prop_b b) end.
(** DebugInfoPropagation::run_pass, lines 49-52 *)
Definition prop_program (p : program) : program :=
  {| p_name := p_name p; p_counter := p_counter p; p_type := p_type p; p_ret := p_ret p; p_structs := p_structs p; p_containers := p_containers p;
     p_args := p_args p; p_exts := p_exts p; p_meta := p_meta p; p_assumed := p_assumed p; p_root := prop_s (p_root p) |}.

(* ---------------------------------------------------------------- *)
(** * Specification *)
(** the locations of a node and of everything inside it *)
Fixpoint infos_n (n : cnode) : list dbg :=
  match n with
  | XBlock e ns es => snd e :: map (fun x => snd (fst x)) ns ++ map (fun g => snd (g_elem g)) es
  | XSeq q => infos_s q
  | XIf e b => snd e :: infos_b b
  | XWhile e q | XFor e _ _ _ _ q | XMap e _ _ _ _ _ q => snd e :: infos_s q
  | XBreak e | XContinue e | XReturn e _ _ => [snd e]
  end
with infos_s (q : cseq) : list dbg := match q with CSeq e k => snd e :: infos_k k end
with infos_k (k : ckids) : list dbg := match k with KNil => [] | KCons n te _ k => infos_n n ++ snd te :: infos_k k end
with infos_b (b : cbrs) : list dbg := match b with QNil => [] | QCons _ q b => infos_s q ++ infos_b b end.
(** every control flow node in a node, from the outside in: its own location, and the
    locations of it and of everything inside it *)
Fixpoint nodes_n (n : cnode) : list (dbg * list dbg) :=
  match n with
  | XSeq q => nodes_s q
  | XIf _ b => (top n, infos_n n) :: nodes_b b
  | XWhile _ q | XFor _ _ _ _ _ q | XMap _ _ _ _ _ _ q => (top n, infos_n n) :: nodes_s q
  | _ => [(top n, infos_n n)]
  end
with nodes_s (q : cseq) : list (dbg * list dbg) := match q with CSeq e k => (snd e, infos_s q) :: nodes_k k end
with nodes_k (k : ckids) : list (dbg * list dbg) := match k with KNil => [] | KCons n _ _ k => nodes_n n ++ nodes_k k end
with nodes_b (b : cbrs) : list (dbg * list dbg) := match b with QNil => [] | QCons _ q b => nodes_s q ++ nodes_b b end.
(** the program without the locations of its control flow nodes *)
Definition blank (e : elem) : elem := (fst e, dbg0).
Fixpoint strip_n (n : cnode) : cnode :=
  match n with
  | XBlock e ns es => XBlock (blank e) ns es
  | XSeq q => XSeq (strip_s q)
  | XIf e b => XIf (blank e) (strip_b b)
  | XWhile e q => XWhile (blank e) (strip_s q)
  | XFor e i a c u q => XFor (blank e) i a c u (strip_s q)
  | XMap e i a c u h q => XMap (blank e) i a c u h (strip_s q)
  | XBreak e => XBreak (blank e)
  | XContinue e => XContinue (blank e)
  | XReturn e d t => XReturn (blank e) d t
  end
with strip_s (q : cseq) : cseq := match q with CSeq e k => CSeq (blank e) (strip_k k) end
with strip_k (k : ckids) : ckids := match k with KNil => KNil | KCons n te a k => KCons (strip_n n) te a (strip_k k) end
with strip_b (b : cbrs) : cbrs := match b with QNil => QNil | QCons c q b => QCons c (strip_s q) (strip_b b) end.

(** [d] is the range of lines of [l]: it is a location if one of them is, it covers their
    lines, and it starts (ends) at the line and column at which one of them starts (ends) *)
Definition hull (d : dbg) (l : list dbg) : Prop :=
  (d_has d = true <-> exists e, In e l /\ d_has e = true) /\
  (forall e, In e l -> d_has e = true -> d_l1 d <= d_l1 e /\ d_l2 e <= d_l2 d) /\
  (d_has d = true -> (exists e, In e l /\ d_has e = true /\ d_l1 d = d_l1 e /\ d_c1 d = d_c1 e) /\
                     (exists e, In e l /\ d_has e = true /\ d_l2 d = d_l2 e /\ d_c2 d = d_c2 e)).
(** a location in file [f] and in function [g], or one that names no function *)
Definition here (f g : string) (d : dbg) : Prop := d_has d = true -> d_file d = f /\ (d_func d = "" \/ d_func d = g).
