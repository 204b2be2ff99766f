(** Reaching definitions: analysis::DataDependencyAnalysis, not detailed (the
    default, used by the passes).

    Models sdfg/src/analysis/data_dependency_analysis.cpp:28-694, 828-975 for one
    container [x] (definitions of different containers never interact:
    [closes], [depends], [intersects] start with a comparison of the containers).
    - [sc]: the type of [x] is a scalar.
    - [pd u v], [dom u v]: DominanceAnalysis::post_dominates / dominates
      (dominance_analysis.cpp:21-41), oracles here.
    - [cov r d]: supersedes_restrictive(r, d) on arrays (754-791), an oracle.
    - [last ds]: whether the definition that an iteration over the unordered map
      [ds] visits last is artificial; the code assigns [found_undefined_user] in
      the loop instead of or-ing it (for example 122-126), so this decides when
      artificial and proper definitions are both open. Any order is allowed.
    Sets and maps keyed by users are lists. *)
From Verif Require Export Users SymFuns.

Record def := D { d_u : user; d_r : list user }.
(** undefined, open_definitions, closed_definitions (30-32) *)
Record rst := St { und : list user; opn : list def; cls : list def }.
Definition st_empty : rst := St [] [] [].
Definition has (x : string) (l : list string) : bool := existsb (String.eqb x) l.
Definition nonempty {A} (l : list A) : bool := match l with [] => false | _ => true end.
Fixpoint bconds (b : brs) : list cond := match b with BNil => [] | BCons c _ r => c :: bconds r end.
(** IfElse::is_complete, if_else.cpp:41-57 *)
Definition complete (b : brs) : bool := match is_complete (bconds b) with Some true => true | _ => false end.

Section Analysis.
  Variable x : string.
  Variable sc : bool.
  Variables pd dom cov : user -> user -> bool.
  Variable last : list def -> bool.

  (** is_undefined_user, 966-968 *)
  Definition is_art (d : def) : bool := match u_el (d_u d) with UArt => true | _ => false end.
  Definition link (r : user) (d : def) : def := D (d_u d) (r :: d_r d).
  (** the value of found_undefined_user after the loop over the open definitions *)
  Definition undef_found (l : list def) : bool := existsb is_art l && (forallb is_art l || last l).
  (** A read: added to every open definition; undefined if there is none, or if
      found_undefined_user ([art]; 113-131, 160-176, 193-207, ...). Transitions
      (636-656), while (566-582) and return (600-611) do not look at artificial
      definitions: [art = false]. *)
  Definition rd1 (art : bool) (r : user) (s : rst) : rst :=
    St (if negb (nonempty (opn s)) || art && undef_found (opn s) then r :: und s else und s)
       (map (link r) (opn s)) (cls s).
  (** closes, 828-875: not artificial, post-dominance if [need], a scalar. *)
  Definition closes (need : bool) (w : user) (d : def) : bool :=
    negb (is_art d) && (negb need || pd w (d_u d)) && sc.
  (** A write: 84-98 ([need = false]), 210-227 and 659-675 ([need = true]). *)
  Definition wr1 (need : bool) (w : user) (s : rst) : rst :=
    St (und s) (D w [] :: filter (fun d => negb (closes need w d)) (opn s)) (filter (closes need w) (opn s) ++ cls s).
  Definition when (b : bool) (f : rst -> rst) (s : rst) : rst := if b then f s else s.

  (** visit_block, 52-180 *)
  Fixpoint visOps (p : path) (j : nat) (b : block) (s : rst) : rst :=
    match b with
    | [] => s
    | o :: b' => visOps p (S j) b'
        (when (String.eqb (o_out o) x) (wr1 false (U p (UOp j) true x))
           (when (has x (op_uses o)) (rd1 true (U p (UOp j) false x)) s))
    end.
  (** Transitions in visit_sequence, 635-676: all reads, then all writes. *)
  Definition visA (p : path) (a : assigns) (s : rst) : rst :=
    when (has x (map fst a)) (wr1 true (U p UAsg true x)) (when (has x (asg_reads a)) (rd1 false (U p UAsg false x)) s).
  Definition rds1 (art : bool) (l : list user) (s : rst) : rst := fold_left (fun s r => rd1 art r s) l s.

  (** candidates of a complete if-else, 489-508 *)
  Definition cand (l : list rst) : bool :=
    match l with
    | [] => false
    | s0 :: r => (nonempty (opn s0) || nonempty (cls s0)) && forallb (fun s => nonempty (opn s)) r
    end.
  (** visit_if_else, 450-535: [l] are the states of the branches. *)
  Definition merge_if (p : path) (compl : bool) (l : list rst) (s : rst) : rst :=
    let s1 := rds1 true (concat (map und l)) s in
    let c1 := concat (map cls l) ++ cls s1 in
    let ob := concat (map opn l) in
    if compl then
      if cand l then St (und s1) ob (opn s1 ++ c1) else St (und s1) (ob ++ opn s1) c1
    else St (und s1) (ob ++ map (fun _ => D (U p UArt true x) []) ob ++ opn s1) c1.
  (** carried dependences: every undefined read of the body to every open
      definition of the body (569-573; 382-389) *)
  Definition carry (b : rst) : list def := map (fun d => D (d_u d) (und b ++ d_r d)) (opn b).
  (** visit_while, 537-588 *)
  Definition merge_while (b s : rst) : rst :=
    let s1 := rds1 false (und b) s in St (und s1) (carry b ++ opn s1) (cls b ++ cls s1).
  (** visit_for, 296-331: an undefined read of the body is added to the open
      definitions; it stays undefined if there is none, if one is artificial, or
      if none of them dominates and covers it. *)
  Definition rdL (r : user) (s : rst) : rst :=
    St (if negb (nonempty (opn s)) || undef_found (opn s) ||
           negb (existsb (fun d => negb (is_art d) && dom (d_u d) r && (sc || cov r (d_u d))) (opn s))
        then r :: und s else und s)
       (map (link r) (opn s)) (cls s).
  (** visit_for, 290-404 *)
  Definition merge_for (b s : rst) : rst :=
    let s1 := fold_left (fun s r => rdL r s) (und b) s in
    let cl d := existsb (fun e => negb (is_art e) && closes true (d_u e) d) (opn b) in
    St (und s1) (carry b ++ filter (fun d => negb (cl d)) (opn s1)) (filter cl (opn s1) ++ cls b ++ cls s1).
  (** visit_for, 230-234: the update write is opened without closing anything *)
  Definition open_upd (p : path) (s : rst) : rst := St (und s) (D (U p UUpd true x) [] :: opn s) (cls s).
  Definition loop_head (p : path) (i : string) (init : expr) (c : cond) (s : rst) : rst :=
    when (has x (catoms c)) (rd1 true (U p UTest false x))
      (when (String.eqb i x) (fun s => open_upd p (wr1 true (U p UInit true x) s))
        (when (has x (atoms init)) (rd1 true (U p UInit false x)) s)).

  (** visit_sequence 613-678 (dispatch), visit_for 182-405, visit_if_else 407-535,
      visit_while, visit_return 590-611. *)
  Fixpoint visN (p : path) (n : node) (s : rst) : rst :=
    match n with
    | NBlock b => visOps p 0 b s
    | NSeq q => visS p 0 q s
    | NIf bs => merge_if p (complete bs) (visB p 0 bs) (when (has x (concat (map catoms (bconds bs)))) (rd1 true (U p UCond false x)) s)
    | NWhile b => merge_while (visS (Body :: p) 0 b st_empty) s
    | NLoop _ i init c u b =>
        merge_for (when (has x (atoms u)) (rd1 true (U p UUpd false x)) (visS (Body :: p) 0 b st_empty)) (loop_head p i init c s)
    | NBreak | NContinue => s
    | NReturn r => let s1 := when (String.eqb r x) (rd1 false (U p URet false x)) s in St (und s1) [] (opn s1 ++ cls s1)
    end
  with visS (q : path) (k : nat) (s : seq) (st : rst) : rst :=
    match s with
    | SNil => st
    | SCons n a r => visS q (S k) r (visA (Kid k :: q) a (visN (Kid k :: q) n st))
    end
  with visB (p : path) (k : nat) (b : brs) : list rst :=
    match b with
    | BNil => []
    | BCons _ s r => visS (Br k :: p) 0 s st_empty :: visB p (S k) r
    end.

  (** run, 28-48: the definitions of [x] with their reads. *)
  Definition definitions (p : seq) : list def := let s := visS [] 0 p st_empty in opn s ++ cls s.
  (** [r] is reported as a read of the definition [w]: DataDependencyAnalysis::defines(w). *)
  Definition reported (p : seq) (w r : user) : Prop := exists d, In d (definitions p) /\ d_u d = w /\ In r (d_r d).
End Analysis.

(* ---------------------------------------------------------------- *)
(** * Programs on which the analysis is right (specification side) *)
(** may leave by break or continue *)
Fixpoint escN (n : node) : bool :=
  match n with
  | NBreak | NContinue => true
  | NSeq s => escS s
  | NIf bs => escB bs
  | NBlock _ | NWhile _ | NLoop _ _ _ _ _ _ | NReturn _ => false
  end
with escS (s : seq) : bool := match s with SNil => false | SCons n _ r => escN n || escS r end
with escB (b : brs) : bool := match b with BNil => false | BCons _ s r => escS s || escB r end.

Section Regular.
  Variable x : string.
  Variable sc : bool.
  (** every normal completion writes [x] *)
  Fixpoint mustN (n : node) : bool :=
    match n with
    | NBlock b => has x (map o_out b)
    | NSeq s => mustS s
    | NIf bs => complete bs && mustB bs
    | NWhile _ => false
    | NLoop _ i _ _ _ _ => String.eqb i x
    | NBreak | NContinue | NReturn _ => true
    end
  with mustS (s : seq) : bool := match s with SNil => false | SCons n a r => mustN n || has x (map fst a) || mustS r end
  with mustB (b : brs) : bool := match b with BNil => true | BCons _ s r => mustS s && mustB r end.
  (** every branch mentions a write of [x] *)
  Fixpoint someB (b : brs) : bool := match b with BNil => true | BCons _ s r => has x (swrites s) && someB r end.

  (** A position: [strict] inside a branch or a loop body; [may], [must]: [x] may
      (must) have been written since the entry of that branch or body; [lock]:
      the branch or body may have been left by break or continue after that. *)
  Record pos := P { strict : bool; may : bool; must : bool; lock : bool }.
  Definition P_in : pos := P true false false false.
  Definition P_top : pos := P false false false false.
  (** In a branch or body a read comes before all writes of [x] there, or after
      one that is always executed. *)
  Definition rdok (p : pos) : bool := negb (strict p) || negb (may p) || sc && must p.
  (** No write of [x] after a break or continue that follows another write. *)
  Definition wrok (p : pos) : bool := negb (lock p) || negb sc.
  Definition wrote (p : pos) : pos := P (strict p) true true (lock p).
  Definition wroteb (b : bool) (p : pos) : pos := if b then wrote p else p.
  Definition after (n : node) (p : pos) : pos :=
    P (strict p) (may p || has x (nwrites n)) (must p || mustN n) (lock p || escN n && (may p || has x (nwrites n))).
  Definition impb (a b : bool) : bool := negb a || b.

  Fixpoint okOps (p : pos) (b : block) : bool :=
    match b with
    | [] => true
    | o :: b' => impb (has x (op_uses o)) (rdok p) && impb (String.eqb (o_out o) x) (wrok p) && okOps (wroteb (String.eqb (o_out o) x) p) b'
    end.
  (** no read of [x] after its write in the same transition *)
  Fixpoint okA (a : assigns) : bool :=
    match a with
    | [] => true
    | (y, e) :: a' => impb (String.eqb y x) (negb (has x (asg_reads a'))) && okA a'
    end.
  Fixpoint okN (p : pos) (n : node) : bool :=
    match n with
    | NBlock b => okOps p b
    | NSeq s => okS p s
    | NIf bs =>
        impb (has x (concat (map catoms (bconds bs)) ++ breads bs)) (rdok p) && okB bs &&
        (* an if-else that hides earlier writes has them overwritten in every branch *)
        impb (complete bs && may p && someB bs) (sc && mustB bs && negb (escB bs) && negb (lock p))
    | NWhile s => impb (has x (sreads s)) (rdok p) && okS P_in s
    | NLoop _ i init c u s =>
        let p1 := wroteb (String.eqb i x) p in
        impb (has x (atoms init)) (rdok p) && impb (String.eqb i x) (sc && wrok p) &&
        (* the condition does not read what the body writes, unless it is the index *)
        impb (has x (catoms c)) (rdok p1 && (String.eqb i x || negb (has x (swrites s)))) &&
        impb (has x (sreads s ++ atoms u)) (rdok p1) && okS P_in s &&
        impb (has x (atoms u)) (negb (has x (swrites s)) || sc && mustS s && negb (escS s)) &&
        impb (has x (swrites s)) (wrok p)
    | NBreak | NContinue => true
    | NReturn r => impb (String.eqb r x) (rdok p) && negb (lock p)
    end
  with okS (p : pos) (s : seq) : bool :=
    match s with
    | SNil => true
    | SCons n a r =>
        let p1 := after n p in
        okN p n && impb (has x (asg_reads a)) (rdok p1) && okA a && impb (has x (map fst a)) (wrok p1) &&
        okS (wroteb (has x (map fst a)) p1) r
    end
  with okB (b : brs) : bool := match b with BNil => true | BCons _ s r => okS P_in s && okB r end.
  Definition regular (p : seq) : bool := okS P_top p.
End Regular.

(** Post-dominance is right about loops: if a use [u] in the body of a loop
    post-dominates a use [v] outside that body, then [v] is not the update of that
    loop and every execution of the loop passes [u]. *)
Definition within (q p : path) : Prop := exists l, p = l ++ q.
Section Pdom.
  Variable I : nat -> list Z -> option Z.
  Variable pd : user -> user -> bool.
  Fixpoint pdomN (p : path) (n : node) : Prop :=
    match n with
    | NBlock _ | NBreak | NContinue | NReturn _ => True
    | NSeq s => pdomS p 0 s
    | NIf bs => pdomB p 0 bs
    | NWhile s => pdomS (Body :: p) 0 s
    | NLoop _ _ _ _ _ s =>
        (forall u v, within (Body :: p) (u_at u) -> ~ within (Body :: p) (u_at v) -> pd u v = true ->
           ~ (u_at v = p /\ u_el v = UUpd) /\ forall st st' T, runU I p n st ONorm st' T -> In u T) /\
        pdomS (Body :: p) 0 s
    end
  with pdomS (q : path) (k : nat) (s : seq) : Prop :=
    match s with SNil => True | SCons n _ r => pdomN (Kid k :: q) n /\ pdomS q (S k) r end
  with pdomB (p : path) (k : nat) (b : brs) : Prop :=
    match b with BNil => True | BCons _ s r => pdomS (Br k :: p) 0 s /\ pdomB p (S k) r end.
End Pdom.
