(** AssumptionsAnalysis: model of sdfg/src/analysis/assumptions_analysis.cpp. *)
From Coq Require Import Lia.
From Verif Require Import Sym SymFacts SymFuns IR.
Local Open Scope string_scope.
Local Open Scope Z_scope.

(** A structured loop (For or Map): induction variable, initial value,
    condition, update, body (structured_loop.h). *)
Record hdr := { h_i : string; h_init : expr; h_c : cond; h_u : expr; h_body : seq }.

(** Setters of Assumption (assumptions.cpp:54-119); the bound sets are lists *)
Definition add_lb (e : expr) (a : assumption) := {| lb_dep := lb_dep a; ub_dep := ub_dep a; lbs := e :: lbs a; ubs := ubs a; tlb := tlb a; tub := tub a; aconst := aconst a; amap := amap a |}.
Definition add_ub (e : expr) (a : assumption) := {| lb_dep := lb_dep a; ub_dep := ub_dep a; lbs := lbs a; ubs := e :: ubs a; tlb := tlb a; tub := tub a; aconst := aconst a; amap := amap a |}.
Definition set_lbd (e : expr) (a : assumption) := {| lb_dep := e; ub_dep := ub_dep a; lbs := lbs a; ubs := ubs a; tlb := tlb a; tub := tub a; aconst := aconst a; amap := amap a |}.
Definition set_ubd (e : expr) (a : assumption) := {| lb_dep := lb_dep a; ub_dep := e; lbs := lbs a; ubs := ubs a; tlb := tlb a; tub := tub a; aconst := aconst a; amap := amap a |}.
Definition set_tlb (e : expr) (a : assumption) := {| lb_dep := lb_dep a; ub_dep := ub_dep a; lbs := lbs a; ubs := ubs a; tlb := Some e; tub := tub a; aconst := aconst a; amap := amap a |}.
Definition set_tub (e : expr) (a : assumption) := {| lb_dep := lb_dep a; ub_dep := ub_dep a; lbs := lbs a; ubs := ubs a; tlb := tlb a; tub := Some e; aconst := aconst a; amap := amap a |}.
Definition set_const (a : assumption) := {| lb_dep := lb_dep a; ub_dep := ub_dep a; lbs := lbs a; ubs := ubs a; tlb := tlb a; tub := tub a; aconst := true; amap := amap a |}.
Definition set_map (e : expr) (a : assumption) := {| lb_dep := lb_dep a; ub_dep := ub_dep a; lbs := lbs a; ubs := ubs a; tlb := tlb a; tub := tub a; aconst := aconst a; amap := Some e |}.
(** body_assumptions[x]...: operator[] of the map creates a default entry *)
Definition at_sym (x : string) (f : assumption -> assumption) (B : assumptions) : assumptions :=
  fun y => if String.eqb y x then Some (f (match B x with Some a => a | None => assum_default end)) else B y.
Definition no_entry : assumptions := fun _ => None.

(** cnf_to_upper_bound, lines 20-61 *)
Definition ub_cand (i : string) (l : cond) : list expr :=
  match l with
  | CLt (ESym j) e => if String.eqb i j && negb (uses e i) then [ssub e (EInt 1)] else []
  | CLe (ESym j) e => if String.eqb i j && negb (uses e i) then [e] else []
  | CEq (ESym j) e => if String.eqb i j && negb (uses e i) then [e] else []
  | _ => []
  end.
Definition cnf_upper (N : list (list cond)) (i : string) : option expr :=
  match flat_map (ub_cand i) (concat N) with [] => None | e :: r => Some (fold_left smin r e) end.

(** The bounds from index access, lines 170-214.  A memlet of the function: the
    container, its subset, the extents met when walking the base type from the
    outside ([None]: a pointer, [Some n]: an array of n).  The subset is walked
    from the *last* dimension while the type is walked from the outside.
    [param]: is_parameter; [bytes]: dynamic_sizeof. *)
Record memlet := { m_data : string; m_subset : list expr; m_dims : list (option expr) }.
Section Inverse.
  Variables (param : string -> bool) (bytes : string -> expr).
  Fixpoint inv_dims (i : string) (data : string) (sub : list expr) (dims : list (option expr)) : list expr * list expr :=
    match sub, dims with
    | e :: sub, d :: dims =>
        let r := inv_dims i data sub dims in
        if negb (uses e i) then r
        else match inverse i e with
             | None => r
             | Some f => (subs f i (EInt 0) :: fst r,
                 match d with
                 | Some n => ssub (subs f i n) (EInt 1) :: snd r
                 | None => if param data then ssub (subs f i (bytes data)) (EInt 1) :: snd r else snd r
                 end)
             end
    | _, _ => ([], [])
    end.
  Definition inv_bounds (M : list memlet) (i : string) : list expr * list expr :=
    let rs := map (fun m => inv_dims i (m_data m) (rev (m_subset m)) (m_dims m)) M in (concat (map fst rs), concat (map snd rs)).
End Inverse.

(** traverse_structured_loop, lines 123-288: the assumptions a loop creates for
    its body.  [consts]: symbols read and not written in the body (lines 144-167);
    [ilb], [iub]: the bounds from index access; [T]: the assumptions outside
    including the trivial ones. *)
Definition body_assums (consts : list string) (ilb iub : list expr) (T : assumptions) (h : hdr) : assumptions :=
  let i := h_i h in
  let B := fold_left (fun B x => at_sym x set_const B) (catoms (h_c h) ++ consts) no_entry in
  let B := at_sym i (fun a => set_const (set_map (h_u h) a)) B in
  let B := fold_left (fun B e => at_sym i (add_lb e) B) ilb B in
  let B := fold_left (fun B e => at_sym i (add_ub e) B) iub B in
  if negb (series_is_monotonic (h_u h) i T) then B
  else
    let B := at_sym i (fun a => set_lbd (h_init h) (set_tlb (h_init h) (add_lb (h_init h) a))) B in
    let B := match h_init h with ESym y => fold_left (fun B e => at_sym y (add_lb e) B) ilb B | _ => B end in
    match cnf (h_c h) with
    | None => B
    | Some N =>
        match cnf_upper N i with
        | None => B
        | Some ub =>
            let B := at_sym i (fun a => set_ubd ub (add_ub ub a)) B in
            let B := if is_contiguous (h_u h) i T then at_sym i (set_tub ub) B else B in
            let B := match ub with ESym y => fold_left (fun B e => at_sym y (add_ub e) B) iub B | _ => B end in
            fold_left (fun B x => at_sym x (fun a => set_lbd (sadd (h_init h) (EInt 1)) (add_lb (sadd (h_init h) (EInt 1)) a)) B) (atoms ub) B
        end
    end.

(** propagate, lines 290-395: the assumptions of the outer scope are merged in *)
Definition or_else {A} (a b : option A) : option A := match a with Some _ => a | None => b end.
Definition merge (inner outer : assumption) : assumption :=
  {| lb_dep := smax (lb_dep outer) (lb_dep inner); ub_dep := smin (ub_dep outer) (ub_dep inner);
     lbs := lbs outer ++ lbs inner; ubs := ubs outer ++ ubs inner;
     tlb := or_else (tlb inner) (tlb outer); tub := or_else (tub inner) (tub outer);
     aconst := aconst inner || aconst outer; amap := or_else (amap inner) (amap outer) |}.
Definition propagate (B A : assumptions) : assumptions :=
  fun x => match B x, A x with
           | None, o => o
           | Some b, None => Some b
           | Some b, Some a => Some (merge b a)
           end.

(** traverse, lines 101-121: sequences, branches and whiles hand the outer
    assumptions on; a loop adds its own.  So the assumptions at a node depend on
    the loops around it, outermost first.  First component: without the trivial
    (type) bounds, second: with them. *)
Definition enter (consts : hdr -> list string) (inv : hdr -> list expr * list expr) (AT : assumptions * assumptions) (h : hdr) : assumptions * assumptions :=
  let B := body_assums (consts h) (fst (inv h)) (snd (inv h)) (snd AT) h in
  (propagate B (fst AT), propagate B (snd AT)).
Definition assums_at (consts : hdr -> list string) (inv : hdr -> list expr * list expr) (A T : assumptions) (ctx : list hdr) : assumptions :=
  fst (fold_left (enter consts inv) ctx (A, T)).

(** lines 144-167, for a program whose symbols are [is_sym]: read and not written *)
Definition const_syms (is_sym : string -> bool) (h : hdr) : list string :=
  filter (fun x => is_sym x && negb (existsb (String.eqb x) (swrites (h_body h)))) (sreads (h_body h)).

(* ---------------------------------------------------------------- *)
(** * Specification: the points an execution goes through *)
(** [reaches I n st ctx m st']: executing [n] from [st] starts, at some moment,
    the node [m] inside it, in state [st']; [ctx] are the structured loops
    around that occurrence of [m], outermost first.  The execution need not
    terminate. *)
Section Reach.
  Variable I : nat -> list Z -> option Z.
  Inductive reaches : node -> store -> list hdr -> node -> store -> Prop :=
  | V_here n st : reaches n st [] n st
  | V_seq s st ctx m st' : reachesS s st ctx m st' -> reaches (NSeq s) st ctx m st'
  | V_if b st ctx m st' : reachesB b st ctx m st' -> reaches (NIf b) st ctx m st'
  | V_while s st ctx m st' : reachesW s st ctx m st' -> reaches (NWhile s) st ctx m st'
  | V_loop k i init c u s st v ctx m st' : eval (env_of st) init = Some v ->
      reachesL {| h_i := i; h_init := init; h_c := c; h_u := u; h_body := s |} (wr st i [] v) ctx m st' -> reaches (NLoop k i init c u s) st ctx m st'
  with reachesS : seq -> store -> list hdr -> node -> store -> Prop :=
  | V_head n a r st ctx m st' : reaches n st ctx m st' -> reachesS (SCons n a r) st ctx m st'
  | V_tail n a r st st1 st2 ctx m st' : run I n st ONorm st1 -> exec_assigns st1 a = Some st2 -> reachesS r st2 ctx m st' -> reachesS (SCons n a r) st ctx m st'
  with reachesB : brs -> store -> list hdr -> node -> store -> Prop :=
  | V_true c s r st ctx m st' : cev (env_of st) c = Some true -> reachesS s st ctx m st' -> reachesB (BCons c s r) st ctx m st'
  | V_false c s r st ctx m st' : cev (env_of st) c = Some false -> reachesB r st ctx m st' -> reachesB (BCons c s r) st ctx m st'
  with reachesW : seq -> store -> list hdr -> node -> store -> Prop :=
  | V_wnow s st ctx m st' : reachesS s st ctx m st' -> reachesW s st ctx m st'
  | V_wnext s st o1 st1 ctx m st' : runs I s st o1 st1 -> o1 = ONorm \/ o1 = OCont -> reachesW s st1 ctx m st' -> reachesW s st ctx m st'
  with reachesL : hdr -> store -> list hdr -> node -> store -> Prop :=
  | V_lnow h st ctx m st' : cev (env_of st) (h_c h) = Some true -> reachesS (h_body h) st ctx m st' -> reachesL h st (h :: ctx) m st'
  | V_lnext h st o1 st1 v ctx m st' : cev (env_of st) (h_c h) = Some true -> runs I (h_body h) st o1 st1 -> o1 = ONorm \/ o1 = OCont ->
      eval (env_of st1) (h_u h) = Some v -> reachesL h (wr st1 (h_i h) [] v) ctx m st' -> reachesL h st ctx m st'.
End Reach.
Scheme reaches_mind := Induction for reaches Sort Prop
with reachesS_mind := Induction for reachesS Sort Prop
with reachesB_mind := Induction for reachesB Sort Prop
with reachesW_mind := Induction for reachesW Sort Prop
with reachesL_mind := Induction for reachesL Sort Prop.
Combined Scheme reach_mind from reaches_mind, reachesS_mind, reachesB_mind, reachesW_mind, reachesL_mind.

(** Every bound of every entry holds in [s]. *)
Definition lowers (a : assumption) : list expr := lb_dep a :: lbs a ++ match tlb a with Some e => [e] | None => [] end.
Definition uppers (a : assumption) : list expr := ub_dep a :: ubs a ++ match tub a with Some e => [e] | None => [] end.
Definition holds (s : env) (A : assumptions) : Prop :=
  forall x a, A x = Some a -> (forall b, In b (lowers a) -> xle (ev s b) (Fin (s x))) /\ (forall b, In b (uppers a) -> xle (Fin (s x)) (ev s b)).
