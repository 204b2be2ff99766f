(** Control-flow clean-up passes (sdfg/src/passes/structured_control_flow/). *)
From Verif Require Import Sym SymFuns Lin IR.

(* ---------------------------------------------------------------- *)
(** SequenceFusion::run_pass, sequence_fusion.cpp:16-57.  For a child that is
    itself a sequence: builder.move_children(subseq, seq, i+1) splices the
    grandchildren with their own transitions (structured_sdfg_builder.cpp:607-623),
    then builder.remove_child(seq, i) erases the child *and its transition*
    (structured_sdfg_builder.cpp:574-577).  The loop re-examines position i, so
    nested sequences are flattened completely; the work list then visits all
    remaining children. *)
Fixpoint sf_node (n : node) : node :=
  match n with
  | NSeq s => NSeq (sf_seq s)
  | NIf bs => NIf (sf_brs bs)
  | NWhile s => NWhile (sf_seq s)
  | NLoop k i init c u s => NLoop k i init c u (sf_seq s)
  | _ => n
  end
with sf_seq (s : seq) : seq :=
  match s with
  | SNil => SNil
  | SCons (NSeq t) a r => sapp (sf_seq t) (sf_seq r)      (* [a] is lost *)
  | SCons n a r => SCons (sf_node n) a (sf_seq r)
  end
with sf_brs (b : brs) : brs :=
  match b with BNil => BNil | BCons c s r => BCons c (sf_seq s) (sf_brs r) end.

(** "No nested sequence carries assignments", everywhere in the program. *)
Fixpoint seq_asg_free_n (n : node) : bool :=
  match n with
  | NSeq s | NWhile s | NLoop _ _ _ _ _ s => seq_asg_free s
  | NIf bs => seq_asg_free_b bs
  | _ => true
  end
with seq_asg_free (s : seq) : bool :=
  match s with
  | SNil => true
  | SCons n a r =>
      (match n with NSeq _ => match a with [] => true | _ => false end | _ => true end)
      && seq_asg_free_n n && seq_asg_free r
  end
with seq_asg_free_b (b : brs) : bool :=
  match b with BNil => true | BCons c s r => seq_asg_free s && seq_asg_free_b r end.

(** No sequence has a sequence as child. *)
Fixpoint flat_n (n : node) : bool :=
  match n with
  | NSeq s | NWhile s | NLoop _ _ _ _ _ s => flat s
  | NIf bs => flat_b bs
  | _ => true
  end
with flat (s : seq) : bool :=
  match s with
  | SNil => true
  | SCons n a r => (match n with NSeq _ => false | _ => true end) && flat_n n && flat r
  end
with flat_b (b : brs) : bool :=
  match b with BNil => true | BCons c s r => flat s && flat_b r end.

(* ---------------------------------------------------------------- *)
(** DeadCFGElimination, dead_cfg_elimination.cpp. *)

(** is_dead, lines 12-33. *)
Definition is_nil (s : seq) : bool := match s with SNil => true | _ => false end.
Definition is_dead (permissive : bool) (n : node) : bool :=
  match n with
  | NBlock b => match b with [] => true | _ => false end
  | NSeq s => is_nil s
  | NIf bs => match bs with BNil => true | _ => false end
  | NWhile s => is_nil s
  | NLoop _ _ _ _ _ s => is_nil s && permissive
  | _ => false
  end.
(** lines 82-92: self assignments x := x are erased. *)
Definition drop_self (a : assigns) : assigns :=
  filter (fun xe => negb (expr_eqb (ESym (fst xe)) (snd xe))) a.

(** canonical_bound, loop_analysis.cpp:257-321 (applied with the result of
    is_monotonic as a parameter); LessThan is [CLe], StrictLessThan is [CLt]. *)
Fixpoint bound_lits (i : string) (l : list cond) (b : option expr) : option (option expr) :=
  match l with
  | [] => Some b
  | CLt (ESym j) r :: l' =>
      if String.eqb i j then
        bound_lits i l' (Some (match b with None => r | Some q => smin q r end))
      else None
  | CLe (ESym j) r :: l' =>
      if String.eqb i j then
        bound_lits i l' (Some (match b with None => saddn r (EInt 1) | Some q => smin q (saddn r (EInt 1)) end))
      else None
  | _ => None
  end.
Definition canonical_bound (monotonic : bool) (i : string) (c : cond) : option expr :=
  if negb monotonic then None
  else match cnf c with
       | None => None
       | Some N =>
           if existsb (fun cl => Nat.ltb 1 (List.length cl)) N then None
           else match bound_lits i (concat N) None with Some b => b | None => None end
       end.
(** stride, loop_analysis.cpp:323-345 *)
Definition stride (i : string) (u : expr) : option Z :=
  match u with
  | EAdd [a; b] =>
      match a, b with
      | ESym x, EInt z => if String.eqb x i then Some z else None
      | EInt z, ESym x => if String.eqb x i then Some z else None
      | _, _ => None
      end
  | _ => None
  end.

Definition no_assums : assumptions := fun _ => None.
(** is_trivial, lines 35-52 (Map only): contiguous and bound - init == 1. *)
Definition is_trivial (i : string) (init : expr) (c : cond) (u : expr) : bool :=
  is_contiguous u i no_assums &&
  match canonical_bound (series_is_monotonic u i no_assums) i c with
  | Some b => expr_eqb (ssubn b init) (EInt 1)
  | None => false
  end.

(** lines 150-183: clean-up of an if/else. *)
Fixpoint drop_false (b : brs) : brs :=
  match b with
  | BNil => BNil
  | BCons c s r => if is_false c then drop_false r else BCons c s (drop_false r)
  end.
Fixpoint drop_last_dead (b : brs) : brs :=
  match b with
  | BNil => BNil
  | BCons c s BNil => if is_nil s then BNil else b
  | BCons c s r => BCons c s (drop_last_dead r)
  end.
Definition drop_compl (b : brs) : brs :=
  match b with
  | BCons c s (BCons d t BNil) =>
      if cond_eqb (snot c) d then
        if is_nil t then BCons c s BNil else if is_nil s then BCons d t BNil else b
      else b
  | _ => b
  end.
Definition simp_brs (b : brs) : brs := drop_compl (drop_last_dead (drop_false b)).

(** run_pass, lines 68-209.  [maps]: whether the trivial-Map rule is active
    (it is, in the code; switching it off isolates the other rules).  The fuel
    bounds the number of re-examinations; theorems hold for every fuel. *)
Fixpoint dce_seq (fuel : nat) (permissive maps : bool) (s : seq) : seq :=
  match fuel with
  | O => s
  | S fuel =>
    match s with
    | SNil => SNil
    | SCons n a r =>
        let a' := drop_self a in
        match n with
        | NReturn q => SCons n [] SNil
        | _ =>
          match a' with
          | _ :: _ => SCons (dce_node fuel permissive maps n) a' (dce_seq fuel permissive maps r)
          | [] =>
            if is_dead permissive n then dce_seq fuel permissive maps r
            else match n with
                 | NIf (BCons c s0 bs) =>
                     if is_true c then dce_seq fuel permissive maps (sapp s0 r)
                     else SCons (dce_node fuel permissive maps n) [] (dce_seq fuel permissive maps r)
                 | NLoop KMap i init c u body =>
                     if maps && is_trivial i init c u
                     then dce_seq fuel permissive maps (sapp (repl_seq i init body) r)
                     else SCons (dce_node fuel permissive maps n) [] (dce_seq fuel permissive maps r)
                 | _ => SCons (dce_node fuel permissive maps n) [] (dce_seq fuel permissive maps r)
                 end
          end
        end
    end
  end
with dce_node (fuel : nat) (permissive maps : bool) (n : node) : node :=
  match fuel with
  | O => n
  | S fuel =>
    match n with
    | NSeq s => NSeq (dce_seq fuel permissive maps s)
    | NIf bs => NIf (dce_brs fuel permissive maps (simp_brs bs))
    | NWhile s => NWhile (dce_seq fuel permissive maps s)
    | NLoop k i init c u s => NLoop k i init c u (dce_seq fuel permissive maps s)
    | _ => n
    end
  end
with dce_brs (fuel : nat) (permissive maps : bool) (b : brs) : brs :=
  match fuel with
  | O => b
  | S fuel =>
    match b with
    | BNil => BNil
    | BCons c s r => BCons c (dce_seq fuel permissive maps s) (dce_brs fuel permissive maps r)
    end
  end.

(* ---------------------------------------------------------------- *)
(** ConditionElimination::eliminate_condition, condition_elimination.cpp:9-47,
    at one child: [if (c) { loop <T> } <A>] becomes [{ loop <T> } <A>].
    [outside]: the names read by the rest of the program (the Users test of
    lines 22-27: the induction variable is read only inside the branch). *)
Definition cond_elim (outside : list string) (n : node) (a : assigns) : option (node * assigns) :=
  match n with
  | NIf (BCons c (SCons (NLoop k i init lc u body) T SNil) BNil) =>
      if existsb (String.eqb i) outside then None
      else if cond_eqb (csubs lc i init) c
           then Some (NSeq (SCons (NLoop k i init lc u body) T SNil), a)
           else None
  | _ => None
  end.

(** The visitor (condition_elimination.cpp:56-86, structured_sdfg_visitor.cpp)
    over a whole program. *)
Fixpoint ce_seq (outside : list string) (s : seq) : seq :=
  match s with
  | SNil => SNil
  | SCons n a r =>
      let r' := ce_seq outside r in
      match n with
      | NIf (BCons c s1 BNil) =>
          match cond_elim outside n a with
          | Some _ => SCons (NSeq (ce_seq outside s1)) a r'
          | None => SCons (ce_node outside n) a r'
          end
      | _ => SCons (ce_node outside n) a r'
      end
  end
with ce_node (outside : list string) (n : node) : node :=
  match n with
  | NSeq s => NSeq (ce_seq outside s)
  | NIf b => NIf (ce_brs outside b)
  | NWhile s => NWhile (ce_seq outside s)
  | NLoop k i init c u s => NLoop k i init c u (ce_seq outside s)
  | _ => n
  end
with ce_brs (outside : list string) (b : brs) : brs :=
  match b with BNil => BNil | BCons c s r => BCons c (ce_seq outside s) (ce_brs outside r) end.

(* ---------------------------------------------------------------- *)
(** CommonAssignmentElimination, common_assignment_elimination.cpp:16-95, at
    one if/else child with transition [a]: every assignment x := e of the last
    transition of the first branch that also ends every other branch (and
    whose target is not yet in [a]) is *inserted* into [a]; nothing is removed
    from the branches. *)
Fixpoint last_asg (s : seq) : option assigns :=
  match s with
  | SNil => None
  | SCons _ a SNil => Some a
  | SCons _ _ r => last_asg r
  end.
Fixpoint lookup_asg (x : string) (a : assigns) : option expr :=
  match a with [] => None | (y, e) :: a' => if String.eqb x y then Some e else lookup_asg x a' end.
Fixpoint ends_with (x : string) (e : expr) (b : brs) : bool :=
  match b with
  | BNil => true
  | BCons _ s r =>
      match last_asg s with
      | Some a => match lookup_asg x a with Some e' => expr_eqb e e' | None => false end
      | None => false
      end && ends_with x e r
  end.
Definition common_asgs (b : brs) (a : assigns) : assigns :=
  match b with
  | BCons _ s (BCons _ _ _ as r) =>
      match last_asg s with
      | Some l => filter (fun xe => match lookup_asg (fst xe) a with
                                    | Some _ => false
                                    | None => ends_with (fst xe) (snd xe) r end) l
      | None => []
      end
  | _ => []
  end.
Fixpoint cae_seq (s : seq) : seq :=
  match s with
  | SNil => SNil
  | SCons n a r =>
      let a' := match n with NIf b => a ++ common_asgs b a | _ => a end in
      SCons (cae_node n) a' (cae_seq r)
  end
with cae_node (n : node) : node :=
  match n with
  | NSeq s => NSeq (cae_seq s)
  | NIf b => NIf (cae_brs b)
  | NWhile s => NWhile (cae_seq s)
  | NLoop k i init c u s => NLoop k i init c u (cae_seq s)
  | _ => n
  end
with cae_brs (b : brs) : brs :=
  match b with BNil => BNil | BCons c s r => BCons c (cae_seq s) (cae_brs r) end.
