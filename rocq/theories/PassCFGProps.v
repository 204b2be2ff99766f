(** Properties of the control-flow clean-up passes (C12-C15, C25, C35).

    Reading guide (specification side):
    - [runs I p st o st']: program [p] started in store [st] terminates without
      undefined behaviour in [st'], leaving via [o] (normally, break, continue,
      return), where [I] gives the meaning of the tasklet op-codes (IR.v);
      execution is deterministic (IRFacts.runs_det);
    - [preserved p q] (IRRefine.v): for every [I], every store, every terminating
      run of [p], [q] terminates with the same outcome and the same contents of
      every container at every index. *)
From Verif Require Import Sym SymFacts SymFuns SymProofs1 SymProofs4 Lin IR IRFacts IRRefine PassCFG LoopAnaProofs PassCFGProofs PassInline PassCFGProofs2.
Local Open Scope string_scope.
Local Open Scope Z_scope.

(** The same, except that the scalar cells of the names in [D] may differ. *)
Definition preserved_except (D : string -> Prop) (p q : seq) : Prop :=
  forall I st o st', runs I p st o st' ->
    exists st'', runs I q st o st'' /\ forall x i, (D x /\ i = []) \/ st'' x i = st' x i.

Lemma srefD_preserved D p q : srefD D p q -> preserved_except D p q.
Proof.
  intros H I st o st' R. destruct (H I st st o st' (eqs_refl _ _) R) as (q' & Rq & E). exists q'; split; auto.
  intros x i. destruct (E x i) as [|Q]; auto.
Qed.

(** Ingredients of the witnesses: op-code 0 copies its input. *)
Definition I0 (c : nat) (l : list Z) : option Z := match c, l with O, [v] => Some v | _, _ => None end.
Definition st0 : store := fun _ _ => 0.
Definition set_blk (x : string) (z : Z) : node := NBlock [{| o_code := 0; o_ins := [OConst z]; o_out := x; o_sub := [] |}].
Definition copy_blk (x y : string) : node := NBlock [{| o_code := 0; o_ins := [ORead y []]; o_out := x; o_sub := [] |}].

(** A program whose interpretation differs at one cell is not preserved. *)
Lemma refute fuel p q st x i o1 s1 o2 s2 :
  xseq I0 fuel p st = Some (o1, s1) -> xseq I0 fuel q st = Some (o2, s2) -> s1 x i <> s2 x i -> ~ preserved p q.
Proof.
  intros H1 H2 N P. apply xseq_runs in H1. apply xseq_runs in H2.
  destruct (P I0 st o1 s1 H1) as (s3 & R3 & E3). destruct (runs_det _ _ _ _ _ _ _ H2 R3) as [_ Q]. subst. apply N. rewrite E3. auto.
Qed.
Lemma refute_except fuel (D : string -> Prop) p q st x i o1 s1 o2 s2 :
  xseq I0 fuel p st = Some (o1, s1) -> xseq I0 fuel q st = Some (o2, s2) -> s1 x i <> s2 x i -> ~ D x -> ~ preserved_except D p q.
Proof.
  intros H1 H2 N Nd P. apply xseq_runs in H1. apply xseq_runs in H2.
  destruct (P I0 st o1 s1 H1) as (s3 & R3 & E3). destruct (runs_det _ _ _ _ _ _ _ H2 R3) as [_ Q]. subst.
  destruct (E3 x i) as [[? _]|E]; auto.
Qed.

(* ======================= C12 ======================= *)
Definition C12_full : Prop := forall p : seq, preserved p (sf_seq p).
(** Both directions, for programs in which no nested sequence carries
    transition assignments.  Missing from the full claim: those that do. *)
Theorem C12_sequence_fusion_partial : forall p : seq, seq_asg_free p = true ->
  preserved p (sf_seq p) /\ preserved (sf_seq p) p.
Proof. intros p H. split; apply sref_preserved; [exact (proj1 (proj1 (proj2 sf_sound) p H))|exact (proj2 (proj1 (proj2 sf_sound) p H))]. Qed.
(** The result contains no sequence directly inside a sequence. *)
Theorem C12_sequence_fusion_flattens : forall p : seq, flat (sf_seq p) = true.
Proof. exact (proj1 (proj2 sf_flat)). Qed.

Definition c12_bad : seq := SCons (NSeq (SCons (set_blk "y" 3) [] SNil)) [("x", EInt 1)] SNil.
Theorem C12_sequence_fusion_refuted : ~ C12_full.
Proof.
  intros F. apply (refute 10 c12_bad (sf_seq c12_bad) st0 "x" [] ONorm _ ONorm _ eq_refl eq_refl); [vm_compute; discriminate|apply F].
Qed.
(** ... and ConditionElimination, which runs before it, produces such programs. *)
Definition c12_ce : seq :=
  SCons (NIf (BCons (CLt (EInt 0) (ESym "n"))
     (SCons (NLoop KFor "i" (EInt 0) (CLt (ESym "i") (ESym "n")) (EAdd [EInt 1; ESym "i"]) (SCons (set_blk "y" 3) [] SNil)) [] SNil) BNil))
   [("x", EInt 1)] SNil.
Theorem C12_after_condition_elimination_refuted :
  seq_asg_free c12_ce = true /\ ~ preserved_except (eq "i") c12_ce (sf_seq (ce_seq [] c12_ce)).
Proof.
  split; [reflexivity|].
  apply (refute_except 10 _ c12_ce (sf_seq (ce_seq [] c12_ce)) st0 "x" [] ONorm _ ONorm _ eq_refl eq_refl); [vm_compute|]; discriminate.
Qed.
Example C12_nonvacuous :
  let p := SCons (NSeq (SCons (set_blk "y" 3) [("x", EInt 1)] (SCons (NSeq (SCons NBreak [] SNil)) [] SNil))) [] (SCons (set_blk "x" 2) [] SNil) in
  seq_asg_free p = true /\ sf_seq p = SCons (set_blk "y" 3) [("x", EInt 1)] (SCons NBreak [] (SCons (set_blk "x" 2) [] SNil)).
Proof. split; reflexivity. Qed.

(* ======================= C13 ======================= *)
(** Every rule of the pass except the trivial-Map rule (C35): self
    assignments, code after return, empty blocks, sequences, whiles and
    if/elses, constant branches, complementary branches, dead last branch. *)
Theorem C13_dead_cfg_elimination : forall (fuel : nat) (p : seq), preserved p (dce_seq fuel false false p).
Proof. intros. apply sref_preserved. apply (proj1 (dce_sound fuel)). Qed.

Example C13_nonvacuous :
  let p := SCons (NBlock []) [("x", ESym "x")]
          (SCons (NIf (BCons (CBool true) (SCons (set_blk "y" 3) [] SNil) BNil)) []
          (SCons (NIf (BCons (CLt (ESym "a") (ESym "b")) (SCons (set_blk "z" 4) [] SNil) (BCons (CLe (ESym "b") (ESym "a")) SNil BNil))) []
          (SCons (NReturn "y") [] (SCons (set_blk "y" 5) [] SNil)))) in
  dce_seq 10 false false p =
    SCons (set_blk "y" 3) [] (SCons (NIf (BCons (CLt (ESym "a") (ESym "b")) (SCons (set_blk "z" 4) [] SNil) BNil)) [] (SCons (NReturn "y") [] SNil))
  /\ exists st', runs I0 p st0 (ORet "y") st' /\ st' "y" [] = 3.
Proof. split; [reflexivity|]. eexists; split; [apply xseq_runs with (n := 10%nat); reflexivity|reflexivity]. Qed.

(* ======================= C35 ======================= *)
(** The whole pass, with the trivial-Map rule and, if [permissive], removal of
    empty loops.  [sok permissive true D p] (PassInline.v): D contains the
    variables of all Maps (and empty loops); they are read only inside the loop
    that sets them; no Map body writes its variable or the symbols of its
    start value, reads its variable through an access node, or leaves by
    break/continue; Map updates have the form i + constant. *)
Definition C35_full : Prop := forall fuel (p : seq) (D : string -> Prop),
  (forall i, In i (smapvars p) -> D i) -> preserved_except D p (dce_seq fuel false true p).
Theorem C35_trivial_map_inlining_partial : forall (permissive : bool) (fuel : nat) (D : string -> Prop) (p : seq),
  sok permissive true D p -> preserved_except D p (dce_seq fuel permissive true p).
Proof. intros. apply srefD_preserved. apply (proj1 (dce_maps_sound permissive true fuel)); auto. Qed.

Definition triv_map (body : seq) : node := NLoop KMap "i" (EInt 0) (CLt (ESym "i") (EInt 1)) (EAdd [EInt 1; ESym "i"]) body.
(** The tasklet reads the induction variable through an access node: inlining
    substitutes only in expressions, the tasklet then reads a stale value. *)
Definition c35_bad : seq := SCons (triv_map (SCons (copy_blk "y" "i") [] SNil)) [] SNil.
Theorem C35_trivial_map_inlining_refuted : ~ C35_full.
Proof.
  intros F. apply (refute_except 20 (eq "i") c35_bad (dce_seq 20 false true c35_bad) (fun x _ => if String.eqb x "i" then 7 else 0) "y" [] ONorm _ ONorm _ eq_refl eq_refl).
  - vm_compute. discriminate.
  - discriminate.
  - apply F. simpl. intros i [<-|[]]; auto.
Qed.
(** A break in the body of a Map would escape to the enclosing loop. *)
Theorem C35_break_in_map_refuted :
  let p := SCons (NWhile (SCons (triv_map (SCons NBreak [] SNil)) [] (SCons (set_blk "y" 3) [] (SCons NBreak [] SNil)))) [] SNil in
  ~ preserved_except (eq "i") p (dce_seq 20 false true p).
Proof.
  intros p. apply (refute_except 20 _ p (dce_seq 20 false true p) st0 "y" [] ONorm _ ONorm _ eq_refl eq_refl); [vm_compute|]; discriminate.
Qed.
Definition c35_ok : seq :=
  SCons (triv_map (SCons (NBlock [{| o_code := 0; o_ins := [OConst 3]; o_out := "A"; o_sub := [ESym "i"] |}]) [] SNil)) [] SNil.
Example C35_nonvacuous :
  sok false true (eq "i") c35_ok /\
  dce_seq 20 false true c35_ok = SCons (NBlock [{| o_code := 0; o_ins := [OConst 3]; o_out := "A"; o_sub := [EInt 0] |}]) [] SNil.
Proof.
  split; [|reflexivity]. simpl. repeat split; try (intros; discriminate); unfold avoids, minus; simpl; try tauto;
    try (intros x [<-|H] [? ?]; [congruence|destruct H]; fail).
  all: try (intros x [<-|H] [? ?]; tauto).
  all: try (intros [E|[]]; discriminate E).
  eexists; reflexivity.
Qed.

(* ======================= C14 ======================= *)
(** One elimination: if the loop has no assignments after it inside the branch
    and its start value is defined, everything but the scalar cell of the
    loop's variable, which is read nowhere else, is unchanged. *)
Theorem C14_condition_elimination_step_partial :
  forall outside n a n' a' I st o st',
  cond_elim outside n a = Some (n', a') ->
  (match n with NIf (BCons _ (SCons (NLoop _ i init _ _ _) T SNil) BNil) =>
     T = [] /\ exists v, eval (env_of st) init = Some v | _ => True end) ->
  run I n st o st' ->
  exists i st'', run I n' st o st'' /\ a' = a /\ ~ In i outside /\
    (forall x j, (x <> i \/ j <> []) -> st'' x j = st' x j).
Proof. exact cond_elim_sound. Qed.
(** The whole pass over a whole program, eliminations at any number of places;
    [scoped D p]: variables of D are read only inside the loop that sets them;
    [ce_ok_s]: the above side conditions at each eliminated if. *)
Theorem C14_condition_elimination_partial : forall (outside : list string) (D : string -> Prop) (p : seq),
  scoped D p -> ce_ok_s D outside p -> preserved_except D p (ce_seq outside p).
Proof. intros. apply srefD_preserved. apply ce_sound; auto. Qed.

Definition C14_full : Prop := forall outside i (p : seq), preserved_except (eq i) p (ce_seq outside p).
(** Assignments on the loop's transition inside the branch become
    unconditional. *)
Definition c14_bad : seq :=
  SCons (NIf (BCons (CLt (EInt 0) (ESym "n"))
     (SCons (NLoop KFor "i" (EInt 0) (CLt (ESym "i") (ESym "n")) (EAdd [EInt 1; ESym "i"]) (SCons (set_blk "y" 3) [] SNil)) [("x", EInt 1)] SNil) BNil))
   [] SNil.
Theorem C14_condition_elimination_refuted : ~ C14_full.
Proof.
  intros F. apply (refute_except 10 (eq "i") c14_bad (ce_seq [] c14_bad) st0 "x" [] ONorm _ ONorm _ eq_refl eq_refl); [vm_compute; discriminate|discriminate|apply F].
Qed.
Example C14_nonvacuous :
  scoped (eq "i") c12_ce /\ ce_ok_s (eq "i") ["x"; "y"; "n"] c12_ce /\
  ce_seq ["x"; "y"; "n"] c12_ce <> c12_ce.
Proof.
  repeat split; try (intros; discriminate); unfold avoids, minus; simpl; try tauto; try (intros x [<-|H] Q; [discriminate Q|tauto]); try (intros x [<-|[<-|H]] [? ?]; try congruence; tauto).
  all: try (intros x [<-|H] [? ?]; try congruence; tauto).
  all: intros H; exfalso; apply H; reflexivity.
Qed.

(* ======================= C15 ======================= *)
Definition C15_full : Prop := forall p : seq, preserved p (cae_seq p).
(** Where the pass inserts x := e after an if/else, it must be exhaustive
    ([is_complete], C06) and e must not read anything assigned by the final
    transitions of the branches or by the if/else's own transition ([cae_ok]). *)
Theorem C15_common_assignment_elimination_partial : forall p : seq, cae_all_s p -> preserved p (cae_seq p).
Proof. intros. apply sref_preserved. apply (proj1 (proj2 cae_sound)); auto. Qed.
(** x := x + 1 at the end of both branches is executed twice. *)
Definition inc_br (c : cond) (r : brs) : brs := BCons c (SCons (NBlock []) [("x", EAdd [EInt 1; ESym "x"])] SNil) r.
Definition c15_bad : seq := SCons (NIf (inc_br (CLt (ESym "a") (ESym "b")) (inc_br (CLe (ESym "b") (ESym "a")) BNil))) [] SNil.
Theorem C15_common_assignment_elimination_refuted : ~ C15_full.
Proof. intros F. apply (refute 10 c15_bad (cae_seq c15_bad) st0 "x" [] ONorm _ ONorm _ eq_refl eq_refl); [vm_compute; discriminate|apply F]. Qed.
(** With branches that do not cover all cases, the assignment becomes
    unconditional, even if it is a constant. *)
Definition one_br (c : cond) (r : brs) : brs := BCons c (SCons (NBlock []) [("x", EInt 1)] SNil) r.
Theorem C15_incomplete_branches_refuted :
  let p := SCons (NIf (one_br (CLt (ESym "a") (EInt 0)) (one_br (CLt (EInt 0) (ESym "a")) BNil))) [] SNil in
  ~ preserved p (cae_seq p).
Proof. intros p. apply (refute 10 p (cae_seq p) st0 "x" [] ONorm _ ONorm _ eq_refl eq_refl). vm_compute; discriminate. Qed.
Example C15_nonvacuous :
  let p := SCons (NIf (one_br (CLt (ESym "a") (ESym "b")) (one_br (CLe (ESym "b") (ESym "a")) BNil))) [] SNil in
  cae_all_s p /\ cae_seq p <> p.
Proof.
  split; [|discriminate]. split; [|simpl; tauto]. intros _. split; [reflexivity|]. split.
  - intros l [<-|[<-|[]]]; repeat constructor; intros [].
  - intros x e [Q|[]] y Hy. injection Q as <- <-. destruct Hy.
Qed.

(* ======================= C25 ======================= *)
(** canonical_bound: the loop condition and "index < bound" agree in every
    state in which the condition is defined; stride: the update adds it. *)
Theorem C25_canonical_bound : forall (mono : bool) (i : string) (c : cond) (b : expr) (s : env) (t : bool),
  canonical_bound mono i c = Some b -> cev s c = Some t -> cev s (CLt (ESym i) b) = Some t.
Proof. exact canonical_bound_sound. Qed.
Theorem C25_stride : forall (i : string) (u : expr) (z : Z) (s : env),
  stride i u = Some z -> eval s u = Some (s i + z).
Proof. exact stride_sound. Qed.
Example C25_nonvacuous :
  canonical_bound true "i" (CAnd [CLt (ESym "i") (ESym "n"); CLe (ESym "i") (ESym "m")]) =
    Some (EMin [ESym "n"; EAdd [EInt 1; ESym "m"]]) /\
  stride "i" (EAdd [EInt (-1); ESym "i"]) = Some (-1).
Proof. split; reflexivity. Qed.

Print Assumptions C12_sequence_fusion_partial.
Print Assumptions C12_sequence_fusion_refuted.
Print Assumptions C13_dead_cfg_elimination.
Print Assumptions C35_trivial_map_inlining_partial.
Print Assumptions C14_condition_elimination_partial.
Print Assumptions C15_common_assignment_elimination_partial.
Print Assumptions C25_canonical_bound.
