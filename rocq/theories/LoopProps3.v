(** Properties of the loop conversions (C22, ...).  Specification side: see
    PassCFGProps.v ([runs], [preserved_except]) and IR.v. *)
From Verif Require Import Sym SymFacts SymFuns SymProofs1 IR IRFacts IRRefine PassCFG PassInline PassCFGProofs2 PassCFGProps LoopTile LoopIter LoopProps Subst While2For While2ForProofs.
Local Open Scope string_scope.
Local Open Scope Z_scope.

(* ======================= C22 ======================= *)
(** [while_to_for ps body]: the for loop replacing "while (1) body", [None] if
    the pass rejects it; [ps] is the name it invents. *)
Definition C22_full : Prop := forall ps body n', while_to_for ps body = Some n' -> ~ In ps (snames body) ->
  preserved_except (eq ps) (one (NWhile body)) (one n').

(** Missing from the acceptance test: the loop's condition holds on entry, the
    update is a transition of the loop body itself (not of a nested node) whose
    other assignments do not read the loop variable, no return in a nested loop. *)
Theorem C22_while_to_for_partial : forall I ps body i c u pre st o st',
  while_to_for ps body = Some (NLoop KFor i (ESym i) c u pre) -> ~ In ps (snames body) ->
  sscalar i body = true -> sret body = false -> top_update i body = true -> ~ In i (asg_reads (beside i body)) ->
  cev (env_of st) c = Some true -> run I (NWhile body) st o st' ->
  exists st'', run I (NLoop KFor i (ESym i) c u pre) st o st'' /\ forall x j, x <> ps -> st'' x j = st' x j.
Proof.
  intros I ps body i c u pre st o st' W F Sc Rt T B Ct R. unfold while_to_for in W.
  destruct (split_last body) as [[[p last] a]|] eqn:Sp; [|discriminate]. destruct a; [|discriminate].
  pose proof (split_last_app _ _ _ _ Sp) as Eb. clear Sp.
  assert (match exit_test last with Some (c1, c0) => match moving c1 body with Some i0 => match upd_seq i0 ps p with
    | Some (u0, pre0, later) => if existsb (fun x => existsb (String.eqb x) later) (atoms u0) || jumps_s p then None else Some (NLoop KFor i0 (ESym i0) c0 u0 pre0)
    | None => None end | None => None end | None => None end = Some (NLoop KFor i (ESym i) c u pre)) as W' by (destruct p; [discriminate|exact W]). clear W.
  destruct (exit_test last) as [[c1 c0]|] eqn:Et; [|discriminate]. destruct (moving c1 body) as [i0|] eqn:Em; [|discriminate].
  destruct (upd_seq i0 ps p) as [[[u0 pre0] later]|] eqn:Eu; [|discriminate].
  destruct (existsb _ (atoms u0) || jumps_s p) eqn:Ex; [discriminate|]. apply orb_false_iff in Ex as [Ex Ej].
  injection W'; intros; subst i0 c0 u0 pre0.
  assert (i <> ps) as Nip.
  { apply (proj1 (proj2 (upd_writes i ps))) in Eu. intros ->. apply F. rewrite Eb, snames_sapp, in_app_iff. left.
    assert (forall s x, In x (swrites s) -> In x (snames s)) as G; [|auto]. clear. intros s x. apply (proj1 (proj2 writes_names)). }
  assert (nwritten i body <= 1)%nat as K.
  { unfold moving in Em. destruct (forallb _ _) eqn:Ef; [|discriminate].
    destruct (nodup string_dec (filter (fun x => Nat.eqb (nwritten x body) 1) (catoms c1))) as [|y [|]] eqn:En; try discriminate. injection Em as ->.
    assert (In i (nodup string_dec (filter (fun x => Nat.eqb (nwritten x body) 1) (catoms c1)))) as Hi by (rewrite En; simpl; auto).
    apply nodup_In, filter_In in Hi as [_ Hi]. apply Nat.eqb_eq in Hi. lia. }
  inversion R; subst.
  rewrite sscalar_sapp in Sc. apply andb_true_iff in Sc as [Sc _]. rewrite sret_sapp in Rt. apply orb_false_iff in Rt as [Rt _].
  assert (forall s, top_update i (sapp s (SCons last [] SNil)) = top_update i s) as Q1 by (induction s; simpl; auto; rewrite IHs; auto).
  assert (forall s, beside i (sapp s (SCons last [] SNil)) = beside i s) as Q2 by (induction s; simpl; auto; rewrite IHs; auto).
  rewrite Q1 in T. rewrite Q2 in B.
  assert (exists b', runl I i c u pre (wr st i [] (st i [])) o b' /\ before ps st' b') as (b' & Rb & Sb).
  { eapply while_for with (c1 := c1) (l := later) (st := st) (last := last); eauto.
    - intros x Hx Hu. rewrite <- not_true_iff_false in Ex. apply Ex. apply existsb_exists. exists x. split; auto. apply existsb_exists. exists x. split; auto. apply String.eqb_refl.
    - intros x _ j. unfold wr. destruct (String.eqb_spec i x) as [<-|]; auto. destruct j; auto. }
  exists b'. split; [econstructor; [reflexivity|exact Rb]|]. intros x j Nx. symmetry. apply Sb. exact Nx.
Qed.

(** The loop body of a while runs before the condition is tested: for a start
    value past the bound the while runs once, the for loop not at all. *)
Definition w_body (upd : seq -> seq) : seq :=
  SCons (acc "A" "i") [] (upd (SCons (NIf (BCons (CLt (ESym "i") (EInt 6)) (one NContinue) (BCons (CLe (EInt 6) (ESym "i")) (one NBreak) BNil))) [] SNil)).
Definition c22_entry : seq := w_body (SCons (NBlock []) [("i", nxt "i")]).
Theorem C22_entry_refuted : ~ C22_full.
Proof.
  intros F. destruct (while_to_for "z" c22_entry) as [n'|] eqn:E; [|vm_compute in E; discriminate].
  assert (~ preserved_except (eq "z") (one (NWhile c22_entry)) (one n')) as N.
  { vm_compute in E. injection E as <-. refx 60%nat (wr st0 "i" [] 7) "A" ([7] : list Z); [vm_compute; reflexivity|discriminate]. }
  apply N. eapply F; eauto. vm_compute. intuition discriminate.
Qed.
(** An update inside a conditional becomes unconditional: the loops run a
    different number of times. *)
Definition c22_cond : seq := w_body (SCons (NIf (BCons (CLe (EInt 3) (ESym "k")) (SCons (NBlock []) [("i", nxt "i")] SNil) BNil)) [("k", nxt "k")]).
Definition entered (n : node) (st : store) : Prop :=
  match n with NLoop _ _ _ c _ _ => cev (env_of st) c = Some true | _ => False end.
Definition wrong (body : seq) (x : string) (j : list Z) : Prop :=
  exists n' st, while_to_for "z" body = Some n' /\ entered n' st /\ x <> "z" /\ differ 90 (one (NWhile body)) (one n') st x j = true.
Theorem C22_conditional_update_refuted : wrong c22_cond "k" [].
Proof.
  destruct (while_to_for "z" c22_cond) as [n'|] eqn:E; [|vm_compute in E; discriminate]. exists n', st0.
  vm_compute in E. injection E as <-. split; [vm_compute; reflexivity|]. split; [vm_compute; reflexivity|]. split; [discriminate|]. vm_compute. reflexivity.
Qed.
(** An assignment of the updating transition that reads the loop variable after
    the update reads the old value. *)
Definition c22_same : seq := w_body (SCons (NBlock []) [("i", nxt "i"); ("k", ESym "i")]).
Theorem C22_same_transition_refuted : wrong c22_same "k" [].
Proof.
  destruct (while_to_for "z" c22_same) as [n'|] eqn:E; [|vm_compute in E; discriminate]. exists n', st0.
  vm_compute in E. injection E as <-. split; [vm_compute; reflexivity|]. split; [vm_compute; reflexivity|]. split; [discriminate|]. vm_compute. reflexivity.
Qed.
(** A return in a nested loop after the update sees the old value. *)
Definition c22_ret : seq := w_body (fun r => SCons (NBlock []) [("i", nxt "i")] (SCons (NWhile (one (NReturn "i"))) [] r)).
Theorem C22_return_refuted : wrong c22_ret "i" [].
Proof.
  destruct (while_to_for "z" c22_ret) as [n'|] eqn:E; [|vm_compute in E; discriminate]. exists n', st0.
  vm_compute in E. injection E as <-. split; [vm_compute; reflexivity|]. split; [vm_compute; reflexivity|]. split; [discriminate|]. vm_compute. reflexivity.
Qed.
(** [wrong] is what it says. *)
Lemma wrong_spec body x j : wrong body x j -> exists n', while_to_for "z" body = Some n' /\ ~ preserved_except (eq "z") (one (NWhile body)) (one n').
Proof. intros (n' & st & H & _ & N & D). exists n'. split; auto. eapply refute_differ; eauto. Qed.

(** A loop with uses of the loop variable after the update. *)
Definition c22_ok : seq := w_body (fun r => SCons (NBlock []) [("k", ESym "n"); ("i", EAdd [EInt 2; ESym "i"])] (SCons (acc "B" "i") [] r)).
Example C22_nonvacuous :
  exists c u pre, while_to_for "z" c22_ok = Some (NLoop KFor "i" (ESym "i") c u pre) /\ ~ In "z" (snames c22_ok) /\
    sscalar "i" c22_ok = true /\ sret c22_ok = false /\ top_update "i" c22_ok = true /\ ~ In "i" (asg_reads (beside "i" c22_ok)) /\
    cev (env_of st0) c = Some true /\ (exists o st', run I0 (NWhile c22_ok) st0 o st' /\ st' "B" [6] = 6 /\ st' "i" [] = 6).
Proof.
  destruct (while_to_for "z" c22_ok) as [n'|] eqn:E; [|vm_compute in E; discriminate]. vm_compute in E. injection E as <-.
  eexists _, _, _. split; [reflexivity|]. split; [vm_compute; intuition discriminate|]. split; [reflexivity|]. split; [reflexivity|]. split; [reflexivity|].
  split; [vm_compute; intuition discriminate|]. split; [reflexivity|].
  destruct (xnode I0 60 (NWhile c22_ok) st0) as [[o s]|] eqn:E; [|vm_compute in E; discriminate].
  exists o, s. split; [eapply xnode_run; eauto|]. vm_compute in E. injection E as <- <-. split; reflexivity.
Qed.

Print Assumptions C22_while_to_for_partial.
Print Assumptions C22_entry_refuted.
