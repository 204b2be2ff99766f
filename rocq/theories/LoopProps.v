(** Properties of the loop transformations (C16-...).

    Specification side: see PassCFGProps.v ([runs], [preserved],
    [preserved_except]).  [nnames n]: every name occurring in [n]. *)
From Verif Require Import Sym SymFacts SymFuns SymProofs1 SymProofs2 SymProofs3 SymProofs4 Lin IR IRFacts IRRefine PassCFG LoopAnaProofs PassCFGProofs PassInline PassCFGProofs2 PassCFGProps CtxD LoopTile.
Local Open Scope string_scope.
Local Open Scope Z_scope.

Definition one (n : node) : seq := SCons n [] SNil.

Definition differ (fuel : nat) (p q : seq) (st : store) (x : string) (i : list Z) : bool :=
  match xseq I0 fuel p st, xseq I0 fuel q st with
  | Some (_, s1), Some (_, s2) => negb (s1 x i =? s2 x i)
  | _, _ => false
  end.
Lemma refute_differ fuel (D : string -> Prop) p q st x i : differ fuel p q st x i = true -> ~ D x -> ~ preserved_except D p q.
Proof.
  unfold differ. destruct (xseq I0 fuel p st) as [[o1 s1]|] eqn:E1; [|discriminate].
  destruct (xseq I0 fuel q st) as [[o2 s2]|] eqn:E2; [|discriminate]. intros H. apply negb_true_iff, Z.eqb_neq in H.
  eapply refute_except; eauto.
Qed.
Ltac refx f st x i := apply (refute_differ f _ _ _ st x i).

(* ======================= C16 ======================= *)
(** Everything but the two loop variables ends up the same, for whatever loop
    the transformation accepts, with a tile variable that occurs nowhere. *)
Definition C16_full : Prop := forall (T : Z) (A : assumptions) (it : string) (n n' : node),
  tile_node T A it n = Some n' -> ~ In it (nnames n) ->
  preserved_except (fun x => x = it \/ In x (nwrites n) /\ exists k init c u b, n = NLoop k x init c u b) (one n) (one n').

(** A single loop.  Conditions beyond acceptance: the condition is a
    conjunction of upper bounds on the loop variable, the update is affine with
    literal coefficients (C08), the body neither writes the loop variable nor
    breaks.  The loop variable itself also ends up the same, unless the loop
    runs zero times. *)
Theorem C16_tiling_partial : forall T A it k i init c u body n' ca ck,
  tile_node T A it (NLoop k i init c u body) = Some n' ->
  ~ In it (nnames (NLoop k i init c u body)) ->
  upper i c = true -> affine i u = Some (EInt ca, EInt ck) ->
  ~ In i (swrites body) -> sbrk body = false ->
  forall I st o st', run I (NLoop k i init c u body) st o st' ->
  exists st'', run I n' st o st'' /\
    forall x j, x <> it ->
      (x <> i \/ exists v, eval (env_of st) init = Some v /\ cev (upd (env_of st) i v) c = Some true) -> st'' x j = st' x j.
Proof.
  intros. eapply tile_local; eauto.
  unfold tile_node in H. destruct (T <=? 1); [discriminate|]. destruct (is_contiguous u i A) eqn:C; [|discriminate].
  intros s v Ev. eapply contiguous_literal; eauto.
Qed.
(** A loop anywhere in a program: the program may use the two loop variables
    only inside loops that set them ([scoped D]). *)
Theorem C16_tiling_in_program_partial : forall T A it (D : string -> Prop) p q,
  nat_s (tile_rel T A it) D p q -> scoped D p -> preserved_except D p q.
Proof. intros T A it D p q H S. apply srefD_preserved. eapply (proj1 (proj2 (nat_refines _ (tile_ctx T A it)))); eauto. Qed.

(** With a condition that is not monotone in the index, the tiled nest runs
    iterations the original does not: i != 3 && i < 6, tile size 2. *)
Definition acc (x y : string) : node := NBlock [{| o_code := 0; o_ins := [ORead y []]; o_out := x; o_sub := [ESym y] |}].
Definition nxt (i : string) : expr := EAdd [EInt 1; ESym i].
Definition c16_ne : node := NLoop KFor "i" (EInt 0) (CAnd [CNe (ESym "i") (EInt 3); CLt (ESym "i") (EInt 6)]) (nxt "i") (one (acc "A" "i")).
Theorem C16_condition_refuted : ~ C16_full.
Proof.
  intros F. destruct (tile_node 2 no_assums "t" c16_ne) as [n'|] eqn:E; [|vm_compute in E; discriminate].
  assert (~ preserved_except (fun x => x = "t" \/ In x (nwrites c16_ne) /\ exists k init c u b, c16_ne = NLoop k x init c u b) (one c16_ne) (one n')) as N.
  { vm_compute in E. injection E as <-.
    refx 60%nat st0 "A" ([5] : list Z); [vm_compute; reflexivity|].
    intros [Q|(_ & k & init & c & u & b & Q)]; discriminate. }
  apply N. eapply F; eauto. vm_compute. intuition discriminate.
Qed.
(** A break only leaves the current tile. *)
Definition c16_brk : node := NLoop KFor "i" (EInt 0) (CLt (ESym "i") (EInt 6)) (nxt "i")
  (SCons (acc "A" "i") [] (SCons (NIf (BCons (CEq (ESym "i") (EInt 1)) (one NBreak) BNil)) [] SNil)).
Theorem C16_break_refuted :
  exists n', tile_node 4 no_assums "t" c16_brk = Some n' /\ ~ preserved_except (fun x => x = "t" \/ x = "i") (one c16_brk) (one n').
Proof.
  destruct (tile_node 4 no_assums "t" c16_brk) as [n'|] eqn:E; [|vm_compute in E; discriminate]. exists n'. split; auto.
  vm_compute in E. injection E as <-.
  refx 60%nat st0 "A" ([5] : list Z); [vm_compute; reflexivity|].
  intros [Q|Q]; discriminate.
Qed.
(** After a loop that runs zero times the loop variable is no longer its start value. *)
Definition c16_zero : node := NLoop KFor "i" (EInt 7) (CLt (ESym "i") (EInt 6)) (nxt "i") (one (acc "A" "i")).
Theorem C16_loop_variable_refuted :
  exists n', tile_node 4 no_assums "t" c16_zero = Some n' /\ ~ preserved_except (eq "t") (one c16_zero) (one n').
Proof.
  destruct (tile_node 4 no_assums "t" c16_zero) as [n'|] eqn:E; [|vm_compute in E; discriminate]. exists n'. split; auto.
  vm_compute in E. injection E as <-.
  refx 60%nat st0 "i" ([] : list Z); [vm_compute; reflexivity|]. discriminate.
Qed.
(** A loop with a symbolic stride in [1,4] is accepted (C08); the tiled nest
    steps by one. *)
Definition c16_st : node := NLoop KFor "i" (EInt 0) (CLt (ESym "i") (EInt 6)) (EAdd [ESym "i"; ESym "st"]) (one (acc "A" "i")).
Theorem C16_stride_refuted :
  exists n', tile_node 4 (two_assum "i" (range 0 100) "st" (range 1 4)) "t" c16_st = Some n' /\
    ~ preserved_except (fun x => x = "t" \/ x = "i") (one c16_st) (one n').
Proof.
  destruct (tile_node 4 (two_assum "i" (range 0 100) "st" (range 1 4)) "t" c16_st) as [n'|] eqn:E; [|vm_compute in E; discriminate]. exists n'. split; auto.
  vm_compute in E. injection E as <-.
  refx 60%nat (wr st0 "st" [] 2) "A" ([5] : list Z); [vm_compute; reflexivity|].
  intros [Q|Q]; discriminate.
Qed.
Definition c16_ok : node := NLoop KFor "i" (EInt 0) (CAnd [CLt (ESym "i") (ESym "n"); CLe (ESym "i") (ESym "m")]) (nxt "i") (one (acc "A" "i")).
Example C16_nonvacuous :
  (exists n', tile_node 4 no_assums "t" c16_ok = Some n') /\ ~ In "t" (nnames c16_ok) /\ upper "i" (CAnd [CLt (ESym "i") (ESym "n"); CLe (ESym "i") (ESym "m")]) = true /\
  affine "i" (nxt "i") = Some (EInt 1, EInt 1) /\
  (exists o st', run I0 c16_ok (wr (wr st0 "n" [] 11) "m" [] 20) o st' /\ st' "A" [10] = 10 /\ st' "i" [] = 11).
Proof.
  split; [eexists; reflexivity|]. split; [vm_compute; intuition discriminate|]. split; [reflexivity|]. split; [reflexivity|].
  destruct (xnode I0 60 c16_ok (wr (wr st0 "n" [] 11) "m" [] 20)) as [[o s]|] eqn:E; [|vm_compute in E; discriminate].
  exists o, s. split; [eapply xnode_run; eauto|]. vm_compute in E. injection E as <- <-. split; reflexivity.
Qed.

Print Assumptions C16_tiling_partial.
Print Assumptions C16_tiling_in_program_partial.
Print Assumptions C16_condition_refuted.
