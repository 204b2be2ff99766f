(** Properties of LoopDistribute (C19).  Specification side as in DepProps.v. *)
From Coq Require Import Permutation.
From Verif Require Import Sym SymFacts SymFuns SymProofs2 SymProofs3 SymProofs4 SymProps IR IRFacts IRRefine PassCFG PassInline PassCFGProofs2 PassCFGProps LoopTile LoopIter LoopProps Trace Reorder Interchange DepAna DepProofs For2MapProofs DepOracle DepProps Distribute.
Local Open Scope string_scope.
Local Open Scope Z_scope.

Definition two (n1 n2 : node) : seq := SCons n1 [] (SCons n2 [] SNil).
(** The two loops end like the original loop, in a store that agrees with it on
    everything but the new loop variable. *)
Definition splits (I : nat -> list Z -> option Z) (z : string) (n1 n2 : node) (st : store) (o : outcome) (st' : store) : Prop :=
  exists st'', runs I (two n1 n2) st o st'' /\ forall x j, x <> z -> st'' x j = st' x j.

(* ======================= C19 ======================= *)
Definition C19_full : Prop := forall O sc locals z I B k i init c u body n1 n2 st o st',
  honest i B O -> distribute O sc locals z (NLoop k i init c u body) = Some (n1, n2) -> wt_body sc body -> sc i = true ->
  ~ In z (nnames (NLoop k i init c u body)) ->
  (forall m a rest x, body = SCons m a rest -> locals x = true -> ~ In x (snames rest)) ->
  (forall v vs e w, eval (env_of st) init = Some v -> trip (env_of st) i c u v vs e -> In w vs -> B (upd (env_of st) i w)) ->
  run I (NLoop k i init c u body) st o st' -> splits I z n1 n2 st o st'.

(** Beyond acceptance: the answers about covering accesses hold cell by cell
    ([oracle_ok]), the body does not write the symbols of the header, and the
    initial value does not use the loop variable. *)
Theorem C19_distribute_partial : forall O sc locals z I k i init c u body n1 n2 st o st',
  distribute O sc locals z (NLoop k i init c u body) = Some (n1, n2) -> wt_body sc body -> sc i = true ->
  ~ In z (nnames (NLoop k i init c u body)) ->
  (forall m a rest x, body = SCons m a rest -> locals x = true -> ~ In x (snames rest)) ->
  stable i c u body -> (forall x, In x (atoms init) -> x <> i /\ ~ In x (swrites body)) ->
  (forall its b, iterL (inst1 I i body) its st b -> (exists v e, eval (env_of st) init = Some v /\ trip (env_of st) i c u v (map fst its) e) -> oracle_ok O sc its) ->
  run I (NLoop k i init c u body) st o st' -> splits I z n1 n2 st o st'.
Proof.
  intros O sc locals z I k i init c u body n1 n2 st o st' ACC WT SI Hz Hl STB Hi OK R.
  assert (exists m rest, body = SCons m [] rest) as (m & rest & ->).
  { cbn [distribute] in ACC. destruct body as [|m [|] rest]; try discriminate. eauto. }
  destruct (distribute_sound O sc locals I k i z init c u m rest n1 n2 ACC WT SI STB Hi Hz (fun x => Hl m [] rest x eq_refl) st o st' R OK) as (m1 & st'' & R1 & R2 & E).
  exists st''. split; [|exact E].
  eapply R_cons; [exact R1|reflexivity|]. destruct o; try (apply R_exit; [exact R2|discriminate]). eapply R_cons; [exact R2|reflexivity|apply R_nil].
Qed.
(** With the modelled answers nothing is assumed about them. *)
Theorem C19_syntactic_partial : forall A sc locals z I k i init c u body n1 n2 st o st',
  distribute (syntactic i A) sc locals z (NLoop k i init c u body) = Some (n1, n2) -> wt_body sc body -> sc i = true ->
  ~ In z (nnames (NLoop k i init c u body)) ->
  (forall m a rest x, body = SCons m a rest -> locals x = true -> ~ In x (snames rest)) ->
  stable i c u body -> (forall x, In x (atoms init) -> x <> i /\ ~ In x (swrites body)) ->
  (forall y, In y (idx_syms body) -> ~ In y (swrites body)) -> no_trunc_A A ->
  (forall x e, In (Wr (x, e)) (sacc body) -> sc x = false ->
     Forall (fun d => forall b n, d = EPow (ESym b) n -> b = i) e /\ forallb no_trunc e = true) ->
  (forall v, cev (upd (env_of st) i v) c = Some true -> sat_dep (upd (env_of st) i v) A) ->
  (forall v w, agree_const A (upd (env_of st) i v) (upd (env_of st) i w)) ->
  run I (NLoop k i init c u body) st o st' -> splits I z n1 n2 st o st'.
Proof.
  intros A sc locals z I k i init c u body n1 n2 st o st' ACC WT SI Hz Hl STB Hi FIX NT WS SD AC R.
  eapply C19_distribute_partial; eauto.
  intros its m L (v & e & Ev0 & T). eapply syntactic_ok; eauto.
  - cbn [distribute] in ACC. destruct body as [|m0 [|] rest]; try discriminate. destruct rest; try discriminate.
    match type of ACC with (if ?a && _ then _ else _) = _ => destruct a eqn:E1; [reflexivity|discriminate] end.
  - eapply trip_nodup; eauto.
  - intros w Hw. apply SD. clear - T Hw. induction T; [elim Hw|]. destruct Hw as [<-|Hw]; auto.
Qed.

(** Acceptance with the documented meaning of the questions is not enough:
    A[i] = 7; B[i] = A[i-1] is split from A[i] = 9 (the dependency of
    C20_flow_refuted is missed), and B[2] then receives 7 instead of 9. *)
Definition dist_body : seq := SCons (NBlock flow_ops) [] (one (NBlock [{| o_code := 0; o_ins := [OConst 9]; o_out := "A"; o_sub := [ESym "i"] |}])).
Definition dist_loop : node := NLoop KFor "i" (EInt 1) (CLt (ESym "i") (EInt 5)) (nxt "i") dist_body.
Lemma dist_state O : honest "i" bounds4 O -> exists rs ws, loop_state O flow_sc dist_body (nxt "i") = (rs, ws) /\ (forall r, In r rs -> r = ("i", [])) /\
  (forall w, In w ws -> w = ("A", [ESym "i"]) \/ w = ("B", [ESym "i"])).
Proof.
  intros H. pose proof (flow_disjoint O H) as D. unfold loop_state, visits. destruct (is_subset O [ESym "i"] [ESym "i"]) eqn:S; do 2 eexists.
  all: split; [cbn -[depends closes];
    repeat (unfold visit; cbn -[depends closes]; unfold depends, closes; cbn [fst snd String.eqb Ascii.eqb Bool.eqb andb orb negb existsb flow_sc filter]; rewrite ?D, ?S; cbn [fst snd String.eqb Ascii.eqb Bool.eqb andb orb negb existsb filter]);
    reflexivity|simpl; split; intros; intuition (subst; auto)].
Qed.
Lemma dist_accepted O : honest "i" bounds4 O -> intersects O [ESym "i"] [ESym "i"] = false ->
  exists n1 n2, distribute O flow_sc (fun _ => false) "z" dist_loop = Some (n1, n2).
Proof.
  intros H X. destruct (dist_state O H) as (rs & ws & E & HR & HW).
  assert (G: forall x, reported O flow_sc dist_body (nxt "i") x = false).
  { intros x. unfold reported. rewrite E. apply orb_false_iff. split.
    - apply not_true_iff_false. intros Q. unfold dep_rw in Q. apply existsb_exists in Q as (r & Hr & Q). apply andb_prop in Q as [_ Q].
      apply existsb_exists in Q as (w & Hw & Q). unfold loop_depends in Q. rewrite (HR r Hr) in Q. destruct (HW w Hw); subst w; discriminate.
    - apply not_true_iff_false. intros Q. unfold dep_ww in Q. apply existsb_exists in Q as (r & Hr & Q). apply andb_prop in Q as [_ Q].
      apply existsb_exists in Q as (w & Hw & Q). unfold loop_depends in Q. simpl in Hr, Hw. destruct (HW r Hr); destruct (HW w Hw); subst r w; cbn in Q; rewrite ?X in Q; discriminate. }
  unfold dist_loop, dist_body, one in *. cbn [distribute]. 
  replace (forallb _ _) with true; [cbn [straight nstraight andb]; eauto|]. symmetry. apply forallb_forall. intros x _. rewrite G. reflexivity.
Qed.
Theorem C19_flow_refuted : forall O, honest "i" bounds4 O -> intersects O [ESym "i"] [ESym "i"] = false ->
  exists n1 n2 st', distribute O flow_sc (fun _ => false) "z" dist_loop = Some (n1, n2) /\ run I0 dist_loop st0 ONorm st' /\
    forall st'', runs I0 (two n1 n2) st0 ONorm st'' -> st'' "B" [2] <> st' "B" [2].
Proof.
  intros O H X. destruct (dist_accepted O H X) as (n1 & n2 & E). exists n1, n2.
  destruct (xnode I0 50 dist_loop st0) as [[o st']|] eqn:E1; [|vm_compute in E1; discriminate].
  assert (o = ONorm) as -> by (vm_compute in E1; congruence). exists st'. split; [exact E|]. split; [eapply xnode_run; exact E1|].
  unfold dist_loop, dist_body, one in E. cbn [distribute] in E. destruct (_ && _); [|discriminate]. injection E as <- <-.
  intros st'' R. match type of R with runs _ ?p _ _ _ => destruct (xseq I0 50 p st0) as [[o2 s2]|] eqn:E2; [|vm_compute in E2; discriminate] end.
  apply xseq_runs in E2 as R2. destruct (runs_det _ _ _ _ _ _ _ R R2) as (_ & Q). rewrite Q.
  vm_compute in E1. injection E1 as <-. vm_compute in E2. injection E2 as <- <-. vm_compute. discriminate.
Qed.
Theorem C19_full_refuted : ~ C19_full.
Proof.
  intros F. pose (O := {| is_disjoint := fun _ _ => false; is_subset := fun _ _ => false;
    intersects := fun e e' => negb (subset_eqb e [ESym "i"] && subset_eqb e' [ESym "i"]) |}).
  assert (HO: honest "i" bounds4 O).
  { split; [|split]; simpl; try discriminate. intros e e' H s s' j j' _ _ N. apply negb_false_iff, andb_prop in H as [H1 H2].
    apply subset_eqb_eq in H1, H2. subst. cbn. congruence. }
  destruct (C19_flow_refuted O HO eq_refl) as (n1 & n2 & st' & ACC & R & N).
  destruct (F O flow_sc (fun _ => false) "z" I0 bounds4 KFor "i" (EInt 1) (CLt (ESym "i") (EInt 5)) (nxt "i") dist_body n1 n2 st0 ONorm st') as (st'' & R2 & Q); auto.
  - split; [|split]; simpl; try tauto. intros a Ha. repeat (destruct Ha as [<-|Ha]; [simpl; discriminate || reflexivity|]). elim Ha.
  - cbn. intuition discriminate.
  - discriminate.
  - intros v vs e w Hv T Hw. assert (v = 1) as -> by (vm_compute in Hv; congruence). destruct (trip_det _ _ _ _ _ _ _ T _ _ flow_trip) as (-> & _).
    unfold bounds4, upd. simpl. simpl in Hw. lia.
  - apply (N st'' R2). apply Q. discriminate.
Qed.

(** The header: "for (i = 0; i < n; i++) { A[i] = i; n = n - 1 }" (the second
    child's assignment) is split although it changes the bound, and so is a loop
    that starts at the current value of its own variable. *)
Definition bad_split (A : assumptions) (n : node) (st : store) (x : string) (j : list Z) : Prop :=
  exists n1 n2, distribute (syntactic "i" A) flow_sc (fun _ => false) "z" n = Some (n1, n2) /\ x <> "z" /\ differ 60 (one n) (two n1 n2) st x j = true.
Definition dist_bound : node := NLoop KFor "i" (EInt 0) (CLt (ESym "i") (ESym "n")) (nxt "i")
  (SCons (acc "A" "i") [] (SCons (NBlock []) [("n", EAdd [EInt (-1); ESym "n"])] SNil)).
Definition dist_init : node := NLoop KFor "i" (ESym "i") (CLt (ESym "i") (EInt 5)) (nxt "i")
  (SCons (acc "A" "i") [] (one (acc "B" "i"))).
Ltac bad := do 2 eexists; split; [vm_compute; reflexivity|split; [discriminate|vm_compute; reflexivity]].
Theorem C19_bound_refuted : bad_split dep_A dist_bound (wr st0 "n" [] 4) "A" [2].
Proof. bad. Qed.
Theorem C19_init_refuted : bad_split dep_A dist_init (wr (wr st0 "i" [] 3) "A" [2] 9) "A" [2].
Proof. bad. Qed.

(** t = C[i]; B[i] = t is split from C[i] = B[i]; D[i] = i, with t local to the
    first child, and every hypothesis of C19_syntactic_partial holds. *)
Definition ok_sc (x : string) : bool := negb (String.eqb x "B" || String.eqb x "C" || String.eqb x "D").
Definition ok_body : seq := SCons (NBlock [
  {| o_code := 0; o_ins := [ORead "C" [ESym "i"]]; o_out := "t"; o_sub := [] |};
  {| o_code := 0; o_ins := [ORead "t" []]; o_out := "B"; o_sub := [ESym "i"] |}]) [] (SCons (NBlock [
  {| o_code := 0; o_ins := [ORead "B" [ESym "i"]]; o_out := "C"; o_sub := [ESym "i"] |}]) [("k", EInt 3)] (one (acc "D" "i"))).
Definition ok_c : cond := CAnd [CLt (ESym "i") (ESym "n"); CLe (EInt 0) (ESym "i")].
Definition ok_loop : node := NLoop KFor "i" (EInt 0) ok_c (nxt "i") ok_body.
Example C19_nonvacuous : let st := wr st0 "n" [] 3 in
  (exists n1 n2, distribute (syntactic "i" dep_A) ok_sc (String.eqb "t") "z" ok_loop = Some (n1, n2)) /\
  wt_body ok_sc ok_body /\ ~ In "z" (nnames ok_loop) /\
  (forall m a rest x, ok_body = SCons m a rest -> String.eqb "t" x = true -> ~ In x (snames rest)) /\
  stable "i" ok_c (nxt "i") ok_body /\
  (forall y, In y (idx_syms ok_body) -> ~ In y (swrites ok_body)) /\ no_trunc_A dep_A /\
  (forall x e, In (Wr (x, e)) (sacc ok_body) -> ok_sc x = false -> Forall (fun d => forall b n, d = EPow (ESym b) n -> b = "i") e /\ forallb no_trunc e = true) /\
  (forall v, cev (upd (env_of st) "i" v) ok_c = Some true -> sat_dep (upd (env_of st) "i" v) dep_A) /\
  (forall v w, agree_const dep_A (upd (env_of st) "i" v) (upd (env_of st) "i" w)) /\
  exists st', run I0 ok_loop st ONorm st' /\ st' "D" [2] = 2.
Proof.
  cbv zeta. split; [do 2 eexists; vm_compute; reflexivity|]. split.
  { split; [|split]; simpl; [|intros x [<-|[]]; reflexivity|tauto]. intros a Ha. repeat (destruct Ha as [<-|Ha]; [simpl; try discriminate; reflexivity|]). elim Ha. }
  split. { cbn. intuition discriminate. }
  split. { intros m a rest x E Q. injection E as <- <- <-. apply String.eqb_eq in Q. subst x. cbn. intuition discriminate. }
  split. { split; simpl; [intuition discriminate|]. intros x Hx H. intuition (subst; discriminate). }
  split. { simpl. intros y Hy H. intuition (subst; discriminate). }
  split; [exact (proj1 dep_A_ok)|].
  split. { simpl. intros x e Hx _. repeat (destruct Hx as [Hx|Hx]; [try discriminate Hx; injection Hx as <- <-; (split; [|reflexivity]); repeat (apply Forall_cons; [intros; discriminate|]); apply Forall_nil|]). elim Hx. }
  split. { intros v Hv. apply dep_A_ok. cbn in Hv. destruct (Z.leb_spec 3 v); destruct (Z.leb_spec 0 v); cbn in Hv; try discriminate; lia. }
  split; [exact (proj1 (proj2 dep_A_ok) _)|].
  destruct (xnode I0 60 ok_loop (wr st0 "n" [] 3)) as [[o s]|] eqn:E; [|vm_compute in E; discriminate].
  exists s. assert (o = ONorm) as -> by (vm_compute in E; congruence). split; [eapply xnode_run; eauto|]. vm_compute in E. injection E as <-. reflexivity.
Qed.

Print Assumptions C19_distribute_partial.
Print Assumptions C19_syntactic_partial.
Print Assumptions C19_flow_refuted.
Print Assumptions C19_full_refuted.
Print Assumptions C19_bound_refuted.
Print Assumptions C19_init_refuted.
