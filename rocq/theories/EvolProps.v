(** Properties of SymbolEvolution (C24). *)
From Verif Require Import Sym SymFacts SymFuns SymProofs1 SymProofs4 Lin IR IRFacts IRRefine PassCFG PassInline PassCFGProofs2 PassCFGProps LoopProps LoopTile LoopIter While2For TypesProofs LoopProps5 Evolution.
Local Open Scope string_scope.
Local Open Scope Z_scope.

(* ======================= C24 ======================= *)
(** Whatever the pass does, in any program: same outcome, same final store. *)
Definition C24_full : Prop := forall scal P P', evolves scal P P' ->
  forall I st o st', runs I P st o st' -> exists st'', runs I P' st o st'' /\ forall x idx, st'' x idx = st' x idx.

(** nothing in the expression changes while the loop runs *)
Definition fixed (i sym : string) (body : seq) (e : expr) : Prop := forall x, In x (atoms e) -> x <> i /\ x <> sym /\ ~ In x (swrites body).
(** What the pass does not check: the header does not use the symbol, no
    [continue] skips the update, nothing in the update's own transition reads the
    new value, the start values do not change in the loop, and an update that
    uses the symbol does not use the loop index. *)
Definition evolvable (i : string) (init : expr) (c : cond) (u : expr) (body : seq) (sym : string) (e0 e : expr) : Prop :=
  find_upd sym body = Some e /\ skips sym body = false /\ late sym body = false /\
  sym <> i /\ ~ In i (swrites body) /\ ~ In sym (catoms c) /\ ~ In sym (atoms u) /\
  fixed i sym body init /\ fixed i sym body e0 /\ (forall x, In x (atoms e) -> x <> sym -> ~ In x (swrites body)) /\
  (In sym (atoms e) -> ~ In i (atoms e)) /\ stride i u <> Some 0.
(** at the loop entry the symbol has its initial value, and the update never fails *)
Definition entry (i sym : string) (e0 e : expr) (st : store) : Prop :=
  eval (env_of st) e0 = Some (st sym []) /\ forall x y, exists w, eval (upd (upd (env_of st) sym y) i x) e = Some w.

Lemma evolve_run scal k i init c u body sym e0 e tr n' tr' : evolve scal sym e0 (NLoop k i init c u body) tr = Some (n', tr') ->
  evolvable i init c u body sym e0 e -> forall I st o st', entry i sym e0 e st -> run I (NLoop k i init c u body) st o st' ->
  exists st'', run I n' st o st'' /\ off1 sym st' st'' /\
    (forall v0, o = ONorm -> sbrk body = false -> ~ In i (atoms e) -> eval (env_of st) init = Some v0 ->
       cev (env_of (wr st i [] v0)) c = Some true \/ e = e0 -> eval (env_of st'') e = Some (st' sym [])).
Proof.
  intros E (F & SK & LT & Ns & Wi & Nc & Nu & Q1 & Q0 & A & Two & St) I st o st' (S0 & Def) R.
  unfold evolve in E. destruct (_ || _) eqn:T; [discriminate|]. rewrite F in E. destruct (used_after sym body) eqn:U; [discriminate|].
  destruct (evolution i u init sym e e0 _) as [evo|] eqn:EV; [|discriminate].
  assert (En: n' = NLoop k i init c u (SCons (NBlock []) [(sym, evo)] (drop_upd sym body))) by congruence. subst n'.
  apply orb_false_iff in T as [T _]. apply orb_false_iff in T as [T T3]. apply negb_false_iff, Nat.eqb_eq in T3.
  inversion R; subst. assert (RL: runl I i c u body (wr st i [] v) o st') by assumption. assert (V0: eval (env_of st) init = Some v) by assumption.
  destruct (closed i u init body sym e e0 evo _ st v (st sym []) EV A Ns Wi Nu Q1 Q0 Two St Def V0 S0) as (J & J0 & J1 & J2 & J3).
  assert (HJ: J (wr st i [] v)).
  { eapply J3; [exact J0|]. apply eqx_wr. intros x _ j. destruct (string_dec x sym) as [->|Nx]; [|apply IRFacts.wr_other; auto].
    destruct j; [apply wr_same|apply IRFacts.wr_other; right; discriminate]. }
  destruct (loop_sim I i c u body sym e evo J F T3 U SK LT A Ns Nc Nu J1 J2 _ _ _ RL HJ (wr st i [] v)) as (b' & Rb & Eb & V); [apply steq_off1; apply eqx_refl|].
  exists b'. split; [econstructor; eauto|]. split; auto.
  intros v0 Eo Br Ni Ev Q. assert (v0 = v) by congruence. subst v0. destruct Q as [Q|Q]; [auto|].
  destruct (cev (env_of (wr st i [] v)) c) as [[]|] eqn:Hc; [auto| |exfalso; inversion RL; congruence].
  assert (st' = wr st i [] v) by (inversion RL; subst; congruence). assert (b' = wr st i [] v) by (inversion Rb; subst; congruence). subst st' b' e0.
  rewrite IRFacts.wr_other by auto. rewrite <- S0. unfold eval. rewrite (ev_agree _ (env_of st)); auto. intros x Hx. unfold env_of. rewrite IRFacts.wr_other; auto. left. intros ->. auto.
Qed.

(** Every use in every iteration sees the old value: all other containers and the
    way the loop is left are unchanged. *)
Theorem C24_evolution_partial : forall scal k i init c u body sym e0 e tr n' tr',
  evolve scal sym e0 (NLoop k i init c u body) tr = Some (n', tr') -> evolvable i init c u body sym e0 e ->
  forall I st o st', entry i sym e0 e st -> run I (NLoop k i init c u body) st o st' ->
  exists st'', run I n' st o st'' /\ forall x idx, x <> sym \/ idx <> [] -> st'' x idx = st' x idx.
Proof.
  intros scal k i init c u body sym e0 e tr n' tr' E H I st o st' N R. destruct (evolve_run _ _ _ _ _ _ _ _ _ _ _ _ _ E H I st o st' N R) as (b & Rb & [E1 E2] & _).
  exists b. split; auto. intros x idx [Q|Q]; symmetry; [apply E1; exact Q|]. destruct (string_dec x sym) as [->|Nx]; [apply E2; exact Q|apply E1; exact Nx].
Qed.
(** The value after the loop is right too if the loop is not left by a break, the
    update does not use the loop index, and there is an iteration (or the symbol is
    constant); the transition after the loop does not use the symbol. *)
Theorem C24_final_value_partial : forall scal k i init c u body sym e0 e tr n' tr',
  evolve scal sym e0 (NLoop k i init c u body) tr = Some (n', tr') -> evolvable i init c u body sym e0 e ->
  sbrk body = false -> ~ In i (atoms e) -> ~ In sym (asg_reads tr) -> (forall x, In x (atoms e) -> ~ In x (map fst tr)) ->
  forall I st st' v0, entry i sym e0 e st -> eval (env_of st) init = Some v0 -> cev (env_of (wr st i [] v0)) c = Some true \/ e = e0 ->
  runs I (SCons (NLoop k i init c u body) tr SNil) st ONorm st' ->
  exists st'', runs I (SCons n' tr' SNil) st ONorm st'' /\ forall x idx, st'' x idx = st' x idx.
Proof.
  intros scal k i init c u body sym e0 e tr n' tr' E H Br Ni Nr Nw I st st' v0 N Ev Q R.
  assert (Etr: tr' = (tr ++ [(sym, e)])%list /\ ~ In sym (map fst tr)).
  { unfold evolve in E. destruct (_ || _) eqn:T; [discriminate|]. destruct H as (F & _). rewrite F in E. destruct (used_after sym body); [discriminate|]. destruct (evolution _ _ _ _ _ _ _); [|discriminate].
    split; [congruence|]. apply orb_false_iff in T as [T _]. apply orb_false_iff in T as [T _]. apply orb_false_iff in T as [_ T]. intros X. apply memb_in in X. congruence. }
  destruct Etr as [-> Nt]. inversion R; subst; [|congruence].
  match goal with H0 : runs _ SNil _ _ _ |- _ => inversion H0; subst end. match goal with H0 : run I _ st ONorm st1 |- _ => pose proof H0 as R1 end. match goal with H0 : exec_assigns st1 tr = Some _ |- _ => pose proof H0 as X1 end.
  destruct (evolve_run _ _ _ _ _ _ _ _ _ _ _ _ _ E H I st ONorm st1 N R1) as (b & Rb & [E1 E2] & V).
  specialize (V v0 eq_refl Br Ni Ev Q).
  destruct (exec_assigns_eqx (IRFacts.one sym) tr st1 b st' E1) as (b2 & X2 & E3); [apply avoid_sym; exact Nr|exact X1|].
  assert (V2: eval (env_of b2) e = Some (st' sym [])).
  { rewrite (exec_assigns_writes tr _ _ X1) by exact Nt. rewrite <- V. unfold eval. rewrite (ev_agree _ (env_of b)); auto. intros x Hx. apply (exec_assigns_writes tr _ _ X2). auto. }
  exists (wr b2 sym [] (st' sym [])). split.
  - eapply R_cons; [exact Rb| |apply R_nil]. clear - X2 V2.
    assert (G: forall l a a2, exec_assigns a l = Some a2 -> eval (env_of a2) e = Some (st' sym []) -> exec_assigns a (l ++ [(sym, e)])%list = Some (wr a2 sym [] (st' sym []))).
    { induction l as [|[x d] l IH]; cbn [exec_assigns app]; intros a a2 X W; [injection X as <-; rewrite W; reflexivity|]. destruct (eval (env_of a) d); [|discriminate]. apply IH; auto. }
    apply G; auto.
  - intros x idx. destruct (string_dec x sym) as [->|Nx]; [|rewrite IRFacts.wr_other by auto; symmetry; apply E3; exact Nx].
    destruct idx as [|z idx]; [apply wr_same|]. rewrite IRFacts.wr_other by (right; discriminate).
    rewrite (exec_assigns_writes tr _ _ X2), (exec_assigns_writes tr _ _ X1) by exact Nt. symmetry. apply E2. discriminate.
Qed.

(** With the initialisation right before the loop, for the whole program. *)
Theorem C24_program_partial : forall scal k i init c u body sym e0 e n0 tr0 tr n' tr',
  evolve scal sym e0 (NLoop k i init c u body) tr = Some (n', tr') -> evolvable i init c u body sym e0 e ->
  (forall s, exists w, eval s e = Some w) ->
  forall I st o st', runs I (SCons n0 (tr0 ++ [(sym, e0)])%list (SCons (NLoop k i init c u body) [] SNil)) st o st' ->
  exists st'', runs I (SCons n0 (tr0 ++ [(sym, e0)])%list (SCons n' [] SNil)) st o st'' /\ forall x idx, x <> sym \/ idx <> [] -> st'' x idx = st' x idx.
Proof.
  intros scal k i init c u body sym e0 e n0 tr0 tr n' tr' E H Def I st o st' R. inversion R; subst.
  2:{ exists st'. split; [apply R_exit; auto|auto]. }
  match goal with X : exec_assigns st1 _ = Some st2 |- _ => pose proof X as X1 end.
  assert (S: eval (env_of st2) e0 = Some (st2 sym [])).
  { clear - X1 H. assert (Q: ~ In sym (atoms e0)). { intros Q. destruct H as (_ & _ & _ & _ & _ & _ & _ & _ & Q0 & _). destruct (Q0 _ Q) as (_ & N & _). apply N. reflexivity. }
    revert st1 X1. induction tr0 as [|[x d] l IH]; cbn [exec_assigns app]; intros st1 X1.
    - destruct (eval (env_of st1) e0) as [v|] eqn:Ev; [|discriminate]. injection X1 as <-. rewrite wr_same, <- Ev. unfold eval. rewrite (ev_agree _ (env_of st1)); auto. intros y Hy. unfold env_of. rewrite IRFacts.wr_other; auto. left. intros ->. auto.
    - destruct (eval (env_of st1) d); [|discriminate]. eauto. }
  assert (N: entry i sym e0 e st2) by (split; auto).
  match goal with X : runs I (SCons _ [] SNil) st2 o st' |- _ => inversion X; subst end.
  - match goal with H0 : runs _ SNil _ _ _ |- _ => inversion H0; subst end. match goal with H0 : exec_assigns _ [] = _ |- _ => injection H0 as <- end.
    match goal with Y : run I (NLoop _ _ _ _ _ _) st2 ONorm ?z |- _ => destruct (C24_evolution_partial _ _ _ _ _ _ _ _ _ _ _ _ _ E H I st2 ONorm z N Y) as (b & Rb & Eb) end.
    exists b. split; auto. eapply R_cons; eauto. eapply R_cons; [exact Rb|reflexivity|apply R_nil].
  - match goal with Y : run I (NLoop _ _ _ _ _ _) st2 o ?z |- _ => destruct (C24_evolution_partial _ _ _ _ _ _ _ _ _ _ _ _ _ E H I st2 o z N Y) as (b & Rb & Eb) end.
    exists b. split; auto. eapply R_cons; eauto. apply R_exit; auto.
Qed.

(** ** Where it fails *)
Definition scal (x : string) : bool := negb (String.eqb x "A").
Definition evo_wrong (P : seq) (st : store) (x : string) (idx : list Z) : Prop :=
  exists P', evolves scal P P' /\ differ 60 P P' st x idx = true.
Ltac ewrong := eexists; split; [eapply es_tail, es_here; [left; reflexivity|reflexivity|vm_compute; reflexivity]|vm_compute; reflexivity].
Definition start (e0 : expr) (r : seq) : seq := SCons (NBlock []) [("s", e0)] r.
Definition up5 (body : seq) : node := NLoop KFor "i" (EInt 0) (lt5 "i") (nxt "i") body.
Definition adds (k : Z) : assigns := [("s", EAdd [EInt k; ESym "s"])].
(** No iteration: the update is applied once anyway. *)
Theorem C24_zero_trip_refuted : evo_wrong (start (EInt 0) (LoopProps.one (NLoop KFor "i" (EInt 0) (CLt (ESym "i") (ESym "n")) (nxt "i") (SCons (put "A" "s") (adds 5) SNil)))) st0 "s" [].
Proof. ewrong. Qed.
(** An alias of the index ends one step too far. *)
Theorem C24_alias_final_refuted : evo_wrong (start (EInt 0) (LoopProps.one (up5 (SCons (put "A" "s") [("s", nxt "i")] SNil)))) st0 "s" [].
Proof. ewrong. Qed.
(** So does a function of the index. *)
Theorem C24_function_final_refuted : evo_wrong (start (EInt (-1)) (LoopProps.one (up5 (SCons (put "A" "s") [("s", ESym "i")] SNil)))) st0 "s" [].
Proof. ewrong. Qed.
(** The condition uses the symbol: one more iteration. *)
Theorem C24_condition_refuted : evo_wrong (start (EInt 0) (LoopProps.one (NLoop KFor "i" (EInt 0) (CLt (ESym "s") (EInt 4)) (nxt "i") (SCons (put "A" "i") (adds 2) SNil)))) st0 "A" [2].
Proof. ewrong. Qed.
(** A continue skips the update. *)
Theorem C24_continue_refuted : evo_wrong (start (EInt 0) (LoopProps.one (up5
  (SCons (NIf (BCons (CEq (ESym "i") (EInt 1)) (LoopProps.one NContinue) BNil)) [] (SCons (put "A" "s") (adds 1) SNil))))) st0 "A" [1].
Proof. ewrong. Qed.
(** The step is the index itself: s = s + i has the closed form i * i. *)
Theorem C24_triangular_refuted : evo_wrong (start (EInt 0) (LoopProps.one (up5 (SCons (put "A" "s") [("s", EAdd [ESym "i"; ESym "s"])] SNil)))) st0 "A" [3].
Proof. ewrong. Qed.
(** The symbol of the initial value changes in the loop. *)
Theorem C24_start_changed_refuted : evo_wrong (start (ESym "k") (LoopProps.one (up5 (SCons (put "A" "s") (adds 1) (SCons (NBlock []) [("k", EAdd [EInt 7; ESym "k"])] SNil))))) st0 "A" [1].
Proof. ewrong. Qed.
(** The transition after the loop reads the symbol. *)
Theorem C24_transition_refuted : evo_wrong (start (EInt 0) (SCons (up5 (SCons (put "A" "s") (adds 1) SNil)) [("z", ESym "s")] SNil)) st0 "z" [].
Proof. ewrong. Qed.
(** The loop is entered again by an outer loop. *)
Theorem C24_reentered_refuted : evo_wrong (start (EInt 0) (LoopProps.one (NLoop KFor "j" (EInt 0) (CLt (ESym "j") (EInt 2)) (nxt "j") (LoopProps.one (up5 (SCons (put "A" "s") (adds 1) SNil)))))) st0 "A" [7].
Proof. eexists; split; [eapply es_tail, es_node, en_loop, es_here; [left; reflexivity|reflexivity|vm_compute; reflexivity]|vm_compute; reflexivity]. Qed.
Lemma refute_all fuel p q st x idx : differ fuel p q st x idx = true ->
  ~ (forall I st o st', runs I p st o st' -> exists st'', runs I q st o st'' /\ forall x idx, st'' x idx = st' x idx).
Proof.
  unfold differ. destruct (xseq I0 fuel p st) as [[o1 s1]|] eqn:E1; [|discriminate]. destruct (xseq I0 fuel q st) as [[o2 s2]|] eqn:E2; [|discriminate].
  intros H F. apply xseq_runs in E1, E2. destruct (F _ _ _ _ E1) as (st'' & R & Q). destruct (runs_det _ _ _ _ _ _ _ E2 R) as (_ & ->).
  apply negb_true_iff, Z.eqb_neq in H. apply H. symmetry. apply Q.
Qed.
Theorem C24_full_refuted : ~ C24_full.
Proof. intros F. destruct C24_zero_trip_refuted as (P' & E & H). exact (refute_all _ _ _ _ _ _ H (F _ _ _ E)). Qed.

(** ** The hypotheses hold: s = 3; for (i = 0; i < 5; i += 1) { A[s] = 7; s += k } *)
Definition evo_ok : node := up5 (SCons (put "A" "s") [("s", EAdd [ESym "k"; ESym "s"])] SNil).
Definition k2 : store := wr (wr st0 "k" [] 2) "s" [] 3.
Example C24_nonvacuous : exists n' tr', evolve scal "s" (EInt 3) evo_ok [] = Some (n', tr') /\
  evolvable "i" (EInt 0) (lt5 "i") (nxt "i") (SCons (put "A" "s") [("s", EAdd [ESym "k"; ESym "s"])] SNil) "s" (EInt 3) (EAdd [ESym "k"; ESym "s"]) /\
  entry "i" "s" (EInt 3) (EAdd [ESym "k"; ESym "s"]) k2 /\
  (exists st', run I0 evo_ok k2 ONorm st' /\ st' "A" [11] = 7 /\ st' "s" [] = 13) /\ (exists st', run I0 n' k2 ONorm st' /\ st' "A" [11] = 7 /\ st' "s" [] = 11).
Proof.
  eexists. eexists. split; [vm_compute; reflexivity|]. split; [|split; [|split]].
  - repeat split; try discriminate; try (intros [H|[]]; discriminate); try (destruct H; fail).
    + intros [H|[H|[]]]; discriminate.
    + intros x [<-|[<-|[]]] N; [|tauto]. intros [H|[H|[]]]; discriminate.
    + intros _ [H|[H|[]]]; discriminate.
  - split; [reflexivity|]. intros x y. eexists. reflexivity.
  - destruct (xnode I0 60 evo_ok k2) as [[o s]|] eqn:E; [|vm_compute in E; discriminate].
    assert (Q: match xnode I0 60 evo_ok k2 with Some (ONorm, s) => s "A" [11] = 7 /\ s "s" [] = 13 | _ => False end) by (vm_compute; split; reflexivity).
    rewrite E in Q. destruct o; try contradiction. exists s. split; [apply xnode_run in E; exact E|exact Q].
  - match goal with |- context [run I0 ?n _ _ _] => destruct (xnode I0 60 n k2) as [[o s]|] eqn:E; [|vm_compute in E; discriminate];
      assert (Q: match xnode I0 60 n k2 with Some (ONorm, s) => s "A" [11] = 7 /\ s "s" [] = 11 | _ => False end) by (vm_compute; split; reflexivity) end.
    rewrite E in Q. destruct o; try contradiction. exists s. split; [apply xnode_run in E; exact E|exact Q].
Qed.
Print Assumptions C24_final_value_partial.
Print Assumptions C24_program_partial.
