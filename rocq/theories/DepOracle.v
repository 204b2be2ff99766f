(** An oracle answered without ISL: syntactic comparison within an iteration and
    the modelled maps::is_disjoint_monotonic (SymFuns.v) across iterations. For
    bodies that do not change the symbols of their subsets it meets [oracle_ok]. *)
From Coq Require Import Permutation.
From Verif Require Import Sym SymFacts SymFuns SymProofs2 SymProofs3 SymProofs4 IR IRFacts IRRefine PassCFG PassInline PassCFGProofs2 LoopTile LoopIter Trace Reorder Interchange DepAna DepProofs For2MapProofs.

Fixpoint subset_eqb (l m : list expr) : bool :=
  match l, m with [], [] => true | a :: l', b :: m' => expr_eqb a b && subset_eqb l' m' | _, _ => false end.
Lemma subset_eqb_eq l : forall m, subset_eqb l m = true <-> l = m.
Proof.
  induction l as [|a l IH]; intros [|b m]; simpl; split; try discriminate; auto.
  - rewrite andb_true_iff, expr_eqb_eq, IH. intros [-> ->]. reflexivity.
  - intros [= -> ->]. rewrite andb_true_iff, expr_eqb_eq, IH. auto.
Qed.
(** maps::intersects (maps.cpp:268-284) answers "no" when is_disjoint_monotonic does *)
Definition syntactic (i : string) (A : assumptions) : oracle := {|
  is_disjoint := fun cur prev => negb (subset_eqb cur prev);
  is_subset := subset_eqb;
  intersects := fun prev cur => match is_disjoint_monotonic prev cur i A with Some true => false | _ => true end |}.

Definition acc_subset (a : access) : list expr := match a with Rd u | Wr u => snd u | RdSym _ => [] end.
(** symbols used in subsets *)
Definition idx_syms (s : seq) : list string := concat (map (fun a => concat (map atoms (acc_subset a))) (sacc s)).

Section Events.
  Variable I : nat -> list Z -> option Z.
  Variable S : list string.
  Definition sameS (a b : store) : Prop := forall y, In y S -> a y [] = b y [].
  Definition inS (l : list access) : Prop := forall a y, In a l -> In y (concat (map atoms (acc_subset a))) -> In y S.
  Lemma evals_S a b l : sameS a b -> (forall y, In y (concat (map atoms l)) -> In y S) -> evals (env_of a) l = evals (env_of b) l.
  Proof. intros H K. apply evals_agree. intros y j (Hy & ->). apply H. apply K. exact Hy. Qed.
  Definition okE (st : store) (T : trace) (L : list access) : Prop :=
    forall w x e j, In (Ev w x e j) T -> evals (env_of st) e = Some j /\ (e = [] \/ exists a, In a L /\ acc_subset a = e).
  Lemma okE_app st T1 T2 L1 L2 : okE st T1 L1 -> okE st T2 L2 -> okE st (T1 ++ T2) (L1 ++ L2).
  Proof.
    intros A B w x e j H. apply in_app_iff in H as [H|H]; [destruct (A _ _ _ _ H) as (P & Q)|destruct (B _ _ _ _ H) as (P & Q)]; (split; [exact P|]);
      destruct Q as [Q|(a & Q1 & Q2)]; auto; right; exists a; rewrite in_app_iff; auto.
  Qed.
  Lemma okE_rds st l L : okE st (rds l) L.
  Proof. intros w x e j H. apply rds_events in H as (_ & -> & -> & _). auto. Qed.
  Lemma okE_sub st T L L' : okE st T L -> incl L L' -> okE st T L'.
  Proof. intros H K w x e j Q. destruct (H _ _ _ _ Q) as (A & [B|(a & B & C)]); split; auto. right. exists a. auto. Qed.
  Lemma okE_move st st2 T L : sameS st st2 -> inS L -> okE st2 T L -> okE st T L.
  Proof.
    intros Sm K H w x e j Q. destruct (H _ _ _ _ Q) as (A & B). split; [|exact B]. destruct B as [->|(a & B & <-)]; [exact A|].
    rewrite <- A. apply evals_S; [exact Sm|]. intros y Hy. eapply K; eauto.
  Qed.
  Lemma okE_operand st o : okE st (operand_trace st o) (in_acc o).
  Proof.
    destruct o as [z|x sub]; simpl; [intros w y e j []|]. intros w y e j H. apply in_app_iff in H as [H|H]; [apply rds_events in H as (_ & -> & -> & _); auto|].
    destruct (evals (env_of st) sub) eqn:E; [|elim H]. destruct H as [H|[]]. injection H as <- <- <- <-. split; [exact E|]. right. exists (Rd (x, sub)). simpl. auto.
  Qed.
  Lemma okE_operands st l : okE st (concat (map (operand_trace st) l)) (concat (map in_acc l)).
  Proof. induction l as [|o l IH]; simpl; [intros w y e j []|]. apply okE_app; [apply okE_operand|exact IH]. Qed.
  Lemma okE_op st o : okE st (op_trace st o) (op_acc o).
  Proof.
    unfold op_trace, op_acc. apply okE_app; [apply okE_operands|]. apply okE_app; [apply okE_rds|].
    destruct (evals (env_of st) (o_sub o)) eqn:E; intros w y e j H; [|elim H]. destruct H as [H|[]]. injection H as <- <- <- <-. split; [exact E|].
    right. exists (Wr (o_out o, o_sub o)). simpl. auto.
  Qed.
  Lemma inS_app l m : inS (l ++ m) -> inS l /\ inS m.
  Proof. intros H. split; intros a y Ha; apply H; apply in_or_app; auto. Qed.
  Lemma okE_block b : forall st, inS (concat (map op_acc b)) -> (forall y, In y S -> ~ In y (map o_out b)) -> okE st (block_trace I st b) (concat (map op_acc b)).
  Proof.
    induction b as [|o b IH]; simpl; intros st K W; [intros w y e j []|]. apply inS_app in K as [K1 K2].
    apply okE_app; [apply okE_op|]. destruct (exec_op I st o) as [st1|] eqn:E; [|intros w y e j []].
    eapply okE_move; [|exact K2|apply IH; [exact K2|intros y Hy Q; eapply W; eauto]].
    intros y Hy. unfold exec_op in E. destruct (reads_in st (o_ins o)); [|discriminate]. destruct (evals _ _); [|discriminate]. destruct (I _ _); [|discriminate].
    injection E as <-. symmetry. apply wr_other. intros [Q _]. apply (W y Hy). auto.
  Qed.
  Lemma okE_asg st a L : okE st (asg_trace a) L.
  Proof. intros w x e j H. apply asg_events in H as (-> & -> & _). auto. Qed.
  Lemma asg_same a : (forall y, In y S -> ~ In y (map fst a)) -> forall s s', exec_assigns s a = Some s' -> sameS s s'.
  Proof. intros W s s' H y Hy. symmetry. eapply asg_frame; eauto. Qed.
  Lemma okE_straight :
    (forall n, nstraight n = true -> forall st o st' T, runT I n st o st' T -> inS (nacc n) -> (forall y, In y S -> ~ In y (nwrites n)) -> okE st T (nacc n)) /\
    (forall s, straight s = true -> forall st o st' T, runsT I s st o st' T -> inS (sacc s) -> (forall y, In y S -> ~ In y (swrites s)) -> okE st T (sacc s)) /\
    (forall b : brs, True).
  Proof.
    apply ir_mind; simpl; auto; try discriminate.
    - intros b _ st o st' T R K W. inversion R; subst. apply okE_block; auto.
    - intros s IH H st o st' T R K W. inversion R; subst. eapply IH; eauto.
    - intros _ st o st' T R K W. inversion R; subst. intros w x e j [].
    - intros n IHn a r IHr H st o st' T R K W. apply andb_prop in H as [H1 H2]. apply inS_app in K as [K1 K]. apply inS_app in K as [K2 K3].
      assert (Wn: forall y, In y S -> ~ In y (nwrites n)) by (intros y Hy Q; apply (W y Hy); rewrite !in_app_iff; auto).
      assert (Wa: forall y, In y S -> ~ In y (map fst a)) by (intros y Hy Q; apply (W y Hy); rewrite !in_app_iff; auto).
      assert (Wr: forall y, In y S -> ~ In y (swrites r)) by (intros y Hy Q; apply (W y Hy); rewrite !in_app_iff; auto).
      inversion R; subst.
      + match goal with H : runT _ n _ _ _ _ |- _ => rename H into R1 end. match goal with H : runsT _ r _ _ _ _ |- _ => rename H into R2 end. match goal with H : exec_assigns _ _ = _ |- _ => rename H into R3 end.
        apply okE_app; [eapply IHn; eauto|]. apply okE_app; [apply okE_asg|].
        eapply okE_move; [|exact K3|eapply IHr; eauto].
        intros y Hy. rewrite <- (asg_same a Wa _ _ R3 y Hy). symmetry. eapply (run_writes I); [eapply (proj1 (trace_run I)); eauto|auto].
      + eapply okE_sub; [eapply IHn; eauto|]. intros x Hx. apply in_or_app. auto.
  Qed.
End Events.

Section SynOK.
  Variables (A : assumptions) (sc : string -> bool) (I : nat -> list Z -> option Z) (i : string) (body : seq).
  Hypothesis ST : straight body = true.
  Hypothesis SI : sc i = true.
  (** the symbols of the subsets, except [i], are not changed in the loop *)
  Hypothesis FIX : forall y, In y (idx_syms body) -> ~ In y (swrites body).
  (** C09's conditions on the written subsets *)
  Hypothesis NT : no_trunc_A A.
  Hypothesis WS : forall x e, In (Wr (x, e)) (sacc body) -> sc x = false ->
    Forall (fun d => forall b n, d = EPow (ESym b) n -> b = i) e /\ forallb no_trunc e = true.

  Lemma write_events : (forall n, nstraight n = true -> forall st o st' T, runT I n st o st' T -> forall x e j, In (Ev true x e j) T -> In (Wr (x, e)) (nacc n)) /\
    (forall s, straight s = true -> forall st o st' T, runsT I s st o st' T -> forall x e j, In (Ev true x e j) T -> In (Wr (x, e)) (sacc s)) /\ (forall b : brs, True).
  Proof.
    apply ir_mind; simpl; auto; try discriminate.
    - intros b _ st o st' T R x e j H. inversion R; subst. clear R. match goal with K : exec_block _ _ _ = _ |- _ => clear K end.
      revert st H. induction b as [|p b IH]; simpl; intros st H; [elim H|]. apply in_app_iff in H as [H|H].
      + apply in_or_app. left. unfold op_acc. apply in_or_app. right. apply in_or_app. right. unfold op_trace in H. rewrite !in_app_iff in H. destruct H as [H|[H|H]].
        * exfalso. apply (nowr_operands st (o_ins p) x j). exists e. exact H.
        * apply rds_events in H as (? & _). discriminate.
        * destruct (evals _ _); [|elim H]. destruct H as [H|[]]. injection H as <- <- <-. left. reflexivity.
      + apply in_or_app. right. destruct (exec_op I st p); [eapply IH; eauto|elim H].
    - intros s IH H st o st' T R. inversion R; subst. eapply IH; eauto.
    - intros _ st o st' T R x e j H. inversion R; subst. elim H.
    - intros n IHn a r IHr H st o st' T R x e j Q. apply andb_prop in H as [H1 H2]. inversion R; subst; rewrite !in_app_iff in *; [|left; eapply IHn; eauto].
      destruct Q as [Q|[Q|Q]]; [left; eapply IHn; eauto| |right; right; eapply IHr; eauto].
      right. left. apply asg_events in Q as (-> & _ & Q). unfold asg_acc. apply in_or_app. right. apply in_map_iff in Q as (xe & <- & Q). apply in_map_iff. exists xe. auto.
  Qed.

  Let S := idx_syms body.
  Lemma S_in : inS S (sacc body).
  Proof. intros a y Ha Hy. unfold S, idx_syms. apply in_concat. eexists. split; [apply in_map_iff; exists a; split; [reflexivity|exact Ha]|exact Hy]. Qed.
  (** symbols of subsets keep their initial values *)
  Definition sameI (a b : store) : Prop := forall y, In y S -> y <> i -> a y [] = b y [].
  Lemma iter_ev a it b : inst1 I i body it a b -> forall st, sameI st a ->
    sameI st b /\ (forall w x e j, In (Ev w x e j) (snd it) -> x <> i -> evals (upd (env_of st) i (fst it)) e = Some j).
  Proof.
    intros (T & o & E & Ho & R) st Sm. split.
    - intros y Hy N. rewrite (Sm y Hy N). apply (proj1 (proj2 (trace_run I))) in R. rewrite (runs_writes I _ _ _ _ y [] R (FIX y Hy)). symmetry. apply wr_other. intros [Q _]. auto.
    - intros w x e j H Nx. rewrite E in H. destruct H as [H|H]; [congruence|].
      destruct (proj1 (proj2 (okE_straight I S)) body ST _ _ _ _ R S_in (fun y Hy => FIX y Hy) w x e j H) as (Ee & Q).
      rewrite <- Ee. destruct Q as [->|(ac & Q1 & <-)]; [reflexivity|].
      assert (G: forall y, In y (concat (map atoms (acc_subset ac))) -> upd (env_of st) i (fst it) y = env_of (wr a i [] (fst it)) y).
      { intros y Hy. unfold upd, env_of. destruct (String.eqb_spec i y) as [<-|N]; [rewrite wr_same; reflexivity|]. rewrite wr_other by (intros [Q _]; auto). apply Sm; auto. eapply S_in; eauto. }
      clear - G. revert G. generalize (acc_subset ac) as l. induction l as [|d l IH]; simpl; intros G; [reflexivity|].
      rewrite IH by (intros; apply G; apply in_or_app; auto). unfold eval. rewrite (ev_agree _ (env_of (wr a i [] (fst it)))); [reflexivity|]. intros y Hy. apply G. apply in_or_app. auto.
  Qed.
  Lemma iters_ev its : forall a m st, iterL (inst1 I i body) its a m -> sameI st a -> forall it, In it its ->
    (exists p q, inst1 I i body it p q) /\ forall w x e j, In (Ev w x e j) (snd it) -> x <> i -> evals (upd (env_of st) i (fst it)) e = Some j.
  Proof.
    induction its as [|t its IH]; intros a m st L Sm it [].
    - subst. destruct L as (b & H & L). split; [eauto|]. eapply iter_ev; eauto.
    - destruct L as (b & H' & L). eapply IH; eauto. eapply iter_ev; eauto.
  Qed.
  Lemma evals_map s l : forall j, evals s l = Some j -> map (eval s) l = map Some j.
  Proof.
    induction l as [|d l IH]; simpl; intros j H; [injection H as <-; reflexivity|].
    destruct (eval s d); [|discriminate]. destruct (evals s l) as [k|]; [|discriminate]. injection H as <-. simpl. rewrite (IH k eq_refl). reflexivity.
  Qed.

  Lemma syntactic_ok its st m : iterL (inst1 I i body) its st m -> NoDup (map fst its) ->
    (forall v, In v (map fst its) -> sat_dep (upd (env_of st) i v) A) ->
    (forall v w, agree_const A (upd (env_of st) i v) (upd (env_of st) i w)) ->
    oracle_ok (syntactic i A) sc its.
  Proof.
    intros L ND SD AC. pose proof (iters_ev its st m st L ltac:(intros y _ _; reflexivity)) as EV. split.
    - intros it Hit. destruct (EV it Hit) as (_ & E). split; intros x e e' j j' Hs Hd H1 H2.
      + simpl in Hd. apply negb_false_iff, subset_eqb_eq in Hd. subst e'. assert (x <> i) by congruence.
        pose proof (E _ _ _ _ H1 H) as Q1. pose proof (E _ _ _ _ H2 H) as Q2. congruence.
      + simpl in Hd. apply subset_eqb_eq in Hd. subst e'. assert (x <> i) by congruence.
        pose proof (E _ _ _ _ H1 H) as Q1. pose proof (E _ _ _ _ H2 H) as Q2. congruence.
    - intros p q it it' w x e e' j j' N Hp Hq Hs Hd H1 H2 <-. assert (Nx: x <> i) by congruence.
      destruct (EV it (nth_error_In _ _ Hp)) as (_ & E1). destruct (EV it' (nth_error_In _ _ Hq)) as ((a & b & T & o & ET & Ho & R) & E2).
      pose proof (E1 _ _ _ _ H1 Nx) as Q1. pose proof (E2 _ _ _ _ H2 Nx) as Q2.
      assert (W: In (Wr (x, e')) (sacc body)).
      { rewrite ET in H2. destruct H2 as [H2|H2]; [congruence|]. eapply (proj1 (proj2 write_events)); eauto. }
      destruct (WS x e' W Hs) as (F1 & F2). simpl in Hd. destruct (is_disjoint_monotonic e' e i A) as [[|]|] eqn:D; try discriminate.
      refine (disjoint_monotonic_value e' e i A (upd (env_of st) i (fst it')) (upd (env_of st) i (fst it)) j j D F1 NT F2 _ _ (AC _ _) _ (evals_map _ _ _ Q2) (evals_map _ _ _ Q1) eq_refl).
      + apply SD. apply in_map. eapply nth_error_In; eauto.
      + apply SD. apply in_map. eapply nth_error_In; eauto.
      + unfold upd. rewrite String.eqb_refl. intros Q. apply N. assert (M1: nth_error (map fst its) p = Some (fst it)) by (rewrite nth_error_map, Hp; reflexivity).
        assert (M2: nth_error (map fst its) q = Some (fst it')) by (rewrite nth_error_map, Hq; reflexivity).
        rewrite NoDup_nth_error in ND. apply ND; [apply nth_error_Some; congruence|congruence].
  Qed.
End SynOK.
