(** Proofs about the control-flow clean-up passes. *)
From Verif Require Import Sym SymFacts SymFuns SymProofs1 SymProofs4 IR IRFacts IRRefine PassCFG.

(* ---------------------------------------------------------------- *)
(** SequenceFusion *)
Lemma sf_sound :
  (forall n, seq_asg_free_n n = true -> nref n (sf_node n) /\ nref (sf_node n) n) /\
  (forall s, seq_asg_free s = true -> sref s (sf_seq s) /\ sref (sf_seq s) s) /\
  (forall b, seq_asg_free_b b = true -> bref b (sf_brs b) /\ bref (sf_brs b) b).
Proof.
  apply ir_mind; intros; cbn [sf_node sf_seq sf_brs seq_asg_free_n seq_asg_free seq_asg_free_b] in *;
    try (split; apply nref_refl); try (split; apply sref_refl); try (split; apply bref_refl).
  - destruct (H H0); split; apply seq_ref; auto.
  - destruct (H H0); split; apply if_ref; auto.
  - destruct (H H0); split; apply while_ref; auto.
  - destruct (H H0); split; apply loop_ref; auto.
  - apply andb_prop in H1 as [H1 H3]. apply andb_prop in H1 as [H1 H2].
    specialize (H H2). specialize (H0 H3). destruct H0 as [R1 R2]. destruct n; try (destruct H; split; apply cons_ref; auto; fail).
    destruct a; [|discriminate]. cbn [sf_node] in H. destruct H as [N1 N2]. split.
    + eapply sref_trans; [apply cons_ref; eauto|]. apply splice_ref.
    + eapply sref_trans; [apply unsplice_ref|]. apply cons_ref; auto.
  - apply andb_prop in H1 as [H1 H2]. destruct (H H1), (H0 H2); split; apply brs_ref; auto.
Qed.

Lemma flat_sapp s t : flat (sapp s t) = flat s && flat t.
Proof. induction s as [|n a s IH]; simpl; auto. rewrite IH. destruct n; simpl; auto; rewrite ?andb_assoc; auto. Qed.
Lemma sf_flat :
  (forall n, flat_n (sf_node n) = true) /\ (forall s, flat (sf_seq s) = true) /\ (forall b, flat_b (sf_brs b) = true).
Proof.
  apply ir_mind; intros; cbn [sf_node sf_seq sf_brs flat_n flat flat_b] in *; auto.
  - destruct n; cbn [flat flat_n sf_node] in *; rewrite ?H, ?H0; auto. rewrite flat_sapp, H0. cbn [flat_n] in H. rewrite H. auto.
  - rewrite H, H0; auto.
Qed.

(* ---------------------------------------------------------------- *)
(** DeadCFGElimination without the trivial-Map rule *)
Lemma skip_ref n r : (forall I st o st', run I n st o st' -> o = ONorm /\ st' = st) -> sref (SCons n [] r) r.
Proof.
  intros H. apply refines_same. intros I st o st' R. inversion R; subst.
  - match goal with H' : run _ n _ _ _ |- _ => apply H in H' as [_ ->] end.
    match goal with H' : exec_assigns _ [] = _ |- _ => injection H' as <- end.
    eexists; split; eauto using eqx_refl.
  - match goal with H' : run _ n _ _ _ |- _ => apply H in H' as [-> _] end. congruence.
Qed.

Lemma runw_nil_false I s st o st' : runw I s st o st' -> s = SNil -> False.
Proof.
  intros R. revert R.
  enough ((forall n st o st', run I n st o st' -> True) /\ (forall s st o st', runs I s st o st' -> True) /\
          (forall b st o st', runb I b st o st' -> True) /\
          (forall s st o st', runw I s st o st' -> s = SNil -> False) /\
          (forall i c u s st o st', runl I i c u s st o st' -> True)) by (intuition eauto).
  apply run_mind; intros; auto; subst.
  - match goal with H : runs _ SNil _ _ _ |- _ => inversion H end.
  - match goal with H : runs _ SNil _ _ _ |- _ => inversion H end.
Qed.

Lemma dead_skip n I st o st' : is_dead false n = true -> run I n st o st' -> o = ONorm /\ st' = st.
Proof.
  destruct n; simpl; intros H R; try discriminate.
  - destruct b; [|discriminate]. inversion R; subst. simpl in *. split; congruence.
  - destruct s; [|discriminate]. inversion R; subst. match goal with H : runs _ SNil _ _ _ |- _ => inversion H; subst end. auto.
  - destruct bs; [|discriminate]. inversion R; subst. match goal with H : runb _ BNil _ _ _ |- _ => inversion H; subst end. auto.
  - destruct s; [|discriminate]. inversion R; subst. exfalso. eapply runw_nil_false; eauto.
  - rewrite andb_false_r in H. discriminate.
Qed.

Lemma ret_ref q a r : sref (SCons (NReturn q) a r) (SCons (NReturn q) [] SNil).
Proof.
  apply refines_same. intros I st o st' R. exists st'; split; [|apply eqx_refl]. inversion R; subst.
  - match goal with H : run _ (NReturn _) _ _ _ |- _ => inversion H end.
  - apply R_exit; auto.
Qed.

Lemma wr_id st x : steq (wr st x [] (st x [])) st.
Proof.
  intros y _ j. unfold wr. destruct (String.eqb_spec x y) as [->|]; auto.
  destruct (idx_eqb [] j) eqn:E; auto. apply idx_eqb_eq in E. subst. auto.
Qed.
Lemma drop_self_ex a : forall st st1 st', steq st st1 -> exec_assigns st a = Some st' ->
  exists st1', exec_assigns st1 (drop_self a) = Some st1' /\ steq st' st1'.
Proof.
  unfold drop_self. induction a as [|[x e] a IH]; cbn [filter fst snd exec_assigns]; intros st st1 st' E H.
  - injection H as <-. eauto.
  - destruct (eval (env_of st) e) as [v|] eqn:Ev; [|discriminate].
    destruct (negb (expr_eqb (ESym x) e)) eqn:Q.
    + cbn [exec_assigns]. rewrite <- (eval_eqx none st st1 e E (avoids_none _)), Ev.
      eapply IH; eauto. apply eqx_wr; auto.
    + apply negb_false_iff, expr_eqb_eq in Q. subst e. apply (IH (wr st x [] v)); auto.
      cbv in Ev. injection Ev as <-. eapply eqx_trans; [apply wr_id|auto].
Qed.
Lemma drop_self_ref n a r : sref (SCons n a r) (SCons n (drop_self a) r).
Proof.
  apply refines_same. intros I st o st' R. inversion R; subst.
  - match goal with H : exec_assigns _ a = _ |- _ => destruct (drop_self_ex a _ _ _ (eqx_refl _ _) H) as (m & Em & Q) end.
    match goal with H : runs _ r _ _ _ |- _ => destruct (runs_frame _ _ _ _ _ none _ H Q (avoids_none _)) as (q & Rq & Eq) end.
    exists q; split; auto. econstructor; eauto.
  - exists st'; split; [|apply eqx_refl]. apply R_exit; auto.
Qed.

Lemma if_true_ref c s bs r : is_true c = true -> sref (SCons (NIf (BCons c s bs)) [] r) (sapp s r).
Proof.
  intros Ht. destruct c; simpl in Ht; try discriminate. destruct b; [|discriminate].
  apply refines_same. intros I st o st' R. exists st'; split; [|apply eqx_refl]. apply runs_app. inversion R; subst.
  - left. match goal with H : run _ (NIf _) _ _ _ |- _ => inversion H; subst end.
    match goal with H : runb _ (BCons _ _ _) _ _ _ |- _ => inversion H; subst end; [|simpl in *; discriminate].
    match goal with H : exec_assigns _ [] = _ |- _ => injection H as <- end. eexists; split; eassumption.
  - right. match goal with H : run _ (NIf _) _ _ _ |- _ => inversion H; subst end.
    match goal with H : runb _ (BCons _ _ _) _ _ _ |- _ => inversion H; subst end; [|simpl in *; discriminate]. auto.
Qed.

Lemma drop_false_ref b : bref b (drop_false b).
Proof.
  induction b as [|c s r IH]; simpl; [apply bref_refl|].
  destruct (is_false c) eqn:F; [|apply brs_ref; auto using sref_refl].
  eapply bref_trans; [|apply IH]. apply brefines_same. intros I st o st' R. exists st'; split; [|apply eqx_refl].
  destruct c; try discriminate. destruct b; try discriminate. inversion R; subst; auto. simpl in *; discriminate.
Qed.
Lemma drop_last_dead_ref b : bref b (drop_last_dead b).
Proof.
  induction b as [|c s r IH]; simpl; [apply bref_refl|]. destruct r as [|c' s' r'].
  - destruct (is_nil s) eqn:E; [|apply bref_refl]. destruct s; [|discriminate].
    apply brefines_same. intros I st o st' R. exists st'; split; [|apply eqx_refl]. inversion R; subst.
    + match goal with H : runs _ SNil _ _ _ |- _ => inversion H; subst end. constructor.
    + match goal with H : runb _ BNil _ _ _ |- _ => inversion H; subst end. constructor.
  - apply brs_ref; auto using sref_refl.
Qed.
Lemma drop_compl_ref b : bref b (drop_compl b).
Proof.
  destruct b as [|c s [|d t [|]]]; try apply bref_refl. unfold drop_compl.
  destruct (cond_eqb (snot c) d) eqn:E; [|apply bref_refl]. apply cond_eqb_eq in E. subst d.
  destruct (is_nil t) eqn:Et; [|destruct (is_nil s) eqn:Es; [|apply bref_refl]].
  - destruct t; [|discriminate]. apply brefines_same. intros I st o st' R. exists st'; split; [|apply eqx_refl]. inversion R; subst.
    + constructor; auto.
    + apply R_bfalse; auto. match goal with H : runb _ (BCons _ _ _) _ _ _ |- _ => inversion H; subst; auto end.
      match goal with H : runs _ SNil _ _ _ |- _ => inversion H; subst end. constructor.
  - destruct s; [|discriminate]. apply brefines_same. intros I st o st' R. exists st'; split; [|apply eqx_refl]. inversion R; subst; auto.
    match goal with H : runs _ SNil _ _ _ |- _ => inversion H; subst end.
    apply R_bfalse; [|constructor]. rewrite cev_snot. match goal with H : cev _ c = _ |- _ => rewrite H end. auto.
Qed.
Lemma simp_brs_ref b : bref b (simp_brs b).
Proof. unfold simp_brs. eapply bref_trans; [apply drop_false_ref|]. eapply bref_trans; [apply drop_last_dead_ref|apply drop_compl_ref]. Qed.

Lemma dce_sound fuel :
  (forall s, sref s (dce_seq fuel false false s)) /\
  (forall n, nref n (dce_node fuel false false n)) /\
  (forall b, bref b (dce_brs fuel false false b)).
Proof.
  induction fuel as [|fuel (IS & IN & IB)]; [repeat split; intros; simpl; auto using sref_refl, nref_refl, bref_refl|].
  repeat split.
  - intros [|n a r]; [apply sref_refl|].
    assert (sref (SCons n a r) (SCons (dce_node fuel false false n) (drop_self a) (dce_seq fuel false false r))) as Keep.
    { eapply sref_trans; [apply drop_self_ref|apply cons_ref; auto]. }
    assert (drop_self a = [] -> is_dead false n = true -> sref (SCons n a r) (dce_seq fuel false false r)) as Dead.
    { intros E D. eapply sref_trans; [apply drop_self_ref|]. rewrite E. eapply sref_trans; [apply skip_ref|apply IS].
      intros; eapply dead_skip; eauto. }
    cbn [dce_seq]. destruct n; try apply ret_ref; destruct (drop_self a) as [|x a'] eqn:E; try exact Keep; 
      destruct (is_dead false _) eqn:D; auto.
    + destruct bs as [|c s0 bs]; auto. destruct (is_true c) eqn:T; auto.
      eapply sref_trans; [apply drop_self_ref|]. rewrite E. eapply sref_trans; [apply if_true_ref; auto|apply IS].
    + destruct k; auto.
  - intros []; cbn [dce_node]; auto using nref_refl, seq_ref, while_ref, loop_ref.
    apply if_ref. eapply bref_trans; [apply simp_brs_ref|apply IB].
  - intros []; cbn [dce_brs]; auto using bref_refl, brs_ref.
Qed.

(* ---------------------------------------------------------------- *)
(** ConditionElimination *)
Definition neq_i (i : string) := one i.

(** the loop behaves as a no-op (up to its own index) when the test fails *)
Lemma loop_skip I k i init c u s st o st' :
  run I (NLoop k i init c u s) st o st' -> forall v, eval (env_of st) init = Some v ->
  cev (env_of (wr st i [] v)) c = Some false -> o = ONorm /\ st' = wr st i [] v.
Proof.
  intros R v Ev Hc. inversion R; subst. match goal with H : eval _ init = Some ?w |- _ => assert (w = v) by congruence; subst end.
  match goal with H : runl _ _ _ _ _ _ _ _ |- _ => inversion H; subst; auto; congruence end.
Qed.

Lemma env_wr st i v : forall x, env_of (wr st i [] v) x = upd (env_of st) i v x.
Proof. intros; apply env_wr_scalar. Qed.
Lemma cev_wr st i v c : cev (env_of (wr st i [] v)) c = cev (upd (env_of st) i v) c.
Proof. apply cev_agree. intros x _. apply env_wr_scalar. Qed.
Lemma ev_wr st i v c : ev (env_of (wr st i [] v)) c = ev (upd (env_of st) i v) c.
Proof. apply ev_agree. intros x _. apply env_wr_scalar. Qed.
Lemma eval_wr st i v c : eval (env_of (wr st i [] v)) c = eval (upd (env_of st) i v) c.
Proof. unfold eval. rewrite ev_wr. auto. Qed.

Lemma cond_elim_sound outside n a n' a' I st o st' :
  cond_elim outside n a = Some (n', a') ->
  (match n with NIf (BCons _ (SCons (NLoop _ i init _ _ _) T SNil) BNil) =>
     T = [] /\ exists v, eval (env_of st) init = Some v | _ => True end) ->
  run I n st o st' ->
  exists i st'', run I n' st o st'' /\ a' = a /\ ~ In i outside /\
    (forall x j, (x <> i \/ j <> []) -> st'' x j = st' x j).
Proof.
  unfold cond_elim. destruct n as [| |bs| | | | |]; try discriminate.
  destruct bs as [|c s bs]; try discriminate. destruct s as [|n T r]; try discriminate.
  destruct n as [| | | |k i init lc u body| | |]; try discriminate.
  destruct r; try discriminate. destruct bs; try discriminate.
  destruct (existsb (String.eqb i) outside) eqn:Ex; try discriminate.
  destruct (cond_eqb (csubs lc i init) c) eqn:Ec; try discriminate.
  apply cond_eqb_eq in Ec. intros [= <- <-] [-> (v & Ev)] R.
  assert (~ In i outside) as No.
  { intros Hin. rewrite existsb_false_in in Ex. specialize (Ex _ Hin). rewrite String.eqb_refl in Ex. discriminate. }
  inversion R; subst. match goal with H : runb _ _ _ _ _ |- _ => inversion H; subst end.
  - exists i, st'. repeat split; auto. constructor; auto.
  - match goal with H : runb _ BNil _ _ _ |- _ => inversion H; subst end.
    exists i, (wr st' i [] v). repeat split; auto.
    + constructor. eapply R_cons; [eapply R_loop; eauto; apply R_lend| reflexivity|constructor].
      rewrite cev_wr. rewrite <- (cev_subs _ _ _ _ _ (proj1 (eval_ev _ _ _) Ev)). auto.
    + intros x j Hx. apply wr_other. destruct Hx; auto.
Qed.
