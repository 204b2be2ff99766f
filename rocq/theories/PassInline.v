(** The trivial-Map rule of DeadCFGElimination (dead_cfg_elimination.cpp:35-52,
    133-150): when it is correct. *)
From Verif Require Import Sym SymFacts SymFuns SymProofs1 SymProofs3 SymProofs4 Lin IR IRFacts IRRefine PassCFG LoopAnaProofs PassCFGProofs.

(** Containers read through access nodes (not symbols of expressions). *)
Definition op_data (o : operand) : list string := match o with OConst _ => [] | ORead x _ => [x] end.
Definition block_data (b : block) : list string := concat (map (fun o => concat (map op_data (o_ins o))) b).
Fixpoint ndata (n : node) : list string :=
  match n with
  | NBlock b => block_data b
  | NSeq s | NWhile s => sdata s
  | NIf bs => bdata bs
  | NLoop _ _ _ _ _ s => sdata s
  | NReturn r => [r]
  | NBreak | NContinue => []
  end
with sdata (s : seq) : list string :=
  match s with SNil => [] | SCons n a r => ndata n ++ sdata r end
with bdata (b : brs) : list string :=
  match b with BNil => [] | BCons c s r => sdata s ++ bdata r end.

(** A break/continue that leaves the construct. *)
Fixpoint nesc (n : node) : bool :=
  match n with
  | NBreak | NContinue => true
  | NSeq s => sesc s
  | NIf b => besc b
  | _ => false
  end
with sesc (s : seq) : bool := match s with SNil => false | SCons n a r => nesc n || sesc r end
with besc (b : brs) : bool := match b with BNil => false | BCons c s r => sesc s || besc r end.

(** When one Map may be inlined. *)
Definition map_ok (i : string) (init u : expr) (body : seq) : Prop :=
  ~ In i (swrites body) /\ (forall x, In x (atoms init) -> ~ In x (swrites body)) /\ ~ In i (atoms init) /\
  ~ In i (sdata body) /\ sesc body = false /\ exists z, stride i u = Some z.

Section Perm.
(** the [permissive] flag of the pass; whether Maps may be inlined *)
Variable p im : bool.
Definition minus (D : string -> Prop) (i : string) : string -> Prop := fun x => D x /\ x <> i.
(** (permissive mode also erases empty For loops, so their variables are in D.)
    If [im], every Map satisfies [map_ok], its variable is in [D], and variables of [D]
    are read only inside the loop that sets them. *)
Fixpoint nok (D : string -> Prop) (n : node) : Prop :=
  match n with
  | NSeq s | NWhile s => sok D s
  | NIf b => bok D b
  | NLoop k i init c u s =>
      avoids D (atoms init) /\ avoids (minus D i) (catoms c) /\ avoids (minus D i) (atoms u) /\ sok (minus D i) s /\
      (p = true -> is_nil s = true -> D i) /\
      match k with KMap => im = true -> D i /\ map_ok i init u s | KFor => True end
  | NBlock b => avoids D (block_reads b)
  | NReturn r => ~ D r
  | _ => True
  end
with sok (D : string -> Prop) (s : seq) : Prop :=
  match s with SNil => True | SCons n a r => nok D n /\ avoids D (asg_reads a) /\ sok D r end
with bok (D : string -> Prop) (b : brs) : Prop :=
  match b with BNil => True | BCons c s r => avoids D (catoms c) /\ sok D s /\ bok D r end.

(** Induction variables of the Maps of a program. *)
Fixpoint nmapvars (n : node) : list string :=
  match n with
  | NSeq s | NWhile s => smapvars s
  | NIf b => bmapvars b
  | NLoop k i _ _ _ s => match k with KMap => [i] | KFor => [] end ++ smapvars s
  | _ => []
  end
with smapvars (s : seq) : list string :=
  match s with SNil => [] | SCons n a r => nmapvars n ++ smapvars r end
with bmapvars (b : brs) : list string :=
  match b with BNil => [] | BCons c s r => smapvars s ++ bmapvars r end.

(* ---------------------------------------------------------------- *)
Definition eqD (D D' : string -> Prop) := forall x, D x <-> D' x.
Lemma avoids_eqD D D' l : eqD D D' -> avoids D l -> avoids D' l.
Proof. intros E H x Hx Hd. apply (H x Hx). apply E. auto. Qed.
Lemma avoids_weak (D D' : string -> Prop) l : (forall x, D' x -> D x) -> avoids D l -> avoids D' l.
Proof. intros E H x Hx Hd. apply (H x Hx). auto. Qed.
Lemma minus_eqD D D' i : eqD D D' -> eqD (minus D i) (minus D' i).
Proof. intros E x. unfold minus. rewrite (E x). tauto. Qed.
Lemma ok_eqD :
  (forall n D D', eqD D D' -> nok D n -> nok D' n) /\
  (forall s D D', eqD D D' -> sok D s -> sok D' s) /\
  (forall b D D', eqD D D' -> bok D b -> bok D' b).
Proof.
  apply ir_mind; cbn [nok sok bok]; intros; auto; try (eapply avoids_eqD; eauto; fail); try (eapply H; eauto; fail).
  - destruct H1 as (A & B & C & S & P0 & K). pose proof (minus_eqD _ _ i H0).
    repeat split; try (eapply avoids_eqD; eauto; fail); eauto; [intros; apply H0; auto|]. destruct k; auto. intros Hm. destruct (K Hm); split; auto. apply H0; auto.
  - intros Hd. apply H0. apply H. auto.
  - destruct H2 as (? & ? & ?). repeat split; eauto using avoids_eqD.
  - destruct H2 as (? & ? & ?). repeat split; eauto using avoids_eqD.
Qed.

(** stores that differ at most in the scalar cells of the names in [D] *)
Definition eqs (D : string -> Prop) (a b : store) : Prop := forall x j, (D x /\ j = []) \/ a x j = b x j.
Lemma eqs_refl D a : eqs D a a. Proof. right; auto. Qed.
Lemma eqs_eqx D a b : eqs D a b -> eqx D a b.
Proof. intros H x Hx j. destruct (H x j) as [[? _]|]; [contradiction|auto]. Qed.
Lemma eqs_steq D a b c : eqs D a b -> steq b c -> eqs D a c.
Proof. intros H E x j. destruct (H x j) as [|Q]; auto. right. rewrite Q. apply E. intros []. Qed.
Lemma eqs_trans D a b c : eqs D a b -> eqs D b c -> eqs D a c.
Proof. intros H K x j. destruct (H x j) as [|Q]; auto. destruct (K x j) as [|Q']; auto. right. congruence. Qed.
Lemma eqs_sub (D D' : string -> Prop) a b : (forall x, D x -> D' x) -> eqs D a b -> eqs D' a b.
Proof. intros H K x j. destruct (K x j) as [[? ?]|]; auto. Qed.
Lemma eqs_wr D a b x j v : eqs D a b -> eqs D (wr a x j v) (wr b x j v).
Proof. intros H y k. unfold wr. destruct (String.eqb x y && idx_eqb j k); auto. Qed.
Lemma eqs_minus D i a b v : eqs D a b -> eqs (minus D i) (wr a i [] v) (wr b i [] v).
Proof.
  intros H y k. unfold wr. destruct (String.eqb_spec i y) as [->|N]; simpl.
  - destruct k; auto. destruct (H y (z :: k)) as [[_ Q]|]; auto. discriminate.
  - destruct (H y k) as [[? ?]|]; auto. left. split; auto. split; auto.
Qed.

Lemma rename_other i init y : y <> i -> rename i init y = y.
Proof. intros N. unfold rename. destruct init; auto. destruct (String.eqb_spec i y); congruence. Qed.

Section Frame.
  Variable I : nat -> list Z -> option Z.
  Lemma block_eqs D bl : forall a b a', eqs D a b -> avoids D (block_reads bl) -> exec_block I a bl = Some a' ->
    exists b', exec_block I b bl = Some b' /\ eqs D a' b'.
  Proof.
    induction bl as [|o bl IH]; intros a b a' E A H; cbn [exec_block] in *.
    - injection H as <-. eauto.
    - change (block_reads (o :: bl)) with ((concat (map opnames (o_ins o)) ++ concat (map atoms (o_sub o))) ++ block_reads bl) in A.
      apply avoids_app in A as [A1 A2]. apply avoids_app in A1 as [A0 A1].
      unfold exec_op in *. rewrite <- (reads_in_eqx D a b) by auto using eqs_eqx. rewrite <- (evals_eqx D a b) by auto using eqs_eqx.
      destruct (reads_in a (o_ins o)); [|discriminate]. destruct (evals (env_of a) (o_sub o)); [|discriminate].
      destruct (I (o_code o) l); [|discriminate]. eapply IH; eauto. apply eqs_wr; auto.
  Qed.
  Lemma assigns_eqs D l : forall a b a', eqs D a b -> avoids D (asg_reads l) -> exec_assigns a l = Some a' ->
    exists b', exec_assigns b l = Some b' /\ eqs D a' b'.
  Proof.
    induction l as [|[x e] l IH]; intros a b a' E A H; cbn [exec_assigns] in *.
    - injection H as <-. eauto.
    - change (asg_reads ((x, e) :: l)) with (atoms e ++ asg_reads l) in A. apply avoids_app in A as [A1 A2].
      rewrite <- (eval_eqx D a b) by auto using eqs_eqx. destruct (eval (env_of a) e); [|discriminate]. eapply IH; eauto using eqs_wr.
  Qed.
  Lemma ok_frame :
    (forall n a o a', run I n a o a' -> forall D b, nok D n -> eqs D a b -> exists b', run I n b o b' /\ eqs D a' b') /\
    (forall s a o a', runs I s a o a' -> forall D b, sok D s -> eqs D a b -> exists b', runs I s b o b' /\ eqs D a' b') /\
    (forall s a o a', runb I s a o a' -> forall D b, bok D s -> eqs D a b -> exists b', runb I s b o b' /\ eqs D a' b') /\
    (forall s a o a', runw I s a o a' -> forall D b, sok D s -> eqs D a b -> exists b', runw I s b o b' /\ eqs D a' b') /\
    (forall i c u s a o a', runl I i c u s a o a' -> forall D b, avoids D (catoms c) -> avoids D (atoms u) -> sok D s -> eqs D a b ->
        exists b', runl I i c u s b o b' /\ eqs D a' b').
  Proof.
    apply run_mind; cbn [nok sok bok]; intros.
    - destruct (block_eqs D b _ _ _ H1 H0 H) as (q & ? & ?). exists q; split; auto; constructor; auto.
    - destruct (H0 _ _ H1 H2) as (q & ? & ?); exists q; split; auto; constructor; auto.
    - destruct (H0 _ _ H1 H2) as (q & ? & ?); exists q; split; auto; constructor; auto.
    - destruct (H0 _ _ H1 H2) as (q & ? & ?); exists q; split; auto; constructor; auto.
    - destruct H2 as (A & B & C & S & _). destruct (H1 (minus D i) (wr b i [] v) B C S (eqs_minus _ _ _ _ _ H3)) as (q & ? & ?).
      exists q; split; [econstructor; eauto; rewrite <- (eval_eqx D st b); auto using eqs_eqx|]. eapply eqs_sub; [|eauto]. intros ? []; auto.
    - eexists; split; eauto; constructor.
    - eexists; split; eauto; constructor.
    - eexists; split; eauto; constructor.
    - eexists; split; eauto; constructor.
    - destruct H4 as (A & B & C). destruct (H0 _ _ A H5) as (q & ? & ?). destruct (assigns_eqs _ _ _ _ _ H6 B H1) as (q2 & ? & ?).
      destruct (H3 _ _ C H8) as (q3 & ? & ?). exists q3; split; auto. econstructor; eauto.
    - destruct H2 as (A & B & C). destruct (H0 _ _ A H3) as (q & ? & ?). exists q; split; auto. apply R_exit; auto.
    - eexists; split; eauto; constructor.
    - destruct H2 as (A & B & C). destruct (H1 _ _ B H3) as (q & ? & ?). exists q; split; auto. apply R_btrue; auto.
      rewrite <- (cev_eqx D st b); auto using eqs_eqx.
    - destruct H2 as (A & B & C). destruct (H1 _ _ C H3) as (q & ? & ?). exists q; split; auto. apply R_bfalse; auto.
      rewrite <- (cev_eqx D st b); auto using eqs_eqx.
    - destruct (H0 _ _ H4 H5) as (q & ? & ?). destruct (H3 _ _ H4 H7) as (q2 & ? & ?). exists q2; split; auto. eapply R_wnext; eauto.
    - destruct (H0 _ _ H1 H2) as (q & ? & ?). exists q; split; auto. apply R_wbreak; auto.
    - destruct (H0 _ _ H1 H2) as (q & ? & ?). exists q; split; auto. apply R_wret; auto.
    - exists b; split; auto. apply R_lend. rewrite <- (cev_eqx D st b); auto using eqs_eqx.
    - destruct (H1 _ _ H8 H9) as (q & ? & ?). destruct (H5 D (wr q i [] v)) as (q2 & ? & ?); auto using eqs_wr.
      exists q2; split; auto. eapply R_lnext; eauto.
      + rewrite <- (cev_eqx D st b); auto using eqs_eqx.
      + rewrite <- (eval_eqx D st1 q); auto using eqs_eqx.
    - destruct (H1 _ _ H4 H5) as (q & ? & ?). exists q; split; auto. apply R_lbreak; auto. rewrite <- (cev_eqx D st b); auto using eqs_eqx.
    - destruct (H1 _ _ H4 H5) as (q & ? & ?). exists q; split; auto. apply R_lret; auto. rewrite <- (cev_eqx D st b); auto using eqs_eqx.
  Qed.

  (** substitution of the loop variable *)
  Variable (i : string) (init : expr) (v : Z).
  Hypothesis Hself : ~ In i (atoms init).
  Definition holds (a : store) : Prop := a i [] = v /\ eval (env_of a) init = Some v.
  Definition safe (w : list string) : Prop := ~ In i w /\ forall x, In x (atoms init) -> ~ In x w.
  Lemma safe_app w1 w2 : safe (w1 ++ w2) <-> safe w1 /\ safe w2.
  Proof. unfold safe. setoid_rewrite in_app_iff. firstorder. Qed.
  Lemma safe_cons x w : safe (x :: w) <-> (x <> i /\ ~ In x (atoms init)) /\ safe w.
  Proof.
    unfold safe. simpl. split.
    - intros [A B]. repeat split; try tauto; intros; firstorder.
    - intros [[A A'] [B C]]. split; [firstorder|]. intros y Hy [->|]; firstorder.
  Qed.
  Lemma holds_eq a a' : holds a -> (forall x, x = i \/ In x (atoms init) -> a' x [] = a x []) -> holds a'.
  Proof.
    intros [H1 H2] E. split; [rewrite E; auto|]. rewrite <- H2. unfold eval.
    rewrite (ev_agree (env_of a') (env_of a) init); auto. intros x Hx. apply E; auto.
  Qed.
  Lemma holds_wr a x j w : holds a -> x <> i -> ~ In x (atoms init) -> holds (wr a x j w).
  Proof. intros H N M. eapply holds_eq; eauto. intros y [->|Hy]; apply wr_other; left; congruence. Qed.
  Lemma holds_run n a o a' : run I n a o a' -> safe (nwrites n) -> holds a -> holds a'.
  Proof. intros R [S1 S2] H. eapply holds_eq; eauto. intros x [->|Hx]; eapply run_writes; eauto. Qed.
  Lemma holds_runs n a o a' : runs I n a o a' -> safe (swrites n) -> holds a -> holds a'.
  Proof. intros R [S1 S2] H. eapply holds_eq; eauto. intros x [->|Hx]; eapply runs_writes; eauto. Qed.
  Lemma holds_assigns l a a' : exec_assigns a l = Some a' -> safe (map fst l) -> holds a -> holds a'.
  Proof.
    revert a. induction l as [|[x e] l IH]; cbn [exec_assigns map fst]; intros a H S Ha; [congruence|].
    apply safe_cons in S as [[S0 S1] S2]. destruct (eval (env_of a) e); [|discriminate]. eapply IH; eauto. apply holds_wr; auto.
  Qed.

  Lemma init_b a b : holds a -> eqs (one i) a b -> ev (env_of b) init = Fin v.
  Proof.
    intros [_ H] E. apply eval_ev. rewrite <- H. symmetry. apply (eval_eqx (one i)); auto using eqs_eqx.
    intros x Hx Ho. unfold one in Ho. subst. auto.
  Qed.
  Lemma env_b a b : holds a -> eqs (one i) a b -> forall x, upd (env_of b) i v x = env_of a x.
  Proof.
    intros [H _] E x. unfold upd, env_of. destruct (String.eqb_spec i x) as [->|N]; auto.
    destruct (E x []) as [[Ho _]|Q]; auto. unfold one in Ho. congruence.
  Qed.
  Lemma eval_b a b e : holds a -> eqs (one i) a b -> eval (env_of b) (subs e i init) = eval (env_of a) e.
  Proof.
    intros H E. unfold eval. rewrite (ev_subs _ _ _ _ v) by eauto using init_b. rewrite (ev_agree _ (env_of a)); auto.
    intros x _. eapply env_b; eauto.
  Qed.
  Lemma cev_b a b c : holds a -> eqs (one i) a b -> cev (env_of b) (csubs c i init) = cev (env_of a) c.
  Proof.
    intros H E. rewrite (cev_subs _ _ _ _ v) by eauto using init_b. apply cev_agree. intros x _. eapply env_b; eauto.
  Qed.
  Lemma evals_b a b l : holds a -> eqs (one i) a b -> evals (env_of b) (map (fun e => subs e i init) l) = evals (env_of a) l.
  Proof. intros H E. induction l as [|e l IH]; simpl; auto. rewrite IH, (eval_b a b) by auto. auto. Qed.
  Lemma reads_b a b l : holds a -> eqs (one i) a b -> ~ In i (concat (map op_data l)) ->
    reads_in b (map (repl_operand i init) l) = reads_in a l.
  Proof.
    intros H E. induction l as [|o l IH]; simpl; auto. intros N. rewrite in_app_iff in N. rewrite IH by tauto.
    destruct o as [z|x sub]; simpl; auto. simpl in N. rewrite rename_other by (intros ->; tauto). rewrite (evals_b a b) by auto.
    destruct (evals (env_of a) sub) as [j|]; auto. destruct (E x j) as [[Ho _]|Q]; [unfold one in Ho; subst; tauto|]. rewrite Q. auto.
  Qed.
  Lemma block_b bl : forall a b a', holds a -> eqs (one i) a b -> ~ In i (block_data bl) -> safe (map o_out bl) ->
    exec_block I a bl = Some a' -> exists b', exec_block I b (map (repl_op i init) bl) = Some b' /\ eqs (one i) a' b'.
  Proof.
    induction bl as [|o bl IH]; cbn [exec_block map]; intros a b a' H E N S R.
    - injection R as <-. eauto.
    - apply safe_cons in S as [[S0 S1] S2]. change (block_data (o :: bl)) with (concat (map op_data (o_ins o)) ++ block_data bl) in N.
      rewrite in_app_iff in N. assert (~ In i (block_data bl)) by tauto. unfold exec_op in *. cbn [o_ins o_sub o_code o_out repl_op].
      rewrite (reads_b a b), (evals_b a b) by tauto. rewrite rename_other by auto.
      destruct (reads_in a (o_ins o)); [|discriminate]. destruct (evals (env_of a) (o_sub o)); [|discriminate].
      destruct (I (o_code o) l); [|discriminate]. eapply IH; [| | | |exact R]; auto using eqs_wr, holds_wr.
  Qed.
  Lemma assigns_b l : forall a b a', holds a -> eqs (one i) a b -> safe (map fst l) ->
    exec_assigns a l = Some a' -> exists b', exec_assigns b (repl_asg i init l) = Some b' /\ eqs (one i) a' b'.
  Proof.
    induction l as [|[x e] l IH]; cbn [exec_assigns map fst]; intros a b a' H E S R.
    - injection R as <-. exists b; split; auto.
    - apply safe_cons in S as [[S0 S1] S2]. unfold repl_asg. cbn [exec_assigns map fst snd]. rewrite rename_other by auto.
      rewrite (eval_b a b) by auto. destruct (eval (env_of a) e); [|discriminate]. eapply IH; [| | |exact R]; auto using eqs_wr, holds_wr.
  Qed.

  Ltac ba := eauto using holds_run, holds_runs, holds_assigns.
  Lemma repl_sim :
    (forall n a o a', run I n a o a' -> forall b, safe (nwrites n) -> ~ In i (ndata n) -> holds a -> eqs (one i) a b ->
       exists b', run I (repl_node i init n) b o b' /\ eqs (one i) a' b') /\
    (forall n a o a', runs I n a o a' -> forall b, safe (swrites n) -> ~ In i (sdata n) -> holds a -> eqs (one i) a b ->
       exists b', runs I (repl_seq i init n) b o b' /\ eqs (one i) a' b') /\
    (forall n a o a', runb I n a o a' -> forall b, safe (bwrites n) -> ~ In i (bdata n) -> holds a -> eqs (one i) a b ->
       exists b', runb I (repl_brs i init n) b o b' /\ eqs (one i) a' b') /\
    (forall n a o a', runw I n a o a' -> forall b, safe (swrites n) -> ~ In i (sdata n) -> holds a -> eqs (one i) a b ->
       exists b', runw I (repl_seq i init n) b o b' /\ eqs (one i) a' b') /\
    (forall j c u n a o a', runl I j c u n a o a' -> forall b, safe (j :: swrites n) -> ~ In i (sdata n) -> holds a -> eqs (one i) a b ->
       exists b', runl I j (csubs c i init) (subs u i init) (repl_seq i init n) b o b' /\ eqs (one i) a' b').
  Proof.
    apply run_mind; cbn [nwrites swrites bwrites ndata sdata bdata repl_node repl_seq repl_brs]; intros.
    - destruct (block_b b st b0 st') as (q & ? & ?); auto. exists q; split; auto; constructor; auto.
    - destruct (H0 b) as (q & ? & ?); auto; exists q; split; auto; constructor; auto.
    - destruct (H0 b) as (q & ? & ?); auto; exists q; split; auto; constructor; auto.
    - destruct (H0 b) as (q & ? & ?); auto; exists q; split; auto; constructor; auto.
    - pose proof H2 as S. apply safe_cons in S as [[S0 S1] _].
      destruct (H1 (wr b i0 [] v0)) as (q & ? & ?); auto using holds_wr, eqs_wr.
      exists q; split; auto. rewrite rename_other by auto. econstructor; eauto. rewrite (eval_b st b); auto.
    - eexists; split; eauto; constructor.
    - eexists; split; eauto; constructor.
    - eexists; split; eauto; constructor.
    - eexists; split; eauto; constructor.
    - apply safe_app in H4 as [S1 S2]. apply safe_app in S2 as [S2 S3]. rewrite in_app_iff in H5.
      destruct (H0 b) as (q & ? & ?); auto. destruct (assigns_b a st1 q st2) as (q2 & ? & ?); ba.
      destruct (H3 q2) as (q3 & ? & ?); ba. exists q3; split; auto. econstructor; eauto.
    - apply safe_app in H2 as [S1 S2]. rewrite in_app_iff in H3. destruct (H0 b) as (q & ? & ?); auto. exists q; split; auto. apply R_exit; auto.
    - eexists; split; eauto; constructor.
    - apply safe_app in H2 as [S1 S2]. rewrite in_app_iff in H3. destruct (H1 b) as (q & ? & ?); auto. exists q; split; auto. apply R_btrue; auto. rewrite (cev_b st b); auto.
    - apply safe_app in H2 as [S1 S2]. rewrite in_app_iff in H3. destruct (H1 b) as (q & ? & ?); auto. exists q; split; auto. apply R_bfalse; auto. rewrite (cev_b st b); auto.
    - destruct (H0 b) as (q & ? & ?); auto. destruct (H3 q) as (q2 & ? & ?); ba. exists q2; split; auto. eapply R_wnext; eauto.
    - destruct (H0 b) as (q & ? & ?); auto. exists q; split; auto. apply R_wbreak; auto.
    - destruct (H0 b) as (q & ? & ?); auto. exists q; split; auto. apply R_wret; auto.
    - exists b; split; auto. apply R_lend. rewrite (cev_b st b); auto.
    - pose proof H6 as S. apply safe_cons in S as [[S0 S1] S2]. destruct (H1 b) as (q & ? & ?); auto.
      assert (holds st1) by ba. destruct (H5 (wr q i0 [] v0)) as (q2 & ? & ?); auto using holds_wr, eqs_wr.
      exists q2; split; auto. eapply R_lnext; eauto; [rewrite (cev_b st b); auto|rewrite (eval_b st1 q); auto].
    - apply safe_cons in H2 as [_ S2]. destruct (H1 b) as (q & ? & ?); auto. exists q; split; auto. apply R_lbreak; auto. rewrite (cev_b st b); auto.
    - apply safe_cons in H2 as [_ S2]. destruct (H1 b) as (q & ? & ?); auto. exists q; split; auto. apply R_lret; auto. rewrite (cev_b st b); auto.
  Qed.
End Frame.

(* ---------------------------------------------------------------- *)
Definition srefD (D : string -> Prop) (s t : seq) : Prop :=
  forall I a b o a', eqs D a b -> runs I s a o a' -> exists b', runs I t b o b' /\ eqs D a' b'.
Definition nrefD (D : string -> Prop) (s t : node) : Prop :=
  forall I a b o a', eqs D a b -> run I s a o a' -> exists b', run I t b o b' /\ eqs D a' b'.
Definition brefD (D : string -> Prop) (s t : brs) : Prop :=
  forall I a b o a', eqs D a b -> runb I s a o a' -> exists b', runb I t b o b' /\ eqs D a' b'.

Lemma srefD_trans D s t u : srefD D s t -> srefD D t u -> srefD D s u.
Proof.
  intros H1 H2 I a b o a' E R. destruct (H1 I a a o a' (eqs_refl _ _) R) as (m & Rm & Em).
  destruct (H2 I a b o m E Rm) as (q & Rq & Eq). exists q; split; auto. eapply eqs_trans; eauto.
Qed.
Lemma brefD_trans D s t u : brefD D s t -> brefD D t u -> brefD D s u.
Proof.
  intros H1 H2 I a b o a' E R. destruct (H1 I a a o a' (eqs_refl _ _) R) as (m & Rm & Em).
  destruct (H2 I a b o m E Rm) as (q & Rq & Eq). exists q; split; auto. eapply eqs_trans; eauto.
Qed.
Lemma sref_srefD D s t : sok D s -> sref s t -> srefD D s t.
Proof.
  intros Hok H I a b o a' E R. destruct (proj1 (proj2 (ok_frame I)) _ _ _ _ R D b Hok E) as (m & Rm & Em).
  destruct (H I b b o m (eqx_refl _ _) Rm) as (q & Rq & Eq). exists q; split; auto. eapply eqs_steq; eauto.
Qed.
Lemma bref_brefD D s t : bok D s -> bref s t -> brefD D s t.
Proof.
  intros Hok H I a b o a' E R. destruct (proj1 (proj2 (proj2 (ok_frame I))) _ _ _ _ R D b Hok E) as (m & Rm & Em).
  destruct (H I b b o m (eqx_refl _ _) Rm) as (q & Rq & Eq). exists q; split; auto. eapply eqs_steq; eauto.
Qed.
Lemma nref_nrefD D s t : nok D s -> nref s t -> nrefD D s t.
Proof.
  intros Hok H I a b o a' E R. destruct (proj1 (ok_frame I) _ _ _ _ R D b Hok E) as (m & Rm & Em).
  destruct (H I b b o m (eqx_refl _ _) Rm) as (q & Rq & Eq). exists q; split; auto. eapply eqs_steq; eauto.
Qed.

Lemma consD D n n' a r r' : avoids D (asg_reads a) -> nrefD D n n' -> srefD D r r' -> srefD D (SCons n a r) (SCons n' a r').
Proof.
  intros Ha Hn Hr I st1 st2 o st1' E R. inversion R; subst.
  - match goal with H : run _ n _ _ _ |- _ => destruct (Hn _ _ _ _ _ E H) as (m & Rm & Em) end.
    match goal with H : exec_assigns _ a = _ |- _ => destruct (assigns_eqs D a _ m _ Em Ha H) as (m2 & E2 & Em2) end.
    match goal with H : runs _ r _ _ _ |- _ => destruct (Hr _ _ _ _ _ Em2 H) as (q & Rq & Eq) end.
    exists q; split; auto. econstructor; eauto.
  - match goal with H : run _ n _ _ _ |- _ => destruct (Hn _ _ _ _ _ E H) as (m & Rm & Em) end.
    exists m; split; auto. apply R_exit; auto.
Qed.
Lemma seqD D s s' : srefD D s s' -> nrefD D (NSeq s) (NSeq s').
Proof.
  intros H I st1 st2 o st1' E R. inversion R; subst.
  match goal with H' : runs _ s _ _ _ |- _ => destruct (H _ _ _ _ _ E H') as (m & Rm & Em) end.
  exists m; split; auto; constructor; auto.
Qed.
Lemma ifD D s s' : brefD D s s' -> nrefD D (NIf s) (NIf s').
Proof.
  intros H I st1 st2 o st1' E R. inversion R; subst.
  match goal with H' : runb _ s _ _ _ |- _ => destruct (H _ _ _ _ _ E H') as (m & Rm & Em) end.
  exists m; split; auto; constructor; auto.
Qed.
Lemma runwD D s s' (H : srefD D s s') I : forall a o a', runw I s a o a' -> forall b, eqs D a b -> exists b', runw I s' b o b' /\ eqs D a' b'.
Proof.
  enough ((forall n a o a', run I n a o a' -> True) /\ (forall n a o a', runs I n a o a' -> True) /\ (forall n a o a', runb I n a o a' -> True) /\
    (forall n a o a', runw I n a o a' -> n = s -> forall b, eqs D a b -> exists b', runw I s' b o b' /\ eqs D a' b') /\
    (forall i c u n a o a', runl I i c u n a o a' -> True)) as G by (intros; eapply G; eauto).
  apply run_mind; intros; auto; subst.
  - match goal with E : eqs D st b, R : runs _ s st _ _ |- _ => destruct (H _ _ _ _ _ E R) as (q & ? & Eq) end.
    match goal with IH : _ -> forall b, eqs D st1 b -> _ |- _ => destruct (IH eq_refl _ Eq) as (q2 & ? & ?) end.
    exists q2; split; auto. eapply R_wnext; eauto.
  - match goal with E : eqs D st b, R : runs _ s st _ _ |- _ => destruct (H _ _ _ _ _ E R) as (q & ? & Eq) end. exists q; split; auto. apply R_wbreak; auto.
  - match goal with E : eqs D st b, R : runs _ s st _ _ |- _ => destruct (H _ _ _ _ _ E R) as (q & ? & Eq) end. exists q; split; auto. apply R_wret; auto.
Qed.
Lemma whileD D s s' : srefD D s s' -> nrefD D (NWhile s) (NWhile s').
Proof.
  intros H I st1 st2 o st1' E R. inversion R; subst.
  match goal with H' : runw _ s _ _ _ |- _ => destruct (runwD D s s' H I _ _ _ H' _ E) as (m & Rm & Em) end.
  exists m; split; auto; constructor; auto.
Qed.
Lemma runlD D i c u s s' (H : srefD D s s') (Hc : avoids D (catoms c)) (Hu : avoids D (atoms u)) I :
  forall a o a', runl I i c u s a o a' -> forall b, eqs D a b -> exists b', runl I i c u s' b o b' /\ eqs D a' b'.
Proof.
  enough ((forall n a o a', run I n a o a' -> True) /\ (forall n a o a', runs I n a o a' -> True) /\ (forall n a o a', runb I n a o a' -> True) /\
    (forall n a o a', runw I n a o a' -> True) /\
    (forall i0 c0 u0 n a o a', runl I i0 c0 u0 n a o a' -> i0 = i -> c0 = c -> u0 = u -> n = s -> forall b, eqs D a b -> exists b', runl I i c u s' b o b' /\ eqs D a' b')) as G
   by (intros; eapply G; eauto).
  apply run_mind; intros; auto; subst.
  - exists b; split; auto. apply R_lend. rewrite <- (cev_eqx D st b); auto using eqs_eqx.
  - match goal with E : eqs D st b, R : runs _ s st _ _ |- _ => destruct (H _ _ _ _ _ E R) as (q & ? & ?) end.
    match goal with IH : _ -> _ -> _ -> _ -> forall b, eqs D (wr st1 _ _ _) b -> _ |- _ => destruct (IH eq_refl eq_refl eq_refl eq_refl (wr q i [] v)) as (q2 & ? & ?); [apply eqs_wr; auto|] end.
    exists q2; split; auto. eapply R_lnext; eauto; [rewrite <- (cev_eqx D st b)|rewrite <- (eval_eqx D st1 q)]; auto using eqs_eqx.
  - match goal with E : eqs D st b, R : runs _ s st _ _ |- _ => destruct (H _ _ _ _ _ E R) as (q & ? & ?) end.
    exists q; split; auto. apply R_lbreak; auto. rewrite <- (cev_eqx D st b); auto using eqs_eqx.
  - match goal with E : eqs D st b, R : runs _ s st _ _ |- _ => destruct (H _ _ _ _ _ E R) as (q & ? & ?) end.
    exists q; split; auto. apply R_lret; auto. rewrite <- (cev_eqx D st b); auto using eqs_eqx.
Qed.
Lemma loopD D k i init c u s s' : avoids D (atoms init) -> avoids (minus D i) (catoms c) -> avoids (minus D i) (atoms u) ->
  srefD (minus D i) s s' -> nrefD D (NLoop k i init c u s) (NLoop k i init c u s').
Proof.
  intros Hi Hc Hu H I st1 st2 o st1' E R. inversion R; subst.
  match goal with H' : runl _ _ _ _ s (wr _ _ _ ?v) _ _ |- _ =>
    destruct (runlD (minus D i) i c u s s' H Hc Hu I _ _ _ H' (wr st2 i [] v)) as (m & Rm & Em); [apply eqs_minus; auto|] end.
  exists m; split; [econstructor; eauto; rewrite <- (eval_eqx D st1 st2); auto using eqs_eqx|].
  eapply eqs_sub; [|eauto]. intros ? []; auto.
Qed.
Lemma brsD D c s s' r r' : avoids D (catoms c) -> srefD D s s' -> brefD D r r' -> brefD D (BCons c s r) (BCons c s' r').
Proof.
  intros Hc Hs Hr I st1 st2 o st1' E R. inversion R; subst.
  - match goal with H' : runs _ s _ _ _ |- _ => destruct (Hs _ _ _ _ _ E H') as (m & Rm & Em) end.
    exists m; split; auto. apply R_btrue; auto. rewrite <- (cev_eqx D st1 st2); auto using eqs_eqx.
  - match goal with H' : runb _ r _ _ _ |- _ => destruct (Hr _ _ _ _ _ E H') as (m & Rm & Em) end.
    exists m; split; auto. apply R_bfalse; auto. rewrite <- (cev_eqx D st1 st2); auto using eqs_eqx.
Qed.

(* ---------------------------------------------------------------- *)
(** the side condition is preserved by the steps of the pass *)
Lemma sok_sapp D s t : sok D s -> sok D t -> sok D (sapp s t).
Proof. induction s; simpl; intros; auto. tauto. Qed.
Lemma avoids_drop_self D a : avoids D (asg_reads a) -> avoids D (asg_reads (drop_self a)).
Proof.
  unfold drop_self. induction a as [|[x e] a IH]; auto. change (asg_reads ((x, e) :: a)) with (atoms e ++ asg_reads a).
  intros H. apply avoids_app in H as [H1 H2]. cbn [filter]. destruct (negb _); auto.
  change (avoids D (atoms e ++ asg_reads (filter (fun xe => negb (expr_eqb (ESym (fst xe)) (snd xe))) a))).
  apply avoids_app; auto.
Qed.
Lemma bok_simp D b : bok D b -> bok D (simp_brs b).
Proof.
  intros H. unfold simp_brs.
  assert (bok D (drop_false b)) as H1.
  { induction b as [|c s r IH]; simpl in *; auto. destruct (is_false c); simpl; tauto. }
  assert (bok D (drop_last_dead (drop_false b))) as H2.
  { clear H. induction (drop_false b) as [|c s r IH]; auto. simpl in H1. destruct H1 as (? & ? & ?). specialize (IH H1).
    cbn [drop_last_dead]. destruct r; simpl; [destruct (is_nil s); simpl; auto|]. simpl in IH. auto. }
  clear H1. destruct (drop_last_dead (drop_false b)) as [|c s [|d t [|]]]; auto. unfold drop_compl.
  destruct (cond_eqb _ _); auto. simpl in H2. destruct (is_nil t); [simpl; tauto|]. destruct (is_nil s); simpl; tauto.
Qed.

Lemma atoms_subs e x r y : In y (atoms (subs e x r)) -> (In y (atoms e) /\ y <> x) \/ In y (atoms r).
Proof.
  induction e using expr_ind'; simpl; intros Hy; try tauto; auto;
    try (rewrite map_map in Hy; apply in_concat in Hy as (l' & H1 & H2); apply in_map_iff in H1 as (a & <- & Ha);
         rewrite Forall_forall in H; destruct (H a Ha H2) as [[? ?]|]; auto; left; split; auto;
         apply in_concat; exists (atoms a); split; auto; apply in_map; auto; fail);
    try (apply in_app_iff in Hy; rewrite in_app_iff; destruct Hy as [Hy|Hy]; [destruct (IHe1 Hy)|destruct (IHe2 Hy)]; tauto).
  destruct (String.eqb_spec x x0); auto. simpl in Hy. destruct Hy as [->|[]]. left; split; auto.
Qed.
Lemma catoms_subs c x r y : In y (catoms (csubs c x r)) -> (In y (catoms c) /\ y <> x) \/ In y (atoms r).
Proof.
  induction c using cond_ind'; simpl; intros Hy; try tauto; auto;
    try (apply in_app_iff in Hy; rewrite in_app_iff; destruct Hy as [Hy|Hy]; apply atoms_subs in Hy; tauto);
    try (rewrite map_map in Hy; apply in_concat in Hy as (l' & H1 & H2); apply in_map_iff in H1 as (a & <- & Ha);
         rewrite Forall_forall in H; destruct (H a Ha H2) as [[? ?]|]; auto; left; split; auto;
         apply in_concat; exists (catoms a); split; auto; apply in_map; auto; fail).
Qed.

Section Repl.
  Variable (i : string) (init : expr).
  Hypothesis Hself : ~ In i (atoms init).
  Notation Safe := (safe i init).

  Lemma av_subs D e : avoids D (atoms init) -> avoids (minus D i) (atoms e) -> avoids D (atoms (subs e i init)).
  Proof. intros A B y Hy Dy. apply atoms_subs in Hy as [[H N]|H]; [apply (B y H); split; auto|apply (A y H Dy)]. Qed.
  Lemma av_csubs D e : avoids D (atoms init) -> avoids (minus D i) (catoms e) -> avoids D (catoms (csubs e i init)).
  Proof. intros A B y Hy Dy. apply catoms_subs in Hy as [[H N]|H]; [apply (B y H); split; auto|apply (A y H Dy)]. Qed.
  Lemma av_subs_list D l : avoids D (atoms init) -> avoids (minus D i) (concat (map atoms l)) ->
    avoids D (concat (map atoms (map (fun e => subs e i init) l))).
  Proof.
    intros A. induction l as [|e l IH]; simpl; intros B; [apply avoids_nil|]. apply avoids_app in B as [B1 B2].
    apply avoids_app; split; auto using av_subs.
  Qed.
  Lemma av_ops D l : avoids D (atoms init) -> ~ In i (concat (map op_data l)) -> avoids (minus D i) (concat (map opnames l)) ->
    avoids D (concat (map opnames (map (repl_operand i init) l))).
  Proof.
    intros A. induction l as [|o l IH]; simpl; intros N B; [apply avoids_nil|]. apply avoids_app in B as [B1 B2].
    rewrite in_app_iff in N. apply avoids_app; split; [|apply IH; tauto].
    destruct o as [z|x sub]; simpl in *; [apply avoids_nil|]. apply avoids_cons in B1 as [B1 B3]. apply avoids_cons. split; [|apply av_subs_list; auto].
    assert (x <> i) by (intros ->; tauto). rewrite rename_other by auto. intros Dx. apply B1. split; auto.
  Qed.
  Lemma av_block D b : avoids D (atoms init) -> ~ In i (block_data b) -> avoids (minus D i) (block_reads b) ->
    avoids D (block_reads (map (repl_op i init) b)).
  Proof.
    intros A. induction b as [|o b IH]; [intros; apply avoids_nil|].
    change (block_data (o :: b)) with (concat (map op_data (o_ins o)) ++ block_data b).
    change (block_reads (o :: b)) with ((concat (map opnames (o_ins o)) ++ concat (map atoms (o_sub o))) ++ block_reads b).
    rewrite in_app_iff. intros N B. apply avoids_app in B as [B1 B2]. apply avoids_app in B1 as [B0 B1].
    change (avoids D ((concat (map opnames (map (repl_operand i init) (o_ins o))) ++ concat (map atoms (map (fun e => subs e i init) (o_sub o)))) ++ block_reads (map (repl_op i init) b))).
    apply avoids_app; split; [apply avoids_app; split|]; auto using av_subs_list. apply av_ops; tauto.
  Qed.
  Lemma av_asg D a : avoids D (atoms init) -> avoids (minus D i) (asg_reads a) -> avoids D (asg_reads (repl_asg i init a)).
  Proof.
    intros A. induction a as [|[x e] a IH]; [intros; apply avoids_nil|]. change (asg_reads ((x, e) :: a)) with (atoms e ++ asg_reads a).
    intros B. apply avoids_app in B as [B1 B2]. change (avoids D (atoms (subs e i init) ++ asg_reads (repl_asg i init a))).
    apply avoids_app; split; auto using av_subs.
  Qed.
  Lemma block_data_repl b : ~ In i (block_data b) -> block_data (map (repl_op i init) b) = block_data b.
  Proof.
    induction b as [|o b IH]; auto. change (block_data (o :: b)) with (concat (map op_data (o_ins o)) ++ block_data b).
    rewrite in_app_iff. intros N. change (block_data (map (repl_op i init) (o :: b))) with
      (concat (map op_data (map (repl_operand i init) (o_ins o))) ++ block_data (map (repl_op i init) b)). rewrite IH by tauto. f_equal.
    assert (~ In i (concat (map op_data (o_ins o)))) as N' by tauto. clear -N' Hself. revert N'. generalize (o_ins o). intros l. induction l as [|p l IH]; simpl; auto. intros N'.
    rewrite in_app_iff in N'. rewrite IH by tauto. f_equal. destruct p as [z|x sub]; cbn [repl_operand op_data]; auto. rewrite rename_other; auto. intros E. apply N'. left. simpl. auto.
  Qed.
  Lemma repl_static :
    (forall n, Safe (nwrites n) -> ~ In i (ndata n) ->
       nwrites (repl_node i init n) = nwrites n /\ ndata (repl_node i init n) = ndata n /\ nesc (repl_node i init n) = nesc n) /\
    (forall n, Safe (swrites n) -> ~ In i (sdata n) ->
       swrites (repl_seq i init n) = swrites n /\ sdata (repl_seq i init n) = sdata n /\ sesc (repl_seq i init n) = sesc n) /\
    (forall n, Safe (bwrites n) -> ~ In i (bdata n) ->
       bwrites (repl_brs i init n) = bwrites n /\ bdata (repl_brs i init n) = bdata n /\ besc (repl_brs i init n) = besc n).
  Proof.
    apply ir_mind; cbn [nwrites swrites bwrites ndata sdata bdata repl_node repl_seq repl_brs nesc sesc besc]; intros; auto.
    - split; [|split; auto]; [|apply block_data_repl; auto]. rewrite map_map. apply map_ext_in. intros o Ho. simpl. apply rename_other.
      intros E. apply H. rewrite <- E. apply in_map; auto.
    - destruct (H H0 H1) as (E1 & E2 & E3). auto.
    - apply safe_cons in H0 as [[S0 S1] S2]. destruct (H S2 H1) as (E1 & E2 & E3). rewrite rename_other, E1, E2 by auto. auto.
    - apply safe_app in H1 as [S1 S2]. apply safe_app in S2 as [S2 S3]. rewrite in_app_iff in H2.
      destruct (H S1) as (E1 & E2 & E3); [tauto|]. destruct (H0 S3) as (F1 & F2 & F3); [tauto|]. rewrite E1, E2, E3, F1, F2, F3.
      repeat split; auto. f_equal. f_equal. unfold repl_asg. rewrite map_map. apply map_ext_in. intros [x e] Hx. simpl. apply rename_other.
      intros ->. apply S2. change i with (fst (i, e)). apply in_map; auto.
    - apply safe_app in H1 as [S1 S2]. rewrite in_app_iff in H2.
      destruct (H S1) as (E1 & E2 & E3); [tauto|]. destruct (H0 S2) as (F1 & F2 & F3); [tauto|]. rewrite E1, E2, E3, F1, F2, F3. auto.
  Qed.

  Lemma repl_ok :
    (forall n D, Safe (nwrites n) -> ~ In i (ndata n) -> avoids D (atoms init) -> nok (minus D i) n -> nok D (repl_node i init n)) /\
    (forall n D, Safe (swrites n) -> ~ In i (sdata n) -> avoids D (atoms init) -> sok (minus D i) n -> sok D (repl_seq i init n)) /\
    (forall n D, Safe (bwrites n) -> ~ In i (bdata n) -> avoids D (atoms init) -> bok (minus D i) n -> bok D (repl_brs i init n)).
  Proof.
    apply ir_mind; cbn [nwrites swrites bwrites ndata sdata bdata repl_node repl_seq repl_brs nok sok bok]; intros; auto.
    - apply av_block; auto.
    - rename i0 into j. apply safe_cons in H0 as [[S0 S1] S2]. destruct H3 as (A1 & A2 & A3 & A4 & P0 & A5). rewrite rename_other by auto.
      assert (eqD (minus (minus D i) j) (minus (minus D j) i)) as Q by (intros x; unfold minus; tauto).
      assert (avoids (minus D j) (atoms init)) as AJ by (eapply avoids_weak; [|eassumption]; intros ? []; auto).
      repeat split.
      + apply av_subs; auto.
      + apply av_csubs; auto. eapply avoids_eqD; eauto.
      + apply av_subs; auto. eapply avoids_eqD; eauto.
      + apply H; auto. eapply (proj1 (proj2 ok_eqD)); eauto.
      + intros P Q'; apply P0; auto; destruct s; auto; discriminate.
      + destruct k; auto. intros Hm. destruct (A5 Hm) as [[Dj _] (M1 & M2 & M3 & M4 & M5 & z & M6)]. split; auto.
        destruct (proj1 (proj2 repl_static) s S2 H1) as (E1 & E2 & E3). unfold map_ok. rewrite E1, E2, E3.
        repeat split; auto.
        * intros x Hx. apply atoms_subs in Hx as [[Hx _]|Hx]; auto. apply S2; auto.
        * intros Hx. apply atoms_subs in Hx as [[Hx _]|Hx]; auto.
        * exists z. assert (subs u i init = u) as ->; auto. apply subs_unused.
          unfold stride in M6. destruct u; try discriminate. destruct l as [|p1 [|q1 [|]]]; try discriminate.
          destruct p1; try discriminate; destruct q1; try discriminate; destruct (String.eqb_spec x j); try discriminate; subst x; simpl;
            destruct (String.eqb_spec i j); auto; congruence.
    - intros Dr. simpl in H0. apply H2. split; auto.
    - apply safe_app in H1 as [S1 S2]. apply safe_app in S2 as [S2 S3]. rewrite in_app_iff in H2. destruct H4 as (A & B & C).
      repeat split; [apply H|apply av_asg|apply H0]; tauto.
    - apply safe_app in H1 as [S1 S2]. rewrite in_app_iff in H2. destruct H4 as (A & B & C). repeat split; [apply av_csubs|apply H|apply H0]; tauto.
  Qed.
End Repl.

Lemma esc_out I :
  (forall n a o a', run I n a o a' -> nesc n = false -> o <> OBrk /\ o <> OCont) /\
  (forall n a o a', runs I n a o a' -> sesc n = false -> o <> OBrk /\ o <> OCont) /\
  (forall n a o a', runb I n a o a' -> besc n = false -> o <> OBrk /\ o <> OCont) /\
  (forall n a o a', runw I n a o a' -> o <> OBrk /\ o <> OCont) /\
  (forall i c u n a o a', runl I i c u n a o a' -> o <> OBrk /\ o <> OCont).
Proof.
  apply run_mind; cbn [nesc sesc besc]; intros; auto; try (split; discriminate); try discriminate;
    try (match goal with H : _ || _ = false |- _ => apply orb_false_iff in H as [? ?] end; auto).
Qed.

Lemma inline_ref D i init c u body r :
  im = true -> nok D (NLoop KMap i init c u body) -> sok D r -> is_trivial i init c u = true ->
  srefD D (SCons (NLoop KMap i init c u body) [] r) (sapp (repl_seq i init body) r).
Proof.
  intros Hm Hok Hr Ht. pose proof Hok as Hok'. destruct Hok as (A1 & A2 & A3 & A4 & _ & K). destruct (K Hm) as (Di & (M1 & M2 & M3 & M4 & M5 & z & M6)).
  unfold is_trivial in Ht. apply andb_prop in Ht as [Hcont Hb].
  destruct (canonical_bound _ i c) as [bd|] eqn:Ebd; [|discriminate]. apply expr_eqb_eq in Hb.
  assert (Safe : safe i init (swrites body)) by (split; auto).
  assert (z = 1) as ->.
  { pose proof M6 as M7. unfold stride in M6. destruct u; try discriminate. destruct l as [|p1 [|q1 [|]]]; try discriminate.
    assert (exists k, affine i (EAdd [p1; q1]) = Some (EInt 1, EInt k)) as (k & Ek).
    { destruct p1; try discriminate; destruct q1; try discriminate; destruct (String.eqb_spec x i); try discriminate; subst x; cbn [affine fold_right];
      rewrite String.eqb_refl; cbn; eexists; reflexivity. }
    pose proof (stride_sound _ _ _ (fun _ => 0) M7) as E. pose proof (contiguous_literal _ _ _ _ _ _ _ Hcont Ek E). lia. }
  intros I a b o a' E R.
  assert (exists o1 a1 v, eval (env_of a) init = Some v /\ runs I body (wr a i [] v) o1 a1 /\ 
     ((o1 = ONorm /\ exists w, runs I r (wr a1 i [] w) o a') \/ (o1 <> ONorm /\ o = o1 /\ a' = a1))) as (o1 & a1 & v & Ev & Rb & Rest).
  { assert (forall o1 a1, run I (NLoop KMap i init c u body) a o1 a1 -> exists v o2 a2, eval (env_of a) init = Some v /\ runs I body (wr a i [] v) o2 a2 /\
       ((o2 = ONorm /\ o1 = ONorm /\ exists w, a1 = wr a2 i [] w) \/ (o2 <> ONorm /\ o1 = o2 /\ a1 = a2))) as L.
    { intros o1 a1 RL. inversion RL; subst.
      match goal with H : eval _ init = Some ?w, R : runl _ _ _ _ _ (wr _ _ _ ?w) _ _ |- _ => rename H into Ev, R into RR, w into v end.
      assert (forall st t, cev (env_of st) c = Some t -> eval (env_of st) init = Some v -> t = true <-> st i [] < v + 1) as CB.
      { intros st t Hc Hi. pose proof (canonical_bound_sound _ _ _ _ _ _ Ebd Hc) as Q. destruct (lit_lt _ _ _ _ Q) as [Nb Q2].
        apply eval_ev in Hi. pose proof (ssubn_int _ _ _ _ _ Hb Nb Hi) as Eb. rewrite Q2. unfold above. rewrite Eb. unfold env_of. tauto. }
      assert (eval (env_of (wr a i [] v)) init = Some v) as Ei.
      { rewrite <- Ev. rewrite eval_wr. unfold eval. rewrite uses_false_agree; auto.
        destruct (uses init i) eqn:U; auto. apply uses_atoms in U. contradiction. }
      assert (holds i init v (wr a i [] v)) as Hv by (split; [apply wr_same|auto]).
      inversion RR; subst.
      - match goal with H : cev _ c = Some false |- _ => destruct (CB _ _ H Ei) as [_ Q] end. rewrite wr_same in Q.
        assert (false = true) by (apply Q; lia). discriminate.
      - match goal with H : runs _ body _ ?ox ?sx, H' : ?ox = ONorm \/ _ , U : eval (env_of ?sx) u = _, L : runl _ _ _ _ _ (wr ?sx _ _ _) _ _ |- _ =>
          rename H into RB, H' into HO, U into HU, L into RL2, sx into st1; destruct (proj1 (proj2 (esc_out I)) _ _ _ _ RB M5) as [NB NC] end.
        destruct HO as [->|?]; [|contradiction].
        assert (holds i init v st1) as H1' by (eapply holds_runs; eauto). destruct H1' as [V1 V2].
        exists v, ONorm, st1. repeat split; auto. left. split; auto.
        pose proof (stride_sound _ _ _ (env_of st1) M6) as Es. rewrite Es in HU. injection HU as <-.
        unfold env_of at 1 in RL2. rewrite V1 in RL2.
        assert (forall t, cev (env_of (wr st1 i [] (v + 1))) c = Some t -> t = false) as NT.
        { intros t Hc. assert (eval (env_of (wr st1 i [] (v + 1))) init = Some v) as Ei2.
          { rewrite <- V2. rewrite eval_wr. unfold eval. rewrite uses_false_agree; auto.
            destruct (uses init i) eqn:U; auto. apply uses_atoms in U. contradiction. }
          destruct (CB _ _ Hc Ei2) as [Q _]. destruct t; auto. specialize (Q eq_refl). rewrite wr_same in Q. lia. }
        inversion RL2; subst; try (match goal with H : cev _ c = Some true |- _ => apply NT in H; discriminate end). split; eauto.
      - match goal with H : runs _ body _ OBrk _ |- _ => destruct (proj1 (proj2 (esc_out I)) _ _ _ _ H M5) as [NB NC] end. contradiction.
      - match goal with H : runs _ body _ (ORet ?x) _ |- _ => exists v, (ORet x), a1 end. repeat split; auto. right. repeat split; auto. discriminate. }
    inversion R; subst.
    - match goal with H : run _ (NLoop _ _ _ _ _ _) _ _ _ |- _ => destruct (L _ _ H) as (v & o2 & a2 & Ev & Rb & [(-> & _ & w & ->)|(N & Eo & ->)]) end; [|congruence].
      exists ONorm, a2, v. repeat split; auto. left. split; auto. exists w.
      match goal with H : exec_assigns _ [] = _ |- _ => cbn [exec_assigns] in H; injection H as <- end. auto.
    - match goal with H : run _ (NLoop _ _ _ _ _ _) _ _ _ |- _ => destruct (L _ _ H) as (v & o2 & a2 & Ev & Rb & [(-> & -> & _)|(N & -> & ->)]) end; [congruence|].
      exists o2, a2, v. repeat split; auto. }
  (* simulate the substituted body from a, then frame to b *)
  assert (holds i init v (wr a i [] v)) as Hv.
  { split; [apply wr_same|]. rewrite <- Ev, eval_wr. unfold eval. rewrite uses_false_agree; auto.
    destruct (uses init i) eqn:U; auto. apply uses_atoms in U. contradiction. }
  assert (eqs (one i) (wr a i [] v) a) as E1.
  { intros x j. unfold wr. destruct (String.eqb_spec i x) as [->|]; simpl; auto. destruct j; auto. left. split; auto. reflexivity. }
  destruct (proj1 (proj2 (repl_sim I i init v M3)) _ _ _ _ Rb a Safe M4 Hv E1) as (q & Rq & Eq).
  assert (sok D (repl_seq i init body)) as Okr by (apply (repl_ok i init); auto).
  destruct (proj1 (proj2 (ok_frame I)) _ _ _ _ Rq D b Okr E) as (q2 & Rq2 & Eq2).
  assert (eqs D a1 q2) as E3.
  { eapply eqs_trans; [|exact Eq2]. eapply eqs_sub; [|exact Eq]. intros x ->. auto. }
  destruct Rest as [(-> & w & Rr)|(N & -> & ->)].
  - assert (eqs D (wr a1 i [] w) q2) as E4.
    { intros x j. unfold wr. destruct (String.eqb_spec i x) as [<-|]; simpl; [|apply E3]. destruct j; auto; apply E3. }
    destruct (proj1 (proj2 (ok_frame I)) _ _ _ _ Rr D q2 Hr E4) as (q3 & Rq3 & Eq3).
    exists q3; split; auto. apply runs_app. left. eauto.
  - exists q2; split; auto. apply runs_app. right; auto.
Qed.

Lemma empty_loop_ref D k i init c u s r :
  nok D (NLoop k i init c u s) -> is_nil s && p = true -> sok D r -> srefD D (SCons (NLoop k i init c u s) [] r) r.
Proof.
  intros Hok Hd Hr. apply andb_prop in Hd as [Hs Hp].
  assert (D i) as Di by (destruct Hok as (_ & _ & _ & _ & K & _); auto).
  destruct s; [|discriminate].
  assert (L : forall I a o a', runl I i c u SNil a o a' -> o = ONorm /\ eqs D a' a).
  { intros I. enough ((forall n a o a', run I n a o a' -> True) /\ (forall n a o a', runs I n a o a' -> True) /\ (forall n a o a', runb I n a o a' -> True) /\
      (forall n a o a', runw I n a o a' -> True) /\
      (forall i0 c0 u0 n a o a', runl I i0 c0 u0 n a o a' -> i0 = i -> n = SNil -> o = ONorm /\ eqs D a' a)) as G
      by (intros; eapply G; eauto).
    apply run_mind; intros; auto; subst.
    - split; auto using eqs_refl.
    - match goal with H : runs _ SNil _ _ _ |- _ => inversion H; subst end.
      match goal with H : _ -> _ -> o = ONorm /\ _ |- _ => destruct H as [-> E]; auto end. split; auto.
      eapply eqs_trans; [exact E|]. intros x j. unfold wr. destruct (String.eqb_spec i x) as [<-|]; simpl; auto. destruct j; auto.
    - match goal with H : runs _ SNil _ _ _ |- _ => inversion H; subst end.
    - match goal with H : runs _ SNil _ _ _ |- _ => inversion H; subst end. }
  intros I a b o a' E R.
  assert (forall o1 a1, run I (NLoop k i init c u SNil) a o1 a1 -> o1 = ONorm /\ eqs D a1 a) as N.
  { intros o1 a1 RL. inversion RL; subst. match goal with H : runl _ _ _ _ _ _ _ _ |- _ => destruct (L _ _ _ _ H) as [-> Q] end. split; auto.
    eapply eqs_trans; [exact Q|]. intros x j. unfold wr. destruct (String.eqb_spec i x) as [<-|]; simpl; auto. destruct j; auto. }
  inversion R; subst.
  - match goal with H : run _ (NLoop _ _ _ _ _ _) _ _ _ |- _ => destruct (N _ _ H) as [_ Q] end.
    match goal with H : exec_assigns _ [] = _ |- _ => cbn [exec_assigns] in H; injection H as <- end.
    match goal with H : runs _ r _ _ _ |- _ => apply (proj1 (proj2 (ok_frame I)) _ _ _ _ H D b); auto end. eapply eqs_trans; eauto.
  - match goal with H : run _ (NLoop _ _ _ _ _ _) _ _ _ |- _ => destruct (N _ _ H) as [-> _] end. congruence.
Qed.

Lemma dce_maps_sound fuel :
  (forall s D, sok D s -> srefD D s (dce_seq fuel p im s)) /\
  (forall n D, nok D n -> nrefD D n (dce_node fuel p im n)) /\
  (forall b D, bok D b -> brefD D b (dce_brs fuel p im b)).
Proof.
  induction fuel as [|fuel (IS & IN & IB)].
  { repeat split; intros; simpl; [apply sref_srefD|apply nref_nrefD|apply bref_brefD]; auto using sref_refl, nref_refl, bref_refl. }
  repeat split.
  - intros [|n a r] D Hok; [apply sref_srefD; auto using sref_refl|]. pose proof Hok as (Hn & Ha & Hr).
    assert (sok D (SCons n (drop_self a) r)) as Hok2 by (repeat split; auto using avoids_drop_self).
    assert (srefD D (SCons n a r) (SCons n (drop_self a) r)) as Step by (apply sref_srefD; auto; apply drop_self_ref).
    assert (srefD D (SCons n a r) (SCons (dce_node fuel p im n) (drop_self a) (dce_seq fuel p im r))) as Keep.
    { eapply srefD_trans; [exact Step|apply consD; auto using avoids_drop_self]. }
    assert (drop_self a = [] -> is_dead p n = true -> srefD D (SCons n a r) (dce_seq fuel p im r)) as Dead.
    { intros E Dd. eapply srefD_trans; [exact Step|]. rewrite E in *. eapply srefD_trans; [|apply IS; eauto].
      destruct (is_dead false n) eqn:Dn.
      - apply sref_srefD; auto. apply skip_ref. intros; eapply dead_skip; eauto.
      - destruct n; simpl in Dd, Dn; try congruence. apply empty_loop_ref; auto. }
    cbn [dce_seq]. destruct n; try (apply sref_srefD; auto; apply ret_ref); destruct (drop_self a) as [|x a'] eqn:E; try exact Keep;
      destruct (is_dead p _) eqn:Dd; auto.
    + destruct bs as [|c s0 bs]; auto. destruct (is_true c) eqn:T; auto.
      eapply srefD_trans; [exact Step|]. eapply srefD_trans; [apply sref_srefD; auto; apply if_true_ref; auto|]. apply IS.
      apply sok_sapp; auto. apply Hn.
    + destruct k; auto. destruct (im && is_trivial i init c u) eqn:Q; auto. apply andb_prop in Q as [Em Tr].
      eapply srefD_trans; [exact Step|]. eapply srefD_trans; [apply inline_ref; auto|]. apply IS. apply sok_sapp; auto.
      destruct Hn as (A1 & A2 & A3 & A4 & _ & K). destruct (K Em) as (Di & (M1 & M2 & M3 & M4 & M5 & M6)). apply repl_ok; auto. split; auto.
  - intros n D Hok. destruct n; cbn [dce_node]; try (apply nref_nrefD; auto using nref_refl; fail).
    + apply seqD; auto.
    + apply ifD. eapply brefD_trans; [apply bref_brefD; auto; apply simp_brs_ref|]. apply IB. apply bok_simp; auto.
    + apply whileD; auto.
    + destruct Hok as (A1 & A2 & A3 & A4 & _ & _). apply loopD; auto.
  - intros b D Hok. destruct b; cbn [dce_brs]; [apply bref_brefD; auto using bref_refl|]. destruct Hok as (A1 & A2 & A3). apply brsD; auto.
Qed.
End Perm.
