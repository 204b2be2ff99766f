(** C49, C50 with post-dominance computed on the users graph. *)
From Verif Require Import Reach ReachProofs ReachProps UserGraph DeadData DeadProps LoopProps PassCFGProps.
From Coq Require Import Bool.
Open Scope string_scope.
Open Scope list_scope.
Open Scope Z_scope.

(** [pd_graph p pd]: [pd u v] only if in the users graph of [p] every path from [v] to a
    sink passes [u].  [testS p]: every loop condition mentions a container. *)
Theorem C49_users_graph_partial : forall I x sc pd dom cov last p st o st' T w r,
  pd_graph p pd -> testS p = true -> regular x sc p = true ->
  runsU I [] 0 p st o st' T -> carries sc x T w r -> reported x sc pd dom cov last p w r.
Proof.
  intros I x sc pd dom cov last p st o st' T w r G TE OK R C.
  exact (C49_reaching_definitions_partial I x sc pd dom cov last p st o st' T w r (graph_pdom I p pd G TE) OK R C).
Qed.
Theorem C50_users_graph_partial : forall I cfg pd dom cov last p st o st',
  pd_graph p pd -> testS p = true ->
  (forall x sc, cfg x = Some sc -> regular x sc p = true) ->
  (forall x, cfg x = Some true -> sscalar x p = true) ->
  runs I p st o st' ->
  exists st2, runs I (dead_data cfg pd dom cov last p) st o st2 /\
    (forall x j, cfg x = None -> st2 x j = st' x j) /\
    (forall r j, o = ORet r -> st2 r j = st' r j).
Proof. intros I cfg pd dom cov last p st o st' G TE. apply C50_dead_data_partial. apply graph_pdom; assumption. Qed.

(* ---------------------------------------------------------------- *)
(** Without returns every path reaches the exit. *)
Fixpoint noretN (n : node) : bool :=
  match n with NReturn _ => false | NSeq s | NWhile s | NLoop _ _ _ _ _ s => noretS s | NIf bs => noretB bs | _ => true end
with noretS (s : seq) : bool := match s with SNil => true | SCons n _ r => noretN n && noretS r end
with noretB (b : brs) : bool := match b with BNil => true | BCons _ s r => noretS s && noretB r end.
Lemma noretB_branch b : noretB b = true -> forall j s, branch b j = Some s -> noretS s = true.
Proof.
  induction b as [|c t b IH]; intros H [|j] s E; simpl in E; try discriminate; simpl in H; apply andb_true_iff in H as [H1 H2].
  - injection E as <-. exact H1.
  - eapply IH; eassumption.
Qed.
Lemma noret :
  (forall p n e T, wlkN p n e T -> noretN n = true -> e = true) /\
  (forall q k s e T, wlkS q k s e T -> noretS s = true -> e = true) /\
  (forall p s e T, wlkW p s e T -> noretS s = true -> e = true) /\
  (forall p i c u s e T, wlkT p i c u s e T -> noretS s = true -> e = true) /\
  (forall p i c u s e T, wlkL p i c u s e T -> noretS s = true -> e = true).
Proof.
  apply wlk_mind; try (intros; auto; fail).
  - intros p bs j s e T Hj _ IH N. apply IH. eapply noretB_branch; eassumption.
  - intros q k n a r e T1 T2 _ _ _ IH N. apply IH. simpl in N. apply andb_true_iff in N. tauto.
  - intros q k n a r T _ IH N. apply IH. simpl in N. apply andb_true_iff in N. tauto.
Qed.
Lemma suffix_in {A} (P Z X Y : list A) v u : P ++ Z = X ++ v :: Y -> ~ In v Z -> In u Z -> In u Y.
Proof.
  intros E N H. apply split_app in E as [(Q1 & _ & ->)|(P2 & _ & E)]; [apply in_or_app; auto|]. elim N. rewrite E. apply in_or_app. right. left. reflexivity.
Qed.
(** [a = 5] is post-dominated by the read of [c = a] at the end. *)
Definition c49_gpd (u v : user) : bool := is_u u (U [Kid 2] (UOp 0) false "a") && is_u v (U [Kid 0] (UOp 0) true "a").
Theorem C49_users_graph_hypotheses : pd_graph c49_p c49_gpd /\ testS c49_p = true /\ regular "a" true c49_p = true /\
  c49_gpd (U [Kid 2] (UOp 0) false "a") (U [Kid 0] (UOp 0) true "a") = true.
Proof.
  split; [|repeat split; reflexivity]. intros u v H. apply andb_true_iff in H as [H1 H2]. apply is_u_eq in H1 as ->. apply is_u_eq in H2 as ->.
  assert (ALL: forall T, walk c49_p T -> exists P Z, T = P ++ Z /\ ~ In (U [Kid 0] (UOp 0) true "a") Z /\ In (U [Kid 2] (UOp 0) false "a") Z).
  { intros T (e & H). pose proof (proj1 (proj2 noret) _ _ _ _ _ H eq_refl) as ->.
    inversion H as [|? ? ? ? ? ? T0 R0 N0 H0| |]; subst. inversion H0 as [|? ? ? ? ? ? T1 R1 N1 H1| |]; subst. inversion H1 as [|? ? ? ? ? ? T2 R2 N2 H2| |]; subst.
    inversion H2; subst. inversion N2; subst.
    eexists (T0 ++ asgW [Kid 0] [] ++ T1 ++ asgW [Kid 1] []), _. split; [rewrite <- !app_assoc; reflexivity|]. split; [|left; reflexivity].
    simpl. intros [Q|[Q|[]]]; discriminate. }
  split.
  - destruct (proj1 (proj2 (avoid [Body] (ex_intro _ [] eq_refl))) c49_p [] 0%nat eq_refl) as (T & HT & _).
    { intros Q. apply within_len in Q. simpl in Q. lia. }
    inversion HT as [|? ? ? ? ? ? T0 R0 N0 H0| |]; subst. inversion N0; subst. exists [], (asgW [Kid 0] [] ++ R0). exists true. exact HT.
  - intros A B HW. destruct (ALL _ HW) as (P & Z & E & N & I1). eapply suffix_in; [symmetry; exact E|exact N|exact I1].
Qed.

(* ---------------------------------------------------------------- *)
(** * A loop condition without containers *)
(** a = 1; for (i = 0; false; i = i + 1) { a = 2 }; b = a: the users graph has no edge
    around the body, [a = 2] "post-dominates" [a = 1] and hides it. *)
Definition c49_false : seq := nodes [set_blk "a" 1; NLoop KFor "i" (EInt 0) (CBool false) (EAdd [ESym "i"; EInt 1]) (nodes [set_blk "a" 2]); copy_blk "b" "a"].
Definition c49_fpd (u v : user) : bool := is_u u (U [Kid 0; Body; Kid 1] (UOp 0) true "a") && is_u v (U [Kid 0] (UOp 0) true "a").
Lemma c49_fpd_graph : pd_graph c49_false c49_fpd.
Proof.
  intros u v H. apply andb_true_iff in H as [H1 H2]. apply is_u_eq in H1 as ->. apply is_u_eq in H2 as ->.
  assert (BODY: forall e T, wlkN [Kid 1] (NLoop KFor "i" (EInt 0) (CBool false) (EAdd [ESym "i"; EInt 1]) (nodes [set_blk "a" 2])) e T -> In (U [Kid 0; Body; Kid 1] (UOp 0) true "a") T).
  { intros e T H. inversion H as [| | | | |? ? ? ? ? ? ? l1 l2 ? ? EC NE| ? ? ? ? ? ? ? ? X HL| | |]; subst.
    - simpl in EC. destruct l1; [congruence|discriminate].
    - apply in_or_app. right. right. simpl. inversion HL as [? ? ? ? ? ? ? NC HT|? ? ? ? ? ? Y1 Y2 HS|? ? ? ? ? ? HS]; subst.
      + elim NC. reflexivity.
      + apply in_or_app. left. inversion HS as [|? ? ? ? ? ? Z1 Z2 HN| |]; subst. inversion HN; subst. left. reflexivity.
      + inversion HS as [|? ? ? ? ? ? Z1 Z2 HN HX|? ? ? ? ? ? HN|]; subst; [inversion HX|inversion HN]. }
  assert (ALL: forall T, walk c49_false T -> exists P Z, T = P ++ Z /\ ~ In (U [Kid 0] (UOp 0) true "a") Z /\ In (U [Kid 0; Body; Kid 1] (UOp 0) true "a") Z).
  { intros T (e & H). pose proof (proj1 (proj2 noret) _ _ _ _ _ H eq_refl) as ->.
    inversion H as [|? ? ? ? ? ? T0 R0 N0 H0| |]; subst. inversion H0 as [|? ? ? ? ? ? T1 R1 N1 H1| |]; subst. inversion H1 as [|? ? ? ? ? ? T2 R2 N2 H2| |]; subst.
    inversion H2; subst. inversion N2; subst. exists (T0 ++ asgW [Kid 0] []), (T1 ++ asgW [Kid 1] [] ++ blkU [Kid 2] 0 [{| o_code := 0; o_ins := [ORead "a" []]; o_out := "b"; o_sub := [] |}] ++ asgW [Kid 2] [] ++ []).
    split; [rewrite <- !app_assoc; reflexivity|]. split.
    - intros Q. apply in_app_or in Q as [Q|Q].
      + apply (proj1 walk_at _ _ _ _ N1) in Q. simpl in Q. destruct Q as (l & Q). destruct l as [|y l]; [discriminate|]. destruct l; discriminate.
      + simpl in Q. destruct Q as [Q|[Q|[]]]; discriminate.
    - apply in_or_app. left. eapply BODY. exact N1. }
  split.
  - assert (W: exists T, wlkS [] 0 c49_false true T).
    { eexists. eapply W_cons; [apply W_block|]. eapply W_cons; [|eapply W_cons; [apply W_block|apply W_nil]].
      eapply W_loop. eapply W_body; [|apply W_leave]. eapply W_cons; [apply W_block|apply W_nil]. }
    destruct W as (T & HT). inversion HT as [|? ? ? ? ? ? T0 R0 N0 H0| |]; subst. inversion N0; subst. exists [], (asgW [Kid 0] [] ++ R0). exists true. exact HT.
  - intros A B HW. destruct (ALL _ HW) as (P & Z & E & N & I1). eapply suffix_in; [symmetry; exact E|exact N|exact I1].
Qed.
Theorem C49_constant_condition_refuted : regular "a" true c49_false = true /\ pd_graph c49_false c49_fpd /\
  (exists st o st' T, runsU I0 [] 0 c49_false st o st' T /\ carries true "a" T (U [Kid 0] (UOp 0) true "a") (U [Kid 2] (UOp 0) false "a")) /\
  forall dom cov last, ~ reported "a" true c49_fpd dom cov last c49_false (U [Kid 0] (UOp 0) true "a") (U [Kid 2] (UOp 0) false "a").
Proof.
  split; [reflexivity|]. split; [apply c49_fpd_graph|]. split; [exists st0, ONorm; eexists; eexists; split; [go|flows]|].
  intros dom cov last (d & Hd & E1 & E2). vm_compute in Hd. repeat (destruct Hd as [<-|Hd]; [simpl in E1, E2; try discriminate E1; repeat (destruct E2 as [E2|E2]; [discriminate E2|]); destruct E2|]). destruct Hd.
Qed.
Theorem C50_constant_condition_refuted : forall dom cov last, miscompiled c49_false (dead_data (one_cand "a" true) c49_fpd dom cov last c49_false) "b".
Proof. intros dom cov last. apply (differ_miscompiled 40 _ _ st0). vm_compute. reflexivity. Qed.
