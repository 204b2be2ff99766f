(** Soundness of WhileToForConversion for top-level updates and loops entered
    with a true condition. *)
From Verif Require Import Sym SymFacts SymFuns SymProofs1 IR IRFacts IRRefine PassCFG PassInline PassCFGProofs2 LoopTile LoopIter Subst While2For.

(** the update is one of the body's own transitions *)
Fixpoint top_update (i : string) (s : seq) : bool :=
  match s with SNil => false | SCons _ a r => match lookup_asg i a with Some _ => true | None => top_update i r end end.
(** the other assignments of that transition *)
Fixpoint beside (i : string) (s : seq) : assigns :=
  match s with SNil => [] | SCons _ a r => match lookup_asg i a with Some _ => filter (fun xe => negb (String.eqb (fst xe) i)) a | None => beside i r end end.

Lemma split_last_app s : forall p n a, split_last s = Some (p, n, a) -> s = sapp p (SCons n a SNil).
Proof.
  induction s as [|n a r IH]; intros p m b H; [discriminate|]. destruct r as [|n' a' r'].
  - injection H as <- <- <-. reflexivity.
  - change (split_last (SCons n a (SCons n' a' r'))) with (match split_last (SCons n' a' r') with Some (r', m, b) => Some (SCons n a r', m, b) | None => None end) in H.
    destruct (split_last (SCons n' a' r')) as [[[q m'] b']|]; [|discriminate]. injection H as <- <- <-. simpl. rewrite <- (IH _ _ _ eq_refl). reflexivity.
Qed.
Lemma swrites_sapp s t : swrites (sapp s t) = swrites s ++ swrites t.
Proof. induction s; simpl; auto. rewrite IHs, !app_assoc. reflexivity. Qed.
Lemma snames_sapp s t : snames (sapp s t) = snames s ++ snames t.
Proof. induction s; simpl; auto. rewrite IHs, !app_assoc. reflexivity. Qed.
Lemma sscalar_sapp i s t : sscalar i (sapp s t) = sscalar i s && sscalar i t.
Proof. induction s; simpl; auto. rewrite IHs, andb_assoc. reflexivity. Qed.
Lemma sret_sapp s t : sret (sapp s t) = sret s || sret t.
Proof. induction s; simpl; auto. rewrite IHs, orb_assoc. reflexivity. Qed.
Lemma runw_normal I s a o a' : runw I s a o a' -> o = ONorm \/ exists r, o = ORet r.
Proof. induction 1; eauto. Qed.
Lemma runl_normal I i c u s a o a' : runl I i c u s a o a' -> o = ONorm \/ exists r, o = ORet r.
Proof. induction 1; eauto. Qed.
Lemma no_jump I :
  (forall n st o st', run I n st o st' -> jumps_n n = false -> nret n = false -> o = ONorm) /\
  (forall s st o st', runs I s st o st' -> jumps_s s = false -> sret s = false -> o = ONorm) /\
  (forall b st o st', runb I b st o st' -> jumps_b b = false -> bret b = false -> o = ONorm) /\
  (forall s st o st', runw I s st o st' -> True) /\
  (forall i c u s st o st', runl I i c u s st o st' -> True).
Proof.
  apply run_mind; cbn [jumps_n jumps_s jumps_b nret sret bret]; intros; try discriminate; auto;
    repeat match goal with H : _ || _ = false |- _ => apply orb_false_iff in H as [? ?] end; eauto.
  - destruct (runw_normal _ _ _ _ _ H) as [|(r & ->)]; auto. exfalso. eapply (proj1 (proj2 (proj2 (proj2 (ret_out I))))); eauto.
  - destruct (runl_normal _ _ _ _ _ _ _ _ H0) as [|(r & ->)]; auto. exfalso. eapply (proj2 (proj2 (proj2 (proj2 (ret_out I))))); eauto.
Qed.
Lemma rename_in i z x y : rename i (ESym z) x = y -> y = z \/ (y = x /\ y <> i).
Proof. unfold rename. destruct (String.eqb_spec i x); auto. intros <-. right. split; auto. Qed.
Lemma writes_repl i z :
  (forall n x, In x (nwrites (repl_node i (ESym z) n)) -> x = z \/ In x (nwrites n) /\ x <> i) /\
  (forall n x, In x (swrites (repl_seq i (ESym z) n)) -> x = z \/ In x (swrites n) /\ x <> i) /\
  (forall n x, In x (bwrites (repl_brs i (ESym z) n)) -> x = z \/ In x (bwrites n) /\ x <> i).
Proof.
  apply ir_mind; cbn [nwrites swrites bwrites repl_node repl_seq repl_brs]; intros; auto.
  - rewrite map_map in H. cbn [o_out repl_op] in H. apply in_map_iff in H as (o & E & Ho). apply rename_in in E as [|[-> E]]; auto.
    right. split; auto. apply in_map_iff; eauto.
  - destruct H0 as [E|H0]; [apply rename_in in E as [|[-> E]]; auto; right; simpl; auto|]. apply H in H0 as [|[]]; auto. right. simpl. auto.
  - apply in_app_iff in H1 as [H1|H1]; [apply H in H1 as [|[]]; auto; rewrite in_app_iff; auto|].
    apply in_app_iff in H1 as [H1|H1]; [|apply H0 in H1 as [|[]]; auto; rewrite !in_app_iff; auto].
    unfold repl_asg in H1. rewrite map_map in H1. apply in_map_iff in H1 as ([y d] & E & Hy). cbn [fst snd] in E.
    apply rename_in in E as [|[-> E]]; auto. right. split; auto. rewrite !in_app_iff. right. left. apply in_map_iff. exists (y, d); auto.
  - apply in_app_iff in H1 as [H1|H1]; [apply H in H1 as [|[]]; auto; rewrite in_app_iff; auto|apply H0 in H1 as [|[]]; auto; rewrite in_app_iff; auto].
Qed.
Lemma lookup_in i a u : lookup_asg i a = Some u -> In i (map fst a) /\ forall x, In x (atoms u) -> In x (asg_reads a).
Proof.
  induction a as [|[x e] a IH]; cbn [lookup_asg]; [discriminate|]. change (asg_reads ((x, e) :: a)) with (atoms e ++ asg_reads a). simpl.
  destruct (String.eqb_spec x i) as [->|N]; intros H; [injection H as <-|]; (split; [|intros y; rewrite in_app_iff]); auto.
  - right. apply IH. auto.
  - intros Hy. right. apply IH; auto.
Qed.
Lemma upd_writes i ps :
  (forall n u n' l, upd_node i ps n = Some (u, n', l) -> In i (nwrites n)) /\
  (forall n u n' l, upd_seq i ps n = Some (u, n', l) -> In i (swrites n)) /\
  (forall n u n' l, upd_brs i ps n = Some (u, n', l) -> In i (bwrites n)).
Proof.
  apply ir_mind; cbn [nwrites swrites bwrites upd_node upd_seq upd_brs]; intros; try discriminate.
  - destruct (upd_seq i ps s) as [[[w s'] l']|]; [|discriminate]. eauto.
  - destruct (upd_brs i ps bs) as [[[w s'] l']|]; [|discriminate]. eauto.
  - rewrite !in_app_iff. destruct (lookup_asg i a) eqn:E; [right; left; eapply lookup_in; eauto|].
    destruct (upd_node i ps n) as [[[w s'] l']|]; [left; eauto|]. destruct (upd_seq i ps r) as [[[w s'] l']|]; [right; right; eauto|discriminate].
  - rewrite in_app_iff. destruct (upd_seq i ps s) as [[[w s'] l']|]; [left; eauto|]. destruct (upd_brs i ps r) as [[[w s'] l']|]; [right; eauto|discriminate].
Qed.

Lemma asg_writes_eq x e a : asg_names ((x, e) :: a) = (x :: atoms e) ++ asg_names a. Proof. reflexivity. Qed.
Lemma names_reads_asg x a : In x (asg_reads a) -> In x (asg_names a).
Proof.
  induction a as [|[y e] a IH]; auto. change (asg_reads ((y, e) :: a)) with (atoms e ++ asg_reads a). rewrite asg_writes_eq, !in_app_iff. simpl. tauto.
Qed.
Lemma names_reads :
  (forall n x, In x (nreads n) -> In x (nnames n)) /\ (forall n x, In x (sreads n) -> In x (snames n)) /\ (forall n x, In x (breads n) -> In x (bnames n)).
Proof.
  apply ir_mind; cbn [nnames snames bnames nreads sreads breads]; intros; auto.
  - unfold block_reads in H. unfold block_names. apply in_concat in H as (l & Hl & Hx). apply in_map_iff in Hl as (o & <- & Ho).
    apply in_concat. exists (op_names o). split; [apply in_map; auto|]. unfold op_names. right. exact Hx.
  - simpl. rewrite !in_app_iff in *. intuition.
  - rewrite !in_app_iff in *. intuition auto using names_reads_asg.
  - rewrite !in_app_iff in *. intuition.
Qed.
Lemma writes_names :
  (forall n x, In x (nwrites n) -> In x (nnames n)) /\ (forall n x, In x (swrites n) -> In x (snames n)) /\ (forall n x, In x (bwrites n) -> In x (bnames n)).
Proof.
  apply ir_mind; cbn [nnames snames bnames nwrites swrites bwrites]; intros; auto.
  - unfold block_names. apply in_map_iff in H as (o & <- & Ho). apply in_concat. exists (op_names o). split; [apply in_map; auto|]. left. auto.
  - simpl in *. rewrite !in_app_iff in *. intuition.
  - destruct H.
  - rewrite !in_app_iff in H1. rewrite !in_app_iff. destruct H1 as [|[H1|]]; auto. right. left. apply in_map_iff in H1 as ([y e] & <- & Hy).
    unfold asg_names. apply in_concat. exists (y :: atoms e). split; [apply in_map_iff; exists (y, e); auto|]. left. auto.
  - rewrite !in_app_iff in H1. rewrite !in_app_iff. intuition.
Qed.

Section Sim.
  Variables (I : nat -> list Z -> option Z) (i ps : string).
  Hypothesis Nip : i <> ps.
  (** the original's store and the converted program's *)
  Definition before (a b : store) : Prop := eqx (IRFacts.one ps) a b.
  Definition after (u : expr) (a b : store) : Prop :=
    (forall x j, x <> i -> x <> ps -> b x j = a x j) /\ (forall j, j <> [] -> b i j = a i j) /\
    b ps [] = a i [] /\ eval (env_of b) u = Some (a i []).

  Lemma after_wr u a b x v : after u a b -> x <> i -> x <> ps -> ~ In x (atoms u) -> after u (wr a x [] v) (wr b x [] v).
  Proof.
    intros (A & B & C & D) N1 N2 N3. split; [|split; [|split]].
    - intros y j H1 H2. unfold wr. destruct (_ && _); auto.
    - intros j Hj. rewrite !wr_other by auto. auto.
    - rewrite !wr_other by auto. auto.
    - rewrite wr_other by auto. rewrite <- D. unfold eval. rewrite (ev_agree _ (env_of b)); auto. intros y Hy. unfold env_of. apply wr_other. left. congruence.
  Qed.
  Lemma after_asg u l : forall a b a', after u a b -> ~ In i (asg_names l) -> ~ In ps (asg_names l) -> (forall x, In x (map fst l) -> ~ In x (atoms u)) ->
    exec_assigns a l = Some a' -> exists b', exec_assigns b l = Some b' /\ after u a' b'.
  Proof.
    induction l as [|[x e] l IH]; cbn [exec_assigns]; intros a b a' S N1 N2 W R.
    - injection R as <-. eauto.
    - rewrite asg_writes_eq in N1, N2. simpl in N1, N2. rewrite in_app_iff in N1, N2.
      assert (eval (env_of b) e = eval (env_of a) e) as Ee.
      { unfold eval. rewrite (ev_agree _ (env_of a)); auto. intros y Hy. unfold env_of. apply (proj1 S); intros ->; tauto. }
      rewrite Ee. destruct (eval (env_of a) e); [|discriminate].
      eapply IH; [| | | |exact R]; try tauto.
      + apply after_wr; auto. apply W. simpl. auto.
      + intros y Hy. apply W. simpl. auto.
  Qed.
  Lemma beside_out (l : assigns) x e : In (x, e) l -> x <> i -> In (x, e) (filter (fun xe => negb (String.eqb (fst xe) i)) l).
  Proof. intros H N. apply filter_In. split; auto. simpl. destruct (String.eqb_spec x i); auto. Qed.
  Lemma asg_names_split x l : In x (asg_names l) -> In x (map fst l) \/ In x (asg_reads l).
  Proof.
    induction l as [|[y e] l IH]; auto. rewrite asg_writes_eq. change (asg_reads ((y, e) :: l)) with (atoms e ++ asg_reads l). simpl. rewrite !in_app_iff. tauto.
  Qed.
  Lemma asg_reads_in x l : In x (asg_reads l) <-> exists y e, In (y, e) l /\ In x (atoms e).
  Proof.
    unfold asg_reads. rewrite in_concat. split.
    - intros (m & Hm & Hx). apply in_map_iff in Hm as ([y e] & <- & Hy). eauto.
    - intros (y & e & Hy & Hx). exists (atoms e). split; auto. apply in_map_iff. exists (y, e). auto.
  Qed.
  Lemma update_asg l u : forall a b a', before a b -> lookup_asg i l = Some u ->
    ~ In ps (asg_names l) -> (count_occ string_dec (map fst l) i <= 1)%nat ->
    ~ In i (asg_reads (filter (fun xe => negb (String.eqb (fst xe) i)) l)) ->
    (forall x, In x (asg_after i l) -> ~ In x (atoms u)) ->
    exec_assigns a l = Some a' -> exists b', exec_assigns b (retarget i ps l) = Some b' /\ after u a' b'.
  Proof.
    induction l as [|[x e] l IH]; cbn [exec_assigns lookup_asg retarget asg_after map fst filter]; intros a b a' S L N2 K N1 W R; [discriminate|].
    rewrite asg_writes_eq in N2. simpl in N2. rewrite in_app_iff in N2.
    assert (eval (env_of b) e = eval (env_of a) e) as Ee.
    { unfold eval. rewrite (ev_agree _ (env_of a)); auto. intros y Hy. unfold env_of. symmetry. apply S. unfold IRFacts.one. intros ->. tauto. }
    destruct (String.eqb_spec x i) as [->|Nx].
    - injection L as <-. cbn [negb] in N1. rewrite count_occ_cons_eq in K by auto.
      cbn [exec_assigns]. rewrite Ee. destruct (eval (env_of a) e) as [v|] eqn:Ev; [|discriminate].
      assert (~ In i (map fst l)) as Ni by (intros Hi; apply (count_occ_In string_dec) in Hi; lia).
      assert (after e (wr a i [] v) (wr b ps [] v)) as S'.
      { split; [|split; [|split]].
        - intros y j H1 H2. rewrite !wr_other by (left; congruence). symmetry. apply S. exact H2.
        - intros j Hj. rewrite !wr_other by auto. symmetry. apply S. exact Nip.
        - rewrite !wr_same. reflexivity.
        - rewrite wr_same. rewrite <- Ee. unfold eval. rewrite (ev_agree _ (env_of b)); auto. intros y Hy. unfold env_of. apply wr_other. left. intros <-. tauto. }
      eapply after_asg; [exact S'| | | |exact R].
      + intros H. apply asg_names_split in H as [H|H]; auto. apply asg_reads_in in H as (y & d & Hy & Hd). apply N1. apply asg_reads_in. exists y, d. split; auto.
        apply beside_out; auto. intros ->. apply Ni. apply in_map_iff. exists (i, d); auto.
      + tauto.
      + exact W.
    - rewrite count_occ_cons_neq in K by auto. cbn [exec_assigns]. rewrite Ee. destruct (eval (env_of a) e) as [v|]; [|discriminate].
      cbn [negb] in N1. change (asg_reads ((x, e) :: filter (fun xe => negb (String.eqb (fst xe) i)) l)) with (atoms e ++ asg_reads (filter (fun xe => negb (String.eqb (fst xe) i)) l)) in N1. rewrite in_app_iff in N1. eapply IH; [| | | | | |exact R]; auto; try tauto.
      apply eqx_wr. exact S.
  Qed.

  Lemma pre_sim s : forall u s' l a b a', upd_seq i ps s = Some (u, s', l) -> top_update i s = true ->
    (nwritten i s <= 1)%nat -> ~ In ps (snames s) -> sscalar i s = true -> ~ In i (asg_reads (beside i s)) ->
    (forall x, In x l -> ~ In x (atoms u)) -> before a b ->
    runs I s a ONorm a' -> exists b', runs I s' b ONorm b' /\ after u a' b'.
  Proof.
    induction s as [|n l0 r IH]; intros u s' l a b a' U T K F C N W S R; [discriminate|].
    cbn [upd_seq top_update beside snames sscalar] in *. rewrite !in_app_iff in F. apply andb_true_iff in C as [C1 C2].
    inversion R; subst; [|congruence].
    match goal with Hn : run I n a ONorm ?m |- _ => destruct (run_frame I n a ONorm m (IRFacts.one ps) b Hn) as (q & Rq & Eq); auto;
      [intros x Hx; unfold IRFacts.one; intros ->; apply F; left; apply names_reads; exact Hx|] end.
    unfold nwritten in K. cbn [swrites] in K. rewrite !count_occ_app in K.
    destruct (lookup_asg i l0) as [w|] eqn:L.
    - injection U as -> <- <-.
      assert (exists q2, exec_assigns q (retarget i ps l0) = Some q2 /\ after u st2 q2) as (q2 & Ra & Sa).
      { eapply update_asg; [exact Eq|exact L| | |exact N| |eassumption]; [tauto|lia|].
        intros x Hx. apply W. rewrite in_app_iff. auto. }
      assert (~ In i (swrites r)) as Nr.
        { intros Hi. apply (count_occ_In string_dec) in Hi. apply lookup_in in L as [L _]. apply (count_occ_In string_dec) in L. lia. }
        assert (Hr : runs I r st2 ONorm a') by assumption.
        destruct (proj1 (proj2 (rename_sim I i ps)) r st2 ONorm a' Hr q2) as (b' & Rb & Sb).
        { unfold free. tauto. }
        { exact C2. }
        { destruct Sa as (A1 & A2 & A3 & A4). split; auto. }
        assert (forall x j, ~ In x (swrites r) -> a' x j = st2 x j) as Fa by (intros; eapply runs_writes; eauto).
        assert (forall x j, x <> ps -> x = i \/ ~ In x (swrites r) -> b' x j = q2 x j) as Fb.
        { intros x j Nx Q. eapply runs_writes; [exact Rb|]. intros Hx. apply writes_repl in Hx as [|[]]; tauto. }
        exists b'. split; [eapply R_cons; eauto|]. destruct Sa as (A1 & A2 & A3 & A4). destruct Sb as (B1 & B2).
        split; [|split; [|split]]; auto.
        * intros j Hj. rewrite Fb, Fa; auto.
        * rewrite Fa by auto. rewrite <- A4. unfold eval. rewrite (ev_agree _ (env_of q2)); auto.
          intros y Hy. unfold env_of. apply Fb.
          -- intros ->. apply F. right. left. apply names_reads_asg. eapply lookup_in; eauto.
          -- right. intros Hw. eapply W; [|exact Hy]. rewrite in_app_iff. auto.
    - assert (In i (swrites r)) as Hr.
      { clear - T. induction r as [|n' a' r IH]; [discriminate|]. cbn [top_update swrites] in *. rewrite !in_app_iff. destruct (lookup_asg i a') eqn:E; [right; left; eapply lookup_in; eauto|auto]. }
      destruct (upd_node i ps n) as [[[w n'] l']|] eqn:En.
      { exfalso. apply upd_writes in En. apply (count_occ_In string_dec) in En, Hr. lia. }
      destruct (upd_seq i ps r) as [[[w r'] l']|] eqn:Er; [|discriminate]. injection U as -> <- ->.
      assert (Ha : exec_assigns st1 l0 = Some st2) by assumption.
      edestruct (exec_assigns_eqx (IRFacts.one ps) l0 st1 q st2 Eq) as (q2 & Ra & Sa); [|exact Ha|].
      { intros x Hx; unfold IRFacts.one; intros ->; apply F; right; left; apply names_reads_asg; exact Hx. }
      destruct (IH u r' l st2 q2 a') as (b' & Rb & Sb); auto; try tauto.
      { unfold nwritten. lia. }
      exists b'. split; auto. eapply R_cons; eauto.
  Qed.
End Sim.

Lemma exit_test_inv n c1 c : exit_test n = Some (c1, c) -> exists a1 a2,
  (n = NIf (BCons c1 (SCons NBreak a1 SNil) (BCons c (SCons NContinue a2 SNil) BNil)) /\ c = snot c1) \/
  (n = NIf (BCons c (SCons NContinue a1 SNil) (BCons (snot c) (SCons NBreak a2 SNil) BNil)) /\ c = c1).
Proof.
  unfold exit_test. intros H.
  repeat match type of H with context [match ?x with _ => _ end] => destruct x eqn:?; try discriminate H end.
  all: subst; match goal with E : cond_eqb _ _ = true |- _ => apply cond_eqb_eq in E; subst end; injection H as <- <-; eexists _, _; first [left; split; reflexivity|right; split; reflexivity].
Qed.
Section Loop.
  Variables (I : nat -> list Z -> option Z) (i ps : string) (pre pre' : seq) (last : node) (c1 c : cond) (u : expr) (l : list string).
  Let body := sapp pre (SCons last [] SNil).
  Hypothesis Nip : i <> ps.
  Hypothesis Ht : exit_test last = Some (c1, c).
  Hypothesis Hu : upd_seq i ps pre = Some (u, pre', l).
  Hypothesis Hl : forall x, In x l -> ~ In x (atoms u).
  Hypothesis Hj : jumps_s pre = false.
  Hypothesis Hr : sret pre = false.
  Hypothesis Hp : ~ In ps (snames body).
  Hypothesis Hs : sscalar i pre = true.
  Hypothesis Htop : top_update i pre = true.
  Hypothesis Hb : ~ In i (asg_reads (beside i pre)).
  Hypothesis Hc : (nwritten i body <= 1)%nat.

  Lemma test_names : forall x, In x (catoms c) -> In x (nnames last).
  Proof.
    intros x Hx. apply exit_test_inv in Ht as (a1 & a2 & [[-> ->]|[-> ->]]); cbn [nnames bnames snames]; rewrite !in_app_iff; tauto.
  Qed.
  Ltac inv1 := match goal with
    | H : runb _ (BCons _ _ _) _ _ _ |- _ => inversion H; subst; clear H
    | H : runb _ BNil _ _ _ |- _ => inversion H; subst; clear H
    | H : runs _ (SCons _ _ _) _ _ _ |- _ => inversion H; subst; clear H
    | H : run _ (NIf _) _ _ _ |- _ => inversion H; subst; clear H
    | H : run _ NBreak _ _ _ |- _ => inversion H; subst; clear H
    | H : run _ NContinue _ _ _ |- _ => inversion H; subst; clear H end.
  Lemma test_run st o st' : run I last st o st' -> (o = OCont /\ st' = st /\ cev (env_of st) c = Some true) \/ (o = OBrk /\ st' = st /\ cev (env_of st) c = Some false).
  Proof.
    intros R. apply exit_test_inv in Ht as (a1 & a2 & [[E1 E2]|[E1 E2]]); rewrite E1 in R; clear E1; repeat inv1; auto.
    all: repeat match goal with H : cev _ (snot _) = _ |- _ => rewrite cev_snot in H end.
    all: repeat match goal with H : c = _ |- _ => rewrite H in * end; rewrite ?cev_snot in *.
    all: try match goal with H : cev _ ?d = Some _ |- _ => rewrite H in *; cbn in *; try discriminate end; auto.
  Qed.
  Lemma body_run st o st' : runs I body st o st' -> exists m, runs I pre st ONorm m /\ m = st' /\ (o = OCont /\ cev (env_of st') c = Some true \/ o = OBrk /\ cev (env_of st') c = Some false).
  Proof.
    intros R. unfold body in R. apply runs_app in R as [(m & R1 & R2)|[R1 N]].
    - exists m. split; auto. inversion R2; subst;
        match goal with H : run _ last _ _ _ |- _ => destruct (test_run _ _ _ H) as [(Q & -> & E)|(Q & -> & E)] end; try discriminate; split; auto.
    - exfalso. apply N. eapply (proj1 (proj2 (no_jump I))); eauto.
  Qed.
  Lemma for_iter st st' b : before ps st b -> runs I pre st ONorm st' ->
    exists b' v, runs I pre' b ONorm b' /\ eval (env_of b') u = Some v /\ before ps st' (wr b' i [] v).
  Proof.
    intros E R. unfold body in *. rewrite snames_sapp, in_app_iff in Hp. unfold nwritten in Hc. rewrite swrites_sapp, count_occ_app in Hc.
    destruct (pre_sim I i ps Nip pre u pre' l st b st' Hu) as (b' & Rb & S1 & S2 & S3 & S4); auto.
    { unfold nwritten. lia. }
    exists b', (st' i []). split; auto. split; auto. intros x Nx j. unfold IRFacts.one in Nx.
    destruct (string_dec x i) as [->|Nxi].
    - destruct (list_eq_dec Z.eq_dec j []) as [->|Nj]; [rewrite wr_same; auto|rewrite wr_other by auto; symmetry; auto].
    - rewrite wr_other by auto. symmetry. apply S1; auto.
  Qed.
  Lemma while_for st o st' : runw I body st o st' -> cev (env_of st) c = Some true -> forall b, before ps st b ->
    exists b', runl I i c u pre' b o b' /\ before ps st' b'.
  Proof.
    assert (avoids (IRFacts.one ps) (catoms c)) as Av.
    { intros x Hx. unfold IRFacts.one. intros ->. apply Hp. unfold body. rewrite snames_sapp, in_app_iff. right. cbn [snames]. rewrite in_app_iff. left. apply test_names. exact Hx. }
    intros R. remember body as bd eqn:Eb. induction R; intros Ct b Sb; subst s.
    - apply body_run in H as (m & Rm & -> & Q). destruct Q as [[-> Q]|[-> Q]]; [|destruct H0; discriminate].
      destruct (for_iter _ _ _ Sb Rm) as (b' & v & Rb & Ev & Sb').
      destruct (IHR eq_refl Hp Hc Q _ Sb') as (b2 & R2 & S2). exists b2. split; auto.
      eapply R_lnext; eauto. rewrite <- (cev_eqx (IRFacts.one ps) st b); auto.
    - apply body_run in H as (m & Rm & -> & Q). destruct Q as [[Q1 Q]|[_ Q]]; [discriminate|].
      destruct (for_iter _ _ _ Sb Rm) as (b' & v & Rb & Ev & Sb').
      exists (wr b' i [] v). split; auto. eapply R_lnext; eauto. { rewrite <- (cev_eqx (IRFacts.one ps) st b); auto. }
      apply R_lend. rewrite <- (cev_eqx (IRFacts.one ps) st'); auto.
    - apply body_run in H as (m & Rm & -> & Q). destruct Q as [[Q1 Q]|[Q1 Q]]; discriminate.
  Qed.
End Loop.
