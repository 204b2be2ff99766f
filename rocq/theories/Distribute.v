(** LoopDistribute.

    Models sdfg/src/transformations/loop_distribute.cpp:17-113 on the loops for
    which the dependency analysis is modelled (DepAna.v: straight-line bodies).
    Not modelled: views and moves (lines 64-66), schedule types (line 98). *)
From Coq Require Import Permutation.
From Verif Require Import Sym SymFacts SymFuns SymProofs1 IR IRFacts IRRefine PassCFG PassInline PassCFGProofs2 LoopTile LoopIter Trace Reorder Interchange Subst While2For While2ForProofs DepAna DepProofs For2MapProofs.

(** [locals x]: every use of [x] in the program is inside the first child
    (users.cpp:1023-1041); [z]: the new loop variable. *)
Definition distribute (O : oracle) (sc locals : string -> bool) (z : string) (n : node) : option (node * node) :=
  match n with
  | NLoop k i init c u (SCons m [] (SCons m2 a2 r)) =>
      let body := SCons m [] (SCons m2 a2 r) in
      if straight body && forallb (fun x => negb (reported O sc body u x) || negb (reported_rw O sc body u x) && locals x) (nnames m)
      then Some (repl_node i (ESym z) (NLoop KMap i init c u (SCons m [] SNil)), NLoop k i init c u (SCons m2 a2 r))
      else None
  | _ => None
  end.

(* ---------------------------------------------------------------- *)
(** everything in the log of a node is named in it *)
Lemma block_names_trace I bl : forall st w x e j, In (Ev w x e j) (block_trace I st bl) -> In x (block_names bl).
Proof.
  induction bl as [|p bl IH]; cbn [block_trace]; intros st w x e j H; [elim H|].
  change (block_names (p :: bl)) with (op_names p ++ block_names bl).
  apply in_app_iff in H as [H|H]; apply in_app_iff.
  - left. unfold op_trace in H. unfold op_names. rewrite !in_app_iff in H. simpl. rewrite in_app_iff. destruct H as [H|[H|H]].
    + right. left. apply in_concat in H as (T & HT & H). apply in_map_iff in HT as (o & <- & Ho). apply in_concat. exists (opnames o). split; [apply in_map; exact Ho|].
      destruct o as [q|y sub]; simpl in *; [elim H|]. apply in_app_iff in H as [H|H]; [apply rds_events in H; tauto|].
      destruct (evals _ _); [|elim H]. destruct H as [H|[]]. left. congruence.
    + apply rds_events in H. tauto.
    + destruct (evals _ _); [|elim H]. destruct H as [H|[]]. left. congruence.
  - right. destruct (exec_op I st p); [eapply IH; eauto|elim H].
Qed.
Lemma trace_names I : (forall n st o st' T, runT I n st o st' T -> forall w x e j, In (Ev w x e j) T -> In x (nnames n)) /\
  (forall s st o st' T, runsT I s st o st' T -> forall w x e j, In (Ev w x e j) T -> In x (snames s)) /\
  (forall b st o st' T, runbT I b st o st' T -> forall w x e j, In (Ev w x e j) T -> In x (bnames b)) /\
  (forall s st o st' T, runwT I s st o st' T -> forall w x e j, In (Ev w x e j) T -> In x (snames s)) /\
  (forall k c u s st o st' T, runlT I k c u s st o st' T -> forall w x e j, In (Ev w x e j) T -> k = x \/ In x (catoms c) \/ In x (atoms u) \/ In x (snames s)).
Proof.
  apply runT_mind; simpl; intros; try (match goal with H : In _ _ |- _ => rewrite ?in_app_iff in H; simpl in H end);
    repeat match goal with H : _ \/ _ |- _ => destruct H | H : False |- _ => elim H end; try discriminate;
    try match goal with H : Ev _ _ _ _ = Ev _ _ _ _ |- _ => injection H as <- <- <- <- end;
    try match goal with H : In _ (rds _) |- _ => apply rds_events in H as (_ & _ & _ & ?) end;
    rewrite ?in_app_iff; eauto using block_names_trace; try tauto.
  - destruct (H1 _ _ _ _ H2) as [|[|[|]]]; tauto.
  - match goal with H : In _ (asg_trace _) |- _ => apply asg_events in H as (_ & _ & Q) end. right. left. destruct w; [|apply names_reads_asg; exact Q].
    apply in_map_iff in Q as ([y d] & <- & Hy). unfold asg_names. apply in_concat. exists (y :: atoms d). split; [apply in_map_iff; exists (y, d); auto|left; auto].
Qed.

Section Split.
  Variables (I : nat -> list Z -> option Z) (i : string) (c : cond) (u : expr) (m : node) (rest : seq).
  Let body := SCons m [] rest.
  Hypothesis St : stable i c u body.
  Hypothesis Jm : jumps_n m = false.
  Hypothesis Rm : nret m = false.

  (** (first half?, index value, log) *)
  Definition half (it : bool * (Z * trace)) : rel := inst1 I i (if fst it then SCons m [] SNil else rest) (snd it).
  Definition hlog (it : bool * (Z * trace)) : trace := snd (snd it).
  Lemma half_local it a b : half it a b -> local (half it) (hlog it) a b.
  Proof. apply inst1_local. Qed.
  Definition Pi : pcell := fun x j => String.eqb i x && idx_eqb [] j.
  Lemma Pi_true x j : Pi x j = true <-> x = i /\ j = [].
  Proof. unfold Pi. rewrite andb_true_iff, String.eqb_eq, idx_eqb_eq. intuition congruence. Qed.
  Lemma half_private it a b : half it a b -> private Pi (hlog it).
  Proof.
    intros (T & o & E & _) x j H X. apply Pi_true in H as [-> ->]. unfold hlog in X. rewrite E in X. simpl in X. tauto.
  Qed.

  Lemma one_split v T a b : inst1 I i body (v, T) a b -> exists T1 T2 q b',
    T = Ev true i [] [] :: T1 ++ T2 /\ half (true, (v, Ev true i [] [] :: T1)) a q /\ half (false, (v, Ev true i [] [] :: T2)) q b' /\ steq b b'.
  Proof.
    intros (T' & o & E & Ho & R). simpl in E. subst T. unfold body in R. inversion R; subst.
    - match goal with H : exec_assigns _ [] = Some _ |- _ => injection H as <- end.
      exists T1, T2. change (asg_trace []) with (@nil event). cbn [app].
      match goal with Hm : runT I m _ ONorm ?q T1, Hr : runsT I rest ?q o b T2 |- _ =>
        exists q; destruct (proj1 (proj2 (run_local I)) _ _ _ _ _ Hr) as [F L];
        assert (Eq: steq q (wr q i [] v)) end.
      { apply steq_intro. intros x j. unfold wr. destruct (String.eqb_spec i x) as [<-|]; simpl; auto. destruct j; auto.
        match goal with Hm : runT I m _ ONorm _ T1 |- _ => apply (proj1 (trace_run I)) in Hm; rewrite (run_writes I _ _ _ _ i [] Hm) end; [apply wr_same|].
        intros H. apply (proj1 St). unfold body. simpl. apply in_or_app. auto. }
      match goal with _ : steq ?q (wr ?q i [] v) |- _ => destruct (L (wr q i [] v)) as (b' & Rb & Fb & Wb) end.
      { intros x j _. apply steq_at. exact Eq. }
      exists b'. split; [reflexivity|]. split; [|split].
      + exists T1, ONorm. split; [reflexivity|]. split; [auto|]. cbn [fst snd]. replace T1 with (T1 ++ asg_trace [] ++ []) by (apply app_nil_r).
        eapply T_cons; [eassumption|reflexivity|apply T_nil].
      + exists T2, o. split; [reflexivity|]. split; [exact Ho|]. exact Rb.
      + apply steq_intro. intros x j. destruct (written_dec T2 x j) as [W|N]; [apply Wb; exact W|].
        rewrite F, Fb by exact N. apply steq_at. exact Eq.
    - exfalso. match goal with Hm : runT I m _ o b _, N : o <> ONorm |- _ => apply (proj1 (trace_run I)) in Hm; apply N; eapply (proj1 (no_jump I)); eauto end.
  Qed.

  (** the halves of an iteration [it] *)
  Definition halves (it : Z * trace) (c1 r1 : bool * (Z * trace)) : Prop := exists T1 T2,
    snd it = Ev true i [] [] :: T1 ++ T2 /\ c1 = (true, (fst it, Ev true i [] [] :: T1)) /\ r1 = (false, (fst it, Ev true i [] [] :: T2)) /\
    (exists a b, half c1 a b) /\ (exists a b, half r1 a b).
  Lemma all_split its : forall a b, iterL (inst1 I i body) its a b -> exists cs rs,
    Forall2 (fun it cr => halves it (fst cr) (snd cr)) its (combine cs rs) /\ List.length cs = List.length rs /\ List.length cs = List.length its /\
    iterL half (concat (map (fun vw => [fst vw; snd vw]) (combine cs rs))) a b.
  Proof.
    induction its as [|[v T] its IH]; simpl; intros a b H.
    - exists [], []. split; [constructor|]. split; [reflexivity|]. split; [reflexivity|exact H].
    - destruct H as (q & H1 & H2). destruct (one_split v T a q H1) as (T1 & T2 & q1 & q2 & E & K1 & K2 & E2).
      destruct (IH q b H2) as (cs & rs & F & L1 & L2 & K).
      exists ((true, (v, Ev true i [] [] :: T1)) :: cs), ((false, (v, Ev true i [] [] :: T2)) :: rs). simpl. split; [|split; [|split]]; auto.
      + constructor; auto. exists T1, T2. simpl. repeat split; eauto.
      + exists q1. split; auto. exists q2. split; auto. eapply iterL_ext; eauto. intros it. apply (item_ext half hlog). apply half_local.
  Qed.
  Lemma halves_raws b cs : Forall (fun it => fst it = b) cs -> forall x y, iterL half cs x y -> iterL (raw I i (if b then SCons m [] SNil else rest)) (map (fun it => fst (snd it)) cs) x y.
  Proof.
    induction cs as [|it cs IH]; simpl; intros F x y H; auto. inversion F; subst. destruct H as (q & (T & o & E & Ho & R) & H).
    exists q. split; [|apply IH; auto]. exists o. split; auto. apply (proj1 (proj2 (trace_run I))) in R. exact R.
  Qed.
End Split.

Lemma forall2_nth {A B} (R : A -> B -> Prop) l m p x y : Forall2 R l m -> nth_error l p = Some x -> nth_error m p = Some y -> R x y.
Proof. intros H. revert p. induction H; intros [|p]; simpl; try discriminate; [intros [= <-] [= <-]; auto|apply IHForall2]. Qed.
Lemma combine_nth_error {A B} (l : list A) : forall (m : list B) p x y, nth_error l p = Some x -> nth_error m p = Some y -> nth_error (combine l m) p = Some (x, y).
Proof. induction l as [|a l IH]; intros [|b m] [|p] x y; simpl; try discriminate; [intros [= <-] [= <-]; auto|apply IH]. Qed.

Section Sound.
  Variables (I : nat -> list Z -> option Z) (k : kind) (i z : string) (init : expr) (c : cond) (u : expr) (m : node) (rest : seq).
  Let body := SCons m [] rest.
  Hypothesis St : stable i c u body.
  Hypothesis Hi : forall x, In x (atoms init) -> x <> i /\ ~ In x (swrites body).
  Hypothesis Jm : jumps_n m = false.
  Hypothesis Rm : sret body = false.
  Hypothesis Br : sbrk body = false.
  Hypothesis Sm : nscalar i m = true.
  Hypothesis Hz : ~ In z (nnames (NLoop k i init c u body)).
  (** the first half of an iteration and the second half of an earlier one do
      not conflict *)
  Variable st : store.
  Hypothesis NC : forall its b, iterL (inst1 I i body) its st b -> (exists v e, eval (env_of st) init = Some v /\ trip (env_of st) i c u v (map fst its) e) -> forall p q it it' c1 r1 c2 r2, p <> q -> nth_error its p = Some it -> nth_error its q = Some it' ->
    halves I i m rest it c1 r1 -> halves I i m rest it' c2 r2 -> no_conflict (Pi i) (hlog r1) (hlog c2).

  Lemma stable_first : stable i c u (SCons m [] SNil).
  Proof. destruct St as [S1 S2]. unfold body in *. split; [|intros x Hx]; simpl; rewrite app_nil_r; intros H; [apply S1|apply (S2 x Hx)]; simpl; apply in_or_app; auto. Qed.
  Lemma stable_rest : stable i c u rest.
  Proof. destruct St as [S1 S2]. unfold body in *. split; [|intros x Hx]; intros H; [apply S1|apply (S2 x Hx)]; simpl; apply in_or_app; auto. Qed.

  Lemma distribute_run o st' : run I (NLoop k i init c u body) st o st' ->
    exists m1 st'', run I (repl_node i (ESym z) (NLoop KMap i init c u (SCons m [] SNil))) st ONorm m1 /\ run I (NLoop k i init c u rest) m1 o st'' /\
      forall x j, x <> z -> st'' x j = st' x j.
  Proof.
    intros R. inversion R; subst.
    assert (Niz : i <> z) by (intros ->; apply Hz; simpl; auto).
    match goal with H : runl _ _ _ _ _ _ _ _ |- _ => rename H into RL end.
    destruct (runl_outcome _ _ _ _ _ _ _ _ RL) as [->|(r & ->)]; [|exfalso; eapply (proj2 (proj2 (proj2 (proj2 (ret_out I))))); eauto].
    destruct (loop_iter I i c u body St Br st v st' RL) as (vs & b' & T & L & E).
    destruct (raws_items I i body vs st b' L) as (its & Eits & LI).
    assert (ND: exists v e, eval (env_of st) init = Some v /\ trip (env_of st) i c u v (map fst its) e) by (rewrite Eits; eauto).
    assert (Rm1: nret m = false) by (unfold body in Rm; simpl in Rm; apply orb_false_iff in Rm; tauto).
    destruct (all_split I i c u m rest St Jm Rm1 its st b' LI) as (cs & rs & F & L1 & L2 & LH).
    assert (Gc: Forall (fun it => private (Pi i) (hlog it)) cs /\ Forall (fun it => private (Pi i) (hlog it)) rs /\ Forall (fun it => fst it = true) cs /\ Forall (fun it => fst it = false) rs /\
      map (fun it => fst (snd it)) cs = vs /\ map (fun it => fst (snd it)) rs = vs).
    { rewrite <- Eits. clear - F L1 L2. revert its F L2. revert rs L1. induction cs as [|c1 cs IH]; intros [|r1 rs] L1 its F L2; try discriminate.
      - destruct its; [|discriminate]. repeat split; constructor.
      - destruct its as [|it its]; [discriminate|]. inversion F; subst. simpl in *.
        destruct (IH rs ltac:(lia) its ltac:(assumption) ltac:(lia)) as (A1 & A2 & A3 & A4 & A5 & A6).
        match goal with H : halves _ _ _ _ _ _ _ |- _ => destruct H as (T1 & T2 & E & -> & -> & (a1 & b1 & H1) & (a2 & b2 & H2)) end.
        simpl. rewrite A5, A6. repeat split; auto; constructor; auto; eapply half_private; eauto. }
    destruct Gc as (Gc & Gr & Fc & Fr & Vc & Vr).
    destruct (split_halves (half I i m rest) hlog (Pi i) (half_local I i m rest) cs rs L1 Gc Gr) with (a := st) (b := b') (a2 := st) as (b2 & LB & EB); auto.
    { intros p q r1 c2 Lt Hr Hc.
      destruct (nth_error its p) as [it|] eqn:Ip; [|apply nth_error_None in Ip; assert (p < List.length rs)%nat by (apply nth_error_Some; congruence); lia].
      destruct (nth_error its q) as [it'|] eqn:Iq; [|apply nth_error_None in Iq; assert (q < List.length cs)%nat by (apply nth_error_Some; congruence); lia].
      destruct (nth_error cs p) as [c1|] eqn:Cp; [|apply nth_error_None in Cp; assert (p < List.length rs)%nat by (apply nth_error_Some; congruence); lia].
      destruct (nth_error rs q) as [r2|] eqn:Rq; [|apply nth_error_None in Rq; assert (q < List.length cs)%nat by (apply nth_error_Some; congruence); lia].
      eapply (NC its b' LI ND p q it it' c1 r1 c2 r2); eauto; [lia| |].
      - apply (forall2_nth _ _ _ p it (c1, r1) F Ip). apply combine_nth_error; auto.
      - apply (forall2_nth _ _ _ q it' (c2, r2) F Iq). apply combine_nth_error; auto. }
    { apply eqP_refl. }
    apply (items_app (half I i m rest) hlog (half_local I i m rest)) in LB as (q & LC & LR).
    apply (halves_raws I i m rest true cs Fc) in LC. apply (halves_raws I i m rest false rs Fr) in LR. rewrite Vc in LC. rewrite Vr in LR.
    (* the first loop *)
    destruct (iter_loop I i c u (SCons m [] SNil) stable_first vs st q v (st' i []) T LC) as (q1 & RQ & EQ).
    assert (W1: forall x j, x <> i -> ~ In x (swrites body) -> q x j = st x j).
    { intros x j Nx Nw. transitivity (q1 x j); [rewrite (steq_at _ _ _ _ EQ); rewrite IRFacts.wr_other by auto; reflexivity|].
      assert (RN: run I (NLoop k i init c u (SCons m [] SNil)) st ONorm q1) by (econstructor; eauto).
      apply (run_writes I _ _ _ _ x j RN). simpl. rewrite app_nil_r. intros [->|H]; [auto|]. apply Nw. unfold body. simpl. apply in_or_app. auto. }
    destruct (proj2 (proj2 (proj2 (proj2 (rename_sim I i z)))) _ _ _ _ _ _ _ RQ (wr st z [] v)) as (q2 & RQ2 & EQ2).
    { intros H. apply Hz. unfold body. simpl in *. rewrite !in_app_iff in *. simpl in *. tauto. }
    { simpl. rewrite Sm. reflexivity. }
    { split; [rewrite !wr_same; reflexivity|]. intros x j N1 N2. rewrite !IRFacts.wr_other by auto. reflexivity. }
    exists q2.
    assert (Rz: rename i (ESym z) i = z) by (unfold rename; rewrite String.eqb_refl; reflexivity). rewrite Rz in RQ2.
    assert (Q2: forall x j, x <> z -> x <> i \/ j <> [] -> q2 x j = q x j).
    { intros x j Nz Nx. destruct (string_dec x i) as [->|Nxi].
      - destruct Nx as [|Nj]; [congruence|]. transitivity (st i j).
        + transitivity ((wr st z [] v) i j); [|rewrite IRFacts.wr_other by auto; reflexivity].
          assert (RN : run I (NLoop KMap z (EInt v) (csubs c i (ESym z)) (subs u i (ESym z)) (repl_seq i (ESym z) (SCons m [] SNil))) st ONorm q2).
          { econstructor; [reflexivity|exact RQ2]. }
          rewrite (run_writes I _ _ _ _ i j RN); [rewrite IRFacts.wr_other by auto; reflexivity|]. cbn [nwrites]. intros [H|H]; [congruence|].
          apply writes_repl in H as [H|[_ H]]; congruence.
        + symmetry. transitivity (q1 i j); [rewrite (steq_at _ _ _ _ EQ); rewrite IRFacts.wr_other by auto; reflexivity|].
          (* the original writes i only at [] *)
          transitivity ((wr st i [] v) i j); [|rewrite IRFacts.wr_other by auto; reflexivity].
          clear - RQ St Nj. revert RQ. generalize (wr st i [] v). intros a RQ. remember (SCons m [] SNil) as s.
          remember ONorm as o. induction RQ; subst; auto; try discriminate.
          * rewrite IHRQ; auto. rewrite IRFacts.wr_other by auto. eapply runs_writes; eauto. simpl. rewrite app_nil_r. intros HH. apply (proj1 St). unfold body. simpl. apply in_or_app; auto.
          * eapply runs_writes; eauto. simpl. rewrite app_nil_r. intros HH. apply (proj1 St). unfold body. simpl. apply in_or_app; auto.
      - rewrite (proj2 EQ2 x j Nxi Nz). rewrite (steq_at _ _ _ _ EQ). rewrite IRFacts.wr_other by auto. reflexivity. }
    assert (Ei: eval (env_of q2) init = Some v).
    { rewrite <- H8. unfold eval. rewrite (ev_agree _ (env_of st)); auto. intros x Hx. unfold env_of. destruct (Hi x Hx) as [A1 A2].
      rewrite Q2; auto. intros ->. apply Hz. simpl. rewrite !in_app_iff. auto. }
    (* the second loop *)
    destruct (iter_loop I i c u rest stable_rest vs q b2 v (st' i [])) as (p1 & RP & EP); auto.
    { eapply trip_agree; [|exact T]. intros x Hx Nx. unfold env_of. symmetry. apply W1; auto. apply (proj2 St). exact Hx. }
    destruct (runl_frame I i c u rest _ _ _ (IRFacts.one z) (wr q2 i [] v) RP) as (p2 & RP2 & EP2).
    { intros x Nz j. unfold IRFacts.one in Nz. unfold wr. destruct (String.eqb_spec i x) as [<-|Nx]; cbn [andb]; [|symmetry; apply Q2; auto].
      destruct (idx_eqb [] j) eqn:Ej; auto. symmetry. apply Q2; auto. right. intros ->. discriminate. }
    { intros x Hx. unfold IRFacts.one. intros ->. apply Hz. simpl. rewrite !in_app_iff. tauto. }
    { intros x Hx. unfold IRFacts.one. intros ->. apply Hz. simpl. rewrite !in_app_iff. tauto. }
    { intros x Hx. unfold IRFacts.one. intros ->. apply Hz. unfold body. simpl. rewrite !in_app_iff. apply names_reads in Hx. tauto. }
    exists p2. split; [|split].
    - cbn [repl_node]. rewrite Rz. econstructor; [|exact RQ2].
      rewrite <- H8. unfold eval. rewrite (ev_subs _ _ _ _ (st z [])) by reflexivity. rewrite (ev_agree _ (env_of st)); auto.
      intros x Hx. unfold upd. destruct (String.eqb_spec i x) as [<-|]; auto. elim (proj1 (Hi i Hx)). reflexivity.
    - econstructor; eauto.
    - intros x j Nx. transitivity (p1 x j); [symmetry; apply EP2; exact Nx|]. rewrite (steq_at _ _ _ _ EP). transitivity (wr b' i [] (st' i []) x j); [|symmetry; apply steq_at; exact E].
      unfold wr. destruct (String.eqb i x && idx_eqb [] j) eqn:Q; auto. symmetry. apply EB. unfold Pi. exact Q.
  Qed.
End Sound.

(* ---------------------------------------------------------------- *)
(** What the acceptance test gives. *)
Lemma straight_jumps : (forall n, nstraight n = true -> jumps_n n = false /\ nret n = false /\ nbrk n = false) /\
  (forall s, straight s = true -> jumps_s s = false /\ sret s = false /\ sbrk s = false) /\ (forall b : brs, True).
Proof.
  apply ir_mind; cbn [nstraight straight jumps_n jumps_s nret sret nbrk sbrk]; intros; try discriminate; auto.
  apply andb_true_iff in H1 as [A1 A2]. destruct (H A1) as (-> & -> & ->). destruct (H0 A2) as (-> & -> & ->). auto.
Qed.
Lemma wt_scalar sc i : sc i = true -> (forall n, nstraight n = true -> (forall a, In a (nacc n) -> wt_acc sc a) -> nscalar i n = true) /\
  (forall s, straight s = true -> (forall a, In a (sacc s) -> wt_acc sc a) -> sscalar i s = true) /\ (forall b : brs, True).
Proof.
  intros SI. apply ir_mind; cbn [nstraight straight nacc sacc nscalar sscalar]; intros; try discriminate; auto.
  - apply forallb_forall. intros o Ho. unfold sc_op. apply andb_true_iff.
    assert (G: forall a, In a (op_acc o) -> wt_acc sc a) by (intros a Ha; apply H0; apply in_concat; exists (op_acc o); split; [apply in_map; exact Ho|exact Ha]).
    unfold op_acc in G. split.
    + apply forallb_forall. intros q Hq. destruct q as [v|x sub]; [reflexivity|]. simpl. destruct (String.eqb_spec i x) as [<-|]; [|reflexivity].
      specialize (G (Rd (i, sub))). simpl in G. rewrite G; auto. rewrite in_app_iff. left. apply in_concat. exists (in_acc (ORead i sub)). split; [apply in_map; exact Hq|left; reflexivity].
    + destruct (String.eqb_spec i (o_out o)) as [E|]; [|reflexivity]. specialize (G (Wr (o_out o, o_sub o))). simpl in G. rewrite G; auto; [|rewrite <- E; exact SI].
      rewrite !in_app_iff. right. right. left. reflexivity.
  - apply andb_true_iff in H1 as [A1 A2]. rewrite H, H0; auto; intros a' Ha; apply H2; rewrite !in_app_iff; auto.
Qed.
Lemma exposed_in T x j : exposed T x j -> exists w e, In (Ev w x e j) T.
Proof. intros H. apply exposed_read in H as (e & H). eauto. Qed.

Section Accepted.
  Variables (O : oracle) (sc locals : string -> bool) (I : nat -> list Z -> option Z) (k : kind) (i z : string) (init : expr) (c : cond) (u : expr) (m : node) (rest : seq) (n1 n2 : node).
  Let body := SCons m [] rest.
  Hypothesis ACC : distribute O sc locals z (NLoop k i init c u body) = Some (n1, n2).
  Hypothesis WT : wt_body sc body.
  Hypothesis SI : sc i = true.
  Hypothesis STB : stable i c u body.
  Hypothesis Hi : forall x, In x (atoms init) -> x <> i /\ ~ In x (swrites body).
  Hypothesis Hz : ~ In z (nnames (NLoop k i init c u body)).
  Hypothesis Hl : forall x, locals x = true -> ~ In x (snames rest).

  Lemma acc_inv : straight body = true /\ n1 = repl_node i (ESym z) (NLoop KMap i init c u (SCons m [] SNil)) /\ n2 = NLoop k i init c u rest /\
    forall x, In x (nnames m) -> reported_rw O sc body u x = false /\ (reported O sc body u x = true -> locals x = true).
  Proof.
    unfold body in *. cbn [distribute] in ACC. destruct rest as [|m2 a2 r]; [discriminate|].
    match type of ACC with (if ?a && ?b then _ else _) = _ => destruct a eqn:E1; [|discriminate]; destruct b eqn:E2; [|discriminate] end.
    cbn [andb] in ACC. injection ACC as <- <-. split; [reflexivity|]. split; [reflexivity|]. split; [reflexivity|]. intros x Hx. rewrite forallb_forall in E2. specialize (E2 x Hx).
    assert (reported_rw O sc (SCons m [] (SCons m2 a2 r)) u x = true -> reported O sc (SCons m [] (SCons m2 a2 r)) u x = true) as Q.
    { unfold reported, reported_rw. intros ->. reflexivity. }
    destruct (reported O sc _ u x), (reported_rw O sc _ u x); simpl in E2; try discriminate; auto. all: try discriminate (Q eq_refl). split; [reflexivity|intros; discriminate].
  Qed.
  Lemma half_names it a b : half I i m rest it a b -> forall x j, x <> i -> (written (hlog it) x j \/ exposed (hlog it) x j) -> In x (if fst it then nnames m else snames rest).
  Proof.
    intros (T & o & E & Ho & R) x j Nx H. unfold hlog in H. rewrite E in H.
    assert (exists w e, In (Ev w x e j) T) as (w & e & Q).
    { destruct H as [(e & [H|H])|H]; [congruence|eauto|]. simpl in H. apply exposed_in. tauto. }
    apply (proj1 (proj2 (trace_names I)) _ _ _ _ _ R) in Q. destruct (fst it); auto. simpl in Q. rewrite app_nil_r in Q. exact Q.
  Qed.
  Lemma accepted_nc its st b : iterL (inst1 I i body) its st b -> oracle_ok O sc its -> forall p q it it' c1 r1 c2 r2, p <> q -> nth_error its p = Some it -> nth_error its q = Some it' ->
    halves I i m rest it c1 r1 -> halves I i m rest it' c2 r2 -> no_conflict (Pi i) (hlog r1) (hlog c2).
  Proof.
    destruct acc_inv as (ST & _ & _ & DEP). intros L OK p q it it' c1 r1 c2 r2 N Hp Hq (T1 & T2 & E & -> & -> & HC1 & HR1) (T1' & T2' & E' & -> & -> & HC2 & HR2) x j Px.
    destruct HR1 as (ra & rb & HR1). destruct HC2 as (ca & cb & HC2).
    pose proof (half_names _ _ _ HR1) as NR. pose proof (half_names _ _ _ HC2) as NC2. cbn [fst hlog snd] in *.
    assert (written (Ev true i [] [] :: T2) x j \/ written (Ev true i [] [] :: T1') x j -> x <> i \/ (x = i /\ j <> [])) as D.
    { destruct (string_dec x i) as [->|]; auto. intros _. right. split; auto. intros ->. unfold Pi in Px. rewrite String.eqb_refl in Px. discriminate. }
    assert (NW: j <> [] -> ~ written (Ev true i [] [] :: T2) i j /\ ~ written (Ev true i [] [] :: T1') i j).
    { intros Nj. destruct HR1 as (Ta & oa & Ea & _ & Ra). destruct HC2 as (Tb & ob & Eb & _ & Rb). cbn [fst snd] in *. injection Ea as <-. injection Eb as <-.
      destruct STB as [S1 _]. unfold body in S1. cbn [swrites] in S1. rewrite !in_app_iff in S1.
      split; rewrite written_cons; intros [(_ & _ & Q)|(e & Q)]; try congruence.
      - apply (proj1 (proj2 (trace_writes I)) _ _ _ _ _ Ra) in Q. tauto.
      - apply (proj1 (proj2 (trace_writes I)) _ _ _ _ _ Rb) in Q. simpl in Q. rewrite app_nil_r in Q. tauto. }
    pose proof (deps_sound O sc I i u body ST WT its st b L OK) as DS.
    assert (X1: forall T T', written T x j -> x <> i -> written (Ev true i [] [] :: T ++ T') x j) by (intros; rewrite written_cons, written_app; auto).
    assert (X2: forall T T', written T' x j -> x <> i -> written (Ev true i [] [] :: T ++ T') x j) by (intros; rewrite written_cons, written_app; auto).
    assert (X3: forall T, x <> i -> written (Ev true i [] [] :: T) x j -> written T x j) by (intros T Nx; rewrite written_cons; intros [(_ & Q & _)|Q]; congruence).
    split; [intros W; split; [intros W'|intros X]|intros W X].
    - (* both write *) destruct (D (or_introl W)) as [Nx|[-> Nj]]; [|exact (proj1 (NW Nj) W)].
      destruct (DS p q it it' x j N Hp Hq Nx) as [_ D2]. rewrite E, E' in D2.
      assert (Rp: reported O sc body u x = true) by (apply D2; auto).
      apply (Hl x); [apply (DEP x); auto; apply (NC2 x j); auto|apply (NR x j); auto].
    - destruct (D (or_introl W)) as [Nx|[-> Nj]]; [|exact (proj1 (NW Nj) W)].
      destruct (DS q p it' it x j ltac:(auto) Hq Hp Nx) as [D1 _]. rewrite E, E' in D1.
      assert (Rp: reported_rw O sc body u x = true). { apply D1; auto. change (exposed ((Ev true i [] [] :: T1') ++ T2') x j). apply exposed_app. left. exact X. }
      destruct (DEP x) as [Q _]; [apply (NC2 x j); auto|congruence].
    - destruct (D (or_intror W)) as [Nx|[-> Nj]]; [|exact (proj2 (NW Nj) W)].
      destruct (written_dec T1 x j) as [W1|N1].
      + destruct (DS p q it it' x j N Hp Hq Nx) as [_ D2]. rewrite E, E' in D2.
        assert (Rp: reported O sc body u x = true) by (apply D2; auto).
        apply (Hl x); [apply (DEP x); auto; apply (NC2 x j); auto|apply (NR x j); auto].
      + destruct (DS p q it it' x j N Hp Hq Nx) as [D1 _]. rewrite E, E' in D1.
        assert (Rp: reported_rw O sc body u x = true).
        { apply D1; auto. cbn [exposed] in *. split; [tauto|]. apply exposed_app. right. tauto. }
        destruct (DEP x) as [Q _]; [apply (NC2 x j); auto|congruence].
  Qed.
  Lemma distribute_sound st o st' : run I (NLoop k i init c u body) st o st' ->
    (forall its b, iterL (inst1 I i body) its st b -> (exists v e, eval (env_of st) init = Some v /\ trip (env_of st) i c u v (map fst its) e) -> oracle_ok O sc its) ->
    exists m1 st'', run I n1 st ONorm m1 /\ run I n2 m1 o st'' /\ forall x j, x <> z -> st'' x j = st' x j.
  Proof.
    intros R OK. destruct acc_inv as (ST & N1 & N2 & _). rewrite N1, N2. pose proof (proj1 (proj2 straight_jumps) _ ST) as (A1 & A2 & A3).
    assert (ST' := ST). unfold body in ST'. cbn [straight] in ST'. apply andb_true_iff in ST' as [S1 S2].
    apply (distribute_run I k i z init c u m rest); auto.
    - apply straight_jumps. exact S1.
    - eapply wt_scalar; eauto. intros a Ha. apply (proj1 WT). unfold body. simpl. apply in_or_app. auto.
    - intros its b L T. apply (accepted_nc its st b); auto. apply (OK its b); auto.
  Qed.
End Accepted.
