(** Soundness of the dependency analysis and of For2Map on straight-line bodies. *)
From Coq Require Import Permutation.
From Verif Require Import Sym SymFacts SymFuns IR IRFacts IRRefine PassCFG PassInline PassCFGProofs2 LoopTile LoopIter Trace Reorder Interchange DepAna.

Section Inv.
  Variable O : oracle.
  Variable sc : string -> bool.
  (** [F]: the log of one iteration of the body *)
  Variable F : trace.
  Definition same_cell : Prop :=
    (forall x e e' j j', sc x = false -> is_disjoint O e e' = false -> In (Ev false x e j) F -> In (Ev true x e' j') F -> j = j') /\
    (forall x e e' j j', sc x = false -> is_subset O e' e = true -> In (Ev true x e' j') F -> In (Ev true x e j) F -> j' = j).
  Hypothesis SC : same_cell.
  (** scalars are accessed without subset *)
  Definition wt_acc (a : access) : Prop :=
    match a with Rd (x, e) | Wr (x, e) => sc x = true -> e = [] | RdSym x => sc x = true end.
  (** the empty subset denotes the empty index *)
  Hypothesis E0 : forall w x j, In (Ev w x [] j) F -> j = [].

  Definition ainv (T : trace) (s : state) : Prop :=
    (forall x j, exposed T x j -> exists e, In (x, e) (fst s) /\ In (Ev false x e j) T) /\
    (forall x j, written T x j -> exists e, In (x, e) (snd s) /\ In (Ev true x e j) T) /\
    (forall x e, In (x, e) (snd s) -> exists j, In (Ev true x e j) T) /\
    (forall x e, In (x, e) (snd s) -> sc x = true -> e = []).
  Definition is_rd (a : access) : bool := match a with Wr _ => false | _ => true end.
  Notation visit := (visit O sc). Notation visits := (visits O sc).

  Lemma visits_rd L : forallb is_rd L = true -> forall s, snd (visits s L) = snd s /\ (forall u, In u (fst s) -> In u (fst (visits s L))).
  Proof.
    induction L as [|a L IH]; intros H s; [split; auto|]. simpl in H. apply andb_prop in H as [Ha HL].
    destruct (IH HL (visit s a)) as (P & Q). unfold visits in *. simpl. split.
    - rewrite P. destruct a; simpl; try discriminate; destruct (existsb _ _); reflexivity.
    - intros u Hu. apply Q. destruct a; simpl; try discriminate; destruct (existsb _ _); simpl; auto.
  Qed.
  Lemma visits_app s L1 L2 : visits s (L1 ++ L2) = visits (visits s L1) L2.
  Proof. apply fold_left_app. Qed.
  Lemma visits_cons s a L : visits s (a :: L) = visits (visit s a) L.
  Proof. reflexivity. Qed.
  Lemma rd_und L a x e : In a L -> forallb is_rd L = true -> forall s, (a = Rd (x, e) \/ (a = RdSym x /\ e = [])) ->
    In (x, e) (fst (visits s L)) \/ (exists e', In (x, e') (snd s) /\ (sc x = true \/ is_disjoint O e e' = false \/ a = RdSym x)).
  Proof.
    intros Ha HL s Hx. apply in_split in Ha as (L1 & L2 & ->). rewrite visits_app. simpl.
    rewrite forallb_app in HL. simpl in HL. apply andb_prop in HL as [H1 H2]. apply andb_prop in H2 as [_ H2].
    destruct (visits_rd L1 H1 s) as (P1 & _). destruct (visits_rd L2 H2 (visit (visits s L1) a)) as (_ & Q2).
    destruct Hx as [->|(-> & ->)]; cbn [DepAna.visit] in *; rewrite P1 in *.
    - destruct (existsb (fun d => depends O sc d (x, e)) (snd s)) eqn:E.
      + right. apply existsb_exists in E as ((y & e') & Hd & D). unfold depends in D. simpl in D. apply andb_prop in D as [D1 D2].
        apply String.eqb_eq in D1. subst y. exists e'. split; [exact Hd|]. apply orb_prop in D2 as [D2|D2]; [auto|]. apply negb_true_iff in D2. auto.
      + left. apply Q2. left. reflexivity.
    - destruct (existsb (fun d => String.eqb (fst d) x) (snd s)) eqn:E.
      + right. apply existsb_exists in E as ((y & e') & Hd & D). simpl in D. apply String.eqb_eq in D. subst y. exists e'. auto.
      + left. apply Q2. left. reflexivity.
  Qed.

  (** a group of reads *)
  Lemma reads_step R L T s : nowr R -> forallb is_rd L = true -> (forall a, In a L -> wt_acc a) ->
    (forall x e j, In (Ev false x e j) R -> In (Rd (x, e)) L \/ (In (RdSym x) L /\ e = [])) -> incl (T ++ R) F ->
    ainv T s -> ainv (T ++ R) (visits s L).
  Proof.
    intros NR HL WL HR HF (A & B & C & D). destruct (visits_rd L HL s) as (P & Q). unfold ainv. rewrite P. split; [|split; [|split]].
    - intros x j Hx. apply exposed_app in Hx as [Hx|(Nw & Hx)].
      + destruct (A x j Hx) as (e & H1 & H2). exists e. split; [apply Q; exact H1|]. apply in_or_app. auto.
      + apply exposed_read in Hx as (e & He). exists e. split; [|apply in_or_app; auto].
        assert (exists a, In a L /\ (a = Rd (x, e) \/ (a = RdSym x /\ e = []))) as (a & Ha & Ea).
        { destruct (HR x e j He) as [H|(H & ->)]; eauto. }
        destruct (rd_und L a x e Ha HL s Ea) as [H|(e' & Hd & Hc)]; [exact H|]. exfalso. apply Nw.
        destruct (C x e' Hd) as (j' & Hj').
        assert (Fr: In (Ev false x e j) F) by (apply HF; apply in_or_app; auto).
        assert (Fw: In (Ev true x e' j') F) by (apply HF; apply in_or_app; auto).
        assert (Sc: sc x = true -> j = j').
        { intros S. pose proof (D x e' Hd S) as ->. specialize (WL a Ha). apply E0 in Fw. subst j'.
          destruct Ea as [->|(-> & ->)]; [|apply E0 in Fr; auto]. simpl in WL. rewrite (WL S) in Fr. apply E0 in Fr. auto. }
        assert (j = j').
        { destruct (sc x) eqn:S; [auto|]. destruct Hc as [Hc|[Hc|Hc]]; [discriminate| |].
          - exact (proj1 SC x e e' j j' S Hc Fr Fw).
          - subst a. specialize (WL _ Ha). simpl in WL. congruence. }
        subst j'. exists e'. exact Hj'.
    - intros x j Hx. apply written_app in Hx as [Hx|Hx]; [|elim (NR _ _ Hx)]. destruct (B x j Hx) as (e & H1 & H2). exists e. split; [exact H1|]. apply in_or_app. auto.
    - intros x e Hx. destruct (C x e Hx) as (j & Hj). exists j. apply in_or_app. auto.
    - exact D.
  Qed.
  (** one write *)
  Lemma write_step x e j T s : (sc x = true -> e = []) -> incl (T ++ [Ev true x e j]) F -> ainv T s -> ainv (T ++ [Ev true x e j]) (visit s (Wr (x, e))).
  Proof.
    intros W HF (A & B & C & D). cbn [DepAna.visit fst snd]. split; [|split; [|split]].
    - intros y k Hy. apply exposed_app in Hy as [Hy|(_ & Hy)]; [|simpl in Hy; tauto].
      destruct (A y k Hy) as (e' & H1 & H2). exists e'. split; [exact H1|]. apply in_or_app. auto.
    - intros y k Hy. apply written_app in Hy as [Hy|Hy].
      + destruct (B y k Hy) as (e' & H1 & H2).
        destruct (closes O sc (y, e') (x, e)) eqn:Cl.
        * unfold closes in Cl. simpl in Cl. apply andb_prop in Cl as [C1 C2]. apply String.eqb_eq in C1. subst y.
          assert (Fp: In (Ev true x e' k) F) by (apply HF; apply in_or_app; auto).
          assert (Fc: In (Ev true x e j) F) by (apply HF; apply in_or_app; right; left; reflexivity).
          assert (k = j).
          { destruct (sc x) eqn:S.
            - rewrite (D x e' H1 S) in Fp. rewrite (W eq_refl) in Fc. apply E0 in Fp. apply E0 in Fc. congruence.
            - exact (proj2 SC x e e' j k S C2 Fp Fc). }
          subst k. exists e. split; [left; reflexivity|]. apply in_or_app. right. left. reflexivity.
        * exists e'. split; [|apply in_or_app; auto]. right. apply filter_In. split; [exact H1|]. rewrite Cl. reflexivity.
      + destruct Hy as (e' & [Q|[]]). injection Q as -> -> ->. exists e'. split; [left; reflexivity|]. apply in_or_app. right. left. reflexivity.
    - intros y e' [Q|Hy]; [injection Q as -> ->; exists j; apply in_or_app; right; left; reflexivity|].
      apply filter_In in Hy as (Hy & _). destruct (C y e' Hy) as (k & Hk). exists k. apply in_or_app. auto.
    - intros y e' [Q|Hy]; [injection Q as -> ->; exact W|]. apply filter_In in Hy as (Hy & _). apply D. exact Hy.
  Qed.
  (** a transition: reads, then writes *)
  Lemma visits_wr names : forall s,
    let s' := visits s (map (fun x => Wr (x, [])) names) in
    fst s' = fst s /\ (forall x, In x names -> In (x, []) (snd s')) /\
    (forall y e, In (y, e) (snd s) -> ~ In y names -> In (y, e) (snd s')) /\
    (forall y e, In (y, e) (snd s') -> (In y names /\ e = []) \/ In (y, e) (snd s)).
  Proof.
    induction names as [|n names IH]; intros s; cbv zeta; [simpl; repeat split; auto; intros x []|].
    cbn [map]. rewrite visits_cons. destruct (IH (visit s (Wr (n, [])))) as (P & Q & R & S). cbv zeta in *.
    split; [rewrite P; reflexivity|]. split; [|split].
    - intros x [<-|Hx]; [|apply Q; exact Hx]. destruct (in_dec string_dec n names) as [H|H]; [apply Q; exact H|]. apply R; [left; reflexivity|exact H].
    - intros y e Hy N. apply R; [|intros H; apply N; right; exact H]. right. apply filter_In. split; [exact Hy|].
      unfold closes. simpl. destruct (String.eqb_spec y n) as [->|]; [elim N; left; reflexivity|]. reflexivity.
    - intros y e Hy. destruct (S y e Hy) as [(H1 & ->)|[H|H]]; [left; split; [right; exact H1|reflexivity]| |].
      + injection H as -> ->. left. split; [left; reflexivity|reflexivity].
      + apply filter_In in H as (H & _). auto.
  Qed.
  Lemma asg_events a w x e j : In (Ev w x e j) (asg_trace a) -> e = [] /\ j = [] /\ (if w then In x (map fst a) else In x (asg_reads a)).
  Proof.
    unfold asg_trace, asg_reads. induction a as [|[y f] a IH]; simpl; [intros []|]. rewrite in_app_iff. intros [H|H].
    - rewrite in_app_iff in H. destruct H as [H|[H|[]]].
      + unfold rds in H. apply in_map_iff in H as (z & Q & Hz). injection Q as <- <- <- <-. repeat split. apply in_or_app. auto.
      + injection H as <- <- <- <-. auto.
    - destruct (IH H) as (-> & -> & K). repeat split. destruct w; [auto|]. apply in_or_app. auto.
  Qed.
  Lemma asg_written a x : In x (map fst a) -> In (Ev true x [] []) (asg_trace a).
  Proof.
    unfold asg_trace. induction a as [|[y f] a IH]; simpl; [intros []|]. intros [<-|H]; apply in_or_app; [left; apply in_or_app; right; left; reflexivity|auto].
  Qed.
  Lemma asg_step a T s : (forall x, In x (map fst a) -> sc x = true) -> (forall x, In x (asg_reads a) -> sc x = true) ->
    incl (T ++ asg_trace a) F -> ainv T s -> ainv (T ++ asg_trace a) (visits s (asg_acc a)).
  Proof.
    intros Sw Sr HF (A & B & C & D). unfold asg_acc. rewrite visits_app.
    set (L1 := concat (map (fun xe => map RdSym (atoms (snd xe))) a)).
    assert (HL: forallb is_rd L1 = true).
    { unfold L1. clear. induction a as [|[y f] a IH]; [reflexivity|]. cbn [map concat snd]. rewrite forallb_app, IH, andb_true_r.
      induction (atoms f) as [|z l IHl]; [reflexivity|exact IHl]. }
    assert (HR: forall x, In x (asg_reads a) -> In (RdSym x) L1).
    { unfold L1, asg_reads. clear. induction a as [|[y f] a IH]; simpl; [intros x []|]. intros x Hx. apply in_app_iff in Hx as [Hx|Hx]; apply in_or_app; [|auto].
      left. apply in_map. exact Hx. }
    destruct (visits_rd L1 HL s) as (P & Q).
    assert (EL: map (fun xe => Wr (fst xe, [])) a = map (fun x => Wr (x, [])) (map fst a)) by (rewrite map_map; reflexivity). rewrite EL. clear EL.
    destruct (visits_wr (map fst a) (visits s L1)) as (V1 & V2 & V3 & V4). cbv zeta in *. unfold ainv. rewrite V1. rewrite P in V3, V4. split; [|split; [|split]].
    - intros x j Hx. apply exposed_app in Hx as [Hx|(Nw & Hx)].
      + destruct (A x j Hx) as (e & H1 & H2). exists e. split; [apply Q; exact H1|]. apply in_or_app. auto.
      + apply exposed_read in Hx as (e & He). destruct (asg_events _ _ _ _ _ He) as (-> & -> & Hr). exists []. split; [|apply in_or_app; auto].
        destruct (rd_und L1 (RdSym x) x [] (HR x Hr) HL s (or_intror (conj eq_refl eq_refl))) as [H|(e' & Hd & _)]; [exact H|]. exfalso. apply Nw.
        rewrite (D x e' Hd (Sr x Hr)) in Hd. destruct (C x [] Hd) as (j' & Hj'). exists [].
        rewrite <- (E0 true x j'); [exact Hj'|]. apply HF. apply in_or_app. auto.
    - intros x j Hx. apply written_app in Hx as [Hx|(e & Hx)].
      + destruct (B x j Hx) as (e & H1 & H2). exists e. split; [|apply in_or_app; auto].
        destruct (in_dec string_dec x (map fst a)) as [H|H]; [|apply V3; assumption]. rewrite (D x e H1 (Sw x H)). apply V2. exact H.
      + destruct (asg_events _ _ _ _ _ Hx) as (-> & -> & Hw). exists []. split; [apply V2; exact Hw|]. apply in_or_app. auto.
    - intros x e Hx. destruct (V4 x e Hx) as [(H1 & ->)|H1].
      + exists []. apply in_or_app. right. apply asg_written. exact H1.
      + destruct (C x e H1) as (j & Hj). exists j. apply in_or_app. auto.
    - intros x e Hx S. destruct (V4 x e Hx) as [(_ & ->)|H1]; [reflexivity|]. exact (D x e H1 S).
  Qed.

  (** a tasklet *)
  Lemma rds_events l w x e j : In (Ev w x e j) (rds l) -> w = false /\ e = [] /\ j = [] /\ In x l.
  Proof. unfold rds. intros H. apply in_map_iff in H as (y & Q & Hy). injection Q as <- <- <- <-. auto. Qed.
  Lemma symr_in x l : In x (concat (map atoms l)) -> In (Rd (x, [])) (symr l).
  Proof. intros H. unfold symr. apply (in_map (fun x => Rd (x, []))). exact H. Qed.
  Lemma operand_events st o x e j : In (Ev false x e j) (operand_trace st o) -> In (Rd (x, e)) (in_acc o).
  Proof.
    destruct o as [z|y sub]; simpl; [intros []|]. rewrite in_app_iff. intros [H|H].
    - apply rds_events in H as (_ & -> & -> & H). right. apply symr_in. exact H.
    - destruct (evals _ _) as [k|]; [|destruct H]. destruct H as [H|[]]. injection H as <- <- <-. left. reflexivity.
  Qed.
  Lemma symr_rd l : forallb is_rd (symr l) = true.
  Proof. unfold symr. induction (concat (map atoms l)); [reflexivity|assumption]. Qed.
  Lemma in_acc_rd l : forallb is_rd (concat (map in_acc l)) = true.
  Proof. induction l as [|[z|y sub] l IH]; [reflexivity|assumption|]. cbn [map concat in_acc]. rewrite forallb_app. cbn [forallb is_rd]. rewrite symr_rd, IH. reflexivity. Qed.
  Lemma op_step I o T s st st' : (forall a, In a (op_acc o) -> wt_acc a) -> incl (T ++ op_trace st o) F -> exec_op I st o = Some st' -> ainv T s ->
    ainv (T ++ op_trace st o) (visits s (op_acc o)).
  Proof.
    intros W HF E A. unfold op_acc in *. rewrite app_assoc in *. unfold op_trace in *. rewrite (app_assoc (concat _)) in *.
    set (R := concat (map (operand_trace st) (o_ins o)) ++ rds (concat (map atoms (o_sub o)))) in *.
    set (L := concat (map in_acc (o_ins o)) ++ symr (o_sub o)) in *.
    assert (exists j, evals (env_of st) (o_sub o) = Some j) as (j & Ej).
    { unfold exec_op in E. destruct (reads_in st (o_ins o)); [|discriminate]. destruct (evals (env_of st) (o_sub o)); [eauto|discriminate]. }
    rewrite Ej in *. rewrite visits_app, app_assoc. change (DepAna.visits O sc (visits s L) [Wr (o_out o, o_sub o)]) with (visit (visits s L) (Wr (o_out o, o_sub o))).
    rewrite app_assoc in HF. apply write_step; [|exact HF|].
    - apply (W (Wr (o_out o, o_sub o))). apply in_or_app. right. left. reflexivity.
    - apply reads_step; auto.
      + apply nowr_app; [apply nowr_operands|apply nowr_rds].
      + unfold L. rewrite forallb_app, in_acc_rd, symr_rd. reflexivity.
      + intros a Ha. apply W. apply in_or_app. auto.
      + intros x e k H. left. unfold R in H. unfold L. apply in_app_iff in H as [H|H]; apply in_or_app.
        * left. apply in_concat in H as (t & Ht & H). apply in_map_iff in Ht as (o' & <- & Ho'). apply in_concat. exists (in_acc o'). split; [apply in_map; exact Ho'|]. eapply operand_events; eauto.
        * right. apply rds_events in H as (_ & -> & _ & H). apply symr_in. exact H.
      + intros ev Hev. apply HF. apply in_or_app. auto.
  Qed.
  Lemma block_step I b : forall T s st st', (forall a, In a (concat (map op_acc b)) -> wt_acc a) -> incl (T ++ block_trace I st b) F -> exec_block I st b = Some st' -> ainv T s ->
    ainv (T ++ block_trace I st b) (visits s (concat (map op_acc b))).
  Proof.
    induction b as [|o b IH]; simpl; intros T s st st' W HF E A; [rewrite app_nil_r; exact A|].
    destruct (exec_op I st o) as [m|] eqn:Eo; [|discriminate]. rewrite visits_app, app_assoc. rewrite app_assoc in HF.
    eapply IH; [|exact HF|exact E|]; [intros a Ha; apply W; apply in_or_app; auto|].
    eapply op_step; eauto; [intros a Ha; apply W; apply in_or_app; auto|]. intros ev Hev. apply HF. apply in_or_app. auto.
  Qed.
  (** a straight-line body *)
  Definition wt_body (s : seq) : Prop :=
    (forall a, In a (sacc s) -> wt_acc a) /\ (forall x, In x (map fst (sasgs s)) -> sc x = true) /\ (forall x, In x (asg_reads (sasgs s)) -> sc x = true).
  Definition wt_n (n : node) : Prop :=
    (forall a, In a (nacc n) -> wt_acc a) /\ (forall x, In x (map fst (nasgs n)) -> sc x = true) /\ (forall x, In x (asg_reads (nasgs n)) -> sc x = true).
  Lemma asg_reads_app a b : asg_reads (a ++ b) = asg_reads a ++ asg_reads b.
  Proof. unfold asg_reads. rewrite map_app, concat_app. reflexivity. Qed.
  Lemma straight_step I :
    (forall n, nstraight n = true -> forall T s st o st' T', wt_n n -> runT I n st o st' T' -> incl (T ++ T') F -> ainv T s -> o = ONorm /\ ainv (T ++ T') (visits s (nacc n))) /\
    (forall b, straight b = true -> forall T s st o st' T', wt_body b -> runsT I b st o st' T' -> incl (T ++ T') F -> ainv T s -> o = ONorm /\ ainv (T ++ T') (visits s (sacc b))) /\
    (forall b : brs, True).
  Proof.
    apply ir_mind; simpl; auto; try discriminate.
    - intros b _ T s st o st' T' (W & _) R HF A. inversion R; subst. split; [reflexivity|]. eapply block_step; eauto.
    - intros b IH Hb T s st o st' T' W R HF A. inversion R; subst. eapply IH; eauto.
    - intros _ T s st o st' T' W R HF A. inversion R; subst. split; [reflexivity|]. rewrite app_nil_r. exact A.
    - intros n IHn a r IHr H T s st o st' T' (W1 & W2 & W3) R HF A. apply andb_prop in H as [Hn Hr].
      cbn [sacc sasgs] in *. rewrite !map_app, !asg_reads_app in *.
      assert (Wn: wt_n n). { split; [|split]; intros; [apply W1|apply W2|apply W3]; rewrite !in_app_iff; auto. }
      assert (Wr: wt_body r). { split; [|split]; intros; [apply W1|apply W2|apply W3]; rewrite !in_app_iff; auto. }
      inversion R; subst.
      + match goal with H : runT _ n _ _ _ ?t |- _ => rename H into Rn; rename t into T1 end.
        match goal with H : runsT _ r _ _ _ ?t |- _ => rename H into Rr; rename t into T2 end.
        destruct (IHn Hn T s _ _ _ _ Wn Rn) as (_ & A1); [intros ev Hev; apply HF; rewrite !in_app_iff in *; tauto|exact A|].
        assert (A2: ainv ((T ++ T1) ++ asg_trace a) (visits (visits s (nacc n)) (asg_acc a))).
        { apply asg_step; auto.
          - intros x Hx. apply W2. rewrite !in_app_iff. auto.
          - intros x Hx. apply W3. rewrite !in_app_iff. auto.
          - intros ev Hev. apply HF. rewrite !in_app_iff in *. tauto. }
        destruct (IHr Hr ((T ++ T1) ++ asg_trace a) (visits (visits s (nacc n)) (asg_acc a)) _ _ _ _ Wr Rr) as (-> & A3); [|exact A2|].
        { intros ev Hev. apply HF. rewrite !in_app_iff in *. tauto. }
        split; [reflexivity|]. rewrite !visits_app. rewrite !app_assoc. exact A3.
      + match goal with H : runT _ n _ _ _ _ |- _ => rename H into Rn end.
        destruct (IHn Hn T s _ _ _ _ Wn Rn) as (-> & _); [exact HF|exact A|]. contradiction.
  Qed.
End Inv.

Lemma ainv_init sc : ainv sc [] ([], []).
Proof.
  split; [|split; [|split]]; simpl; try tauto. intros x j H. elim (written_nil _ _ H).
Qed.

(** the empty subset denotes the empty index *)
Definition lab (T : trace) : Prop := forall w x j, In (Ev w x [] j) T -> j = [].
Lemma lab_app T1 T2 : lab T1 -> lab T2 -> lab (T1 ++ T2).
Proof. intros A B w x j H. apply in_app_iff in H as [H|H]; eauto. Qed.
Lemma lab_rds l : lab (rds l).
Proof. intros w x j H. apply rds_events in H. tauto. Qed.
Lemma lab_nil : lab []. Proof. intros w x j []. Qed.
Lemma lab_cons w x e j T : (e = [] -> j = []) -> lab T -> lab (Ev w x e j :: T).
Proof. intros A B w' x' j' [H|H]; [injection H as -> -> -> ->; auto|eauto]. Qed.
Lemma evals_nil s l j : evals s l = Some j -> l = [] -> j = [].
Proof. intros H ->. simpl in H. congruence. Qed.
Lemma lab_operands st l : lab (concat (map (operand_trace st) l)).
Proof.
  induction l as [|o l IH]; simpl; [apply lab_nil|]. apply lab_app; [|exact IH]. destruct o as [z|x sub]; simpl; [apply lab_nil|].
  apply lab_app; [apply lab_rds|]. destruct (evals (env_of st) sub) eqn:E; [|apply lab_nil]. apply lab_cons; [apply (evals_nil _ _ _ E)|apply lab_nil].
Qed.
Lemma lab_block I b : forall st, lab (block_trace I st b).
Proof.
  induction b as [|o b IH]; intros st; simpl; [apply lab_nil|]. apply lab_app.
  - unfold op_trace. apply lab_app; [apply lab_operands|]. apply lab_app; [apply lab_rds|].
    destruct (evals (env_of st) (o_sub o)) eqn:E; [|apply lab_nil]. apply lab_cons; [apply (evals_nil _ _ _ E)|apply lab_nil].
  - destruct (exec_op I st o); [apply IH|apply lab_nil].
Qed.
Lemma lab_asg a : lab (asg_trace a).
Proof. intros w x j H. apply asg_events in H. tauto. Qed.
Lemma lab_run I :
  (forall n st o st' T, runT I n st o st' T -> lab T) /\
  (forall s st o st' T, runsT I s st o st' T -> lab T) /\
  (forall b st o st' T, runbT I b st o st' T -> lab T) /\
  (forall s st o st' T, runwT I s st o st' T -> lab T) /\
  (forall i c u s st o st' T, runlT I i c u s st o st' T -> lab T).
Proof. apply runT_mind; intros; auto using lab_block, lab_nil, lab_app, lab_rds, lab_asg, lab_cons. Qed.

(* ---------------------------------------------------------------- *)
(** One iteration of a loop over [i] with its access log (which starts with the
    setting of [i]). *)
Definition inst1 I (i : string) (body : seq) (it : Z * trace) : rel := fun a b =>
  exists T o, snd it = Ev true i [] [] :: T /\ (o = ONorm \/ o = OCont) /\ runsT I body (wr a i [] (fst it)) o b T.
Lemma inst1_local I i body it a b : inst1 I i body it a b -> local (inst1 I i body it) (snd it) a b.
Proof.
  intros (T & o & E & Ho & R). rewrite E. change (Ev true i [] [] :: T) with ([Ev true i [] []] ++ T).
  eapply local_impl; [|eapply local_seq; [apply local_wr|apply (proj1 (proj2 (run_local I)) _ _ _ _ _ R)]].
  simpl. intros x y (z & -> & Q). exists T, o. auto.
Qed.

(** What the analysis relies on, for the iterations [its] of one execution:
    within an iteration, two accesses for which [is_disjoint] fails to answer
    "disjoint", or [is_subset] answers "subset", touch the same cell; in
    different iterations, accesses for which [intersects] answers "no" touch
    different cells. *)
Definition oracle_ok (O : oracle) (sc : string -> bool) (its : list (Z * trace)) : Prop :=
  (forall it, In it its -> same_cell O sc (snd it)) /\
  (forall p q it it' w x e e' j j', p <> q -> nth_error its p = Some it -> nth_error its q = Some it' ->
     sc x = false -> intersects O e' e = false -> In (Ev w x e j) (snd it) -> In (Ev true x e' j') (snd it') -> j <> j').

Section Deps.
  Variables (O : oracle) (sc : string -> bool) (I : nat -> list Z -> option Z) (i : string) (u : expr) (body : seq).
  Hypothesis ST : straight body = true.
  Hypothesis WT : wt_body sc body.

  Lemma item_ainv it a b : same_cell O sc (snd it) -> inst1 I i body it a b ->
    exists T, snd it = Ev true i [] [] :: T /\ ainv sc T (visits O sc ([], []) (sacc body)).
  Proof.
    intros S (T & o & E & Ho & R). exists T. split; [exact E|].
    assert (S': same_cell O sc T).
    { rewrite E in S. destruct S as [S1 S2]. split; intros x e e' j j' H1 H2 H3 H4; [eapply S1|eapply S2]; eauto using in_cons. }
    destruct (proj1 (proj2 (straight_step O sc T S' (proj1 (proj2 (lab_run I)) _ _ _ _ _ R) I)) body ST [] ([], []) _ _ _ T WT R) as (_ & A).
    { intros ev H. exact H. } { apply ainv_init. } exact A.
  Qed.
  Lemma loop_state_split : snd (loop_state O sc body u) = snd (visits O sc ([], []) (sacc body)) /\
    forall r, In r (fst (visits O sc ([], []) (sacc body))) -> In r (fst (loop_state O sc body u)).
  Proof. unfold loop_state. rewrite visits_app. apply visits_rd. apply symr_rd. Qed.

  Lemma items_in its : forall a m it, iterL (inst1 I i body) its a m -> In it its -> exists p q, inst1 I i body it p q.
  Proof. induction its as [|t its IH]; intros a m it H []; destruct H as (q & Hq & H); subst; eauto. Qed.

  Lemma deps_sound its a m : iterL (inst1 I i body) its a m -> oracle_ok O sc its ->
    forall p q it it' x j, p <> q -> nth_error its p = Some it -> nth_error its q = Some it' -> x <> i ->
      (exposed (snd it) x j -> written (snd it') x j -> reported_rw O sc body u x = true) /\
      (written (snd it) x j -> written (snd it') x j -> reported O sc body u x = true).
  Proof.
    intros L (S & X) p q it it' x j N Hp Hq Nx.
    destruct (items_in its a m it L (nth_error_In _ _ Hp)) as (a1 & b1 & I1). destruct (items_in its a m it' L (nth_error_In _ _ Hq)) as (a2 & b2 & I2).
    destruct (item_ainv it _ _ (S it (nth_error_In _ _ Hp)) I1) as (T & E & A). destruct (item_ainv it' _ _ (S it' (nth_error_In _ _ Hq)) I2) as (T' & E' & A').
    destruct loop_state_split as (L1 & L2).
    assert (forall y, written (snd it') y j -> y <> i -> written T' y j) as W'.
    { intros y Hy Ny. rewrite E' in Hy. apply written_cons in Hy as [(_ & Q & _)|Hy]; [congruence|exact Hy]. }
    split.
    - intros Hx Hw. rewrite E in Hx. simpl in Hx. destruct Hx as (_ & Hx). apply W' in Hw; [|exact Nx].
      destruct (proj1 A x j Hx) as (e & H1 & H2). destruct (proj1 (proj2 A') x j Hw) as (e' & H3 & H4).
      unfold reported_rw, dep_rw. apply existsb_exists. exists (x, e). split; [apply L2; exact H1|]. simpl. rewrite String.eqb_refl. simpl.
      apply existsb_exists. exists (x, e'). split; [rewrite L1; exact H3|]. unfold loop_depends. simpl. rewrite String.eqb_refl. simpl.
      destruct (sc x) eqn:Sx; [reflexivity|]. simpl. destruct (intersects O e' e) eqn:Q; [reflexivity|]. exfalso.
      apply (X p q it it' false x e e' j j N Hp Hq Sx Q); [rewrite E|rewrite E'|reflexivity]; right; assumption.
    - intros Hx Hw. rewrite E in Hx. apply written_cons in Hx as [(_ & Q & _)|Hx]; [congruence|]. apply W' in Hw; [|exact Nx].
      destruct (proj1 (proj2 A) x j Hx) as (e & H1 & H2). destruct (proj1 (proj2 A') x j Hw) as (e' & H3 & H4).
      unfold reported, dep_ww. apply orb_true_iff. right. apply existsb_exists. exists (x, e'). split; [rewrite L1; exact H3|]. simpl. rewrite String.eqb_refl. simpl.
      apply existsb_exists. exists (x, e). split; [rewrite L1; exact H1|]. unfold loop_depends. simpl. rewrite String.eqb_refl. simpl.
      destruct (sc x) eqn:Sx; [reflexivity|]. simpl. destruct (intersects O e' e) eqn:Q; [reflexivity|]. exfalso.
      apply (X p q it it' true x e e' j j N Hp Hq Sx Q); [rewrite E|rewrite E'|reflexivity]; right; assumption.
  Qed.
End Deps.
