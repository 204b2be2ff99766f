(** Any order of the iterations of a loop accepted by For2Map gives the same
    result; an oracle for which no assumption about ISL is needed. *)
From Coq Require Import Permutation.
From Verif Require Import Sym SymFacts SymFuns IR IRFacts IRRefine PassCFG PassInline PassCFGProofs2 LoopTile LoopIter Trace Reorder Interchange DepAna DepProofs.

Definition wrb (T : trace) (x : string) (j : list Z) : bool :=
  existsb (fun ev => match ev with Ev w y _ k => w && String.eqb y x && idx_eqb k j end) T.
Lemma wrb_spec T x j : wrb T x j = true <-> written T x j.
Proof.
  unfold wrb, written. rewrite existsb_exists. split.
  - intros ([w y e k] & H & Q). apply andb_prop in Q as [Q Q3]. apply andb_prop in Q as [Q1 Q2].
    apply String.eqb_eq in Q2. apply Trace.idx_eqb_eq in Q3. subst. eauto.
  - intros (e & H). exists (Ev true x e j). split; [exact H|]. rewrite String.eqb_refl. simpl. apply Trace.idx_eqb_eq. reflexivity.
Qed.
Lemma pairs_pos {A} (R : A -> A -> Prop) (l : list A) :
  (forall p q v w, (p < q)%nat -> nth_error l p = Some v -> nth_error l q = Some w -> R v w) -> ForallOrdPairs R l.
Proof.
  induction l as [|x l IH]; intros H; constructor.
  - rewrite Forall_forall. intros y Hy. apply In_nth_error in Hy as (p & Hp). apply (H O (S p)); auto. lia.
  - apply IH. intros p q v w L Hp Hq. apply (H (S p) (S q)); auto. lia.
Qed.
Lemma two_filter {A} (f : A -> bool) (l : list A) : (2 <= List.length (filter f l))%nat ->
  forall p, exists q v, q <> p /\ nth_error l q = Some v /\ f v = true.
Proof.
  induction l as [|x l IH]; simpl; [lia|]. intros H p. destruct (f x) eqn:E.
  - destruct p as [|p].
    + simpl in H. destruct (filter f l) as [|y r] eqn:F; [simpl in H; lia|].
      assert (In y (filter f l)) by (rewrite F; left; reflexivity). apply filter_In in H0 as [H0 H1].
      apply In_nth_error in H0 as (q & Hq). exists (S q), y. auto.
    + exists O, x. auto.
  - destruct p as [|p].
    + destruct (IH H (List.length l)) as (q & v & _ & Hq & Hv). exists (S q), v. auto.
    + destruct (IH H p) as (q & v & N & Hq & Hv). exists (S q), v. auto.
Qed.
Lemma filter_two {A} (f : A -> bool) (l : list A) p q v w : (p < q)%nat -> nth_error l p = Some v -> nth_error l q = Some w ->
  f v = true -> f w = true -> (2 <= List.length (filter f l))%nat.
Proof.
  revert p q. induction l as [|x l IH]; intros p q L Hp Hq Fv Fw; [destruct p; discriminate|].
  destruct q as [|q]; [lia|]. destruct p as [|p].
  - injection Hp as ->. simpl. rewrite Fv. simpl. simpl in Hq. apply nth_error_In in Hq.
    assert (In w (filter f l)) by (apply filter_In; auto). destruct (filter f l); [elim H|simpl; lia].
  - simpl in *. specialize (IH p q ltac:(lia) Hp Hq Fv Fw). destruct (f x); simpl; lia.
Qed.

(* ---------------------------------------------------------------- *)
(** straight-line bodies neither break nor return *)
Lemma straight_exits : (forall n, nstraight n = true -> nbrk n = false /\ nret n = false) /\
  (forall s, straight s = true -> sbrk s = false /\ sret s = false) /\ (forall b : brs, True).
Proof.
  apply ir_mind; simpl; auto; try discriminate. intros n IHn a r IHr H. apply andb_prop in H as [H1 H2].
  destruct (IHn H1) as (-> & ->), (IHr H2) as (-> & ->). auto.
Qed.

(** the value a constant scalar has after one iteration *)
Section ConstScalar.
  Variable I : nat -> list Z -> option Z.
  Variable x : string.
  Definition isw (a : access) : bool := match a with Wr u => String.eqb (fst u) x | _ => false end.
  Definition nw (l : list access) : nat := List.length (filter isw l).
  Definition fx (a : assigns) : assigns := filter (fun xe => String.eqb (fst xe) x) a.
  Lemma nw_app l1 l2 : nw (l1 ++ l2) = (nw l1 + nw l2)%nat.
  Proof. unfold nw. rewrite filter_app, app_length. reflexivity. Qed.
  Lemma fx_app a b : fx (a ++ b) = fx a ++ fx b. Proof. unfold fx. apply filter_app. Qed.
  Lemma nw_rd l : forallb is_rd l = true -> nw l = O.
  Proof.
    unfold nw. induction l as [|a l IH]; simpl; [reflexivity|]. intros H. apply andb_prop in H as [H1 H2]. destruct a; try discriminate; simpl; auto.
  Qed.
  Lemma nw_asg a : nw (asg_acc a) = List.length (fx a).
  Proof.
    unfold asg_acc. rewrite nw_app, nw_rd.
    - unfold nw, fx. simpl. induction a as [|[y e] a IH]; simpl; [reflexivity|]. destruct (String.eqb y x); simpl; auto.
    - induction a as [|[y e] a IH]; simpl; [reflexivity|]. rewrite forallb_app, IH, andb_true_r. clear. induction (atoms e); simpl; auto.
  Qed.
  Lemma nw_block b : nw (concat (map op_acc b)) = O -> ~ In x (map o_out b).
  Proof.
    induction b as [|o b IH]; simpl; [auto|]. rewrite nw_app. unfold op_acc at 1. rewrite !nw_app. intros H [Q|Q]; [|apply IH in Q; [exact Q|lia]].
    assert (nw [Wr (o_out o, o_sub o)] = 1%nat) by (unfold nw; simpl; rewrite Q, String.eqb_refl; reflexivity). lia.
  Qed.
  Lemma fx_nil a : fx a = [] -> ~ In x (map fst a).
  Proof.
    induction a as [|[y e] a IH]; simpl; [auto|]. destruct (String.eqb_spec y x); [discriminate|]. intros H [Q|Q]; [auto|]. apply IH; auto.
  Qed.
  Lemma nw_bounds : (forall n, nstraight n = true -> (List.length (fx (nasgs n)) <= nw (nacc n))%nat /\ (nw (nacc n) = O -> ~ In x (nwrites n))) /\
    (forall s, straight s = true -> (List.length (fx (sasgs s)) <= nw (sacc s))%nat /\ (nw (sacc s) = O -> ~ In x (swrites s))) /\ (forall b : brs, True).
  Proof.
    apply ir_mind; simpl; auto; try discriminate.
    - intros b _. split; [lia|]. apply nw_block.
    - intros n IHn a r IHr H. apply andb_prop in H as [H1 H2]. destruct (IHn H1) as [A1 A2], (IHr H2) as [B1 B2].
      rewrite !fx_app, !app_length, !nw_app, nw_asg. split; [lia|]. intros Z. rewrite !in_app_iff.
      assert (fx a = []) by (destruct (fx a); [reflexivity|simpl in Z; lia]).
      intros [Q|[Q|Q]]; [apply A2 in Q; [auto|lia]|apply fx_nil in Q; auto|apply B2 in Q; [auto|lia]].
  Qed.
  Lemma asg_frame a : ~ In x (map fst a) -> forall s s', exec_assigns s a = Some s' -> s' x [] = s x [].
  Proof.
    induction a as [|[y e] a IH]; simpl; intros F s s' H; [congruence|]. destruct (eval (env_of s) e) as [v|]; [|discriminate].
    rewrite (IH ltac:(intros Q; apply F; right; exact Q) _ _ H). apply wr_other. intros [Q _]. apply F. left. exact Q.
  Qed.
  Lemma asg_const a y z : fx a = [(y, EInt z)] -> forall st st', exec_assigns st a = Some st' -> st' x [] = z.
  Proof.
    induction a as [|[y' e] a IH]; [discriminate|]. unfold fx in *. cbn [filter fst exec_assigns]. intros F st st' H.
    destruct (eval (env_of st) e) as [v|] eqn:E; [|discriminate]. destruct (String.eqb_spec y' x) as [Qy|N].
    - subst y'. assert (Q1: (x, e) = (y, EInt z)) by congruence. assert (Q2: fx a = []) by (unfold fx; congruence).
      injection Q1 as Q1 Q3. subst e. assert (v = z) as -> by (cbn in E; congruence).
      rewrite (asg_frame a (fx_nil a Q2) _ _ H). apply wr_same.
    - eapply IH; eauto.
  Qed.
  Lemma const_final : (forall n, nstraight n = true -> nw (nacc n) = 1%nat -> forall y z, fx (nasgs n) = [(y, EInt z)] -> forall st o st', run I n st o st' -> st' x [] = z) /\
    (forall s, straight s = true -> nw (sacc s) = 1%nat -> forall y z, fx (sasgs s) = [(y, EInt z)] -> forall st o st', runs I s st o st' -> st' x [] = z) /\ (forall b : brs, True).
  Proof.
    apply ir_mind; simpl; auto; try discriminate.
    - intros s IH H1 H2 y z F st o st' R. inversion R; subst. eapply IH; eauto.
    - intros n IHn a r IHr H N y z F st o st' R. apply andb_prop in H as [H1 H2].
      rewrite !nw_app, nw_asg in N. rewrite !fx_app in F.
      destruct (proj1 nw_bounds n H1) as [A1 A2]. destruct (proj1 (proj2 nw_bounds) r H2) as [B1 B2].
      destruct (proj1 straight_exits n H1) as (Bn & Rn).
      inversion R; subst.
      + match goal with H : run _ n _ _ _ |- _ => rename H into R1 end. match goal with H : runs _ r _ _ _ |- _ => rename H into R2 end.
        match goal with H : exec_assigns _ _ = _ |- _ => rename H into R3 end.
        destruct (fx (nasgs n)) as [|p1 l1] eqn:F1; [destruct (fx a) as [|p2 l2] eqn:F2|].
        * simpl in F. rewrite F in B1. simpl in B1. eapply IHr; eauto. simpl in N. lia.
        * simpl in F. injection F as -> F. apply app_eq_nil in F as [-> F]. simpl in N.
          rewrite (runs_writes I _ _ _ _ x [] R2); [|apply B2; lia]. eapply asg_const; eauto.
        * simpl in F. injection F as -> F. apply app_eq_nil in F as [-> F]. apply app_eq_nil in F as [F2 F]. simpl in A1. rewrite F2 in *. simpl in N.
          rewrite (runs_writes I _ _ _ _ x [] R2); [|apply B2; lia].
          pose proof (asg_frame a (fx_nil a F2)) as Q.
          rewrite (Q _ _ R3). eapply IHn; eauto. lia.
      + exfalso. match goal with H : run _ n _ _ _, K : o <> ONorm |- _ => rename H into R1; rename K into K1 end.
        clear - R1 K1 H1. revert K1. assert (o = ONorm); [|auto].
        revert H1 R1. revert st o st'. assert (G: (forall n, nstraight n = true -> forall st o st', run I n st o st' -> o = ONorm) /\
          (forall s, straight s = true -> forall st o st', runs I s st o st' -> o = ONorm) /\ (forall b : brs, True)).
        { apply ir_mind; simpl; auto; try discriminate.
          - intros b _ st o st' R. inversion R; auto.
          - intros s IH H st o st' R. inversion R; subst. eauto.
          - intros _ st o st' R. inversion R; auto.
          - intros m IHm a r IHr H st o st' R. apply andb_prop in H as [G1 G2]. inversion R; subst; [eauto|]. exfalso. match goal with K : ?o <> ONorm |- _ => apply K end. eapply IHm; eauto. }
        intros st o st' H1 R1. eapply (proj1 G); eauto.
  Qed.
End ConstScalar.

(** logged writes are to written containers *)
Lemma block_writes I bl : forall st x e j, In (Ev true x e j) (block_trace I st bl) -> In x (map o_out bl).
Proof.
  induction bl as [|p bl IH]; simpl; intros st x e j H; [elim H|].
  apply in_app_iff in H as [H|H].
  - left. unfold op_trace in H. rewrite !in_app_iff in H. destruct H as [H|[H|H]].
    + exfalso. apply (nowr_operands st (o_ins p) x j). exists e. exact H.
    + apply rds_events in H as (? & _). discriminate.
    + destruct (evals _ _); [|elim H]. destruct H as [H|[]]. congruence.
  - right. destruct (exec_op I st p); [eapply IH; eauto|elim H].
Qed.
Lemma trace_writes I : (forall n st o st' T, runT I n st o st' T -> forall x e j, In (Ev true x e j) T -> In x (nwrites n)) /\
  (forall s st o st' T, runsT I s st o st' T -> forall x e j, In (Ev true x e j) T -> In x (swrites s)) /\
  (forall b st o st' T, runbT I b st o st' T -> forall x e j, In (Ev true x e j) T -> In x (bwrites b)) /\
  (forall s st o st' T, runwT I s st o st' T -> forall x e j, In (Ev true x e j) T -> In x (swrites s)) /\
  (forall k c u s st o st' T, runlT I k c u s st o st' T -> forall x e j, In (Ev true x e j) T -> k = x \/ In x (swrites s)).
Proof.
  apply runT_mind; simpl; intros; try (match goal with H : In _ _ |- _ => rewrite ?in_app_iff in H; simpl in H end);
    repeat match goal with H : _ \/ _ |- _ => destruct H | H : False |- _ => elim H end; try discriminate;
    try match goal with H : Ev _ _ _ _ = Ev _ _ _ _ |- _ => injection H as <- <- <- end;
    try match goal with H : In _ (rds _) |- _ => apply rds_events in H as (? & _); discriminate end;
    try match goal with H : In _ (asg_trace _) |- _ => apply asg_events in H as (_ & _ & ?) end;
    rewrite ?in_app_iff; eauto using block_writes; try tauto.
Qed.

(* ---------------------------------------------------------------- *)
Section Accepted.
  Variables (O : oracle) (sc locals : string -> bool) (A : assumptions) (I : nat -> list Z -> option Z)
    (i : string) (init : expr) (c : cond) (u : expr) (body : seq) (q : node).
  Hypothesis ACC : for2map O sc locals A (NLoop KFor i init c u body) = Some q.
  Hypothesis WT : wt_body sc body.
  Hypothesis SI : sc i = true.
  Hypothesis STB : stable i c u body.

  Let ST : straight body = true.
  Proof.
    unfold for2map in ACC. destruct (straight body); [reflexivity|]. rewrite andb_false_r in ACC. discriminate.
  Qed.
  Let RW : forall x, reported_rw O sc body u x = false.
  Proof.
    intros x. destruct (reported_rw O sc body u x) eqn:E; [|reflexivity]. exfalso. unfold for2map in ACC.
    destruct (series_is_monotonic u i A); [|discriminate]. rewrite ST in ACC. simpl in ACC.
    destruct (forallb (fun x => negb (reported_rw O sc body u x)) (map fst (fst (loop_state O sc body u)))) eqn:F; [|discriminate].
    rewrite forallb_forall in F. assert (H: In x (map fst (fst (loop_state O sc body u)))).
    { unfold reported_rw, dep_rw in E. apply existsb_exists in E as (r & Hr & Q). apply andb_prop in Q as [Q _]. apply String.eqb_eq in Q. subst. apply in_map. exact Hr. }
    specialize (F x H). rewrite E in F. discriminate.
  Qed.
  Let WW : forall x, reported O sc body u x = true -> locals x = true \/ const_scalar sc body x = true.
  Proof.
    intros x E. unfold for2map in ACC. destruct (series_is_monotonic u i A); [|discriminate]. rewrite ST in ACC. simpl in ACC.
    destruct (forallb (fun x => negb (reported_rw O sc body u x)) (map fst (fst (loop_state O sc body u)))); [|discriminate].
    destruct (forallb (fun x => negb (reported O sc body u x) || locals x || const_scalar sc body x) (map fst (snd (loop_state O sc body u)))) eqn:F; [|discriminate].
    rewrite forallb_forall in F. assert (H: In x (map fst (snd (loop_state O sc body u)))).
    { pose proof (RW x) as Rx. unfold reported_rw in Rx. unfold reported in E. rewrite Rx in E. simpl in E. unfold dep_ww in E.
      apply existsb_exists in E as (r & Hr & Q). apply andb_prop in Q as [Q _]. apply String.eqb_eq in Q. subst. apply in_map. exact Hr. }
    specialize (F x H). rewrite E in F. simpl in F. apply orb_prop in F. exact F.
  Qed.

  (** the cells written by two iterations, and the loop variable *)
  Definition shared (its : list (Z * trace)) : pcell := fun x j =>
    (2 <=? List.length (filter (fun it => wrb (snd it) x j) its))%nat || (String.eqb i x && idx_eqb [] j).

  Lemma reads_i T x e j a o b : runsT I body a o b T -> In (Ev false x e j) T -> x = i -> j = [].
  Proof.
    intros R H ->. destruct WT as (W & _). clear WW RW.
    assert (G: (forall n, nstraight n = true -> forall st o st' T, runT I n st o st' T -> (forall a, In a (nacc n) -> wt_acc sc a) -> forall e j, In (Ev false i e j) T -> e = []) /\
      (forall s, straight s = true -> forall st o st' T, runsT I s st o st' T -> (forall a, In a (sacc s) -> wt_acc sc a) -> forall e j, In (Ev false i e j) T -> e = []) /\ (forall b : brs, True)).
    { apply ir_mind; simpl; auto; try discriminate.
      - intros bl _ st o1 st' T1 R1 W1 e1 j1. inversion R1; subst. clear R1. match goal with HX : exec_block _ _ _ = _ |- _ => clear HX end. revert st W1. induction bl as [|p bl IH]; simpl; intros st W1; [intros []|]. rewrite in_app_iff.
        intros [Q|Q].
        + unfold op_trace in Q. rewrite !in_app_iff in Q. destruct Q as [Q|[Q|Q]].
          * apply in_concat in Q as (t & Ht & Q). apply in_map_iff in Ht as (od & <- & Hod). apply operand_events in Q.
            specialize (W1 (Rd (i, e1))). simpl in W1. apply W1; [|exact SI]. apply in_or_app. left. unfold op_acc. apply in_or_app. left.
            apply in_concat. exists (in_acc od). split; [apply in_map; exact Hod|exact Q].
          * apply rds_events in Q. tauto.
          * destruct (evals (env_of st) (o_sub p)); simpl in Q; [destruct Q as [Q|[]]; discriminate|elim Q].
        + destruct (exec_op I st p) as [st1|]; [|elim Q]. eapply IH; [|exact Q]. intros a1 Ha1. apply W1. apply in_or_app. right. exact Ha1.
      - intros s IH H1 st o1 st' T1 R1. inversion R1; subst. eapply IH; eauto.
      - intros _ st o1 st' T1 R1 _ e1 j1. inversion R1; subst. intros [].
      - intros n IHn a1 r IHr H1 st o1 st' T1 R1 W1 e1 j1 Q. apply andb_prop in H1 as [H1 H2]. inversion R1; subst.
        + rewrite !in_app_iff in Q. destruct Q as [Q|[Q|Q]].
          * eapply IHn; eauto. intros; apply W1; rewrite !in_app_iff; auto.
          * apply asg_events in Q. tauto.
          * eapply IHr; eauto. intros; apply W1; rewrite !in_app_iff; auto.
        + eapply IHn; eauto. intros; apply W1; rewrite !in_app_iff; auto. }
    assert (e = []) by (eapply (proj1 (proj2 G)); eauto). subst. eapply (proj1 (proj2 (lab_run I))); eauto.
  Qed.

  Lemma iter_i it a b : inst1 I i body it a b -> (forall j, ~ exposed (snd it) i j) /\ (forall j, written (snd it) i j -> j = []).
  Proof.
    intros (T & o & E & Ho & R). rewrite E. split.
    - intros j. simpl. intros (N & X). apply exposed_read in X as (e & X). rewrite (reads_i _ _ _ _ _ _ _ R X eq_refl) in N. auto.
    - intros j H. apply written_cons in H as [(_ & _ & H)|H]; [auto|].
      exfalso. destruct (proj1 (proj2 (run_local I)) _ _ _ _ _ R) as (_ & _). destruct H as (e & H).
      apply (proj1 STB). exact (proj1 (proj2 (trace_writes I)) _ _ _ _ _ R _ _ _ H).
  Qed.

  Lemma its_all its : forall a m, iterL (inst1 I i body) its a m -> forall it, In it its -> exists x y, inst1 I i body it x y.
  Proof. intros a m L it H. eapply items_in; eauto. Qed.

  Lemma shared_good its a m : iterL (inst1 I i body) its a m -> oracle_ok O sc its ->
    Forall (fun it => private (shared its) (snd it)) its /\
    ForallOrdPairs (fun v w => no_conflict (shared its) (snd v) (snd w)) its.
  Proof.
    intros L OK. pose proof (deps_sound O sc I i u body ST WT its a m L OK) as DS.
    assert (RAW: forall p p' it it' x j, p <> p' -> nth_error its p = Some it -> nth_error its p' = Some it' -> exposed (snd it) x j -> written (snd it') x j -> False).
    { intros p p' it it' x j N Hp Hq X W. destruct (string_dec x i) as [->|Nx].
      - destruct (its_all its a m L it (nth_error_In _ _ Hp)) as (x1 & y1 & H1). apply (proj1 (iter_i it _ _ H1) j X).
      - destruct (DS p p' it it' x j N Hp Hq Nx) as [D1 _]. specialize (D1 X W). rewrite RW in D1. discriminate. }
    split.
    - rewrite Forall_forall. intros it Hit x j Px X. destruct (In_nth_error _ _ Hit) as (p & Hp).
      unfold shared in Px. apply orb_prop in Px as [Px|Px].
      + apply Nat.leb_le in Px. destruct (two_filter _ _ Px p) as (p' & it' & N & Hq & W). apply wrb_spec in W.
        eapply (RAW p p' it it'); eauto.
      + apply andb_prop in Px as [P1 P2]. apply String.eqb_eq in P1. subst x.
        destruct (its_all its a m L it Hit) as (x1 & y1 & H1). apply (proj1 (iter_i it _ _ H1) j X).
    - apply pairs_pos. intros p p' v w Lt Hp Hq x j Px. unfold shared in Px. apply orb_false_iff in Px as [Px _]. apply Nat.leb_gt in Px.
      split; [intros W; split|].
      + intros W'. pose proof (filter_two (fun it : Z * trace => wrb (snd it) x j) its p p' v w Lt Hp Hq) as F. simpl in F.
        rewrite !wrb_spec in F. specialize (F W W'). lia.
      + intros X. eapply (RAW p' p w v); eauto. lia.
      + intros W X. eapply (RAW p p' v w); eauto. lia.
  Qed.

  (** cells written by two iterations belong to accepted containers *)
  Lemma shared_names its a m x j : iterL (inst1 I i body) its a m -> oracle_ok O sc its -> shared its x j = true ->
    x = i \/ locals x = true \/ const_scalar sc body x = true.
  Proof.
    intros L OK Sx. destruct (string_dec x i) as [E|Nx]; [auto|right].
    unfold shared in Sx. apply orb_prop in Sx as [Sx|Sx]; [|apply andb_prop in Sx as [Sx _]; apply String.eqb_eq in Sx; congruence].
    apply Nat.leb_le in Sx.
    destruct (two_filter _ _ Sx (List.length its)) as (p & it & _ & Hp & W). destruct (two_filter _ _ Sx p) as (p' & it' & N & Hp' & W').
    apply wrb_spec in W, W'. destruct (deps_sound O sc I i u body ST WT its a m L OK p' p it' it x j N Hp' Hp Nx) as [_ D].
    exact (WW x (D W' W)).
  Qed.

  Lemma const_after x z y its : const_scalar sc body x = true -> fx x (sasgs body) = [(y, EInt z)] ->
    its <> [] -> forall a m, iterL (inst1 I i body) its a m -> m x [] = z.
  Proof.
    intros C F. induction its as [|it its IH]; intros N a m L; [congruence|]. destruct L as (b & H & L).
    destruct its as [|it2 its].
    - simpl in L. rewrite <- (steq_at _ _ x [] L). destruct H as (T & o & E & Ho & R). apply (proj1 (proj2 (trace_run I))) in R.
      unfold const_scalar in C. repeat (apply andb_prop in C as [C ?]). apply Nat.eqb_eq in H1.
      eapply (proj1 (proj2 (const_final I x))); eauto.
    - eapply IH; eauto. discriminate.
  Qed.

  Lemma raws_items vs : forall a m, iterL (raw I i body) vs a m -> exists its, map fst its = vs /\ iterL (inst1 I i body) its a m.
  Proof.
    induction vs as [|v vs IH]; intros a m H; [exists []; auto|]. destruct H as (b & (o & Ho & R) & H).
    destruct (IH _ _ H) as (its & E & L). apply (proj1 (proj2 (run_trace I))) in R as (T & R).
    exists ((v, Ev true i [] [] :: T) :: its). split; [simpl; rewrite E; reflexivity|]. exists b. split; [exists T, o; auto|exact L].
  Qed.
  Lemma items_raws its : forall a m, iterL (inst1 I i body) its a m -> iterL (raw I i body) (map fst its) a m.
  Proof.
    induction its as [|it its IH]; intros a m H; [exact H|]. destruct H as (b & (T & o & _ & Ho & R) & H). simpl. exists b. split; [|apply IH; exact H].
    exists o. split; [exact Ho|]. apply (proj1 (proj2 (trace_run I))) in R. exact R.
  Qed.
  Lemma perm_lift (its : list (Z * trace)) vs' : Permutation (map fst its) vs' -> exists its', map fst its' = vs' /\ Permutation its its'.
  Proof. intros H. apply Permutation_sym in H. destruct (Permutation_map_inv fst its H) as (l & E & P). exists l. split; [symmetry; exact E|exact P]. Qed.

  Theorem for2map_any_order st st' : run I (NLoop KFor i init c u body) st ONorm st' ->
    (forall its m, iterL (inst1 I i body) its st m -> (exists v e, eval (env_of st) init = Some v /\ trip (env_of st) i c u v (map fst its) e) -> oracle_ok O sc its) ->
    exists v vs e, eval (env_of st) init = Some v /\ trip (env_of st) i c u v vs e /\ st' i [] = e /\
      forall vs', Permutation vs vs' -> exists m, iterL (raw I i body) vs' st m /\ forall x j, x <> i -> locals x = false -> m x j = st' x j.
  Proof.
    intros R OK. inversion R; subst. match goal with H : runl _ _ _ _ _ _ _ _ |- _ => rename H into Rl end. match goal with H : eval _ init = Some ?v0 |- _ => rename H into Ev0; rename v0 into v1 end.
    destruct (proj1 (proj2 straight_exits) body ST) as (NB & NR).
    destruct (loop_iter I i c u body STB NB _ _ _ Rl) as (vs & b' & Tr & L & Eb).
    exists v1, vs, (st' i []). split; [exact Ev0|]. split; [exact Tr|]. split; [reflexivity|]. intros vs' Pm.
    destruct (raws_items _ _ _ L) as (its & E & Lt). subst vs.
    specialize (OK its b' Lt (ex_intro _ v1 (ex_intro _ _ (conj Ev0 Tr)))).
    destruct (shared_good its st b' Lt OK) as (G & NC). destruct (perm_lift its vs' Pm) as (its' & E' & Pm').
    destruct (permute (inst1 I i body) snd (shared its) (fun it a b => inst1_local I i body it a b) its its' Pm' G NC st b' st Lt (eqP_refl _ _)) as (m & Lm & Em).
    exists m. split; [rewrite <- E'; apply items_raws; exact Lm|]. intros x j Nx Lx.
    assert (Q: m x j = b' x j).
    { destruct (shared its x j) eqn:Sx; [|symmetry; apply Em; exact Sx].
      unfold shared in Sx. apply orb_prop in Sx as [Sx|Sx]; [|apply andb_prop in Sx as [Sx _]; apply String.eqb_eq in Sx; congruence].
      apply Nat.leb_le in Sx.
      destruct (two_filter _ _ Sx (List.length its)) as (p & it & _ & Hp & W). destruct (two_filter _ _ Sx p) as (p' & it' & N & Hp' & W').
      apply wrb_spec in W, W'. destruct (deps_sound O sc I i u body ST WT its st b' Lt OK p' p it' it x j N Hp' Hp Nx) as [_ D].
      destruct (WW x (D W' W)) as [Q|C]; [congruence|].
      assert (Hin: In it its) by (eapply nth_error_In; eauto).
      destruct (its_all its st b' Lt it Hin) as (x1 & y1 & H1).
      destruct (item_ainv O sc I i body ST WT it x1 y1 (proj1 OK it Hin) H1) as (T & ET & AI).
      assert (Wt: written T x j). { rewrite ET in W. apply written_cons in W as [(_ & Q & _)|W]; [congruence|exact W]. }
      pose proof C as C'. unfold const_scalar in C'. repeat (apply andb_prop in C' as [C' ?]).
      destruct (proj1 (proj2 AI) x j Wt) as (e & E1 & E2). pose proof (proj2 (proj2 (proj2 AI)) x e E1 C') as ->.
      destruct H1 as (T1 & o1 & ET1 & Ho & RT). assert (T1 = T) by congruence. subst T1.
      pose proof (proj1 (proj2 (lab_run I)) _ _ _ _ _ RT _ _ _ E2) as ->.
      change (filter (fun xe : string * expr => String.eqb (fst xe) x) (sasgs body)) with (fx x (sasgs body)) in H.
      destruct (fx x (sasgs body)) as [|[y ez] [|? ?]] eqn:F; try discriminate; destruct ez; try discriminate.
      rewrite (const_after x z y its' C F) with (a := st) (m := m); [|intros ->; apply Permutation_sym, Permutation_nil in Pm'; subst its; elim Hin|exact Lm].
      rewrite (const_after x z y its C F) with (a := st) (m := b'); [reflexivity|intros ->; elim Hin|exact Lt]. }
    rewrite Q, (steq_at _ _ x j Eb). symmetry. apply wr_other. intros [Z _]. auto.
  Qed.
End Accepted.
