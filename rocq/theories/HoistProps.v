(** C81: moving blocks out of conditionals and maps (opt/src/passes/offloading/
    code_motion/block_hoisting.cpp, modelled in Hoist.v). *)
From Verif Require Import Sym SymFacts Alloc AllocProofs AllocSim BlockSort BlockSortProofs BlockSortSim BlockSortProps Hoist.
Open Scope string_scope.
Open Scope list_scope.
Open Scope Z_scope.

Lemma equal_ins_eq a b : equal_ins a b = true -> a = b.
Proof.
  destruct a as [| | |y x e|x k n| |x v n], b as [| | |y' x' e'|x' k' n'| |x' v' n']; simpl; try discriminate; try (destruct k; discriminate).
  - rewrite !andb_true_iff, !String.eqb_eq, expr_eqb_eq. intros [[-> ->] ->]. reflexivity.
  - destruct k; [discriminate|]. destruct k'; [discriminate|]. rewrite andb_true_iff, String.eqb_eq, expr_eqb_eq. intros [-> ->]. reflexivity.
  - rewrite !andb_true_iff, !String.eqb_eq, !expr_eqb_eq. intros [[-> ->] ->]. reflexivity.
Qed.
(** The accesses the pass moves write no scalar. *)
Definition movable (a : ins) : Prop := match a with View _ _ _ | New _ Stack _ | Fill _ _ _ => True | _ => False end.
Lemma inv_movable i a : inv_view i a || inv_lib i a = true -> movable a.
Proof. destruct a as [| | | |x k n| |]; simpl; try discriminate; auto. destruct k; [discriminate|auto]. Qed.
Lemma movable_data a m m1 : movable a -> step a m m1 -> data m1 = data m.
Proof. intros V R. destruct R; try contradiction; reflexivity. Qed.
Lemma execs_blk1 a p m o m2 : execs (blk1 a :: p) m o m2 <-> exists m1, step a m m1 /\ execs p m1 o m2.
Proof.
  split.
  - intros R. inversion R as [|n0 tr0 p0 m0 ma mb o0 mc X1 X2 X3|n0 tr0 p0 m0 o0 ma X1 Ho]; subst.
    + inversion X1 as [l m0 m1 S| | | | | |]; subst. inversion X2; subst. apply steps1 in S. eauto.
    + inversion X1; subst. contradiction.
  - intros (m1 & A & B). apply (X_cons _ _ _ _ m1 m1); [constructor; apply steps1, A|constructor|exact B].
Qed.

(** *** Conditionals *)

(** A block that both branches start with runs before the conditional: exactly the same
    executions. *)
Theorem C81_if_front n a n' tr r m o m' : if_front n = Some (a, n') -> execs ((n, tr) :: r) m o m' <-> execs (blk1 a :: (n', tr) :: r) m o m'.
Proof.
  intros H. unfold if_front in H. destruct n as [| |c p q| | | |]; try discriminate.
  destruct p as [|[[l| | | | | |] t] p]; try discriminate. destruct l as [|a1 [|]]; try discriminate. destruct t; try discriminate.
  destruct q as [|[[l| | | | | |] t] q]; try discriminate. destruct l as [|b1 [|]]; try discriminate. destruct t; try discriminate.
  destruct ((inv_view None a1 || inv_lib None a1) && equal_ins a1 b1) eqn:G; [|discriminate]. injection H as <- <-.
  apply andb_true_iff in G as [G1 G2]. apply equal_ins_eq in G2. subst b1. apply inv_movable in G1.
  assert (K : forall m o m2, exec (NIf c (blk1 a1 :: p) (blk1 a1 :: q)) m o m2 <-> exists m1, step a1 m m1 /\ exec (NIf c p q) m1 o m2).
  { clear - G1. intros m o m2. split.
    - intros R. inversion R as [| |c0 p0 q0 m0 t o0 m1 Ec X| | | |]; subst.
      assert (Y : execs (blk1 a1 :: (if t then p else q)) m o m2) by (destruct t; exact X). apply execs_blk1 in Y as (m1 & A & B).
      exists m1. split; [exact A|]. apply X_if with t; [rewrite (movable_data _ _ _ G1 A); exact Ec|exact B].
    - intros (m1 & A & R). inversion R as [| |c0 p0 q0 m0 t o0 m3 Ec X| | | |]; subst. rewrite (movable_data _ _ _ G1 A) in Ec.
      apply X_if with t; [exact Ec|]. assert (Y : execs (blk1 a1 :: (if t then p else q)) m o m2) by (apply execs_blk1; eauto). destruct t; exact Y. }
  split.
  - intros R. apply execs_blk1. inversion R as [|n0 tr0 p0 m0 ma mb o0 mc X1 X2 X3|n0 tr0 p0 m0 o0 ma X1 Ho]; subst; apply K in X1 as (m1 & A & B); exists m1; (split; [exact A|]).
    + econstructor; eassumption.
    + apply X_exit; assumption.
  - intros R. apply execs_blk1 in R as (m1 & A & R). inversion R as [|n0 tr0 p0 m0 ma mb o0 mc X1 X2 X3|n0 tr0 p0 m0 o0 ma X1 Ho]; subst.
    + econstructor; [apply K; eauto|eassumption|eassumption].
    + apply X_exit; [apply K; eauto|exact Ho].
Qed.

Lemma step_put a y e m m1 m2 : movable a -> ~ In y (names1 a) -> step a m m1 -> step (Put y e) m1 m2 -> exists m1', step (Put y e) m m1' /\ step a m1' m2.
Proof.
  intros V N A P. inversion P as [y0 e0 m0 v Ev| | | | | |]; subst. rewrite (movable_data _ _ _ V A) in Ev. exists (set_data m y v). split; [constructor; exact Ev|].
  assert (K : forall f, (forall x, In x (atoms f) -> In x (names1 a)) -> eval (data (set_data m y v)) f = eval (data m) f).
  { intros f Hf. unfold eval. rewrite (ev_agree (data (set_data m y v)) (data m) f); [reflexivity|]. intros x Hx. simpl. apply AllocProofs.upd_other.
    intros E. subst x. exact (N (Hf y Hx)). }
  destruct A as [| | |w x f m b k j Ep Ej|x k n m z Ez Hz| |x g n m b k B z j Ep Eh Ez Ej Hk Hj Hs]; try contradiction.
  - change (set_data (set_ptr m w (b, k + j)) y v) with (set_ptr (set_data m y v) w (b, k + j)). constructor; [exact Ep|]. rewrite K; [exact Ej|]. simpl. auto.
  - change (set_data (alloc m x k z) y v) with (alloc (set_data m y v) x k z). constructor; [rewrite K; [exact Ez|simpl; auto]|exact Hz].
  - match goal with |- step _ _ (set_data (set_heap m b ?B') y v) => change (set_data (set_heap m b B') y v) with (set_heap (set_data m y v) b B') end.
    apply P_fill with (j := j); auto; (rewrite K; [assumption|intros w Hw; simpl; rewrite in_app_iff; auto]).
Qed.
Lemma step_put_back a y e m m1 m2 : movable a -> ~ In y (names1 a) -> step (Put y e) m m1 -> step a m1 m2 -> exists m1', step a m m1' /\ step (Put y e) m1' m2.
Proof.
  intros V N P A. inversion P as [y0 e0 m0 v Ev| | | | | |]; subst.
  assert (K : forall f, (forall x, In x (atoms f) -> In x (names1 a)) -> eval (data (set_data m y v)) f = eval (data m) f).
  { intros f Hf. unfold eval. rewrite (ev_agree (data (set_data m y v)) (data m) f); [reflexivity|]. intros x Hx. simpl. apply AllocProofs.upd_other.
    intros E. subst x. exact (N (Hf y Hx)). }
  inversion A as [| | |w x f m0 b k j Ep Ej|x k n m0 z Ez Hz| |x g n m0 b k B z j Ep Eh Ez Ej Hk Hj Hs]; subst; try contradiction.
  - exists (set_ptr m w (b, k + j)). split; [constructor; [exact Ep|rewrite <- K; [exact Ej|simpl; auto]]|]. match goal with |- step _ ?M _ => change (step (Put y e) M (set_data M y v)) end. apply P_put. exact Ev.
  - exists (alloc m x k z). split; [constructor; [rewrite <- K; [exact Ez|simpl; auto]|exact Hz]|]. match goal with |- step _ ?M _ => change (step (Put y e) M (set_data M y v)) end. apply P_put. exact Ev.
  - eexists. split; [apply P_fill with (b := b) (k := k) (B := B) (z := z) (j := j); auto; (rewrite <- K; [assumption|intros w Hw; simpl; rewrite in_app_iff; auto])|].
    match goal with |- step _ ?M _ => change (step (Put y e) M (set_data M y v)) end. apply P_put. exact Ev.
Qed.
(** the assignments of a transition, none to a container the block uses *)
Definition assigns_apart (a : ins) (tr : list ins) : Prop := forall i, In i tr -> exists y e, i = Put y e /\ ~ In y (names1 a).
Lemma steps_put a tr : movable a -> assigns_apart a tr -> forall m m2, (exists m1, step a m m1 /\ steps tr m1 m2) <-> (exists m1, steps tr m m1 /\ step a m1 m2).
Proof.
  intros V. induction tr as [|i tr IH]; intros D m m2.
  - split; intros (m1 & A & B).
    + inversion B; subst. exists m. split; [constructor|exact A].
    + inversion A; subst. exists m2. split; [exact B|constructor].
  - destruct (D i (or_introl eq_refl)) as (y & e & -> & N). assert (D2 : assigns_apart a tr) by (intros j Hj; apply D; right; exact Hj). split; intros (m1 & A & B).
    + inversion B as [|i0 l0 m0 mb mc P R]; subst. destruct (step_put _ _ _ _ _ _ V N A P) as (ma & P2 & A2).
      destruct (proj1 (IH D2 ma m2)) as (md & R2 & A3); [eauto|]. exists md. split; [econstructor; eassumption|exact A3].
    + inversion A as [|i0 l0 m0 mb mc P R]; subst. destruct (proj2 (IH D2 mb m2)) as (md & A2 & R2); [eauto|].
      destruct (step_put_back _ _ _ _ _ _ V N P A2) as (me & A3 & P2). exists me. split; [exact A3|econstructor; eassumption].
Qed.

(** A block that both branches end with runs after the conditional: the same
    executions, if the assignments of the conditional's transition, which now come
    first, do not change what the block uses. *)
Theorem C81_if_back_partial n a n' tr r m o m' : if_back n = Some (a, n') -> assigns_apart a tr ->
  execs ((n, tr) :: r) m o m' <-> execs ((n', tr) :: blk1 a :: r) m o m'.
Proof.
  intros H D. unfold if_back in H. destruct n as [| |c p q| | | |]; try discriminate.
  destruct (rev p) as [|[[l| | | | | |] t] p'] eqn:Ep; try discriminate. destruct l as [|a1 [|]]; try discriminate. destruct t; try discriminate.
  destruct (rev q) as [|[[l| | | | | |] t] q'] eqn:Eq; try discriminate. destruct l as [|b1 [|]]; try discriminate. destruct t; try discriminate.
  destruct (inv_lib None a1 && equal_ins a1 b1) eqn:G; [|discriminate]. injection H as <- <-.
  apply andb_true_iff in G as [G1 G2]. apply equal_ins_eq in G2. subst b1.
  assert (V : movable a1) by (apply (inv_movable None); rewrite G1; apply orb_true_r).
  apply (f_equal (@rev child)) in Ep, Eq. rewrite rev_involutive in Ep, Eq. simpl in Ep, Eq. subst p q.
  assert (L : forall p m o m2, execs (p ++ [(NBlk [a1], [])]) m o m2 <-> (exists m1, execs p m Nxt m1 /\ step a1 m1 m2 /\ o = Nxt) \/ (o <> Nxt /\ execs p m o m2)).
  { clear. intros p m o m2. rewrite execs_app. split; (intros [(m1 & A & B)|B]; [left|right; exact B]).
    - apply execs_blk1 in B as (m3 & B & C). inversion C; subst. eauto.
    - destruct B as [B ->]. exists m1. split; [exact A|]. apply execs_blk1. exists m2. split; [exact B|constructor]. }
  assert (K : forall m o m2, exec (NIf c (rev p' ++ [(NBlk [a1], [])]) (rev q' ++ [(NBlk [a1], [])])) m o m2 <->
    (exists m1, exec (NIf c (rev p') (rev q')) m Nxt m1 /\ step a1 m1 m2 /\ o = Nxt) \/ (o <> Nxt /\ exec (NIf c (rev p') (rev q')) m o m2)).
  { clear - L. intros m o m2. split.
    - intros R. inversion R as [| |c0 p0 q0 m0 t o0 m1 Ec X| | | |]; subst.
      assert (Y : execs ((if t then rev p' else rev q') ++ [(NBlk [a1], [])]) m o m2) by (destruct t; exact X). apply L in Y as [(m1 & A & B)|[Ho A]].
      + left. exists m1. split; [apply X_if with t; assumption|exact B].
      + right. split; [exact Ho|apply X_if with t; assumption].
    - intros [(m1 & R & A & ->)|[Ho R]]; inversion R as [| |c0 p0 q0 m0 t o0 m3 Ec X| | | |]; subst; apply X_if with t; try exact Ec;
        [assert (Y : execs ((if t then rev p' else rev q') ++ [(NBlk [a1], [])]) m Nxt m2) by (apply L; left; eauto)
        |assert (Y : execs ((if t then rev p' else rev q') ++ [(NBlk [a1], [])]) m o m2) by (apply L; right; auto)]; destruct t; exact Y. }
  split.
  - intros R. inversion R as [|n0 tr0 p0 m0 ma mb o0 mc X1 X2 X3|n0 tr0 p0 m0 o0 ma X1 Ho]; subst.
    + apply K in X1 as [(m1 & B & A & _)|[Ho _]]; [|contradiction]. destruct (proj1 (steps_put _ _ V D m1 mb)) as (m2 & R2 & A2); [eauto|].
      apply (X_cons _ _ _ _ m1 m2); [exact B|exact R2|]. apply execs_blk1. eauto.
    + apply K in X1 as [(m1 & _ & _ & ->)|[_ B]]; [contradiction|]. apply X_exit; assumption.
  - intros R. inversion R as [|n0 tr0 p0 m0 ma mb o0 mc X1 X2 X3|n0 tr0 p0 m0 o0 ma X1 Ho]; subst.
    + apply execs_blk1 in X3 as (m1 & A & X3). destruct (proj2 (steps_put _ _ V D ma m1)) as (m2 & A2 & R2); [eauto|].
      apply (X_cons _ _ _ _ m2 m1); [apply K; left; eauto|exact R2|exact X3].
    + apply X_exit; [apply K; right; auto|exact Ho].
Qed.

(** *** Maps *)

(** What no access changes, no execution changes. *)
Lemma exec_const {A} (f : machine -> A) (l : list ins) : (forall a m m1, In a l -> step a m m1 -> f m1 = f m) ->
  (forall n m o m1, exec n m o m1 -> incl (ins_of n) l -> f m1 = f m) /\
  (forall p m o m1, execs p m o m1 -> incl (accesses p) l -> f m1 = f m) /\
  (forall c u p m o m1, iter c u p m o m1 -> incl (u ++ accesses p) l -> f m1 = f m).
Proof.
  intros H. assert (S : forall k m m1, steps k m m1 -> incl k l -> f m1 = f m).
  { intros k m m1 R. induction R as [m|a k m m1 m2 R1 R2 IH]; intros J; [reflexivity|]. rewrite IH by (intros x Hx; apply J; right; exact Hx).
    apply (H a); [apply J; left; reflexivity|exact R1]. }
  apply exec_all; auto.
  - intros c p q m t o m1 _ _ IH J. apply IH. change (incl (accesses p ++ accesses q) l) in J. apply incl_app_inv in J as [J1 J2]. destruct t; assumption.
  - intros i c u p m m1 o m2 R _ IH J. change (incl (i ++ u ++ accesses p) l) in J. apply incl_app_inv in J as [J1 J2]. rewrite (IH J2). exact (S _ _ _ R J1).
  - intros n tr p m m1 m2 o m3 _ IH1 R _ IH2 J. cbn [accesses flat_map] in J. unfold insc in J. simpl in J. apply incl_app_inv in J as [J J3]. apply incl_app_inv in J as [J1 J2].
    rewrite (IH2 J3), (S _ _ _ R J2). exact (IH1 J1).
  - intros n tr p m o m1 _ IH _ J. cbn [accesses flat_map] in J. unfold insc in J. simpl in J. apply incl_app_inv in J as [J _]. apply incl_app_inv in J as [J _]. exact (IH J).
  - intros c u p m o1 m1 m2 o m3 _ _ IH1 _ R _ IH2 J. pose proof J as J0. apply incl_app_inv in J0 as [J1 J2]. rewrite (IH2 J), (S _ _ _ R J1). exact (IH1 J2).
  - intros c u p m m1 _ _ IH J. apply incl_app_inv in J as [_ J]. exact (IH J).
  - intros c u p m m1 _ _ IH J. apply incl_app_inv in J as [_ J]. exact (IH J).
Qed.
(** the scalar an access writes, the pointer it moves *)
Definition writes_scalar (z : string) (a : ins) : Prop := match a with Put y _ | Load y _ _ => y = z | _ => False end.
Definition moves (z : string) (a : ins) : Prop := match a with View y _ _ | New y _ _ => y = z | _ => False end.
Lemma const_data z a m m1 : ~ writes_scalar z a -> step a m m1 -> data m1 z = data m z.
Proof.
  intros N R. destruct R as [| | | | |x m m1 Q|]; simpl in *; auto; try (apply AllocProofs.upd_other; exact N). destruct Q. reflexivity.
Qed.
Lemma const_ptr z a m m1 : ~ moves z a -> step a m m1 -> ptr m1 z = ptr m z.
Proof.
  intros N R. destruct R as [| | | | |x m m1 Q|]; simpl in *; auto; try (apply AllocProofs.upd_other; exact N). destruct Q. reflexivity.
Qed.

(** A reference that a map starts with may be made before the map, if the map runs at
    least once and nothing else in it moves the reference, moves what it refers to or
    writes the scalars of its offset. *)
Theorem C81_map_front_view_partial maps n y x e n' tr r m o m' i e0 c i' u p : n = NLoop [Put i e0] c [Put i' u] p ->
  map_front maps n = Some (View y x e, n') ->
  (forall v, eval (data m) e0 = Some v -> cev (data (set_data m i v)) c = Some true) ->
  x <> y -> (forall a, In a (accesses (tl p)) -> ~ moves y a /\ ~ moves x a /\ forall z, In z (atoms e) -> ~ writes_scalar z a) ->
  execs ((n, tr) :: r) m o m' -> exists m'', execs (blk1 (View y x e) :: (n', tr) :: r) m o m'' /\ same_memory m' m''.
Proof.
  intros -> H First Nxy Body R. unfold map_front in H. destruct p as [|[[l| | | | | |] t] p]; try discriminate. destruct l as [|a1 [|]]; try discriminate. destruct t; try discriminate.
  destruct (String.eqb i i' && inb i maps && (inv_view (Some i) a1 || inv_lib (Some i) a1)) eqn:G; [|discriminate]. injection H as E1 E2. subst a1 n'.
  rewrite !andb_true_iff in G. destruct G as [[G1 _] G2]. apply String.eqb_eq in G1. subst i'. simpl in G2. rewrite orb_false_r in G2. apply negb_true_iff in G2.
  assert (Ni : ~ In i (atoms e)) by (intros K; apply (proj2 (uses_atoms e i)) in K; congruence). simpl tl in Body.
  set (U := [Put i u]).
  assert (HL : forall a, In a (U ++ accesses p) -> ~ moves y a /\ ~ moves x a /\ forall z, In z (atoms e) -> ~ writes_scalar z a).
  { intros a [<-|Ha]; [|exact (Body a Ha)]. simpl. repeat split; auto. intros z Hz <-. contradiction. }
  (* one memory runs the loop with the reference, the other without *)
  assert (K : forall c0 u0 p0 m o m', iter c0 u0 p0 m o m' -> u0 = U -> p0 = blk1 (View y x e) :: p -> forall mh b k j, ptr m x = Some (b, k) -> eval (data m) e = Some j ->
    (cev (data m) c0 = Some true \/ ptr m y = Some (b, k + j)) -> meq (set_ptr m y (b, k + j)) mh -> exists m'', iter c0 U p mh o m'' /\ meq m' m'').
  { clear - HL Nxy. intros c0 u0 p0 m o m' R. induction R as [c0 u0 p0 m Ec|c0 u0 p0 m o1 m1 m2 o m3 Ec R1 Ho R2 R3 IH|c0 u0 p0 m m1 Ec R1|c0 u0 p0 m m1 Ec R1]; intros -> -> mh b k j Px Ej T A.
    - exists mh. destruct T as [T|T]; [congruence|]. assert (A2 : meq m mh).
      { eapply agree_trans; [|exact A]. constructor; simpl; auto. intros z _. unfold Alloc.upd. destruct (String.eqb_spec y z) as [<-|]; auto. }
      split; [|exact A2]. apply T_stop. rewrite (cev_meq _ _ _ A2). exact Ec.
    - apply execs_blk1 in R1 as (ma & V & R1). inversion V as [| | |y0 x0 e1 m0 b' k' j' Ep' Ej'| | |]; subst. rewrite Px in Ep'. injection Ep' as <- <-. rewrite Ej in Ej'. injection Ej' as <-.
      assert (Ec2 : cev (data mh) c0 = Some true) by (rewrite (cev_meq _ _ _ A); exact Ec).
      destruct (proj1 (proj2 exec_meq) _ _ _ _ R1 _ A) as (m1h & S1 & A1). destruct (steps_meq _ _ _ _ R2 A1) as (m2h & S2 & A2).
      set (I1 := U ++ accesses p) in *.
      assert (Fp : forall z, (z = x \/ z = y) -> ptr m2 z = ptr (set_ptr m y (b, k + j)) z).
      { intros z Hz. assert (Cz : forall a q q1, In a I1 -> step a q q1 -> ptr q1 z = ptr q z) by (intros a q q1 Ha Q; apply (const_ptr z a); [destruct Hz as [->| ->]; apply HL, Ha|exact Q]).
        destruct (exec_const (fun q => ptr q z) I1 Cz) as (CN & CS & _). rewrite <- (CS _ _ _ _ R1) by (intros w Hw; apply in_app_iff; auto).
        apply (CN (NBlk U) m1 Nxt m2); [constructor; exact R2|]. intros w Hw. apply in_app_iff. left. exact Hw. }
      assert (Fd : forall z, In z (atoms e) -> data m2 z = data m z).
      { intros z Hz. assert (Cz : forall a q q1, In a I1 -> step a q q1 -> data q1 z = data q z) by (intros a q q1 Ha Q; apply (const_data z a); [apply HL; assumption|exact Q]).
        destruct (exec_const (fun q => data q z) I1 Cz) as (CN & CS & _). change (data m z) with (data (set_ptr m y (b, k + j)) z). rewrite <- (CS _ _ _ _ R1) by (intros w Hw; apply in_app_iff; auto).
        apply (CN (NBlk U) m1 Nxt m2); [constructor; exact R2|]. intros w Hw. apply in_app_iff. left. exact Hw. }
      assert (Py : ptr m2 y = Some (b, k + j)) by (rewrite Fp by auto; simpl; apply AllocProofs.upd_same).
      destruct (IH eq_refl eq_refl m2h b k j) as (m3h & S3 & A3).
      + rewrite Fp by auto. simpl. rewrite AllocProofs.upd_other by auto. exact Px.
      + unfold eval. rewrite (ev_agree (data m2) (data m) e); [exact Ej|]. intros z Hz. apply Fd, Hz.
      + right. exact Py.
      + eapply agree_trans; [|exact A2]. constructor; simpl; auto. intros z _. unfold Alloc.upd. destruct (String.eqb_spec y z) as [<-|]; auto.
      + exists m3h. split; [|exact A3]. eapply T_again; eassumption.
    - apply execs_blk1 in R1 as (ma & V & R1). inversion V as [| | |y0 x0 e1 m0 b' k' j' Ep' Ej'| | |]; subst. rewrite Px in Ep'. injection Ep' as <- <-. rewrite Ej in Ej'. injection Ej' as <-.
      destruct (proj1 (proj2 exec_meq) _ _ _ _ R1 _ A) as (m1h & S1 & A1). exists m1h. split; [|exact A1]. apply T_break; [rewrite (cev_meq _ _ _ A); exact Ec|exact S1].
    - apply execs_blk1 in R1 as (ma & V & R1). inversion V as [| | |y0 x0 e1 m0 b' k' j' Ep' Ej'| | |]; subst. rewrite Px in Ep'. injection Ep' as <- <-. rewrite Ej in Ej'. injection Ej' as <-.
      destruct (proj1 (proj2 exec_meq) _ _ _ _ R1 _ A) as (m1h & S1 & A1). exists m1h. split; [|exact A1]. apply T_return; [rewrite (cev_meq _ _ _ A); exact Ec|exact S1]. }
  assert (KN : forall m2, exec (NLoop [Put i e0] c U (blk1 (View y x e) :: p)) m o m2 \/ exec (NLoop [Put i e0] c U (blk1 (View y x e) :: p)) m Nxt m2 -> True) by auto. clear KN.
  assert (L : forall o m2, exec (NLoop [Put i e0] c U (blk1 (View y x e) :: p)) m o m2 ->
    exists m1 m2', step (View y x e) m m1 /\ exec (NLoop [Put i e0] c U p) m1 o m2' /\ meq m2 m2').
  { intros o2 m2 X. inversion X as [| | |i0 c0 u0 p0 m0 m1 o0 m3 R1 R2| | |]; subst. apply steps1 in R1. inversion R1 as [y0 e1 m0 v Ev| | | | | |]; subst.
    specialize (First v Ev). assert (Vw : exists b k j, ptr m x = Some (b, k) /\ eval (data m) e = Some j).
    { assert (G : exists ma, step (View y x e) (set_data m i v) ma).
      { inversion R2 as [c0 u0 p0 m0 Ec'|c0 u0 p0 m0 o3 ma mb o4 mc Ec' X1 Ho' X2 X3|c0 u0 p0 m0 ma Ec' X1|c0 u0 p0 m0 ma Ec' X1]; subst; [congruence| | |]; apply execs_blk1 in X1 as (md & V & _); eauto. }
      destruct G as (ma & V). inversion V as [| | |y0 x0 e1 m0 b k j Ep Ej| | |]; subst. exists b, k, j. split; [exact Ep|].
      unfold eval in *. rewrite (ev_agree (data (set_data m i v)) (data m) e) in Ej; [exact Ej|]. intros z Hz. simpl. apply AllocProofs.upd_other. intros E. subst z. contradiction. }
    destruct Vw as (b & k & j & Px & Ej).
    destruct (K _ _ _ _ _ _ R2 eq_refl eq_refl (set_data (set_ptr m y (b, k + j)) i v) b k j) as (m2' & S & A).
    - exact Px.
    - unfold eval. rewrite (ev_agree (data (set_data m i v)) (data m) e); [exact Ej|]. intros z Hz. simpl. apply AllocProofs.upd_other. intros E. subst z. contradiction.
    - left. exact First.
    - apply agree_refl.
    - exists (set_ptr m y (b, k + j)), m2'. split; [constructor; assumption|]. split; [|exact A]. econstructor; [|exact S]. apply steps1. constructor. exact Ev. }
  inversion R as [|n0 tr0 p0 m0 ma mb o0 mc X1 X2 X3|n0 tr0 p0 m0 o0 ma X1 Ho]; subst.
  - destruct (L _ _ X1) as (m1 & m2 & V & S & A). destruct (steps_meq _ _ _ _ X2 A) as (mb' & S2 & A2). destruct (proj1 (proj2 exec_meq) _ _ _ _ X3 _ A2) as (mc' & S3 & A3).
    exists mc'. split; [|apply meq_same, A3]. apply execs_blk1. exists m1. split; [exact V|]. econstructor; eassumption.
  - destruct (L _ _ X1) as (m1 & m2 & V & S & A). exists m2. split; [|apply meq_same, A]. apply execs_blk1. exists m1. split; [exact V|]. apply X_exit; assumption.
Qed.

(** *** Conditionals anywhere in a program *)
Inductive if_hoisted : list child -> list child -> Prop :=
| HI_front n a n' tr r : if_front n = Some (a, n') -> if_hoisted ((n, tr) :: r) (blk1 a :: (n', tr) :: r)
| HI_back n a n' tr r : if_back n = Some (a, n') -> assigns_apart a tr -> if_hoisted ((n, tr) :: r) ((n', tr) :: blk1 a :: r)
| HI_later c p q : if_hoisted p q -> if_hoisted (c :: p) (c :: q)
| HI_seq p q tr r : if_hoisted p q -> if_hoisted ((NSeq p, tr) :: r) ((NSeq q, tr) :: r)
| HI_then c p q s tr r : if_hoisted p q -> if_hoisted ((NIf c p s, tr) :: r) ((NIf c q s, tr) :: r)
| HI_else c p q s tr r : if_hoisted p q -> if_hoisted ((NIf c s p, tr) :: r) ((NIf c s q, tr) :: r)
| HI_loop i c u p q tr r : if_hoisted p q -> if_hoisted ((NLoop i c u p, tr) :: r) ((NLoop i c u q, tr) :: r)
| HI_more p q s : if_hoisted p q -> if_hoisted q s -> if_hoisted p s.
Definition same_execs (p q : list child) : Prop := forall m o m', execs p m o m' <-> execs q m o m'.
Lemma same_node n n' tr r : (forall m o m', exec n m o m' <-> exec n' m o m') -> same_execs ((n, tr) :: r) ((n', tr) :: r).
Proof.
  intros H m o m'. split; intros R; inversion R as [|n0 tr0 p0 m0 ma mb o0 mc X1 X2 X3|n0 tr0 p0 m0 o0 ma X1 Ho]; subst;
    first [apply (X_cons _ _ _ _ ma mb); [apply H; assumption|assumption|assumption]|apply X_exit; [apply H; assumption|assumption]].
Qed.
Lemma same_iter c u p q : same_execs p q -> forall m o m', iter c u p m o m' -> iter c u q m o m'.
Proof.
  intros H m o m' R. induction R as [c u p m Ec|c u p m o1 m1 m2 o m3 Ec R1 Ho R2 R3 IH|c u p m m1 Ec R1|c u p m m1 Ec R1].
  - apply T_stop. exact Ec.
  - eapply T_again; [exact Ec|apply H; exact R1|exact Ho|exact R2|apply IH; exact H].
  - apply T_break; [exact Ec|apply H; exact R1].
  - apply T_return; [exact Ec|apply H; exact R1].
Qed.
Theorem C81_if_anywhere_partial p q m o m' : if_hoisted p q -> execs p m o m' <-> execs q m o m'.
Proof.
  intros H. assert (K : same_execs p q); [|apply K]. clear m o m'. induction H as [n a n' tr r E|n a n' tr r E D|[n tr] p q H IH|p q tr r H IH|c p q s tr r H IH|c p q s tr r H IH|i c u p q tr r H IH|p q s H1 IH1 H2 IH2].
  - intros m o m'. apply C81_if_front. exact E.
  - intros m o m'. apply C81_if_back_partial; assumption.
  - intros m o m'. split; intros R; inversion R as [|n0 tr0 p0 m0 ma mb o0 mc X1 X2 X3|n0 tr0 p0 m0 o0 ma X1 Ho]; subst;
      first [apply (X_cons _ _ _ _ ma mb); [assumption|assumption|apply IH; assumption]|apply X_exit; assumption].
  - apply same_node. intros m o m'. split; intros R; inversion R; subst; constructor; apply IH; assumption.
  - apply same_node. intros m o m'. split; intros R; inversion R as [| |c0 p0 q0 m0 t o0 m3 Ec X| | | |]; subst; apply X_if with t; try exact Ec; destruct t; [apply IH; exact X|exact X|apply IH; exact X|exact X].
  - apply same_node. intros m o m'. split; intros R; inversion R as [| |c0 p0 q0 m0 t o0 m3 Ec X| | | |]; subst; apply X_if with t; try exact Ec; destruct t; [exact X|apply IH; exact X|exact X|apply IH; exact X].
  - assert (IH' : same_execs q p) by (intros a b d; symmetry; apply IH).
    apply same_node. intros m o m'. split; intros R; inversion R as [| | |i0 c0 u0 p0 m0 m1 o0 m3 R1 R2| | |]; subst;
      (eapply X_loop; [eassumption|]; eapply same_iter; [|eassumption]; assumption).
  - intros m o m'. rewrite (IH1 m o m'). apply IH2.
Qed.

(** *** Where the pass changes the result *)
Definition idx (e : expr) : cond := CLt (ESym "i") e.
Definition loop (n : Z) (p : list child) : node := NLoop [Put "i" (EInt 0)] (idx (EInt n)) [Put "i" (EAdd [ESym "i"; EInt 1])] p.
Definition c81_m (n : Z) : machine :=
  Mc (fun y => if String.eqb y "n" then n else 0)
     (fun y => if String.eqb y "x" then Some (("x", O), 0) else if String.eqb y "z" then Some (("z", O), 0) else if String.eqb y "p" then Some (("x", O), 0) else None)
     (fun b => if String.eqb (fst b) "x" then Some (Buf Heap 8 (fun i => Some 5)) else if String.eqb (fst b) "z" then Some (Buf Heap 8 (fun i => Some 9)) else None)
     (fun y => 1%nat).
Ltac at0 := exists 0, 0; split; [reflexivity|]; split; [reflexivity|]; split; [reflexivity|]; split; [reflexivity|simpl; lia].
Ltac blk_ t := apply execs_blk1; eexists; split; [t|].

(** A map that does not run: for (i = 0; i < 0; i++) p = &z[0]; s = p[0] reads x[0] = 5
    through p, the transformed program z[0] = 9. *)
Definition c81_zero : node := loop 0 [blk1 (View "p" "z" (EInt 0))].
Theorem C81_empty_map_refuted : exists maps n tr r m m1 m2, execs ((n, tr) :: r) m Nxt m1 /\ execs (hoist maps (n, tr) ++ r) m Nxt m2 /\
  data m1 "s" = 5 /\ data m2 "s" = 9.
Proof.
  exists ["i"], c81_zero, [], [blk1 (Load "s" "p" (EInt 0))], (c81_m 0). eexists. eexists. split; [|split].
  - eapply X_cons; [eapply X_loop; [econstructor; [constructor; reflexivity|constructor]|apply T_stop; reflexivity]|constructor|].
    blk_ ltac:(eapply P_load; [at0|reflexivity]). constructor.
  - change (hoist ["i"] (c81_zero, []) ++ [blk1 (Load "s" "p" (EInt 0))]) with [blk1 (View "p" "z" (EInt 0)); (loop 0 [], []); blk1 (Load "s" "p" (EInt 0))].
    blk_ ltac:(eapply P_view; reflexivity).
    eapply X_cons; [eapply X_loop; [econstructor; [constructor; reflexivity|constructor]|apply T_stop; reflexivity]|constructor|].
    blk_ ltac:(eapply P_load; [at0|reflexivity]). constructor.
  - split; reflexivity.
Qed.

(** A memset of a buffer the rest of the map writes: for (i = 0; i < 2; i++) { memset(x,
    0, 1); s = x[0]; x[0] = 7; } leaves s = 0, the transformed program s = 7. *)
Definition c81_rest : list child := [blk1 (Load "s" "x" (EInt 0)); blk1 (Store "x" (EInt 0) (EInt 7))].
Definition c81_fill : node := loop 2 (blk1 (Fill "x" (EInt 0) (EInt 1)) :: c81_rest).
Ltac fill0 := eapply P_fill with (k := 0) (j := 1); [reflexivity|reflexivity|reflexivity|reflexivity|lia|lia|simpl; lia].
Ltac rest_ := blk_ ltac:(eapply P_load; [at0|reflexivity]); blk_ ltac:(eapply P_store; [at0|reflexivity]); constructor.
Ltac next_ := left; reflexivity.
Theorem C81_map_memset_refuted : exists maps n m m1 m2, execs [(n, [])] m Nxt m1 /\ execs (hoist maps (n, [])) m Nxt m2 /\ data m1 "s" = 0 /\ data m2 "s" = 7.
Proof.
  exists ["i"], c81_fill, (c81_m 0). eexists. eexists. split; [|split].
  - eapply X_cons; [eapply X_loop; [econstructor; [constructor; reflexivity|constructor]|]|constructor|constructor].
    eapply T_again with (o1 := Nxt); [reflexivity|blk_ fill0; rest_|next_|econstructor; [constructor; reflexivity|constructor]|].
    eapply T_again with (o1 := Nxt); [reflexivity|blk_ fill0; rest_|next_|econstructor; [constructor; reflexivity|constructor]|].
    apply T_stop. reflexivity.
  - change (hoist ["i"] (c81_fill, [])) with [blk1 (Fill "x" (EInt 0) (EInt 1)); (loop 2 c81_rest, [])]. blk_ fill0.
    eapply X_cons; [eapply X_loop; [econstructor; [constructor; reflexivity|constructor]|]|constructor|constructor].
    eapply T_again with (o1 := Nxt); [reflexivity|rest_|next_|econstructor; [constructor; reflexivity|constructor]|].
    eapply T_again with (o1 := Nxt); [reflexivity|rest_|next_|econstructor; [constructor; reflexivity|constructor]|].
    apply T_stop. reflexivity.
  - split; reflexivity.
Qed.

(** A memset the branches end with whose size the transition changes: if (c) memset(x,
    0, n) else memset(x, 0, n); n = 0; s = x[0]: the transformed program clears
    nothing. *)
Definition c81_if : node := NIf (CEq (ESym "c") (EInt 0)) [blk1 (Put "d" (EInt 1)); blk1 (Fill "x" (EInt 0) (ESym "n"))]
  [blk1 (Put "d" (EInt 2)); blk1 (Fill "x" (EInt 0) (ESym "n"))].
Theorem C81_if_back_transition_refuted : exists maps n tr r m m1 m2, execs ((n, tr) :: r) m Nxt m1 /\ execs (hoist maps (n, tr) ++ r) m Nxt m2 /\
  data m1 "s" = 0 /\ data m2 "s" = 5.
Proof.
  exists [], c81_if, [Put "n" (EInt 0)], [blk1 (Load "s" "x" (EInt 0))], (c81_m 1). eexists. eexists. split; [|split].
  - eapply X_cons; [apply X_if with true; [reflexivity|]|econstructor; [constructor; reflexivity|constructor]|].
    + blk_ ltac:(constructor; reflexivity). blk_ fill0. constructor.
    + blk_ ltac:(eapply P_load; [at0|reflexivity]). constructor.
  - change (hoist [] (c81_if, [Put "n" (EInt 0)]) ++ [blk1 (Load "s" "x" (EInt 0))]) with
      [(NIf (CEq (ESym "c") (EInt 0)) [blk1 (Put "d" (EInt 1))] [blk1 (Put "d" (EInt 2))], [Put "n" (EInt 0)]);
       blk1 (Fill "x" (EInt 0) (ESym "n")); blk1 (Load "s" "x" (EInt 0))].
    eapply X_cons; [apply X_if with true; [reflexivity|]|econstructor; [constructor; reflexivity|constructor]|].
    + blk_ ltac:(constructor; reflexivity). constructor.
    + blk_ ltac:(eapply P_fill with (k := 0) (j := 0); [reflexivity|reflexivity|reflexivity|reflexivity|lia|lia|simpl; lia]).
      blk_ ltac:(eapply P_load; [at0|reflexivity]). constructor.
  - split; reflexivity.
Qed.

(** A pointer the map advances from itself, p = &p[1], advances once. *)
Definition c81_walk : node := loop 2 [blk1 (View "p" "p" (EInt 1))].
Theorem C81_self_reference_refuted : exists maps n m m1 m2 b, execs [(n, [])] m Nxt m1 /\ execs (hoist maps (n, [])) m Nxt m2 /\
  ptr m1 "p" = Some (b, 2) /\ ptr m2 "p" = Some (b, 1).
Proof.
  exists ["i"], c81_walk, (c81_m 0). eexists. eexists. exists ("x", O). split; [|split].
  - eapply X_cons; [eapply X_loop; [econstructor; [constructor; reflexivity|constructor]|]|constructor|constructor].
    eapply T_again with (o1 := Nxt); [reflexivity|blk_ ltac:(eapply P_view; reflexivity); constructor|next_|econstructor; [constructor; reflexivity|constructor]|].
    eapply T_again with (o1 := Nxt); [reflexivity|blk_ ltac:(eapply P_view; reflexivity); constructor|next_|econstructor; [constructor; reflexivity|constructor]|].
    apply T_stop. reflexivity.
  - change (hoist ["i"] (c81_walk, [])) with [blk1 (View "p" "p" (EInt 1)); (loop 2 [], [])]. blk_ ltac:(eapply P_view; reflexivity).
    eapply X_cons; [eapply X_loop; [econstructor; [constructor; reflexivity|constructor]|]|constructor|constructor].
    eapply T_again with (o1 := Nxt); [reflexivity|constructor|next_|econstructor; [constructor; reflexivity|constructor]|].
    eapply T_again with (o1 := Nxt); [reflexivity|constructor|next_|econstructor; [constructor; reflexivity|constructor]|].
    apply T_stop. reflexivity.
  - split; reflexivity.
Qed.

(** The hypotheses are met: a conditional whose branches start with the same reference
    and end with the same memset, and a map that starts with a reference and runs
    twice. *)
Definition c81_both : node := NIf (CEq (ESym "c") (EInt 0))
  [blk1 (View "p" "z" (EInt 0)); blk1 (Load "s" "p" (EInt 0)); blk1 (Fill "x" (EInt 0) (EInt 1))] [blk1 (View "p" "z" (EInt 0)); blk1 (Fill "x" (EInt 0) (EInt 1))].
Definition c81_map : node := loop 2 [blk1 (View "p" "z" (EInt 0)); blk1 (Load "s" "p" (EInt 0))].
Theorem C81_hypotheses :
  hoist [] (c81_both, [Put "n" (EInt 0)]) =
    [blk1 (View "p" "z" (EInt 0)); (NIf (CEq (ESym "c") (EInt 0)) [blk1 (Load "s" "p" (EInt 0))] [], [Put "n" (EInt 0)]); blk1 (Fill "x" (EInt 0) (EInt 1))] /\
  assigns_apart (Fill "x" (EInt 0) (EInt 1)) [Put "n" (EInt 0)] /\
  (exists m1, execs [(c81_both, [Put "n" (EInt 0)])] (c81_m 1) Nxt m1 /\ data m1 "s" = 9) /\
  map_front ["i"] c81_map = Some (View "p" "z" (EInt 0), loop 2 [blk1 (Load "s" "p" (EInt 0))]) /\
  (forall v, eval (data (c81_m 0)) (EInt 0) = Some v -> cev (data (set_data (c81_m 0) "i" v)) (idx (EInt 2)) = Some true) /\
  (forall a, In a (accesses [blk1 (Load "s" "p" (EInt 0))]) -> ~ moves "p" a /\ ~ moves "z" a /\ forall z, In z (atoms (EInt 0)) -> ~ writes_scalar z a) /\
  (exists m1, execs [(c81_map, [])] (c81_m 0) Nxt m1 /\ data m1 "s" = 9).
Proof.
  split; [reflexivity|]. split; [|split; [|split; [|split; [|split]]]].
  - intros i [<-|[]]. exists "n", (EInt 0). split; [reflexivity|]. simpl. intros [H|[]]. discriminate.
  - eexists. split.
    + eapply X_cons; [apply X_if with true; [reflexivity|]|econstructor; [constructor; reflexivity|constructor]|constructor].
      blk_ ltac:(eapply P_view; reflexivity). blk_ ltac:(eapply P_load; [at0|reflexivity]). blk_ fill0. constructor.
    + reflexivity.
  - reflexivity.
  - intros v E. injection E as <-. reflexivity.
  - intros a [<-|[]]. simpl. auto.
  - eexists. split.
    + eapply X_cons; [eapply X_loop; [econstructor; [constructor; reflexivity|constructor]|]|constructor|constructor].
      eapply T_again with (o1 := Nxt); [reflexivity|blk_ ltac:(eapply P_view; reflexivity); blk_ ltac:(eapply P_load; [at0|reflexivity]); constructor|next_|econstructor; [constructor; reflexivity|constructor]|].
      eapply T_again with (o1 := Nxt); [reflexivity|blk_ ltac:(eapply P_view; reflexivity); blk_ ltac:(eapply P_load; [at0|reflexivity]); constructor|next_|econstructor; [constructor; reflexivity|constructor]|].
      apply T_stop. reflexivity.
    + reflexivity.
Qed.
