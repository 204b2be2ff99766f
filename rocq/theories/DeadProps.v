(** C50: DeadDataElimination preserves the program on everything observable. *)
From Verif Require Import Reach ReachProofs ReachProps DeadData PassCFGProps LoopProps.
From Coq Require Import Bool.
Open Scope string_scope.
Open Scope list_scope.
Open Scope Z_scope.

(** An execution that returns [r] ends with the read of [r]. *)
Lemma ret_last I :
  (forall p n st o st' T, runU I p n st o st' T -> forall r, o = ORet r -> exists T0 q, T = (T0 ++ [U q URet false r])%list) /\
  (forall q k s st o st' T, runsU I q k s st o st' T -> forall r, o = ORet r -> exists T0 q, T = (T0 ++ [U q URet false r])%list) /\
  (forall p k b st o st' T, runbU I p k b st o st' T -> forall r, o = ORet r -> exists T0 q, T = (T0 ++ [U q URet false r])%list) /\
  (forall p s st o st' T, runwU I p s st o st' T -> forall r, o = ORet r -> exists T0 q, T = (T0 ++ [U q URet false r])%list) /\
  (forall p i c u s st o st' T, runlU I p i c u s st o st' T -> forall r, o = ORet r -> exists T0 q, T = (T0 ++ [U q URet false r])%list).
Proof.
  assert (E: forall A T r, (exists T0 q, T = (T0 ++ [U q URet false r])%list) -> exists T0 q, (A ++ T)%list = (T0 ++ [U q URet false r])%list).
  { intros A T r (T0 & q & ->). exists (A ++ T0)%list, q. rewrite app_assoc. reflexivity. }
  apply runU_mind; try (intros; discriminate); try (intros; auto; fail).
  - intros p k i init c u s st v o st' T _ _ IH r Q. apply (E (rdU p UInit (atoms init))). apply (E [U p UInit true i]). auto.
  - intros p r0 st r Q. injection Q as ->. exists [], p. reflexivity.
  - intros p i c u s st o1 st1 v o st' T1 T2 _ _ _ _ _ _ IH r Q. apply E. apply E. apply E. apply (E [U p UUpd true i]). auto.
Qed.

Lemma dead_spec cfg pd dom cov last p w : dead cfg pd dom cov last p w = true ->
  u_w w = true /\ exists sc, cfg (u_x w) = Some sc /\ forall r, ~ reported (u_x w) sc pd dom cov last p w r.
Proof.
  unfold dead. destruct (cfg (u_x w)) as [sc|]; [|discriminate]. intros H. apply andb_true_iff in H as [H1 H2]. split; [exact H1|].
  exists sc. split; [reflexivity|]. unfold unread in H2. apply andb_true_iff in H2 as [_ H2]. rewrite forallb_forall in H2.
  intros r (d & Hd & E & Hr). pose proof (H2 d Hd) as Q. rewrite (proj2 (is_u_eq _ _) E) in Q. simpl in Q. destruct (d_r d); [destruct Hr|discriminate].
Qed.

(** [cfg x = None]: the container is observable (not transient) or not touched by the
    pass (views, moves, pointers).  A terminating execution of the program is
    an execution of the rewritten program with the same outcome, the same
    content of all these containers and the same returned value. *)
Theorem C50_dead_data_partial : forall I cfg pd dom cov last p st o st',
  pdomS I pd [] 0 p ->
  (forall x sc, cfg x = Some sc -> regular x sc p = true) ->
  (forall x, cfg x = Some true -> sscalar x p = true) ->
  runs I p st o st' ->
  exists st2, runs I (dead_data cfg pd dom cov last p) st o st2 /\
    (forall x j, cfg x = None -> st2 x j = st' x j) /\
    (forall r j, o = ORet r -> st2 r j = st' r j).
Proof.
  intros I cfg pd dom cov last p st o st' PD RG SC R. destruct (proj1 (proj2 (run_runU I)) _ _ _ _ R [] 0%nat) as (T & RT).
  set (dd := dead cfg pd dom cov last p).
  assert (DW: forall w, dd w = true -> u_w w = true /\ exists sc, cfg (u_x w) = Some sc).
  { intros w D. destruct (dead_spec _ _ _ _ _ _ _ D) as (W & sc & C & _). eauto. }
  assert (UN: unused cfg dd (([] ++ T)%list)).
  { intros w r sc D C K. destruct (dead_spec _ _ _ _ _ _ _ D) as (W & sc' & C' & N). rewrite C in C'. injection C' as <-.
    exact (C49_unread_definition_partial I (u_x w) sc pd dom cov last p w PD (RG _ _ C) N _ _ _ _ r RT K). }
  destruct (proj1 (proj2 (drop_sim I cfg dd DW)) _ _ _ _ _ _ _ RT [] st SC (fun x j => or_introl eq_refl) UN) as (st2 & R2 & RL).
  exists st2. split; [exact R2|]. split.
  - intros x j C. destruct (RL x j) as [E|[(w & A & B & _ & D & E & _) _]]; [auto|]. destruct (DW w D) as (_ & sc & Q). congruence.
  - intros r j ->. destruct (RL r j) as [E|[(w & A & B & E & D & X & K) _]]; [auto|exfalso].
    destruct (proj1 (proj2 (ret_last I)) _ _ _ _ _ _ _ RT r eq_refl) as (T0 & q & ET). simpl in E. rewrite ET in E.
    destruct (DW w D) as (W & sc & C). destruct B as [|b B] using rev_ind.
    + apply app_inj_tail in E as [_ E]. subst w. discriminate.
    + clear IHB. replace (A ++ w :: B ++ [b])%list with ((A ++ w :: B) ++ [b])%list in E by (rewrite <- app_assoc; reflexivity).
      apply app_inj_tail in E as [E <-]. apply (UN w (U q URet false r) sc D C). exists A, B, []. simpl. rewrite ET, E. split; [rewrite <- app_assoc; reflexivity|].
      split; [split; [exact W|reflexivity]|]. split; [split; [reflexivity|symmetry; exact X]|]. intros -> u Hu. rewrite X. apply K; [congruence|apply in_or_app; auto].
Qed.

(* ---------------------------------------------------------------- *)
(** * Deleted containers do not occur any more *)
Section Static.
  Variable x : string.
  (** the writes of [x] in the program text *)
  Fixpoint stOps (p : path) (j : nat) (b : block) : list user :=
    match b with [] => [] | o :: b' => (if String.eqb (o_out o) x then [U p (UOp j) true x] else []) ++ stOps p (S j) b' end.
  Definition stA (p : path) (a : assigns) : list user := if has x (map fst a) then [U p UAsg true x] else [].
  Fixpoint stN (p : path) (n : node) : list user :=
    match n with
    | NBlock b => stOps p 0 b
    | NSeq s => stS p 0 s
    | NIf bs => stB p 0 bs
    | NWhile s => stS (Body :: p) 0 s
    | NLoop _ i _ _ _ s => (if String.eqb i x then [U p UInit true x] else []) ++ stS (Body :: p) 0 s
    | NBreak | NContinue | NReturn _ => []
    end
  with stS (q : path) (k : nat) (s : seq) : list user :=
    match s with SNil => [] | SCons n a r => stN (Kid k :: q) n ++ stA (Kid k :: q) a ++ stS q (S k) r end
  with stB (p : path) (k : nat) (b : brs) : list user :=
    match b with BNil => [] | BCons _ s r => stS (Br k :: p) 0 s ++ stB p (S k) r end.
  Variables (sc : bool) (pd dom cov : user -> user -> bool) (last : list def -> bool).
  Notation vN := (visN x sc pd dom cov last).
  Notation vS := (visS x sc pd dom cov last).
  Notation vB := (visB x sc pd dom cov last).
  Lemma stOps_entry p b : forall j s w, In w (stOps p j b) -> entry (visOps x sc pd last p j b s) w.
  Proof.
    induction b as [|o b IH]; intros j s w H; [destruct H|]. simpl in H |- *. apply in_app_or in H as [H|H]; [|apply IH; exact H].
    destruct (String.eqb (o_out o) x); [|destruct H]. destruct H as [<-|[]]. apply grows_visOps. apply entry_wr1.
  Qed.
  Lemma st_entry :
    (forall n p s w, In w (stN p n) -> entry (vN p n s) w) /\
    (forall t q k s w, In w (stS q k t) -> entry (vS q k t s) w) /\
    (forall b p k w, In w (stB p k b) -> exists e, In e (vB p k b) /\ entry e w).
  Proof.
    apply ir_mind.
    - intros b p s w. apply stOps_entry.
    - intros t H p s w. apply H.
    - intros b H p s w Hw. apply merge_if_entry. left. exact (H p 0%nat w Hw).
    - intros t H p s w Hw. apply merge_while_entry. left. exact (H _ _ _ w Hw).
    - intros k i init c u t H p s w Hw. change (stN p (NLoop k i init c u t)) with ((if String.eqb i x then [U p UInit true x] else []) ++ stS (Body :: p) 0 t)%list in Hw.
      apply merge_for_entry. apply in_app_or in Hw as [Hw|Hw].
      + right. unfold loop_head. destruct (String.eqb i x); [|destruct Hw]. destruct Hw as [<-|[]].
        apply (grows_when (has x (catoms c))); [intros; apply grows_rd1|]. apply grows_open. apply entry_wr1.
      + left. apply grows_when; [intros; apply grows_rd1|]. exact (H _ _ _ w Hw).
    - intros p s w [].
    - intros p s w [].
    - intros r p s w [].
    - intros q k s w [].
    - intros n Hn a r Hr q k s w Hw. change (stS q k (SCons n a r)) with (stN (Kid k :: q) n ++ stA (Kid k :: q) a ++ stS q (S k) r)%list in Hw.
      change (entry (vS q (S k) r (visA x sc pd last (Kid k :: q) a (vN (Kid k :: q) n s))) w).
      apply in_app_or in Hw as [Hw|Hw]; [|apply in_app_or in Hw as [Hw|Hw]].
      + apply (proj1 (proj2 (grows_vis x sc pd dom cov last))). apply grows_visA. apply Hn. exact Hw.
      + apply (proj1 (proj2 (grows_vis x sc pd dom cov last))). unfold stA in Hw. unfold visA. destruct (has x (map fst a)); [|destruct Hw].
        destruct Hw as [<-|[]]. apply entry_wr1.
      + apply Hr. exact Hw.
    - intros p k w [].
    - intros c s Hs r Hr p k w Hw. change (stB p k (BCons c s r)) with (stS (Br k :: p) 0 s ++ stB p (S k) r)%list in Hw.
      apply in_app_or in Hw as [Hw|Hw].
      + exists (vS (Br k :: p) 0 s st_empty). split; [left; reflexivity|apply Hs; exact Hw].
      + destruct (Hr p (S k) w Hw) as (e & He & E). exists e. split; [right; exact He|exact E].
  Qed.
  (** no read of [x] in the text: no entry has a read *)
  Definition clean (s : rst) : Prop := und s = [] /\ forall d, In d (opn s ++ cls s) -> d_r d = [].
  Lemma clean_wr1 need u s : clean s -> clean (wr1 sc pd need u s).
  Proof.
    intros (H1 & H2). split; [exact H1|]. simpl. intros d [<-|Hd]; [reflexivity|]. apply H2. rewrite !in_app_iff, !filter_In in *. tauto.
  Qed.
  Lemma clean_ops p b : has x (block_reads b) = false -> forall j s, clean s -> clean (visOps x sc pd last p j b s).
  Proof.
    induction b as [|o b IH]; intros H j s C; [exact C|]. unfold block_reads in H. simpl in H. rewrite has_app in H. apply orb_false_iff in H as [H1 H2].
    simpl. apply IH; [exact H2|]. unfold op_uses. rewrite H1. simpl. unfold when. destruct (String.eqb (o_out o) x); [apply clean_wr1|]; exact C.
  Qed.
  Lemma clean_all :
    (forall n p s, has x (nreads n) = false -> clean s -> clean (vN p n s)) /\
    (forall t q k s, has x (sreads t) = false -> clean s -> clean (vS q k t s)) /\
    (forall b p k, has x (breads b) = false -> has x (concat (map catoms (bconds b))) = false /\ forall e, In e (vB p k b) -> clean e).
  Proof.
    assert (CE: clean st_empty) by (split; [reflexivity|intros d []]).
    apply ir_mind.
    - intros b p s H C. apply clean_ops; assumption.
    - intros t H p s K C. apply H; assumption.
    - intros b H p s K C. destruct (H p 0%nat K) as (Q & E). cbn [visN]. rewrite Q. simpl. change (clean (merge_if x last p (complete b) (vB p 0 b) s)).
      set (l := vB p 0 b) in *. assert (U0: concat (map und l) = []). { clearbody l. clear - E. induction l as [|e l IH]; [reflexivity|]. simpl. rewrite (proj1 (E e (or_introl eq_refl))). apply IH. intros e' He. apply E. right. exact He. }
      unfold merge_if. rewrite U0. simpl. destruct C as (C1 & C2).
      assert (OB: forall d, In d (concat (map opn l)) \/ In d (concat (map cls l)) -> d_r d = []).
      { intros d [Hd|Hd]; apply in_concat in Hd as (m & Hm & Hd); apply in_map_iff in Hm as (e & <- & He); apply (proj2 (E e He)); apply in_or_app; auto. }
      destruct (complete b); [destruct (cand l)|]; (split; [exact C1|]); simpl; intros d Hd; rewrite !in_app_iff in Hd.
      + destruct Hd as [Hd|[Hd|[Hd|Hd]]]; auto; apply C2; apply in_or_app; auto.
      + destruct Hd as [[Hd|Hd]|[Hd|Hd]]; auto; apply C2; apply in_or_app; auto.
      + destruct Hd as [[Hd|[Hd|Hd]]|[Hd|Hd]]; auto; try (apply C2; apply in_or_app; auto; fail). apply in_map_iff in Hd as (_ & <- & _). reflexivity.
    - intros t H p s K C. pose proof (H (Body :: p) 0%nat st_empty K CE) as (E1 & E2). cbn [visN]. change (clean (merge_while last (vS (Body :: p) 0 t st_empty) s)).
      unfold merge_while, carry. rewrite E1. simpl. destruct C as (C1 & C2). split; [exact C1|]. simpl. intros d Hd. rewrite !in_app_iff in Hd.
      destruct Hd as [[Hd|Hd]|[Hd|Hd]].
      + apply in_map_iff in Hd as (e & <- & He). simpl. apply E2. apply in_or_app. auto.
      + apply C2. apply in_or_app. auto.
      + apply E2. apply in_or_app. auto.
      + apply C2. apply in_or_app. auto.
    - intros k i init c u t H p s K C. cbn [nreads] in K. rewrite !has_app in K. apply orb_false_iff in K as [K1 K]. apply orb_false_iff in K as [K2 K]. apply orb_false_iff in K as [K3 K4].
      change (vN p (NLoop k i init c u t) s) with (merge_for sc pd dom cov last (when (has x (atoms u)) (rd1 last true (U p UUpd false x)) (vS (Body :: p) 0 t st_empty)) (loop_head x sc pd last p i init c s)).
      unfold loop_head. rewrite K1, K2, K3. unfold when at 1 2 4. pose proof (H (Body :: p) 0%nat st_empty K4 CE) as (E1 & E2). set (b := vS (Body :: p) 0 t st_empty) in *.
      set (s1 := when _ _ s). assert (C': clean s1). { unfold s1, when. destruct (String.eqb i x); [|exact C]. destruct (clean_wr1 true (U p UInit true x) s C) as (Q1 & Q2). split; [exact Q1|].
        intros d [<-|Hd]; [reflexivity|]. apply Q2. exact Hd. }
      unfold merge_for, carry. rewrite E1. simpl. destruct C' as (C1 & C2). split; [exact C1|]. simpl. intros d Hd. rewrite !in_app_iff in Hd.
      destruct Hd as [[Hd|Hd]|[Hd|[Hd|Hd]]].
      + apply in_map_iff in Hd as (e & <- & He). simpl. apply E2. apply in_or_app. auto.
      + apply filter_In in Hd as [Hd _]. apply C2. apply in_or_app. auto.
      + apply filter_In in Hd as [Hd _]. apply C2. apply in_or_app. auto.
      + apply E2. apply in_or_app. auto.
      + apply C2. apply in_or_app. auto.
    - intros p s _ C. exact C.
    - intros p s _ C. exact C.
    - intros r p s K (C1 & C2). cbn [visN]. simpl in K. rewrite orb_false_r in K. rewrite String.eqb_sym in K. rewrite K. simpl. split; [exact C1|exact C2].
    - intros q k s _ C. exact C.
    - intros n Hn a r Hr q k s K C. cbn [sreads] in K. rewrite !has_app in K. apply orb_false_iff in K as [K1 K]. apply orb_false_iff in K as [K2 K3].
      change (clean (vS q (S k) r (visA x sc pd last (Kid k :: q) a (vN (Kid k :: q) n s)))). apply Hr; [exact K3|]. unfold visA. rewrite K2. simpl.
      unfold when. destruct (has x (map fst a)); [apply clean_wr1|]; apply Hn; assumption.
    - intros p k _. split; [reflexivity|intros e []].
    - intros c s Hs r Hr p k K. cbn [breads] in K. rewrite !has_app in K. apply orb_false_iff in K as [K1 K]. apply orb_false_iff in K as [K2 K3].
      destruct (Hr p (S k) K3) as (Q & E). split; [simpl; rewrite has_app, K1; exact Q|].
      intros e [<-|He]; [apply Hs; assumption|apply E; exact He].
  Qed.
  (** what remains after dropping *)
  Variable dd : user -> bool.
  Definition stays (l : list user) : Prop := exists w, In w l /\ (dd w = false \/ u_el w = UInit).
  Lemma stays_l a b : stays a -> stays (a ++ b)%list. Proof. intros (w & H & K). exists w. split; [apply in_or_app; auto|exact K]. Qed.
  Lemma stays_r a b : stays b -> stays (a ++ b)%list. Proof. intros (w & H & K). exists w. split; [apply in_or_app; auto|exact K]. Qed.
  Lemma drop_ops p b : forall j, In x (map o_out (dropOps dd p j b)) -> stays (stOps p j b).
  Proof.
    induction b as [|o b IH]; intros j H; [destruct H|]. simpl in H |- *. destruct (dd (U p (UOp j) true (o_out o))) eqn:E.
    - apply stays_r. auto.
    - destruct H as [H|H]; [|apply stays_r; auto]. rewrite H, String.eqb_refl in *. exists (U p (UOp j) true x). split; [left; reflexivity|auto].
  Qed.
  Lemma drop_stays :
    (forall n p, In x (nwrites (dropN dd p n)) -> stays (stN p n)) /\
    (forall t q k, In x (swrites (dropS dd q k t)) -> stays (stS q k t)) /\
    (forall b p k, In x (bwrites (dropB dd p k b)) -> stays (stB p k b)).
  Proof.
    apply ir_mind.
    - intros b p. apply drop_ops.
    - intros t H p. apply H.
    - intros b H p. apply H.
    - intros t H p. apply H.
    - intros k i init c u t H p K. change (stays ((if String.eqb i x then [U p UInit true x] else []) ++ stS (Body :: p) 0 t)).
      destruct K as [->|K]; [|apply stays_r; apply H; exact K]. rewrite String.eqb_refl. exists (U p UInit true x). split; [left; reflexivity|auto].
    - intros p [].
    - intros p [].
    - intros r p [].
    - intros q k [].
    - intros n Hn a r Hr q k K. change (In x (nwrites (dropN dd (Kid k :: q) n) ++ map fst (dropA dd (Kid k :: q) a) ++ swrites (dropS dd q (S k) r))%list) in K.
      change (stays (stN (Kid k :: q) n ++ stA (Kid k :: q) a ++ stS q (S k) r)). apply in_app_or in K as [K|K]; [|apply in_app_or in K as [K|K]].
      + apply stays_l. apply Hn. exact K.
      + apply stays_r, stays_l. apply in_map_iff in K as ([y e] & E & K). simpl in E. subst y. apply filter_In in K as [K D]. apply negb_true_iff in D. simpl in D.
        exists (U (Kid k :: q) UAsg true x). split; [|auto]. unfold stA. replace (has x (map fst a)) with true; [left; reflexivity|]. symmetry. apply has_in. apply in_map_iff. exists (x, e). auto.
      + apply stays_r, stays_r. apply Hr. exact K.
    - intros p k [].
    - intros c s Hs r Hr p k K. change (In x (swrites (dropS dd (Br k :: p) 0 s) ++ bwrites (dropB dd p (S k) r))%list) in K.
      change (stays (stS (Br k :: p) 0 s ++ stB p (S k) r)). apply in_app_or in K as [K|K]; [apply stays_l, Hs|apply stays_r, Hr]; exact K.
  Qed.
  Lemma stOps_el p b : forall j w, In w (stOps p j b) -> u_w w = true /\ u_x w = x /\ u_el w <> UArt.
  Proof.
    induction b as [|o b IH]; intros j w H; [destruct H|]. simpl in H. apply in_app_or in H as [H|H]; [|eapply IH; exact H].
    destruct (String.eqb (o_out o) x); [|destruct H]. destruct H as [<-|[]]. simpl. repeat split; discriminate.
  Qed.
  Lemma st_el :
    (forall n p w, In w (stN p n) -> u_w w = true /\ u_x w = x /\ u_el w <> UArt) /\
    (forall t q k w, In w (stS q k t) -> u_w w = true /\ u_x w = x /\ u_el w <> UArt) /\
    (forall b p k w, In w (stB p k b) -> u_w w = true /\ u_x w = x /\ u_el w <> UArt).
  Proof.
    apply ir_mind; try (intros; auto; fail); try (intros; match goal with H : In _ _ |- _ => destruct H end; fail).
    - intros b p w. apply stOps_el.
    - intros t H p w. apply H.
    - intros t H p w. apply H.
    - intros t H p w. apply H.
    - intros k i init c u t H p w Hw. change (In w ((if String.eqb i x then [U p UInit true x] else []) ++ stS (Body :: p) 0 t)%list) in Hw.
      apply in_app_or in Hw as [Hw|Hw]; [|eapply H; exact Hw]. destruct (String.eqb i x); [|destruct Hw]. destruct Hw as [<-|[]]. simpl. repeat split; discriminate.
    - intros n Hn a r Hr q k w Hw. change (In w (stN (Kid k :: q) n ++ stA (Kid k :: q) a ++ stS q (S k) r)%list) in Hw.
      apply in_app_or in Hw as [Hw|Hw]; [eapply Hn; exact Hw|]. apply in_app_or in Hw as [Hw|Hw]; [|eapply Hr; exact Hw].
      unfold stA in Hw. destruct (has x (map fst a)); [|destruct Hw]. destruct Hw as [<-|[]]. simpl. repeat split; discriminate.
    - intros c s Hs r Hr p k w Hw. change (In w (stS (Br k :: p) 0 s ++ stB p (S k) r)%list) in Hw.
      apply in_app_or in Hw as [Hw|Hw]; [eapply Hs|eapply Hr]; exact Hw.
  Qed.
End Static.
Section DropReads.
  Variable dd : user -> bool.
  Lemma drop_ops_reads p b : forall j, incl (block_reads (dropOps dd p j b)) (block_reads b).
  Proof.
    induction b as [|o b IH]; intros j; [apply incl_refl|]. simpl. unfold block_reads. destruct (dd _); simpl.
    - apply incl_appr. apply IH.
    - apply incl_app; [apply incl_appl, incl_refl|apply incl_appr, IH].
  Qed.
  Lemma drop_reads :
    (forall n p, incl (nreads (dropN dd p n)) (nreads n)) /\
    (forall t q k, incl (sreads (dropS dd q k t)) (sreads t)) /\
    (forall b p k, incl (breads (dropB dd p k b)) (breads b)).
  Proof.
    apply ir_mind; try (intros; apply incl_refl).
    - intros b p. apply drop_ops_reads.
    - intros t H p. apply H.
    - intros t H p. apply H.
    - intros t H p. apply H.
    - intros k i init c u t H p. change (incl (atoms init ++ catoms c ++ atoms u ++ sreads (dropS dd (Body :: p) 0 t)) (atoms init ++ catoms c ++ atoms u ++ sreads t)).
      repeat (apply incl_app; [apply incl_appl, incl_refl|apply incl_appr]). apply H.
    - intros n Hn a r Hr q k. change (incl (nreads (dropN dd (Kid k :: q) n) ++ asg_reads (dropA dd (Kid k :: q) a) ++ sreads (dropS dd q (S k) r)) (nreads n ++ asg_reads a ++ sreads r)).
      apply incl_app; [apply incl_appl, Hn|apply incl_appr]. apply incl_app; [apply incl_appl|apply incl_appr, Hr].
      intros y Hy. unfold asg_reads in *. apply in_concat in Hy as (l & Hl & Hy). apply in_map_iff in Hl as (e & <- & He). apply filter_In in He as [He _].
      apply in_concat. exists (atoms (snd e)). split; [apply in_map_iff; exists e; auto|exact Hy].
    - intros c s Hs r Hr p k. change (incl (catoms c ++ sreads (dropS dd (Br k :: p) 0 s) ++ breads (dropB dd p (S k) r)) (catoms c ++ sreads s ++ breads r)).
      apply incl_app; [apply incl_appl, incl_refl|apply incl_appr]. apply incl_app; [apply incl_appl, Hs|apply incl_appr, Hr].
  Qed.
End DropReads.
(** A container that the pass deletes occurs nowhere in the rewritten program. *)
Theorem C50_deleted_containers_unused : forall cfg pd dom cov last p x,
  deleted cfg pd dom cov last p x = true ->
  ~ In x (swrites (dead_data cfg pd dom cov last p)) /\ ~ In x (sreads (dead_data cfg pd dom cov last p)).
Proof.
  intros cfg pd dom cov last p x H. unfold deleted in H. destruct (cfg x) as [sc|] eqn:C; [|discriminate]. apply andb_true_iff in H as [H1 H2].
  apply negb_true_iff in H1. rewrite forallb_forall in H2. split.
  - intros K. apply (proj1 (proj2 (drop_stays x (dead cfg pd dom cov last p)))) in K as (w & Hw & K).
    destruct (proj1 (proj2 (st_el x)) p [] 0%nat w Hw) as (W1 & W2 & W3).
    destruct (proj1 (proj2 (st_entry x sc pd dom cov last)) p [] 0%nat st_empty w Hw) as (d & Hd & E).
    assert (CE: clean st_empty) by (split; [reflexivity|intros ? []]).
    pose proof (proj2 (proj1 (proj2 (clean_all x sc pd dom cov last)) p [] 0%nat st_empty H1 CE)) as CL.
    pose proof (H2 d Hd) as Q. rewrite (CL d Hd) in Q. simpl in Q. unfold is_art, removable in Q. rewrite E in Q.
    destruct K as [K|K]; [|rewrite K in Q; discriminate].
    unfold dead in K. rewrite W2, C, W1 in K. simpl in K. unfold unread in K.
    assert (K1: existsb (fun d => is_u (d_u d) w) (definitions x sc pd dom cov last p) = true) by (apply existsb_exists; exists d; split; [exact Hd|apply is_u_eq; exact E]).
    rewrite K1 in K. simpl in K. assert (K2: forallb (fun d => negb (is_u (d_u d) w) || negb (nonempty (d_r d))) (definitions x sc pd dom cov last p) = true).
    { apply forallb_forall. intros e He. rewrite (CL e He). apply orb_true_r. }
    congruence.
  - intros K. apply (proj1 (proj2 (drop_reads (dead cfg pd dom cov last p)))) in K. apply has_in in K. congruence.
Qed.

(* ---------------------------------------------------------------- *)
(** * The hypotheses are met *)
Definition one_cand (x : string) (sc : bool) (y : string) : option bool := if String.eqb x y then Some sc else None.
(** t = 5; t = 1; for (i = 0; i < 2; i = i + 1) { b = t; t = i }; t = 7; only [t] is transient *)
Definition c50_loop (b : seq) : node := NLoop KFor "i" (EInt 0) (CLt (ESym "i") (EInt 2)) (EAdd [ESym "i"; EInt 1]) b.
Definition c50_p : seq := nodes [set_blk "t" 5; set_blk "t" 1; c50_loop (nodes [copy_blk "b" "t"; copy_blk "t" "i"]); set_blk "t" 7].
Theorem C50_hypotheses : forall dom cov last,
  pdomS I0 c49_pd [] 0 c50_p /\
  (forall x sc, one_cand "t" true x = Some sc -> regular x sc c50_p = true) /\
  (forall x, one_cand "t" true x = Some true -> sscalar x c50_p = true) /\
  dead_data (one_cand "t" true) c49_pd dom cov last c50_p =
    nodes [NBlock []; set_blk "t" 1; c50_loop (nodes [copy_blk "b" "t"; copy_blk "t" "i"]); NBlock []] /\
  exists st', runs I0 c50_p st0 ONorm st'.
Proof.
  intros dom cov last. split; [apply c49_pd_ok|]. split; [|split; [|split; [reflexivity|]]].
  - intros x sc. unfold one_cand. destruct (String.eqb_spec "t" x) as [<-|]; [|discriminate]. intros H. injection H as <-. reflexivity.
  - intros x. unfold one_cand. destruct (String.eqb_spec "t" x) as [<-|]; [|discriminate]. reflexivity.
  - eexists. eapply (proj1 (proj2 (runU_run I0)) [] 0%nat). go.
Qed.
(** A container that is written and never read disappears with its writes. *)
Theorem C50_deleted_hypotheses : forall dom cov last, let p := nodes [set_blk "t" 5; copy_blk "t" "a"; copy_blk "b" "a"] in
  deleted (one_cand "t" true) c49_pd dom cov last p "t" = true /\
  dead_data (one_cand "t" true) c49_pd dom cov last p = nodes [NBlock []; NBlock []; copy_blk "b" "a"].
Proof. intros. split; reflexivity. Qed.

(* ---------------------------------------------------------------- *)
(** * Where the analysis misses a flow the pass deletes a live write *)
(** some execution of [p] ends with a value of [y] that no execution of [q] from the same state yields *)
Definition miscompiled (p q : seq) (y : string) : Prop := exists st o st', runs I0 p st o st' /\ forall o2 st2, runs I0 q st o2 st2 -> st2 y [] <> st' y [].
Lemma differ_miscompiled fuel p q st y : differ fuel p q st y [] = true -> miscompiled p q y.
Proof.
  unfold differ. destruct (xseq I0 fuel p st) as [[o1 s1]|] eqn:E1; [|discriminate]. destruct (xseq I0 fuel q st) as [[o2 s2]|] eqn:E2; [|discriminate].
  intros H. apply negb_true_iff, Z.eqb_neq in H. exists st, o1, s1. split; [eapply xseq_runs; exact E1|]. intros o3 s3 R. apply xseq_runs in E2.
  destruct (runs_det I0 _ _ _ _ _ _ E2 R) as (_ & <-). congruence.
Qed.
Definition c50_broken (cfg : string -> option bool) (p : seq) (y : string) : Prop := forall pd dom cov last,
  cfg y = None /\ miscompiled p (dead_data cfg pd dom cov last p) y.
Ltac broken st y := intros pd dom cov last; split; [reflexivity|]; apply (differ_miscompiled 40 _ _ st y);
  match goal with |- differ _ _ (dead_data ?c _ _ _ _ ?p) _ _ _ = true =>
     let q := eval vm_compute in (dead_data c pd dom cov last p) in
     replace (dead_data c pd dom cov last p) with q by (vm_compute; reflexivity) end;
   repeat (match goal with |- context [pd ?a ?b] => destruct (pd a b) end); vm_compute; reflexivity.
(** a = 1; if (c < 1) { if (d < 1) a = 2 } else a = 3; b = a: the pass deletes a = 1. *)
Theorem C50_complete_if_refuted : c50_broken (one_cand "a" true) c49_if "b".
Proof. broken (st_of [("d", 1)]) "b". Qed.
(** A[0] = 7; for (i = 0; i < 1; i++) { A[1] = 3; b = A[0] }: the pass deletes A[0] = 7. *)
Theorem C50_array_element_refuted : c50_broken (one_cand "A" false) c49_arr "b".
Proof. broken st0 "b". Qed.
(** A[0] = 7; if (c < 1) A[1] = 2 else A[1] = 3; b = A[0] *)
Theorem C50_array_complete_if_refuted : c50_broken (one_cand "A" false) c49_arr2 "b".
Proof. broken st0 "b". Qed.
(** while (true) { a = 1; if (c < 1) break; a = 2 }; b = a *)
Theorem C50_break_refuted : c50_broken (one_cand "a" true) c49_break "b".
Proof. broken st0 "b". Qed.
(** a = 1; if (e < 1) { if (c < 1) { a = 2 }; y := a } *)
Theorem C50_transition_refuted : c50_broken (one_cand "a" true) c49_trans "y".
Proof. broken (st_of [("c", 1)]) "y". Qed.
