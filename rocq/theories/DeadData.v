(** passes::DeadDataElimination.

    Models sdfg/src/passes/dataflow/dead_data_elimination.cpp:16-98 on the tree
    IR: the analyses are computed once, on the unchanged program (20-21).
    [cfg x] is [Some sc] for the containers the pass may touch (transient, without
    views and moves, not a pointer: 26-43; [sc]: the type is a scalar), [None] for
    the others.  Library nodes (75-84) and the removal of never mentioned
    containers (32-36) are not modelled. *)
From Verif Require Export Reach Subst.
From Coq Require Import Bool.

(** The rewriting, given which writes are dropped: the transition assignment is
    erased (63-66) or the tasklet is removed (67-74).  Loop initialisations and
    updates stay. *)
Section Drop.
  Variable dead : user -> bool.
  Fixpoint dropOps (p : path) (j : nat) (b : block) : block :=
    match b with
    | [] => []
    | o :: b' => if dead (U p (UOp j) true (o_out o)) then dropOps p (S j) b' else o :: dropOps p (S j) b'
    end.
  Definition dropA (p : path) (a : assigns) : assigns := filter (fun xe => negb (dead (U p UAsg true (fst xe)))) a.
  Fixpoint dropN (p : path) (n : node) : node :=
    match n with
    | NBlock b => NBlock (dropOps p 0 b)
    | NSeq s => NSeq (dropS p 0 s)
    | NIf bs => NIf (dropB p 0 bs)
    | NWhile s => NWhile (dropS (Body :: p) 0 s)
    | NLoop k i init c u s => NLoop k i init c u (dropS (Body :: p) 0 s)
    | NBreak => NBreak
    | NContinue => NContinue
    | NReturn r => NReturn r
    end
  with dropS (q : path) (k : nat) (s : seq) : seq :=
    match s with SNil => SNil | SCons n a r => SCons (dropN (Kid k :: q) n) (dropA (Kid k :: q) a) (dropS q (S k) r) end
  with dropB (p : path) (k : nat) (b : brs) : brs :=
    match b with BNil => BNil | BCons c s r => BCons c (dropS (Br k :: p) 0 s) (dropB p (S k) r) end.
End Drop.

Section Pass.
  Variable cfg : string -> option bool.
  Variables pd dom cov : user -> user -> bool.
  Variable last : list def -> bool.
  (** 49-58: an entry of the write with an empty set of reads *)
  Definition unread (p : seq) (x : string) (sc : bool) (w : user) : bool :=
    let ds := definitions x sc pd dom cov last p in
    existsb (fun d => is_u (d_u d) w) ds && forallb (fun d => negb (is_u (d_u d) w) || negb (nonempty (d_r d))) ds.
  Definition dead (p : seq) (w : user) : bool :=
    match cfg (u_x w) with Some sc => u_w w && unread p (u_x w) sc w | None => false end.
  Definition dead_data (p : seq) : seq := dropS (dead p) [] 0 p.

  (** 46-48, 86-92: the container itself is deleted if it is never read (users on
      the whole program) and every write without reads could be removed. *)
  Definition removable (d : def) : bool := match u_el (d_u d) with UOp _ | UAsg => true | _ => false end.
  Definition deleted (p : seq) (x : string) : bool :=
    match cfg x with
    | Some sc => negb (has x (sreads p)) &&
        forallb (fun d => nonempty (d_r d) || is_art d || removable d) (definitions x sc pd dom cov last p)
    | None => false
    end.
End Pass.

(* ---------------------------------------------------------------- *)
(** * Dropping writes that are never read *)
Section Sim.
  Variable I : nat -> list Z -> option Z.
  Variable cfg : string -> option bool.
  Variable dead : user -> bool.
  Hypothesis dead_w : forall w, dead w = true -> u_w w = true /\ exists sc, cfg (u_x w) = Some sc.
  (** no dropped write is read *)
  Definition unused (T : utrace) : Prop := forall w r sc, dead w = true -> cfg (u_x w) = Some sc -> ~ carries sc (u_x w) T w r.
  Definition killed (x : string) (B : utrace) : Prop := cfg x = Some true /\ exists u, In u B /\ writes_of x u.
  (** a dropped write of [x] is not overwritten at the end of [H] *)
  Definition hidden (H : utrace) (x : string) : Prop :=
    exists w A B, H = A ++ w :: B /\ dead w = true /\ u_x w = x /\ (cfg x = Some true -> forall u, In u B -> ~ writes_of x u).
  Definition rel (H : utrace) (a b : store) : Prop :=
    forall x j, a x j = b x j \/ (hidden H x /\ (cfg x = Some true -> j = [])).

  Lemma unused_app H T : unused (H ++ T) -> unused H.
  Proof.
    intros N w r sc D C (A & B & C' & -> & Q). apply (N w r sc D C). exists A, B, (C' ++ T). split; [|exact Q].
    rewrite <- app_assoc. simpl. rewrite <- app_assoc. reflexivity.
  Qed.
  Lemma hidden_app H T x : hidden H x -> (cfg x = Some true -> forall u, In u T -> ~ writes_of x u) -> hidden (H ++ T) x.
  Proof.
    intros (w & A & B & -> & D & E & K) N. exists w, A, (B ++ T). split; [rewrite <- app_assoc; reflexivity|]. split; [exact D|split; [exact E|]].
    intros C u Hu. apply in_app_or in Hu as [Hu|Hu]; [apply K; assumption|apply N; assumption].
  Qed.
  Lemma read_eq H a b r T : rel H a b -> unused (H ++ r :: T) -> u_w r = false -> forall j, a (u_x r) j = b (u_x r) j.
  Proof.
    intros R N W j. destruct (R (u_x r) j) as [E|[(w & A & B & -> & D & E & K) _]]; [exact E|exfalso].
    destruct (dead_w w D) as (W' & sc & C). apply (N w r sc D C). exists A, B, T. split; [rewrite <- app_assoc; reflexivity|].
    split; [split; auto|]. split; [split; congruence|]. intros -> u Hu. rewrite E. apply K; [congruence|exact Hu].
  Qed.
  Lemma rel_noW H a b T : rel H a b -> (forall u, In u T -> u_w u = false) -> rel (H ++ T) a b.
  Proof.
    intros R N x j. destruct (R x j) as [E|[K Q]]; [auto|right]. split; [|exact Q]. apply hidden_app; [exact K|].
    intros _ u Hu [W _]. rewrite (N u Hu) in W. discriminate.
  Qed.
  Lemma rdU_noW p e l : forall u, In u (rdU p e l) -> u_w u = false.
  Proof. intros u H. apply in_map_iff in H as (y & <- & _). reflexivity. Qed.
  Lemma reads_eq H a b p e l T : rel H a b -> unused (H ++ rdU p e l ++ T) -> forall x, In x l -> forall j, a x j = b x j.
  Proof.
    intros R N x Hx. apply in_split in Hx as (l1 & l2 & ->). unfold rdU in N. rewrite map_app in N. simpl in N.
    change x with (u_x (U p e false x)). eapply (read_eq (H ++ rdU p e l1)); [apply rel_noW; [exact R|apply rdU_noW]| |reflexivity].
    unfold rdU. rewrite <- !app_assoc in *. simpl in N |- *. exact N.
  Qed.
  Lemma rel_keep H a b p e x i v : rel H a b -> (cfg x = Some true -> i = []) -> rel (H ++ [U p e true x]) (wr a x i v) (wr b x i v).
  Proof.
    intros R S y j. unfold wr. destruct (String.eqb_spec x y) as [<-|N]; simpl.
    - destruct (idx_eqb i j) eqn:E; [auto|]. destruct (R x j) as [Q|[K Q]]; [auto|right].
      assert (NS: cfg x <> Some true). { intros C. rewrite (S C), (Q C) in E. discriminate. }
      split; [|intros C; contradiction]. apply hidden_app; [exact K|]. intros C. contradiction.
    - destruct (R y j) as [Q|[K Q]]; [auto|right]. split; [|exact Q]. apply hidden_app; [exact K|].
      intros _ u [<-|[]] [_ W]. simpl in W. contradiction.
  Qed.
  Lemma rel_drop H a b p e x i v : rel H a b -> dead (U p e true x) = true -> (cfg x = Some true -> i = []) -> rel (H ++ [U p e true x]) (wr a x i v) b.
  Proof.
    intros R D S y j. unfold wr. destruct (String.eqb_spec x y) as [<-|N]; simpl.
    - assert (K: hidden (H ++ [U p e true x]) x). { exists (U p e true x), H, []. repeat split; auto. }
      destruct j as [|z j]; [right; auto|]. destruct (cfg x) as [[|]|] eqn:C.
      + rewrite (S eq_refl). simpl. destruct (R x (z :: j)) as [Q|[_ Q]]; [auto|discriminate (Q C)].
      + right. split; [exact K|intros; congruence].
      + right. split; [exact K|intros; congruence].
    - destruct (R y j) as [Q|[K Q]]; [auto|right]. split; [|exact Q]. apply hidden_app; [exact K|].
      intros _ u [<-|[]] [_ W]. simpl in W. contradiction.
  Qed.
  Definition scal_op (o : op) : Prop := forall x, cfg x = Some true -> sc_op x o = true.
  Lemma ops_sim p b : forall j H a a' c, (forall o, In o b -> scal_op o) -> exec_block I a b = Some a' -> rel H a c -> unused (H ++ blkU p j b) ->
    exists c', exec_block I c (dropOps dead p j b) = Some c' /\ rel (H ++ blkU p j b) a' c'.
  Proof.
    induction b as [|o b IH]; intros j H a a' c SC E R N.
    - simpl in *. injection E as <-. exists c. rewrite app_nil_r. auto.
    - cbn [exec_block] in E. destruct (exec_op I a o) as [a1|] eqn:E1; [|discriminate]. cbn [blkU] in *. unfold opU in *.
      rewrite <- !app_assoc in N. assert (AG: forall x, In x (op_uses o) -> forall j, a x j = c x j) by (eapply reads_eq; eassumption).
      assert (R1: rel (H ++ rdU p (UOp j) (op_uses o)) a c) by (apply rel_noW; [exact R|apply rdU_noW]).
      unfold exec_op in E1. destruct (reads_in a (o_ins o)) as [vs|] eqn:V; [|discriminate]. destruct (evals (env_of a) (o_sub o)) as [i|] eqn:Es; [|discriminate].
      destruct (I (o_code o) vs) as [v|] eqn:O; [|discriminate]. injection E1 as <-.
      assert (Si: cfg (o_out o) = Some true -> i = []).
      { intros C. pose proof (SC o (or_introl eq_refl) _ C) as Q. unfold sc_op in Q. apply andb_true_iff in Q as [_ Q]. rewrite String.eqb_refl in Q. simpl in Q.
        destruct (o_sub o); [|discriminate]. simpl in Es. congruence. }
      assert (SC': forall o', In o' b -> scal_op o') by (intros o' Ho; apply SC; right; exact Ho).
      cbn [dropOps]. replace (H ++ (rdU p (UOp j) (op_uses o) ++ [U p (UOp j) true (o_out o)]) ++ blkU p (S j) b)
        with (((H ++ rdU p (UOp j) (op_uses o)) ++ [U p (UOp j) true (o_out o)]) ++ blkU p (S j) b) by (rewrite <- !app_assoc; reflexivity).
      assert (N': unused (((H ++ rdU p (UOp j) (op_uses o)) ++ [U p (UOp j) true (o_out o)]) ++ blkU p (S j) b)) by (rewrite <- !app_assoc; exact N).
      destruct (dead (U p (UOp j) true (o_out o))) eqn:D.
      + eapply IH; [exact SC'|exact E|apply rel_drop; eassumption|exact N'].
      + cbn [exec_block]. destruct (op_agree a c o AG) as [A1 A2]. unfold exec_op. rewrite <- A1, V, <- A2, Es, O.
        eapply IH; [exact SC'|exact E|apply rel_keep; eassumption|exact N'].
  Qed.
  Lemma asg_sim p l : forall H a a' c, exec_assigns a l = Some a' -> rel H a c -> unused (H ++ asgU p l) ->
    exists c', exec_assigns c (dropA dead p l) = Some c' /\ rel (H ++ asgU p l) a' c'.
  Proof.
    induction l as [|[x e] l IH]; intros H a a' c E R N.
    - simpl in *. injection E as <-. exists c. unfold asgU. simpl. rewrite app_nil_r. auto.
    - cbn [exec_assigns] in E. destruct (eval (env_of a) e) as [v|] eqn:V; [|discriminate].
      change (asgU p ((x, e) :: l)) with ((rdU p UAsg (atoms e) ++ [U p UAsg true x]) ++ asgU p l) in *.
      rewrite <- !app_assoc in N. assert (AG: forall y, In y (atoms e) -> forall j, a y j = c y j) by (eapply reads_eq; eassumption).
      assert (R1: rel (H ++ rdU p UAsg (atoms e)) a c) by (apply rel_noW; [exact R|apply rdU_noW]).
      replace (H ++ (rdU p UAsg (atoms e) ++ [U p UAsg true x]) ++ asgU p l) with (((H ++ rdU p UAsg (atoms e)) ++ [U p UAsg true x]) ++ asgU p l) by (rewrite <- !app_assoc; reflexivity).
      assert (N': unused (((H ++ rdU p UAsg (atoms e)) ++ [U p UAsg true x]) ++ asgU p l)) by (rewrite <- !app_assoc; exact N).
      unfold dropA. cbn [filter fst]. fold (dropA dead p l). destruct (dead (U p UAsg true x)) eqn:D; cbn [negb].
      + eapply IH; [exact E|apply rel_drop; auto|exact N'].
      + cbn [exec_assigns]. assert (Ev: eval (env_of c) e = Some v). { rewrite <- V. unfold eval. rewrite (ev_agree (env_of c) (env_of a)); [reflexivity|]. intros y Hy. symmetry. apply AG. exact Hy. }
        rewrite Ev. eapply IH; [exact E|apply rel_keep; auto|exact N'].
  Qed.
  Definition scalN (n : node) : Prop := forall x, cfg x = Some true -> nscalar x n = true.
  Definition scalS (s : seq) : Prop := forall x, cfg x = Some true -> sscalar x s = true.
  Definition scalB (b : brs) : Prop := forall x, cfg x = Some true -> bscalar x b = true.
  Lemma cev_rel H a b p c T : rel H a b -> unused (H ++ rdU p UCond (catoms c) ++ T) -> cev (env_of b) c = cev (env_of a) c.
  Proof. intros R N. apply cev_agree. intros x Hx. symmetry. eapply reads_eq; eassumption. Qed.
  Lemma cev_rel' H a b p c T : rel H a b -> unused (H ++ rdU p UTest (catoms c) ++ T) -> cev (env_of b) c = cev (env_of a) c.
  Proof. intros R N. apply cev_agree. intros x Hx. symmetry. eapply reads_eq; eassumption. Qed.
  Lemma eval_rel H a b p el e T : rel H a b -> unused (H ++ rdU p el (atoms e) ++ T) -> eval (env_of b) e = eval (env_of a) e.
  Proof. intros R N. unfold eval. rewrite (ev_agree (env_of b) (env_of a)); [reflexivity|]. intros x Hx. symmetry. eapply reads_eq; eassumption. Qed.
  Theorem drop_sim :
    (forall p n st o st' T, runU I p n st o st' T -> forall H c, scalN n -> rel H st c -> unused (H ++ T) ->
       exists c', run I (dropN dead p n) c o c' /\ rel (H ++ T) st' c') /\
    (forall q k s st o st' T, runsU I q k s st o st' T -> forall H c, scalS s -> rel H st c -> unused (H ++ T) ->
       exists c', runs I (dropS dead q k s) c o c' /\ rel (H ++ T) st' c') /\
    (forall p k b st o st' T, runbU I p k b st o st' T -> forall H c, scalB b -> rel H st c -> unused (H ++ T) ->
       exists c', runb I (dropB dead p k b) c o c' /\ rel (H ++ T) st' c') /\
    (forall p s st o st' T, runwU I p s st o st' T -> forall H c, scalS s -> rel H st c -> unused (H ++ T) ->
       exists c', runw I (dropS dead (Body :: p) 0 s) c o c' /\ rel (H ++ T) st' c') /\
    (forall p i e u s st o st' T, runlU I p i e u s st o st' T -> forall H c, scalS s -> rel H st c -> unused (H ++ T) ->
       exists c', runl I i e u (dropS dead (Body :: p) 0 s) c o c' /\ rel (H ++ T) st' c').
  Proof.
    apply runU_mind.
    - intros p b st st' E H c SC R N. destruct (ops_sim p b 0 H st st' c) as (c' & E' & R'); auto.
      { intros o Ho x C. pose proof (SC x C) as Q. simpl in Q. rewrite forallb_forall in Q. auto. }
      exists c'. split; [constructor; exact E'|exact R'].
    - intros p s st o st' T _ IH H c SC R N. destruct (IH H c SC R N) as (c' & E & R'). exists c'. split; [constructor; exact E|exact R'].
    - intros p s st o st' T _ IH H c SC R N. destruct (IH H c SC R N) as (c' & E & R'). exists c'. split; [constructor; exact E|exact R'].
    - intros p s st o st' T _ IH H c SC R N. destruct (IH H c SC R N) as (c' & E & R'). exists c'. split; [constructor; exact E|exact R'].
    - intros p k i init e u s st v o st' T V _ IH H c SC R N.
      replace (H ++ rdU p UInit (atoms init) ++ U p UInit true i :: T) with (((H ++ rdU p UInit (atoms init)) ++ [U p UInit true i]) ++ T) in * by (rewrite <- !app_assoc; reflexivity).
      assert (V': eval (env_of c) init = Some v). { rewrite <- V. eapply eval_rel; [exact R|]. rewrite <- !app_assoc in N. exact N. }
      destruct (IH ((H ++ rdU p UInit (atoms init)) ++ [U p UInit true i]) (wr c i [] v)) as (c' & E & R'); [exact SC| |exact N|].
      + apply rel_keep; [|auto]. apply rel_noW; [exact R|apply rdU_noW].
      + exists c'. split; [econstructor; eassumption|exact R'].
    - intros p st H c _ R _. exists c. rewrite app_nil_r. split; [constructor|exact R].
    - intros p st H c _ R _. exists c. rewrite app_nil_r. split; [constructor|exact R].
    - intros p r st H c _ R _. exists c. split; [constructor|]. apply rel_noW; [exact R|]. intros u [<-|[]]. reflexivity.
    - intros q k st H c _ R _. exists c. rewrite app_nil_r. split; [constructor|exact R].
    - intros q k n a r st st1 st2 o st' T1 T2 _ IH1 E2 _ IH3 H c SC R N.
      assert (SN: scalN n /\ scalS r). { split; intros x C; pose proof (SC x C) as Q; simpl in Q; apply andb_true_iff in Q; tauto. }
      replace (H ++ T1 ++ asgU (Kid k :: q) a ++ T2) with (((H ++ T1) ++ asgU (Kid k :: q) a) ++ T2) in * by (rewrite <- !app_assoc; reflexivity).
      pose proof (unused_app _ _ N) as N2. pose proof (unused_app _ _ N2) as N1.
      destruct (IH1 H c (proj1 SN) R N1) as (c1 & E1 & R1). destruct (asg_sim _ _ _ _ _ _ E2 R1 N2) as (c2 & E2' & R2).
      destruct (IH3 _ c2 (proj2 SN) R2 N) as (c3 & E3 & R3). exists c3. split; [|exact R3].
      change (dropS dead q k (SCons n a r)) with (SCons (dropN dead (Kid k :: q) n) (dropA dead (Kid k :: q) a) (dropS dead q (S k) r)).
      econstructor; eassumption.
    - intros q k n a r st o st' T _ IH NO H c SC R N.
      assert (SN: scalN n). { intros x C; pose proof (SC x C) as Q; simpl in Q; apply andb_true_iff in Q; tauto. }
      destruct (IH H c SN R N) as (c1 & E1 & R1). exists c1. split; [|exact R1].
      change (dropS dead q k (SCons n a r)) with (SCons (dropN dead (Kid k :: q) n) (dropA dead (Kid k :: q) a) (dropS dead q (S k) r)).
      apply R_exit; assumption.
    - intros p k st H c _ R _. exists c. rewrite app_nil_r. split; [constructor|exact R].
    - intros p k e s r st o st' T E _ IH H c SC R N.
      assert (SN: scalS s). { intros x C; pose proof (SC x C) as Q; simpl in Q; apply andb_true_iff in Q; tauto. }
      assert (E': cev (env_of c) e = Some true) by (rewrite <- E; eapply cev_rel; eassumption).
      rewrite app_assoc in *. destruct (IH (H ++ rdU p UCond (catoms e)) c SN) as (c' & Q & R'); [apply rel_noW; [exact R|apply rdU_noW]|exact N|].
      exists c'. split; [apply R_btrue; assumption|exact R'].
    - intros p k e s r st o st' T E _ IH H c SC R N.
      assert (SN: scalB r). { intros x C; pose proof (SC x C) as Q; simpl in Q; apply andb_true_iff in Q; tauto. }
      assert (E': cev (env_of c) e = Some false) by (rewrite <- E; eapply cev_rel; eassumption).
      rewrite app_assoc in *. destruct (IH (H ++ rdU p UCond (catoms e)) c SN) as (c' & Q & R'); [apply rel_noW; [exact R|apply rdU_noW]|exact N|].
      exists c'. split; [apply R_bfalse; assumption|exact R'].
    - intros p s st o1 st1 o st' T1 T2 _ IH1 O _ IH2 H c SC R N. rewrite app_assoc in *.
      destruct (IH1 H c SC R (unused_app _ _ N)) as (c1 & E1 & R1). destruct (IH2 _ c1 SC R1 N) as (c2 & E2 & R2).
      exists c2. split; [eapply R_wnext; eassumption|exact R2].
    - intros p s st st' T _ IH H c SC R N. destruct (IH H c SC R N) as (c' & E & R'). exists c'. split; [apply R_wbreak; exact E|exact R'].
    - intros p s st r st' T _ IH H c SC R N. destruct (IH H c SC R N) as (c' & E & R'). exists c'. split; [apply R_wret; exact E|exact R'].
    - intros p i e u s st E H c SC R N. exists c. split; [|apply rel_noW; [exact R|apply rdU_noW]].
      apply R_lend. rewrite <- E. eapply (cev_rel' H _ _ p e []); [exact R|]. rewrite app_nil_r. exact N.
    - intros p i e u s st o1 st1 v o st' T1 T2 E _ IH1 O V _ IH2 H c SC R N.
      assert (E': cev (env_of c) e = Some true) by (rewrite <- E; eapply cev_rel'; eassumption).
      replace (H ++ rdU p UTest (catoms e) ++ T1 ++ rdU p UUpd (atoms u) ++ U p UUpd true i :: T2)
        with (((((H ++ rdU p UTest (catoms e)) ++ T1) ++ rdU p UUpd (atoms u)) ++ [U p UUpd true i]) ++ T2) in * by (rewrite <- !app_assoc; reflexivity).
      pose proof (unused_app _ _ (unused_app _ _ N)) as N3. pose proof (unused_app _ _ N3) as N2.
      destruct (IH1 (H ++ rdU p UTest (catoms e)) c SC) as (c1 & E1 & R1); [apply rel_noW; [exact R|apply rdU_noW]|exact N2|].
      assert (V': eval (env_of c1) u = Some v). { rewrite <- V. eapply (eval_rel _ _ _ p UUpd u []); [exact R1|]. rewrite app_nil_r. exact N3. }
      destruct (IH2 ((((H ++ rdU p UTest (catoms e)) ++ T1) ++ rdU p UUpd (atoms u)) ++ [U p UUpd true i]) (wr c1 i [] v) SC) as (c2 & E2 & R2); [|exact N|].
      + apply rel_keep; [|auto]. apply rel_noW; [exact R1|apply rdU_noW].
      + exists c2. split; [eapply R_lnext; eassumption|exact R2].
    - intros p i e u s st st' T E _ IH H c SC R N.
      assert (E': cev (env_of c) e = Some true) by (rewrite <- E; eapply cev_rel'; eassumption).
      rewrite app_assoc in *. destruct (IH (H ++ rdU p UTest (catoms e)) c SC) as (c' & Q & R'); [apply rel_noW; [exact R|apply rdU_noW]|exact N|].
      exists c'. split; [apply R_lbreak; assumption|exact R'].
    - intros p i e u s st r st' T E _ IH H c SC R N.
      assert (E': cev (env_of c) e = Some true) by (rewrite <- E; eapply cev_rel'; eassumption).
      rewrite app_assoc in *. destruct (IH (H ++ rdU p UTest (catoms e)) c SC) as (c' & Q & R'); [apply rel_noW; [exact R|apply rdU_noW]|exact N|].
      exists c'. split; [apply R_lret; assumption|exact R'].
  Qed.
End Sim.
