(** * ConstantPropagation (passes/dataflow/constant_propagation.cpp): removing the second of two definitions *)
From Coq Require Import ZArith List Bool String Lia.
From Verif Require Import Sym SymFacts SymFuns SymProofs1 IR IRFacts Users Reach ReachProofs UserGraph DeadData Propagate.
From Verif Require Trace.
Import ListNotations.
Local Open Scope string_scope.
Local Open Scope list_scope.
Local Open Scope Z_scope.

(** A definition: a tasklet and its output memlet, or one assignment of a transition. *)
Inductive dfn := DOp (o : op) | DAsg (x : string) (e : expr).
Definition d_out (d : dfn) : string := match d with DOp o => o_out o | DAsg x _ => x end.
Definition d_uses (d : dfn) : list string := match d with DOp o => op_uses o | DAsg _ e => atoms e end.
Definition exec_d (I : nat -> list Z -> option Z) (st : store) (d : dfn) : option store :=
  match d with DOp o => exec_op I st o | DAsg x e => match eval (env_of st) e with Some v => Some (wr st x [] v) | None => None end end.

(** The operations and transitions of a program satisfy [PO] and [PT] at their positions. *)
Section Sites.
  Variable PO : path -> nat -> op -> Prop.
  Variable PT : path -> assigns -> Prop.
  Fixpoint siteO (p : path) (j : nat) (b : block) : Prop := match b with [] => True | o :: b' => PO p j o /\ siteO p (S j) b' end.
  Fixpoint siteN (p : path) (n : node) : Prop :=
    match n with
    | NBlock b => siteO p 0 b
    | NSeq s => siteS p 0 s
    | NIf bs => siteB p 0 bs
    | NWhile s | NLoop _ _ _ _ _ s => siteS (Body :: p) 0 s
    | _ => True
    end
  with siteS (q : path) (k : nat) (s : seq) : Prop :=
    match s with SNil => True | SCons n a t => siteN (Kid k :: q) n /\ PT (Kid k :: q) a /\ siteS q (S k) t end
  with siteB (p : path) (k : nat) (b : brs) : Prop :=
    match b with BNil => True | BCons c s t => siteS (Br k :: p) 0 s /\ siteB p (S k) t end.
End Sites.

(** ** Removing writes that store what is already there *)
Section Sim.
  Variable I : nat -> list Z -> option Z.
  Variable w2 : user.
  Variable PO : path -> nat -> op -> Prop.
  Variable PA : path -> string -> expr -> Prop.
  Variable PT : path -> assigns -> Prop.
  Hypothesis PTA : forall p a y f, PT p a -> In (y, f) a -> PA p y f.
  Variable cover : utrace -> Prop.
  Variable J : utrace -> store -> Prop.
  Hypothesis J_rd : forall T st u, u_w u = false -> J T st -> J (T ++ [u]) st.
  Hypothesis J_loop : forall T st p el i v, el = UInit \/ el = UUpd -> J T st -> J (T ++ [U p el true i]) (wr st i [] v).
  Hypothesis J_op : forall T st st' p j o, PO p j o -> exec_op I st o = Some st' -> J T st -> J (T ++ [U p (UOp j) true (o_out o)]) st'.
  Hypothesis J_asg : forall T st p y f v, PA p y f -> eval (env_of st) f = Some v -> J T st -> J (T ++ [U p UAsg true y]) (wr st y [] v).
  Hypothesis R_op : forall T st st' p j o, PO p j o -> U p (UOp j) true (o_out o) = w2 -> J T st -> cover T -> exec_op I st o = Some st' -> steq st' st.
  Hypothesis R_asg : forall T st p y f v, PA p y f -> U p UAsg true y = w2 -> J T st -> cover T -> eval (env_of st) f = Some v -> steq (wr st y [] v) st.
  Definition good (T : utrace) : Prop := forall B C, T = B ++ w2 :: C -> cover B.
  Definition rel (H : utrace) (a b : store) : Prop := J H a /\ steq a b.

  Lemma good_left T1 T2 : good (T1 ++ T2) -> good T1.
  Proof. intros H B C E. apply (H B (C ++ T2)). rewrite E, <- app_assoc. reflexivity. Qed.
  Lemma J_rds p el l : forall T st, J T st -> J (T ++ rdU p el l) st.
  Proof.
    induction l as [|y l IH]; intros T st H; [rewrite app_nil_r; exact H|]. cbn [rdU map]. change (U p el false y :: map (U p el false) l) with ([U p el false y] ++ rdU p el l).
    rewrite app_assoc. apply IH. apply J_rd; auto.
  Qed.
  Lemma rel_rds p el l H a b : rel H a b -> rel (H ++ rdU p el l) a b.
  Proof. intros [A B]. split; [apply J_rds; exact A|exact B]. Qed.
  Lemma rel_loop H a b p el i v : el = UInit \/ el = UUpd -> rel H a b -> rel (H ++ [U p el true i]) (wr a i [] v) (wr b i [] v).
  Proof. intros E [A B]. split; [apply J_loop; auto|apply eqx_wr; exact B]. Qed.
  Lemma ev_rel H a b e : rel H a b -> eval (env_of b) e = eval (env_of a) e.
  Proof. intros [_ B]. symmetry. apply (eval_eqx none); [exact B|apply avoids_none]. Qed.
  Lemma cev_rel H a b c : rel H a b -> cev (env_of b) c = cev (env_of a) c.
  Proof. intros [_ B]. symmetry. apply (cev_eqx none); [exact B|apply avoids_none]. Qed.
  Lemma ops_sim p b : forall j H a a' c, siteO PO p j b -> exec_block I a b = Some a' -> rel H a c -> good (H ++ blkU p j b) ->
    exists c', exec_block I c (dropOps (is_u w2) p j b) = Some c' /\ rel (H ++ blkU p j b) a' c'.
  Proof.
    induction b as [|o b IH]; intros j H a a' c SC E R N.
    - cbn in *. injection E as <-. exists c. rewrite app_nil_r. auto.
    - destruct SC as [P1 SC]. cbn [exec_block] in E. destruct (exec_op I a o) as [a1|] eqn:E1; [|discriminate]. cbn [blkU] in *. unfold opU in *.
      replace (H ++ (rdU p (UOp j) (op_uses o) ++ [U p (UOp j) true (o_out o)]) ++ blkU p (S j) b)
        with (((H ++ rdU p (UOp j) (op_uses o)) ++ [U p (UOp j) true (o_out o)]) ++ blkU p (S j) b) in * by (rewrite <- !app_assoc; reflexivity).
      pose proof (rel_rds p (UOp j) (op_uses o) _ _ _ R) as [J1 Q1]. pose proof (good_left _ _ N) as N1.
      assert (J2 : J ((H ++ rdU p (UOp j) (op_uses o)) ++ [U p (UOp j) true (o_out o)]) a1) by (eapply J_op; eassumption).
      cbn [dropOps]. destruct (is_u w2 (U p (UOp j) true (o_out o))) eqn:D.
      + apply is_u_eq in D. assert (S1 : steq a1 a) by (eapply R_op; [exact P1|symmetry; exact D|exact J1| |exact E1]; apply (N1 _ []); rewrite D; reflexivity).
        apply (IH (S j) _ a1 a' c SC E); [|exact N]. split; [exact J2|]. eapply eqx_trans; eassumption.
      + cbn [exec_block]. destruct (exec_op_eqx I none _ _ _ _ Q1 (avoids_none _) E1) as (c1 & E2 & Q2). rewrite E2.
        apply (IH (S j) _ a1 a' c1 SC E); [|exact N]. split; [exact J2|exact Q2].
  Qed.
  Lemma asg_sim p l : forall H a a' c, (forall y f, In (y, f) l -> PA p y f) -> exec_assigns a l = Some a' -> rel H a c -> good (H ++ asgU p l) ->
    exists c', exec_assigns c (dropA (is_u w2) p l) = Some c' /\ rel (H ++ asgU p l) a' c'.
  Proof.
    induction l as [|[x e] l IH]; intros H a a' c SC E R N.
    - cbn in *. injection E as <-. exists c. unfold asgU. cbn. rewrite app_nil_r. auto.
    - cbn [exec_assigns] in E. destruct (eval (env_of a) e) as [v|] eqn:V; [|discriminate].
      change (asgU p ((x, e) :: l)) with ((rdU p UAsg (atoms e) ++ [U p UAsg true x]) ++ asgU p l) in *.
      replace (H ++ (rdU p UAsg (atoms e) ++ [U p UAsg true x]) ++ asgU p l) with (((H ++ rdU p UAsg (atoms e)) ++ [U p UAsg true x]) ++ asgU p l) in * by (rewrite <- !app_assoc; reflexivity).
      pose proof (rel_rds p UAsg (atoms e) _ _ _ R) as [J1 Q1]. pose proof (good_left _ _ N) as N1.
      assert (P1 : PA p x e) by (apply SC; left; reflexivity). assert (SC' : forall y f, In (y, f) l -> PA p y f) by (intros y f K; apply SC; right; exact K).
      assert (J2 : J ((H ++ rdU p UAsg (atoms e)) ++ [U p UAsg true x]) (wr a x [] v)) by (eapply J_asg; eassumption).
      unfold dropA. cbn [filter fst]. fold (dropA (is_u w2) p l). destruct (is_u w2 (U p UAsg true x)) eqn:D; cbn [negb].
      + apply is_u_eq in D. assert (S1 : steq (wr a x [] v) a) by (eapply R_asg; [exact P1|symmetry; exact D|exact J1| |exact V]; apply (N1 _ []); rewrite D; reflexivity).
        apply (IH _ (wr a x [] v) a' c SC' E); [|exact N]. split; [exact J2|]. eapply eqx_trans; eassumption.
      + cbn [exec_assigns]. rewrite (ev_rel _ _ _ e R), V. apply (IH _ (wr a x [] v) a' (wr c x [] v) SC' E); [|exact N]. split; [exact J2|]. apply eqx_wr; exact Q1.
  Qed.
  Notation dead := (is_u w2).
  Theorem redundant_sim :
    (forall p n st o st' T, runU I p n st o st' T -> forall H c, siteN PO PT p n -> rel H st c -> good (H ++ T) ->
       exists c', run I (dropN dead p n) c o c' /\ rel (H ++ T) st' c') /\
    (forall q k s st o st' T, runsU I q k s st o st' T -> forall H c, siteS PO PT q k s -> rel H st c -> good (H ++ T) ->
       exists c', runs I (dropS dead q k s) c o c' /\ rel (H ++ T) st' c') /\
    (forall p k b st o st' T, runbU I p k b st o st' T -> forall H c, siteB PO PT p k b -> rel H st c -> good (H ++ T) ->
       exists c', runb I (dropB dead p k b) c o c' /\ rel (H ++ T) st' c') /\
    (forall p s st o st' T, runwU I p s st o st' T -> forall H c, siteS PO PT (Body :: p) 0 s -> rel H st c -> good (H ++ T) ->
       exists c', runw I (dropS dead (Body :: p) 0 s) c o c' /\ rel (H ++ T) st' c') /\
    (forall p i e u s st o st' T, runlU I p i e u s st o st' T -> forall H c, siteS PO PT (Body :: p) 0 s -> rel H st c -> good (H ++ T) ->
       exists c', runl I i e u (dropS dead (Body :: p) 0 s) c o c' /\ rel (H ++ T) st' c').
  Proof.
    apply runU_mind.
    - intros p b st st' E H c SC R N. destruct (ops_sim p b 0 H st st' c) as (c' & E' & R'); auto.
      exists c'. split; [constructor; exact E'|exact R'].
    - intros p s st o st' T _ IH H c SC R N. destruct (IH H c SC R N) as (c' & E & R'). exists c'. split; [constructor; exact E|exact R'].
    - intros p s st o st' T _ IH H c SC R N. destruct (IH H c SC R N) as (c' & E & R'). exists c'. split; [constructor; exact E|exact R'].
    - intros p s st o st' T _ IH H c SC R N. destruct (IH H c SC R N) as (c' & E & R'). exists c'. split; [constructor; exact E|exact R'].
    - intros p k i init e u s st v o st' T V _ IH H c SC R N.
      replace (H ++ rdU p UInit (atoms init) ++ U p UInit true i :: T) with (((H ++ rdU p UInit (atoms init)) ++ [U p UInit true i]) ++ T) in * by (rewrite <- !app_assoc; reflexivity).
      assert (V': eval (env_of c) init = Some v) by (rewrite <- V; eapply ev_rel; exact R).
      destruct (IH ((H ++ rdU p UInit (atoms init)) ++ [U p UInit true i]) (wr c i [] v)) as (c' & E & R'); [exact SC| |exact N|].
      + apply rel_loop; [auto|]. apply rel_rds; exact R.
      + exists c'. split; [econstructor; eassumption|exact R'].
    - intros p st H c _ R _. exists c. rewrite app_nil_r. split; [constructor|exact R].
    - intros p st H c _ R _. exists c. rewrite app_nil_r. split; [constructor|exact R].
    - intros p r st H c _ R _. exists c. split; [constructor|]. apply (rel_rds p URet [r]); exact R.
    - intros q k st H c _ R _. exists c. rewrite app_nil_r. split; [constructor|exact R].
    - intros q k n a r st st1 st2 o st' T1 T2 _ IH1 E2 _ IH3 H c (SN & SA & SR) R N.
      replace (H ++ T1 ++ asgU (Kid k :: q) a ++ T2) with (((H ++ T1) ++ asgU (Kid k :: q) a) ++ T2) in * by (rewrite <- !app_assoc; reflexivity).
      pose proof (good_left _ _ N) as N2. pose proof (good_left _ _ N2) as N1.
      destruct (IH1 H c SN R N1) as (c1 & E1 & R1). destruct (asg_sim _ _ _ _ _ _ (fun y f => PTA _ _ y f SA) E2 R1 N2) as (c2 & E2' & R2).
      destruct (IH3 _ c2 SR R2 N) as (c3 & E3 & R3). exists c3. split; [|exact R3].
      change (dropS dead q k (SCons n a r)) with (SCons (dropN dead (Kid k :: q) n) (dropA dead (Kid k :: q) a) (dropS dead q (S k) r)).
      econstructor; eassumption.
    - intros q k n a r st o st' T _ IH NO H c (SN & _) R N.
      destruct (IH H c SN R N) as (c1 & E1 & R1). exists c1. split; [|exact R1].
      change (dropS dead q k (SCons n a r)) with (SCons (dropN dead (Kid k :: q) n) (dropA dead (Kid k :: q) a) (dropS dead q (S k) r)).
      apply R_exit; assumption.
    - intros p k st H c _ R _. exists c. rewrite app_nil_r. split; [constructor|exact R].
    - intros p k e s r st o st' T E _ IH H c (SN & _) R N.
      assert (E': cev (env_of c) e = Some true) by (rewrite <- E; eapply cev_rel; eassumption).
      rewrite app_assoc in *. destruct (IH (H ++ rdU p UCond (catoms e)) c SN) as (c' & Q & R'); [apply rel_rds; exact R|exact N|].
      exists c'. split; [apply R_btrue; assumption|exact R'].
    - intros p k e s r st o st' T E _ IH H c (_ & SN) R N.
      assert (E': cev (env_of c) e = Some false) by (rewrite <- E; eapply cev_rel; eassumption).
      rewrite app_assoc in *. destruct (IH (H ++ rdU p UCond (catoms e)) c SN) as (c' & Q & R'); [apply rel_rds; exact R|exact N|].
      exists c'. split; [apply R_bfalse; assumption|exact R'].
    - intros p s st o1 st1 o st' T1 T2 _ IH1 O _ IH2 H c SC R N. rewrite app_assoc in *.
      destruct (IH1 H c SC R (good_left _ _ N)) as (c1 & E1 & R1). destruct (IH2 _ c1 SC R1 N) as (c2 & E2 & R2).
      exists c2. split; [eapply R_wnext; eassumption|exact R2].
    - intros p s st st' T _ IH H c SC R N. destruct (IH H c SC R N) as (c' & E & R'). exists c'. split; [apply R_wbreak; exact E|exact R'].
    - intros p s st r st' T _ IH H c SC R N. destruct (IH H c SC R N) as (c' & E & R'). exists c'. split; [apply R_wret; exact E|exact R'].
    - intros p i e u s st E H c SC R N. exists c. split; [|apply rel_rds; exact R].
      apply R_lend. rewrite <- E. eapply cev_rel; exact R.
    - intros p i e u s st o1 st1 v o st' T1 T2 E _ IH1 O V _ IH2 H c SC R N.
      assert (E': cev (env_of c) e = Some true) by (rewrite <- E; eapply cev_rel; eassumption).
      replace (H ++ rdU p UTest (catoms e) ++ T1 ++ rdU p UUpd (atoms u) ++ U p UUpd true i :: T2)
        with (((((H ++ rdU p UTest (catoms e)) ++ T1) ++ rdU p UUpd (atoms u)) ++ [U p UUpd true i]) ++ T2) in * by (rewrite <- !app_assoc; reflexivity).
      pose proof (good_left _ _ (good_left _ _ N)) as N3. pose proof (good_left _ _ N3) as N2.
      destruct (IH1 (H ++ rdU p UTest (catoms e)) c SC) as (c1 & E1 & R1); [apply rel_rds; exact R|exact N2|].
      assert (V': eval (env_of c1) u = Some v) by (rewrite <- V; eapply ev_rel; exact R1).
      destruct (IH2 ((((H ++ rdU p UTest (catoms e)) ++ T1) ++ rdU p UUpd (atoms u)) ++ [U p UUpd true i]) (wr c1 i [] v) SC) as (c2 & E2 & R2); [|exact N|].
      + apply rel_loop; [auto|]. apply rel_rds; exact R1.
      + exists c2. split; [eapply R_lnext; eassumption|exact R2].
    - intros p i e u s st st' T E _ IH H c SC R N.
      assert (E': cev (env_of c) e = Some true) by (rewrite <- E; eapply cev_rel; eassumption).
      rewrite app_assoc in *. destruct (IH (H ++ rdU p UTest (catoms e)) c SC) as (c' & Q & R'); [apply rel_rds; exact R|exact N|].
      exists c'. split; [apply R_lbreak; assumption|exact R'].
    - intros p i e u s st r st' T E _ IH H c SC R N.
      assert (E': cev (env_of c) e = Some true) by (rewrite <- E; eapply cev_rel; eassumption).
      rewrite app_assoc in *. destruct (IH (H ++ rdU p UTest (catoms e)) c SC) as (c' & Q & R'); [apply rel_rds; exact R|exact N|].
      exists c'. split; [apply R_lret; assumption|exact R'].
  Qed.
End Sim.

(** ** A definition repeated with unchanged inputs is redundant *)
Section Redundant.
  Variable I : nat -> list Z -> option Z.
  Definition d_val (st : store) (d : dfn) : option (list Z * Z) :=
    match d with
    | DOp o => match reads_in st (o_ins o), evals (env_of st) (o_sub o) with
               | Some vs, Some i => match I (o_code o) vs with Some v => Some (i, v) | None => None end
               | _, _ => None
               end
    | DAsg x e => match eval (env_of st) e with Some v => Some ([], v) | None => None end
    end.
  Lemma exec_val st d : exec_d I st d = match d_val st d with Some (i, v) => Some (wr st (d_out d) i v) | None => None end.
  Proof.
    destruct d as [o|x e]; cbn [exec_d d_val d_out].
    - unfold exec_op. destruct (reads_in st (o_ins o)); auto. destruct (evals (env_of st) (o_sub o)); auto. destruct (I (o_code o) l); auto.
    - destruct (eval (env_of st) e); auto.
  Qed.
  Lemma val_agree a b d : (forall y, In y (d_uses d) -> forall i, a y i = b y i) -> d_val a d = d_val b d.
  Proof.
    destruct d as [o|x e]; cbn [d_uses d_val]; intros H.
    - destruct (op_agree a b o H) as [-> ->]. reflexivity.
    - unfold eval. rewrite (ev_agree (env_of a) (env_of b)); [reflexivity|]. intros y Hy. apply H; exact Hy.
  Qed.
  Definition redundant (st : store) (d : dfn) : Prop := exists i v, d_val st d = Some (i, v) /\ st (d_out d) i = v.
  Lemma red_exec st d st' : redundant st d -> exec_d I st d = Some st' -> steq st' st.
  Proof.
    intros (i & v & E & Q). rewrite exec_val, E. intros K; injection K as <-. intros y _ j. unfold wr. destruct (String.eqb_spec (d_out d) y) as [<-|N]; cbn [andb]; auto.
    destruct (idx_eqb i j) eqn:X; auto. apply Trace.idx_eqb_eq in X. subst. auto.
  Qed.
  Lemma red_after st d st' : ~ In (d_out d) (d_uses d) -> exec_d I st d = Some st' -> redundant st' d.
  Proof.
    intros N. rewrite exec_val. destruct (d_val st d) as [[i v]|] eqn:E; [|discriminate]. intros K; injection K as <-. exists i, v. split; [|apply Trace.wr_same].
    rewrite <- E. apply val_agree. intros y Hy j. apply wr_other. left. intros Q; subst y. contradiction.
  Qed.
  Lemma red_frame st d y j v : y <> d_out d -> ~ In y (d_uses d) -> redundant st d -> redundant (wr st y j v) d.
  Proof.
    intros N1 N2 (i & z & E & Q). exists i, z. split; [|rewrite wr_other by (left; auto); exact Q].
    rewrite <- E. apply val_agree. intros x Hx k. apply wr_other. left. intros K; subst x. contradiction.
  Qed.

  Variable d : dfn.
  Variables w1 w2 : user.
  Let x := d_out d.
  Hypothesis X1 : u_x w1 = x.
  Hypothesis X2 : u_x w2 = x.
  Hypothesis W1 : u_w w1 = true.
  Hypothesis W2 : u_w w2 = true.
  Hypothesis FRESH : ~ In x (d_uses d).
  (** the two writes are the same definition; the element of the second writes [x] *)
  Definition at_op (p : path) (j : nat) (o : op) : Prop :=
    (U p (UOp j) true (o_out o) = w1 \/ U p (UOp j) true (o_out o) = w2 -> DOp o = d) /\ (u_at w2 = p -> u_el w2 = UOp j -> o_out o = x).
  Definition at_asg (p : path) (y : string) (f : expr) : Prop := U p UAsg true y = w1 \/ U p UAsg true y = w2 -> DAsg y f = d.
  Definition at_tr (p : path) (a : assigns) : Prop := (forall y f, In (y, f) a -> at_asg p y f) /\ (u_at w2 = p -> u_el w2 = UAsg -> In x (map fst a)).
  Definition covers (T : utrace) : Prop := exists w, (w = w1 \/ w = w2) /\ covered w x (d_uses d) T.
  Definition JR (T : utrace) (st : store) : Prop := covers T -> redundant st d.
  Lemma JR_rd T st u : u_w u = false -> JR T st -> JR (T ++ [u]) st.
  Proof.
    intros N H (w & Hw & T1 & T2 & E & C). apply H. exists w. split; [exact Hw|]. apply snoc_inv in E as [(-> & E & ->)|(T3 & -> & ->)]; [destruct Hw; congruence|].
    exists T1, T3. split; auto. apply clear_snoc in C. tauto.
  Qed.
  Lemma JR_other T st u y j v : u_w u = true -> u_x u = y -> u <> w1 -> u <> w2 -> JR T st -> JR (T ++ [u]) (wr st y j v).
  Proof.
    intros WU XU N1 N2 H (w & Hw & T1 & T2 & E & C). apply snoc_inv in E as [(-> & E & ->)|(T3 & -> & ->)]; [destruct Hw; congruence|].
    apply clear_snoc in C as [C NW]. apply red_frame.
    - intros Q. apply NW. split; [exact WU|]. left. unfold x. congruence.
    - intros Q. apply NW. split; [exact WU|]. right. rewrite XU. exact Q.
    - apply H. exists w. split; [exact Hw|]. exists T1, T3. auto.
  Qed.
  Lemma JR_def T st u st' : exec_d I st d = Some st' -> JR (T ++ [u]) st'.
  Proof. intros E _. eapply red_after; eauto. Qed.
  Lemma JR_loop T st p el i v : el = UInit \/ el = UUpd -> (u_el w1 <> UInit /\ u_el w1 <> UUpd) -> (u_el w2 <> UInit /\ u_el w2 <> UUpd) -> JR T st -> JR (T ++ [U p el true i]) (wr st i [] v).
  Proof.
    intros E [A1 A2] [B1 B2]. apply JR_other; auto; intros Q; apply (f_equal u_el) in Q; cbn [u_el] in Q; destruct E; congruence.
  Qed.
  Lemma JR_op T st st' p j o : at_op p j o -> exec_op I st o = Some st' -> JR T st -> JR (T ++ [U p (UOp j) true (o_out o)]) st'.
  Proof.
    intros [A _] E H. destruct (user_dec (U p (UOp j) true (o_out o)) w1) as [Q|N1]; [eapply JR_def; rewrite <- (A (or_introl Q)); exact E|].
    destruct (user_dec (U p (UOp j) true (o_out o)) w2) as [Q|N2]; [eapply JR_def; rewrite <- (A (or_intror Q)); exact E|].
    change (exec_op I st o) with (exec_d I st (DOp o)) in E. rewrite exec_val in E. destruct (d_val st (DOp o)) as [[i v]|]; [|discriminate]. injection E as <-. apply JR_other; auto.
  Qed.
  Lemma JR_asg T st p y f v : at_asg p y f -> eval (env_of st) f = Some v -> JR T st -> JR (T ++ [U p UAsg true y]) (wr st y [] v).
  Proof.
    intros A E H.
    assert (ED : exec_d I st (DAsg y f) = Some (wr st y [] v)) by (cbn [exec_d]; rewrite E; reflexivity).
    destruct (user_dec (U p UAsg true y) w1) as [Q|N1]; [eapply JR_def; rewrite <- (A (or_introl Q)); exact ED|].
    destruct (user_dec (U p UAsg true y) w2) as [Q|N2]; [eapply JR_def; rewrite <- (A (or_intror Q)); exact ED|]. apply JR_other; auto.
  Qed.
End Redundant.

(** ** The second write follows the reads of its element, in the users graph and in logs *)
Section Follow.
  Variable d : dfn.
  Variables w1 w2 : user.
  Variable a : string.
  Hypothesis X2 : u_x w2 = d_out d.
  Hypothesis W2 : u_w w2 = true.
  Hypothesis EL : (exists j, u_el w2 = UOp j) \/ u_el w2 = UAsg.
  Hypothesis IN : In a (d_uses d).
  Let r2 := U (u_at w2) (u_el w2) false a.
  Definition beside (u : user) : Prop := u_w u = false \/ (u_at u = u_at w2 /\ u_el u = u_el w2).
  Definition F (T : utrace) : Prop := forall A B, T = A ++ r2 :: B -> exists B1 B2, B = B1 ++ w2 :: B2 /\ forall u, In u B1 -> beside u.
  Definition G (T : utrace) : Prop := forall A B, T = A ++ w2 :: B -> exists A1 A2, A = A1 ++ r2 :: A2.
  Lemma F_app T1 T2 : F T1 -> F T2 -> F (T1 ++ T2).
  Proof.
    intros H1 H2 A B E. apply split_app in E as [(Q & E & ->)|(P & -> & E)]; [|apply (H2 P B E)].
    destruct (H1 A Q E) as (B1 & B2 & -> & K). exists B1, (B2 ++ T2). rewrite <- app_assoc. auto.
  Qed.
  Lemma G_app T1 T2 : G T1 -> G T2 -> G (T1 ++ T2).
  Proof.
    intros H1 H2 A B E. apply split_app in E as [(Q & E & ->)|(P & -> & E)]; [apply (H1 A Q E)|].
    destruct (H2 P B E) as (A1 & A2 & ->). exists (T1 ++ A1), A2. rewrite <- app_assoc. auto.
  Qed.
  Lemma F_none T : ~ In r2 T -> F T.
  Proof. intros N A B ->. exfalso. apply N, in_elt. Qed.
  Lemma G_none T : ~ In w2 T -> G T.
  Proof. intros N A B ->. exfalso. apply N, in_elt. Qed.
  Lemma w2_eta p el : u_at w2 = p -> u_el w2 = el -> w2 = U p el true (d_out d).
  Proof. destruct w2 as [p0 e0 b0 x0]; cbn in *. intros; subst; reflexivity. Qed.
  Lemma F_rd p el l : el <> u_el w2 -> F (rdU p el l).
  Proof. intros N. apply F_none. intros K. apply in_map_iff in K as (y & K & _). unfold r2 in K. congruence. Qed.
  Lemma G_rd p el l : G (rdU p el l).
  Proof. apply G_none. intros K. apply in_map_iff in K as (y & K & _). rewrite <- K in W2. discriminate. Qed.
  Lemma F_wr u : u_w u = true -> F [u].
  Proof. intros H. apply F_none. intros [K|[]]. rewrite K in H. discriminate. Qed.
  Lemma F_ops p b : forall j, siteO (at_op d w1 w2) p j b -> F (blkU p j b).
  Proof.
    induction b as [|o b IH]; intros j S; cbn [blkU]; [apply F_none; intros []|]. destruct S as [[_ P] S]. apply F_app; [|apply IH; exact S].
    intros A B E. unfold opU in E. apply split_app in E as [(Q & E1 & ->)|(Q & -> & E)].
    - assert (K : In r2 (rdU p (UOp j) (op_uses o))) by (rewrite E1; apply in_elt).
      apply in_map_iff in K as (y & K & _). unfold r2 in K. injection K as K1 K2 K3. specialize (P (eq_sym K1) (eq_sym K2)).
      exists Q, []. split; [rewrite P; rewrite (w2_eta p (UOp j)) by congruence; reflexivity|].
      intros u Hu. left. assert (K : In u (rdU p (UOp j) (op_uses o))) by (rewrite E1; apply in_or_app; right; right; exact Hu). apply in_map_iff in K as (z & <- & _). reflexivity.
    - destruct Q as [|q Q]; [discriminate|destruct Q; discriminate].
  Qed.
  Lemma F_asg p l : at_tr d w1 w2 p l -> F (asgW p l).
  Proof.
    intros [_ P] A B E. unfold asgW in E. apply split_app in E as [(Q & E & ->)|(P0 & -> & E)].
    - assert (K : In r2 (rdU p UAsg (asg_reads l))) by (rewrite E; apply in_elt). apply in_map_iff in K as (y & K & _). unfold r2 in K. injection K as K1 K2 K3.
      specialize (P (eq_sym K1) (eq_sym K2)). apply in_split in P as (l1 & l2 & L). rewrite L. exists (Q ++ map (U p UAsg true) l1), (map (U p UAsg true) l2). split.
      + rewrite <- app_assoc, map_app. cbn [map]. rewrite (w2_eta p UAsg) by congruence. reflexivity.
      + intros u Hu. apply in_app_or in Hu as [Hu|Hu]; [left|right].
        * assert (K : In u (rdU p UAsg (asg_reads l))) by (rewrite E; apply in_or_app; right; right; exact Hu). apply in_map_iff in K as (z & <- & _). reflexivity.
        * apply in_map_iff in Hu as (z & <- & _). cbn. auto.
    - exfalso. assert (K : In r2 (map (U p UAsg true) (map fst l))) by (rewrite E; apply in_elt). apply in_map_iff in K as (z & K & _). discriminate.
  Qed.
  Lemma other el : el = UCond \/ el = UInit \/ el = UTest \/ el = UUpd \/ el = URet -> el <> u_el w2.
  Proof. intros H K. destruct EL as [(j & E)|E]; rewrite E in K; subst el; destruct H as [H|[H|[H|[H|H]]]]; discriminate. Qed.
  Lemma F_turn p i c : F [turn p i c].
  Proof.
    apply F_none. intros [K|[]]. assert (Q : u_el (turn p i c) = UTest \/ u_el (turn p i c) = UInit).
    { unfold turn. generalize (catoms c) as l. induction l as [|y l IH]; [auto|]. destruct l as [|z l]; [auto|]. exact IH. }
    rewrite K in Q. unfold r2 in Q. cbn [u_el] in Q. destruct Q as [Q|Q]; apply (other (u_el w2)); auto.
  Qed.
  Ltac cp := repeat first [apply F_app | apply F_rd, other; tauto | apply F_wr; reflexivity | eassumption | match goal with |- F (?u :: ?T) => lazymatch T with [] => fail | _ => change (u :: T) with ([u] ++ T) end end].
  Lemma F_walk :
    (forall p n e T, wlkN p n e T -> siteN (at_op d w1 w2) (at_tr d w1 w2) p n -> F T) /\
    (forall q k s e T, wlkS q k s e T -> siteS (at_op d w1 w2) (at_tr d w1 w2) q k s -> F T) /\
    (forall p s e T, wlkW p s e T -> siteS (at_op d w1 w2) (at_tr d w1 w2) (Body :: p) 0 s -> F T) /\
    (forall p i c u s e T, wlkT p i c u s e T -> siteS (at_op d w1 w2) (at_tr d w1 w2) (Body :: p) 0 s -> F T) /\
    (forall p i c u s e T, wlkL p i c u s e T -> siteS (at_op d w1 w2) (at_tr d w1 w2) (Body :: p) 0 s -> F T).
  Proof.
    assert (NIL : F []) by (apply F_none; intros []).
    assert (BR : forall bs p k j s, branch bs j = Some s -> siteB (at_op d w1 w2) (at_tr d w1 w2) p k bs -> siteS (at_op d w1 w2) (at_tr d w1 w2) (Br (k + j) :: p) 0 s).
    { induction bs as [|c s0 bs IH]; intros p k j s E H; [discriminate|]. destruct H as [H1 H2]. destruct j as [|j]; cbn [branch] in E; [injection E as <-; rewrite Nat.add_0_r; exact H1|].
      rewrite <- Nat.add_succ_comm. apply IH; assumption. }
    apply wlk_mind; auto.
    - intros p b S. apply F_ops; exact S.
    - intros p bs j s e T E _ IH S. cp. apply IH. apply (BR bs p 0%nat j s E S).
    - intros p bs _ S. cp.
    - intros p k i init c u s l1 l2 e T _ _ _ IH S. specialize (IH S). cp.
    - intros p k i init c u s e T _ IH S. specialize (IH S). cp.
    - intros p r _. apply (F_rd p URet [r]). apply other; tauto.
    - intros q k n l r e T1 T2 _ IH1 _ IH2 (S1 & S2 & S3). specialize (IH1 S1). specialize (IH2 S3). apply F_app; [exact IH1|]. apply F_app; [apply F_asg; exact S2|exact IH2].
    - intros q k n l r T _ IH (S1 & _). auto.
    - intros p s e T1 T2 _ IH1 _ IH2 S. specialize (IH1 S). specialize (IH2 S). cp.
    - intros p i c u s e T _ IH S. specialize (IH S). change (turn p i c :: T) with ([turn p i c] ++ T). apply F_app; [apply F_turn|exact IH].
    - intros p i c u s e T1 T2 _ IH1 _ IH2 S. specialize (IH1 S). specialize (IH2 S). cp.
  Qed.
  Lemma G_ops p b : forall j, siteO (at_op d w1 w2) p j b -> G (blkU p j b).
  Proof.
    induction b as [|o b IH]; intros j S; cbn [blkU]; [apply G_none; intros []|]. destruct S as [[P _] S]. apply G_app; [|apply IH; exact S].
    intros A B E. unfold opU in E. apply split_app in E as [(Q & E & EB)|(Q & EA & E)]; [exfalso; assert (K : In w2 (rdU p (UOp j) (op_uses o))) by (rewrite E; apply in_elt); apply in_map_iff in K as (y & K & _); rewrite <- K in W2; discriminate|].
    destruct Q as [|q Q]; [|destruct Q; discriminate]. cbn [app] in E. injection E as E1 E2. specialize (P (or_intror E1)).
    assert (K : In a (op_uses o)) by (rewrite <- P in IN; exact IN). apply in_split in K as (l1 & l2 & L). rewrite L in EA. exists (rdU p (UOp j) l1), (rdU p (UOp j) l2 ++ []).
    rewrite EA. unfold rdU, r2. rewrite map_app, <- app_assoc. cbn [map]. rewrite <- E1. reflexivity.
  Qed.
  Lemma G_asg p l : at_tr d w1 w2 p l -> G (asgU p l).
  Proof.
    intros [P _]. induction l as [|[y f] l IH]; [apply G_none; intros []|]. change (asgU p ((y, f) :: l)) with ((rdU p UAsg (atoms f) ++ [U p UAsg true y]) ++ asgU p l).
    apply G_app; [|apply IH; intros y0 f0 K; apply P; right; exact K]. specialize (P y f (or_introl eq_refl)).
    intros A B E. apply split_app in E as [(Q & E & EB)|(Q & EA & E)]; [exfalso; assert (K : In w2 (rdU p UAsg (atoms f))) by (rewrite E; apply in_elt); apply in_map_iff in K as (z & K & _); rewrite <- K in W2; discriminate|].
    destruct Q as [|q Q]; [|destruct Q; discriminate]. cbn [app] in E. injection E as E1 E2. specialize (P (or_intror E1)).
    assert (K : In a (atoms f)) by (rewrite <- P in IN; exact IN). apply in_split in K as (l1 & l2 & L). rewrite L in EA. exists (rdU p UAsg l1), (rdU p UAsg l2 ++ []).
    rewrite EA. unfold rdU, r2. rewrite map_app, <- app_assoc. cbn [map]. rewrite <- E1. reflexivity.
  Qed.
  Ltac gp := repeat first [apply G_app | apply G_rd | eassumption | match goal with |- G [?u] => apply G_none; intros [?K|[]]; apply (f_equal u_el) in K; cbn [u_el] in K; revert K; apply other; tauto end | match goal with |- G (?u :: ?T) => lazymatch T with [] => fail | _ => change (u :: T) with ([u] ++ T) end end].
  Lemma G_run I :
    (forall p n st o st' T, runU I p n st o st' T -> siteN (at_op d w1 w2) (at_tr d w1 w2) p n -> G T) /\
    (forall q k s st o st' T, runsU I q k s st o st' T -> siteS (at_op d w1 w2) (at_tr d w1 w2) q k s -> G T) /\
    (forall p k b st o st' T, runbU I p k b st o st' T -> siteB (at_op d w1 w2) (at_tr d w1 w2) p k b -> G T) /\
    (forall p s st o st' T, runwU I p s st o st' T -> siteS (at_op d w1 w2) (at_tr d w1 w2) (Body :: p) 0 s -> G T) /\
    (forall p i c u s st o st' T, runlU I p i c u s st o st' T -> siteS (at_op d w1 w2) (at_tr d w1 w2) (Body :: p) 0 s -> G T).
  Proof.
    assert (NIL : G []) by (apply G_none; intros []).
    apply runU_mind; auto.
    - intros p b st st' _ S. apply G_ops; exact S.
    - intros p k i init c u s st v o st' T _ _ IH S. specialize (IH S). gp.
    - intros p r st _. apply (G_rd p URet [r]).
    - intros q k n l r st st1 st2 o st' T1 T2 _ IH1 _ _ IH2 (S1 & S2 & S3). specialize (IH1 S1). specialize (IH2 S3). apply G_app; [exact IH1|]. apply G_app; [apply G_asg; exact S2|exact IH2].
    - intros q k n l r st o st' T _ IH _ (S1 & _). auto.
    - intros p k c s r st o st' T _ _ IH (S1 & _). specialize (IH S1). gp.
    - intros p k c s r st o st' T _ _ IH (_ & S1). specialize (IH S1). gp.
    - intros p s st o1 st1 o st' T1 T2 _ IH1 _ _ IH2 S. specialize (IH1 S). specialize (IH2 S). gp.
    - intros p i c u s st _ S. gp.
    - intros p i c u s st o1 st1 v o st' T1 T2 _ _ IH1 _ _ _ IH2 S. specialize (IH1 S). specialize (IH2 S). gp.
    - intros p i c u s st st' T _ _ IH S. specialize (IH S). gp.
    - intros p i c u s st r st' T _ _ IH S. specialize (IH S). gp.
  Qed.
  Hypothesis X1 : u_x w1 = d_out d.
  Hypothesis W1 : u_w w1 = true.
  Hypothesis NE : w1 <> w2.
  (** A write that dominates [w2] has been made whenever [w2] is. *)
  Lemma dom_write I p dm st o st' T A B : dom_graph p dm -> testS p = true -> siteS (at_op d w1 w2) (at_tr d w1 w2) [] 0 p -> dm w1 w2 = true ->
    runsU I [] 0 p st o st' T -> T = A ++ w2 :: B -> In w1 A.
  Proof.
    intros D TE S H R E. destruct (proj1 (proj2 (G_run I)) _ _ _ _ _ _ _ R S A B E) as (A1 & A2 & EA).
    assert (D' : dom_graph p (fun u v => is_u u w1 && is_u v r2)).
    { intros u v K P Q WK. apply andb_true_iff in K as [K1 K2]. apply is_u_eq in K1, K2. subst u v. destruct WK as (e & WK).
      destruct (proj1 (proj2 F_walk) _ _ _ _ _ WK S P Q eq_refl) as (B1 & B2 & -> & K). change (P ++ r2 :: B1 ++ w2 :: B2) with (P ++ ([r2] ++ B1) ++ w2 :: B2) in WK.
      rewrite app_assoc in WK. assert (L : In w1 (P ++ [r2] ++ B1)) by (apply (D w1 w2 H _ B2); exists e; exact WK).
      apply in_app_or in L as [L|[L|L]]; [exact L| |]; exfalso.
      - rewrite <- L in W1. discriminate.
      - destruct (K w1 L) as [M|[M1 M2]]; [congruence|]. apply NE. destruct w1, w2; cbn in *; congruence. }
    assert (IN1 : In w1 A1).
    { apply (dom_sound I p _ w1 r2 st o st' T A1 (A2 ++ w2 :: B) D' TE); auto.
      - cbn [r2 u_el]. intros K. exfalso. apply (other UUpd); auto.
      - rewrite E, EA, <- app_assoc. reflexivity.
      - apply andb_true_iff. split; apply is_u_eq; reflexivity. }
    rewrite EA. apply in_or_app; left; exact IN1.
  Qed.
End Follow.

(** ** The pass *)
Definition is_site (w : user) (d : dfn) : Prop := u_w w = true /\ u_x w = d_out d /\ match d with DOp _ => exists j, u_el w = UOp j | DAsg _ _ => u_el w = UAsg end.
(** lines 89-96: the containers read; for a tasklet also the subsets of the input memlets (194-231) *)
Definition d_ins (d : dfn) : list operand := match d with DOp o => filter (fun i => match i with OConst _ => false | _ => true end) (o_ins o) | DAsg _ e => map (fun y => ORead y []) (atoms e) end.
Definition d_sub (d : dfn) : list expr := match d with DOp o => o_sub o | DAsg _ _ => [] end.
Definition in_name (i : operand) : string := match i with ORead y _ => y | OConst _ => "" end.
Definition in_sub (i : operand) : list expr := match i with ORead _ l => l | OConst _ => [] end.
(** the symbols of the output subset and of the input subsets *)
Definition d_syms (d : dfn) : list string := concat (map atoms (d_sub d)) ++ concat (map (fun i => concat (map atoms (in_sub i))) (d_ins d)).
(** No write of one of [l] between the last [w1] and a following [w2], in the log [T]. *)
Definition quiet_between (w1 w2 : user) (l : list string) (T : utrace) : Prop :=
  forall A B C, T = A ++ w1 :: B ++ w2 :: C -> ~ In w1 B -> clear_of l B.
(** The criteria, lines 78-232: [w1], [w2] are the only two writes, [w1] dominates [w2]; same subset; at least
    one input, the same inputs; not recursive; every write of an input dominates [w1]; no symbol of a
    subset is written in between. *)
Definition may_drop (dom : user -> user -> bool) (p : seq) (w1 w2 : user) (d1 d2 : dfn) (between : list string -> Prop) : Prop :=
  (forall u, In u (allwS [] 0 p) -> u_x u = d_out d1 -> u = w1 \/ u = w2) /\ w1 <> w2 /\ d_out d1 = d_out d2 /\
  dom w1 w2 = true /\ d_sub d1 = d_sub d2 /\
  d_ins d1 <> [] /\ (forall i, In i (d_ins d1) <-> In i (d_ins d2)) /\
  ~ In (d_out d1) (map in_name (d_ins d1)) /\
  (forall u, In u (allwS [] 0 p) -> In (u_x u) (map in_name (d_ins d1)) -> dom u w1 = true) /\
  between (d_syms d1).
Definition const_prop (w2 : user) (p : seq) : seq := dropS (is_u w2) [] 0 p.

Lemma ins_uses d y : In y (map in_name (d_ins d)) -> In y (d_uses d).
Proof.
  destruct d as [o|x e]; cbn [d_ins d_uses]; intros H; apply in_map_iff in H as (i & <- & H).
  - apply filter_In in H as [H1 H2]. apply in_or_app. left. destruct i as [z|y l]; [discriminate|]. apply in_concat. exists (opnames (ORead y l)). split; [apply in_map; exact H1|left; reflexivity].
  - apply in_map_iff in H as (y & <- & H). exact H.
Qed.

Section Main.
  Variables (I : nat -> list Z -> option Z) (p : seq) (dom : user -> user -> bool) (w1 w2 : user) (d : dfn).
  Hypothesis D : dom_graph p dom.
  Hypothesis TE : testS p = true.
  Hypothesis S1 : is_site w1 d.
  Hypothesis S2 : is_site w2 d.
  Hypothesis NE : w1 <> w2.
  Hypothesis SITE : siteS (at_op d w1 w2) (at_tr d w1 w2) [] 0 p.
  Hypothesis ALLW : forall u, In u (allwS [] 0 p) -> u_x u = d_out d -> u = w1 \/ u = w2.
  Hypothesis DOM : dom w1 w2 = true.
  Hypothesis FRESH : ~ In (d_out d) (d_uses d).
  Hypothesis USES : d_uses d <> [].
  Theorem const_prop_sim st o st' T : runsU I [] 0 p st o st' T -> quiet_between w1 w2 (d_uses d) T ->
    exists st'', runs I (const_prop w2 p) st o st'' /\ steq st' st''.
  Proof.
    intros R Q. destruct S1 as (A1 & A2 & A3). destruct S2 as (B1 & B2 & B3).
    assert (EL1 : (u_el w1 <> UInit /\ u_el w1 <> UUpd)) by (destruct d; [destruct A3 as (j & ->)|rewrite A3]; split; discriminate).
    assert (EL2 : (u_el w2 <> UInit /\ u_el w2 <> UUpd)) by (destruct d; [destruct B3 as (j & ->)|rewrite B3]; split; discriminate).
    destruct (d_uses d) as [|a us] eqn:EU; [congruence|].
    assert (IN : In a (d_uses d)) by (rewrite EU; left; reflexivity). rewrite <- EU in *.
    assert (GD : good w2 (covers d w1 w2) T).
    { intros B C E. assert (IW : In w1 B).
      { eapply (dom_write d w1 w2 a B2 B1); eauto. destruct d; [left; exact B3|right; exact B3]. }
      assert (LAST : exists L1 L2, B = L1 ++ w1 :: L2 /\ ~ In w1 L2).
      { clear - IW. induction B as [|u B IH]; [destruct IW|]. destruct (in_dec user_dec w1 B) as [K|K]; [destruct (IH K) as (L1 & L2 & -> & N); exists (u :: L1), L2; auto|].
        destruct IW as [->|IW]; [exists [], B; auto|contradiction]. }
      destruct LAST as (L1 & L2 & EB & N). assert (CL : clear_of (d_uses d) L2) by (apply (Q L1 L2 C); [rewrite E, EB, <- app_assoc; reflexivity|exact N]).
      assert (WX : forall u, In u L2 -> u_w u = true -> u_x u = d_out d -> u = w1 \/ u = w2).
      { intros u Hu HW HX. apply ALLW; [|exact HX]. apply (proj1 (proj2 (logged I)) _ _ _ _ _ _ _ R u); [|exact HW]. rewrite E, EB. apply in_or_app. left. apply in_or_app. right. right. exact Hu. }
      assert (FIN : exists w M1 M2, (w = w1 \/ w = w2) /\ w1 :: L2 = M1 ++ w :: M2 /\ clear_of (d_out d :: d_uses d) M2).
      { clear - CL WX. induction L2 as [|u L2 IH] using rev_ind.
        - exists w1, [], []. split; [auto|]. split; [reflexivity|intros v []].
        - assert (CL' : clear_of (d_uses d) L2) by (intros v Hv; apply CL, in_or_app; left; exact Hv).
          destruct IH as (w & M1 & M2 & Hw & EM & CM); [exact CL'|intros v Hv; apply WX, in_or_app; left; exact Hv|].
          destruct (Bool.bool_dec (u_w u) true) as [HW|HW].
          + destruct (string_dec (u_x u) (d_out d)) as [HX|HX].
            * exists u, (w1 :: L2), []. split; [apply WX; auto; apply in_elt|]. split; [reflexivity|intros v []].
            * exists w, M1, (M2 ++ [u]). split; [exact Hw|]. split; [rewrite app_comm_cons, EM, <- app_assoc; reflexivity|].
              intros v Hv [K1 K2]. apply in_app_or in Hv as [Hv|[<-|[]]]; [apply (CM v Hv); split; assumption|]. destruct K2 as [K2|K2]; [congruence|]. apply (CL u); [apply in_elt|split; assumption].
          + exists w, M1, (M2 ++ [u]). split; [exact Hw|]. split; [rewrite app_comm_cons, EM, <- app_assoc; reflexivity|].
            intros v Hv [K1 K2]. apply in_app_or in Hv as [Hv|[<-|[]]]; [apply (CM v Hv); split; assumption|contradiction]. }
      destruct FIN as (w & M1 & M2 & Hw & EM & CM). exists w. split; [exact Hw|]. exists (L1 ++ M1), M2. split; [rewrite EB, EM, <- app_assoc; reflexivity|exact CM]. }
    destruct (proj1 (proj2 (redundant_sim I w2 (at_op d w1 w2) (at_asg d w1 w2) (at_tr d w1 w2) (fun p a y f K => proj1 K y f) (covers d w1 w2) (JR I d w1 w2)
      (fun T st u => JR_rd I d w1 w2 A1 B1 T st u) (fun T st p el i v K => JR_loop I d w1 w2 T st p el i v K EL1 EL2)
      (fun T st st' p j o => JR_op I d w1 w2 FRESH T st st' p j o) (fun T st p y f v => JR_asg I d w1 w2 FRESH T st p y f v)
      ltac:(intros T0 s0 s1 q j o0 [K _] EQ JJ CC EX; apply (red_exec I s0 d s1 (JJ CC)); rewrite <- (K (or_intror EQ)); exact EX)
      ltac:(intros T0 s0 q y f v K EQ JJ CC EX; apply (red_exec I s0 d _ (JJ CC)); rewrite <- (K (or_intror EQ)); cbn [exec_d]; rewrite EX; reflexivity)))
      _ _ _ _ _ _ _ R [] st SITE) as (c' & RC & _ & SC).
    - split; [|apply eqx_refl]. intros (w & _ & T1 & T2 & E & _). destruct T1; discriminate.
    - exact GD.
    - exists c'. split; [exact RC|exact SC].
  Qed.
End Main.
