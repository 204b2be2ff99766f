(** Execution with an access log.

    [runsT I p st o st' T]: program [p] started in [st] terminates in [st'] with
    outcome [o] (as [runs] of IR.v), and [T] is the sequence of memory accesses it
    makes: [Ev false x e j] reads element [j] of container [x] through the subset
    expressions [e], [Ev true x e j] writes it (symbols are the element [] of
    their container, with subset []). The log is what the
    generated C code reads and writes, in order (sdfg/src/codegen/dispatchers/). *)
From Coq Require Import Permutation.
From Verif Require Import Sym SymFacts IR IRFacts IRRefine.

Inductive event := Ev (w : bool) (x : string) (e : list expr) (j : list Z).
Definition trace := list event.
Definition rds (l : list string) : trace := map (fun x => Ev false x [] []) l.

(** element [j] of [x] is written somewhere in the trace *)
Definition written (T : trace) (x : string) (j : list Z) : Prop := exists e, In (Ev true x e j) T.
(** ... is read before any write of it in the trace *)
Fixpoint exposed (T : trace) (x : string) (j : list Z) : Prop :=
  match T with
  | [] => False
  | Ev true y _ k :: T' => ~ (y = x /\ k = j) /\ exposed T' x j
  | Ev false y _ k :: T' => (y = x /\ k = j) \/ exposed T' x j
  end.

Section Sem.
  Variable I : nat -> list Z -> option Z.

  Definition operand_trace (st : store) (o : operand) : trace :=
    match o with
    | OConst _ => []
    | ORead x sub => rds (concat (map atoms sub)) ++ match evals (env_of st) sub with Some j => [Ev false x sub j] | None => [] end
    end.
  Definition op_trace (st : store) (o : op) : trace :=
    concat (map (operand_trace st) (o_ins o)) ++ rds (concat (map atoms (o_sub o))) ++
    match evals (env_of st) (o_sub o) with Some j => [Ev true (o_out o) (o_sub o) j] | None => [] end.
  Fixpoint block_trace (st : store) (b : block) : trace :=
    match b with
    | [] => []
    | o :: b' => op_trace st o ++ match exec_op I st o with Some st' => block_trace st' b' | None => [] end
    end.
  Definition asg_trace (a : assigns) : trace := concat (map (fun xe => rds (atoms (snd xe)) ++ [Ev true (fst xe) [] []]) a).

  Inductive runT : node -> store -> outcome -> store -> trace -> Prop :=
  | T_block b st st' : exec_block I st b = Some st' -> runT (NBlock b) st ONorm st' (block_trace st b)
  | T_seq s st o st' T : runsT s st o st' T -> runT (NSeq s) st o st' T
  | T_if bs st o st' T : runbT bs st o st' T -> runT (NIf bs) st o st' T
  | T_while s st o st' T : runwT s st o st' T -> runT (NWhile s) st o st' T
  | T_loop k i init c u s st v o st' T :
      eval (env_of st) init = Some v -> runlT i c u s (wr st i [] v) o st' T ->
      runT (NLoop k i init c u s) st o st' (rds (atoms init) ++ Ev true i [] [] :: T)
  | T_break st : runT NBreak st OBrk st []
  | T_continue st : runT NContinue st OCont st []
  | T_return r st : runT (NReturn r) st (ORet r) st []
  with runsT : seq -> store -> outcome -> store -> trace -> Prop :=
  | T_nil st : runsT SNil st ONorm st []
  | T_cons n a r st st1 st2 o st' T1 T2 :
      runT n st ONorm st1 T1 -> exec_assigns st1 a = Some st2 -> runsT r st2 o st' T2 ->
      runsT (SCons n a r) st o st' (T1 ++ asg_trace a ++ T2)
  | T_exit n a r st o st' T : runT n st o st' T -> o <> ONorm -> runsT (SCons n a r) st o st' T
  with runbT : brs -> store -> outcome -> store -> trace -> Prop :=
  | T_bnil st : runbT BNil st ONorm st []
  | T_btrue c s r st o st' T : cev (env_of st) c = Some true -> runsT s st o st' T -> runbT (BCons c s r) st o st' (rds (catoms c) ++ T)
  | T_bfalse c s r st o st' T : cev (env_of st) c = Some false -> runbT r st o st' T -> runbT (BCons c s r) st o st' (rds (catoms c) ++ T)
  with runwT : seq -> store -> outcome -> store -> trace -> Prop :=
  | T_wnext s st o1 st1 o st' T1 T2 :
      runsT s st o1 st1 T1 -> o1 = ONorm \/ o1 = OCont -> runwT s st1 o st' T2 -> runwT s st o st' (T1 ++ T2)
  | T_wbreak s st st' T : runsT s st OBrk st' T -> runwT s st ONorm st' T
  | T_wret s st r st' T : runsT s st (ORet r) st' T -> runwT s st (ORet r) st' T
  with runlT : string -> cond -> expr -> seq -> store -> outcome -> store -> trace -> Prop :=
  | T_lend i c u s st : cev (env_of st) c = Some false -> runlT i c u s st ONorm st (rds (catoms c))
  | T_lnext i c u s st o1 st1 v o st' T1 T2 :
      cev (env_of st) c = Some true -> runsT s st o1 st1 T1 -> o1 = ONorm \/ o1 = OCont ->
      eval (env_of st1) u = Some v -> runlT i c u s (wr st1 i [] v) o st' T2 ->
      runlT i c u s st o st' (rds (catoms c) ++ T1 ++ rds (atoms u) ++ Ev true i [] [] :: T2)
  | T_lbreak i c u s st st' T :
      cev (env_of st) c = Some true -> runsT s st OBrk st' T -> runlT i c u s st ONorm st' (rds (catoms c) ++ T)
  | T_lret i c u s st r st' T :
      cev (env_of st) c = Some true -> runsT s st (ORet r) st' T -> runlT i c u s st (ORet r) st' (rds (catoms c) ++ T).
End Sem.

Scheme runT_ind' := Minimality for runT Sort Prop
with runsT_ind' := Minimality for runsT Sort Prop
with runbT_ind' := Minimality for runbT Sort Prop
with runwT_ind' := Minimality for runwT Sort Prop
with runlT_ind' := Minimality for runlT Sort Prop.
Combined Scheme runT_mind from runT_ind', runsT_ind', runbT_ind', runwT_ind', runlT_ind'.

(** The log adds nothing to, and takes nothing from, the executions. *)
Lemma trace_run I :
  (forall n st o st' T, runT I n st o st' T -> run I n st o st') /\
  (forall s st o st' T, runsT I s st o st' T -> runs I s st o st') /\
  (forall b st o st' T, runbT I b st o st' T -> runb I b st o st') /\
  (forall s st o st' T, runwT I s st o st' T -> runw I s st o st') /\
  (forall i c u s st o st' T, runlT I i c u s st o st' T -> runl I i c u s st o st').
Proof. apply runT_mind; intros; try (econstructor; eassumption). Qed.
Lemma run_trace I :
  (forall n st o st', run I n st o st' -> exists T, runT I n st o st' T) /\
  (forall s st o st', runs I s st o st' -> exists T, runsT I s st o st' T) /\
  (forall b st o st', runb I b st o st' -> exists T, runbT I b st o st' T) /\
  (forall s st o st', runw I s st o st' -> exists T, runwT I s st o st' T) /\
  (forall i c u s st o st', runl I i c u s st o st' -> exists T, runlT I i c u s st o st' T).
Proof.
  apply run_mind; intros; repeat match goal with H : exists _, _ |- _ => destruct H end; eexists;
    try (econstructor; eassumption).
Qed.

(* ---------------------------------------------------------------- *)
Lemma written_cons w y e k T x j : written (Ev w y e k :: T) x j <-> (w = true /\ y = x /\ k = j) \/ written T x j.
Proof.
  unfold written; simpl. split.
  - intros (e' & [Q|Q]); [injection Q as -> -> -> ->; auto|eauto].
  - intros [(-> & -> & ->)|(e' & Q)]; eauto.
Qed.
Lemma written_nil x j : ~ written [] x j.
Proof. intros (e & []). Qed.
Lemma written_dec T x j : written T x j \/ ~ written T x j.
Proof.
  induction T as [|[w y e k] T [IH|IH]]; [right; apply written_nil| |].
  - left. apply written_cons. auto.
  - destruct w; [|right; rewrite written_cons; intros [(Q & _)|Q]; [discriminate|auto]].
    destruct (string_dec y x) as [->|N]; [|right; rewrite written_cons; intros [(_ & Q & _)|Q]; auto].
    destruct (list_eq_dec Z.eq_dec k j) as [->|N]; [left; apply written_cons; auto|right; rewrite written_cons; intros [(_ & _ & Q)|Q]; auto].
Qed.
Lemma exposed_app T1 T2 x j : exposed (T1 ++ T2) x j <-> exposed T1 x j \/ ~ written T1 x j /\ exposed T2 x j.
Proof.
  induction T1 as [|[[|] y e k] T1 IH]; cbn [app exposed].
  - pose proof (written_nil x j). tauto.
  - rewrite IH, written_cons. intuition.
  - rewrite IH, written_cons. intuition congruence.
Qed.
Lemma written_app T1 T2 x j : written (T1 ++ T2) x j <-> written T1 x j \/ written T2 x j.
Proof.
  unfold written. split.
  - intros (e & H). apply in_app_iff in H as [H|H]; eauto.
  - intros [(e & H)|(e & H)]; exists e; apply in_app_iff; auto.
Qed.
Lemma exposed_rds l x j : exposed (rds l) x j <-> In x l /\ j = [].
Proof.
  induction l as [|y l IH]; simpl; [tauto|]. unfold rds in IH. rewrite IH. intuition congruence.
Qed.
Lemma written_rds l x j : ~ written (rds l) x j.
Proof. unfold written, rds. intros (e & H). apply in_map_iff in H as (y & Q & _). discriminate. Qed.
(** exposed reads are reads *)
Lemma exposed_read T x j : exposed T x j -> exists e, In (Ev false x e j) T.
Proof.
  induction T as [|[[|] y e k] T IH]; simpl; [tauto| |].
  - intros (_ & H). destruct (IH H) as (e' & H'). eauto.
  - intros [[-> ->]|H]; [eauto|]. destruct (IH H) as (e' & H'). eauto.
Qed.

(** agreement on a set of cells *)
Definition agree (S : string -> list Z -> Prop) (a b : store) : Prop := forall x j, S x j -> a x j = b x j.
Definition frame (T : trace) (a b : store) : Prop := forall x j, ~ written T x j -> b x j = a x j.
(** An execution [R a b] with log [T]: it changes only written cells, and from any
    store that agrees on the exposed reads it can be repeated with the same effect. *)
Definition local (R : store -> store -> Prop) (T : trace) (a b : store) : Prop :=
  frame T a b /\ forall a2, agree (exposed T) a a2 -> exists b2, R a2 b2 /\ frame T a2 b2 /\ agree (written T) b b2.

Lemma local_impl (R R' : store -> store -> Prop) T a b : (forall a2 b2, R a2 b2 -> R' a2 b2) -> local R T a b -> local R' T a b.
Proof. intros H [F L]. split; [exact F|]. intros a2 A. destruct (L a2 A) as (b2 & R2 & F2 & W2). exists b2. auto. Qed.
(** sequential composition *)
Lemma local_seq (R1 R2 : store -> store -> Prop) T1 T2 a m b : local R1 T1 a m -> local R2 T2 m b ->
  local (fun x y => exists z, R1 x z /\ R2 z y) (T1 ++ T2) a b.
Proof.
  intros [F1 L1] [F2 L2]. split.
  - intros x j N. rewrite written_app in N. rewrite F2 by tauto. apply F1. tauto.
  - intros a2 A. destruct (L1 a2) as (m2 & Q1 & G1 & W1).
    { intros x j E. apply A. apply exposed_app. auto. }
    pose proof (written_dec T1) as D.
    destruct (L2 m2) as (b2 & Q2 & G2 & W2).
    { intros x j E. destruct (D x j) as [W|N]; [apply W1; exact W|]. rewrite F1, G1 by exact N. apply A. apply exposed_app. auto. }
    exists b2. split; [eauto|]. split.
    + intros x j N. rewrite written_app in N. rewrite G2 by tauto. apply G1. tauto.
    + intros x j W. rewrite written_app in W.
      pose proof (written_dec T2 x j) as D2.
      destruct D2 as [W'|N]; [apply W2; exact W'|]. rewrite F2, G2 by exact N. apply W1. tauto.
Qed.
(** a test or an expression evaluation *)
Lemma local_reads (P : store -> Prop) l a : P a -> (forall a2, agree (fun x j => In x l /\ j = []) a a2 -> P a2) ->
  local (fun x y => P x /\ x = y) (rds l) a a.
Proof.
  intros H K. split; [intros x j _; reflexivity|]. intros a2 A. exists a2. split; [split; [|reflexivity]|split].
  - apply K. intros x j E. apply A. apply exposed_rds. exact E.
  - intros x j _. reflexivity.
  - intros x j W. elim (written_rds _ _ _ W).
Qed.
Lemma local_wr x v a : local (fun p q => q = wr p x [] v) [Ev true x [] []] a (wr a x [] v).
Proof.
  split.
  - intros y j N. unfold wr. destruct (String.eqb_spec x y) as [->|]; [|reflexivity].
    destruct j; [|reflexivity]. elim N. exists []. left. reflexivity.
  - intros a2 A. exists (wr a2 x [] v). split; [reflexivity|]. split.
    + intros y j N. unfold wr. destruct (String.eqb_spec x y) as [->|]; [|reflexivity].
      destruct j; [|reflexivity]. elim N. exists []. left. reflexivity.
    + intros y j (e & [Q|[]]). injection Q as -> <- <-. unfold wr. rewrite String.eqb_refl. reflexivity.
Qed.
Lemma local_id a : local (fun x y => x = y) [] a a.
Proof. split; [intros x j _; reflexivity|]. intros a2 _. exists a2. split; [reflexivity|]. split; intros x j; [reflexivity|intros (e & [])]. Qed.

(* expressions *)
Lemma eval_agree a a2 e : agree (fun x j => In x (atoms e) /\ j = []) a a2 -> eval (env_of a) e = eval (env_of a2) e.
Proof. intros A. unfold eval. rewrite (ev_agree (env_of a) (env_of a2)); [reflexivity|]. intros x Hx. apply A. auto. Qed.
Lemma cevT_agree a a2 c : agree (fun x j => In x (catoms c) /\ j = []) a a2 -> cev (env_of a) c = cev (env_of a2) c.
Proof. intros A. apply cev_agree. intros x Hx. apply A. auto. Qed.
Lemma evals_agree a a2 l : agree (fun x j => In x (concat (map atoms l)) /\ j = []) a a2 -> evals (env_of a) l = evals (env_of a2) l.
Proof.
  induction l as [|e l IH]; simpl; intros A; [reflexivity|]. rewrite (eval_agree a a2 e), IH; [reflexivity| |]; intros x j (Hx & ->); apply A; split; auto; apply in_or_app; auto.
Qed.

(* blocks and assignments *)
Definition nowr (T : trace) : Prop := forall x j, ~ written T x j.
Lemma exposed_nowr T1 T2 x j : nowr T1 -> (exposed (T1 ++ T2) x j <-> exposed T1 x j \/ exposed T2 x j).
Proof. intros N. rewrite exposed_app. specialize (N x j). tauto. Qed.
Lemma nowr_app T1 T2 : nowr T1 -> nowr T2 -> nowr (T1 ++ T2).
Proof. intros A B x j W. apply written_app in W as [W|W]; [elim (A _ _ W)|elim (B _ _ W)]. Qed.
Lemma nowr_rds l : nowr (rds l). Proof. intros x j. apply written_rds. Qed.
Lemma nowr_operand st o : nowr (operand_trace st o).
Proof.
  destruct o as [z|x sub]; simpl; [intros y j (e & [])|]. apply nowr_app; [apply nowr_rds|].
  destruct (evals _ _); intros y k (e & H); simpl in H; [destruct H as [Q|[]]; discriminate|destruct H].
Qed.
Lemma nowr_operands st l : nowr (concat (map (operand_trace st) l)).
Proof. induction l as [|o l IH]; simpl; [intros y j (e & [])|]. apply nowr_app; [apply nowr_operand|exact IH]. Qed.

Lemma operand_agree a a2 o : agree (exposed (operand_trace a o)) a a2 ->
  operand_trace a2 o = operand_trace a o /\ read_in a2 o = read_in a o.
Proof.
  destruct o as [z|x sub]; simpl; [auto|]. intros A.
  assert (E: evals (env_of a) sub = evals (env_of a2) sub).
  { apply evals_agree. intros y j (Hy & ->). apply A. apply exposed_nowr; [apply nowr_rds|]. left. apply exposed_rds. auto. }
  rewrite <- E. split; [reflexivity|]. destruct (evals (env_of a) sub) as [j|]; [|reflexivity]. f_equal. symmetry. apply A.
  apply exposed_nowr; [apply nowr_rds|]. right. simpl. auto.
Qed.
Lemma operands_agree a a2 l : agree (exposed (concat (map (operand_trace a) l))) a a2 ->
  concat (map (operand_trace a2) l) = concat (map (operand_trace a) l) /\ reads_in a2 l = reads_in a l.
Proof.
  induction l as [|o l IH]; simpl; [auto|]. intros A.
  destruct (operand_agree a a2 o) as (P & Q). { intros y j H. apply A. apply exposed_nowr; [apply nowr_operand|]. auto. }
  destruct IH as (P2 & Q2). { intros y j H. apply A. apply exposed_nowr; [apply nowr_operand|]. auto. }
  rewrite P, P2, Q, Q2. auto.
Qed.
Lemma idx_eqb_eq i j : idx_eqb i j = true <-> i = j.
Proof.
  revert j. induction i as [|x i IH]; intros [|y j]; simpl; split; try congruence; try discriminate.
  - rewrite andb_true_iff, Z.eqb_eq, IH. intros [-> ->]; reflexivity.
  - intros [= -> ->]. rewrite andb_true_iff, Z.eqb_eq, IH. auto.
Qed.
Lemma wr_other st x i v y j : ~ (x = y /\ i = j) -> wr st x i v y j = st y j.
Proof.
  intros N. unfold wr. destruct (String.eqb_spec x y) as [->|]; [|reflexivity]. simpl.
  destruct (idx_eqb i j) eqn:E; [|reflexivity]. apply idx_eqb_eq in E. tauto.
Qed.
Lemma wr_same st x i v : wr st x i v x i = v.
Proof. unfold wr. rewrite String.eqb_refl. simpl. destruct (idx_eqb i i) eqn:E; [reflexivity|]. assert (idx_eqb i i = true) by (apply idx_eqb_eq; reflexivity). congruence. Qed.

Lemma local_op I o a b : exec_op I a o = Some b ->
  local (fun x y => exec_op I x o = Some y /\ op_trace x o = op_trace a o) (op_trace a o) a b.
Proof.
  unfold exec_op. intros H.
  destruct (reads_in a (o_ins o)) as [vs|] eqn:Er; [|discriminate].
  destruct (evals (env_of a) (o_sub o)) as [j|] eqn:Es; [|discriminate].
  destruct (I (o_code o) vs) as [v|] eqn:Ei; [|discriminate]. injection H as <-.
  assert (WT: forall y k, written (op_trace a o) y k <-> o_out o = y /\ j = k).
  { intros y k. unfold op_trace. rewrite Es, !written_app. split.
    - intros [W|[W|W]]; [elim (nowr_operands _ _ _ _ W)|elim (nowr_rds _ _ _ W)|]. destruct W as (e & [W|[]]). injection W as -> _ ->. auto.
    - intros (<- & <-). right. right. exists (o_sub o). left. reflexivity. }
  split.
  - intros y k N. apply wr_other. intros Q. apply N. apply WT. exact Q.
  - intros a2 A.
    destruct (operands_agree a a2 (o_ins o)) as (P & Q).
    { intros y k E. apply A. apply exposed_nowr; [apply nowr_operands|]. auto. }
    assert (E: evals (env_of a) (o_sub o) = evals (env_of a2) (o_sub o)).
    { apply evals_agree. intros y k (Hy & ->). apply A. apply exposed_nowr; [apply nowr_operands|]. right.
      apply exposed_nowr; [apply nowr_rds|]. left. apply exposed_rds. auto. }
    exists (wr a2 (o_out o) j v). rewrite Q, Er, <- E, Es, Ei. split; [|split].
    + split; [reflexivity|]. unfold op_trace. rewrite P, <- E. reflexivity.
    + intros y k N. apply wr_other. intros Q'. apply N. apply WT. exact Q'.
    + intros y k W. apply WT in W as (<- & <-). rewrite !wr_same. reflexivity.
Qed.
Lemma local_block I b : forall a a', exec_block I a b = Some a' ->
  local (fun x y => exec_block I x b = Some y /\ block_trace I x b = block_trace I a b) (block_trace I a b) a a'.
Proof.
  induction b as [|o b IH]; simpl; intros a a' H.
  - injection H as <-. eapply local_impl; [|apply local_id]. intros x y ->. auto.
  - destruct (exec_op I a o) as [m|] eqn:Eo; [|discriminate].
    eapply local_impl; [|eapply local_seq; [apply (local_op I o a m Eo)|apply (IH m a' H)]].
    simpl. intros x y (z & (P & Q) & R & S). rewrite P, Q, R, S. auto.
Qed.
Lemma local_asg a : forall s s', exec_assigns s a = Some s' ->
  local (fun x y => exec_assigns x a = Some y) (asg_trace a) s s'.
Proof.
  induction a as [|[x e] a IH]; simpl; intros s s' H.
  - injection H as <-. eapply local_impl; [|apply local_id]. intros p q ->. reflexivity.
  - destruct (eval (env_of s) e) as [v|] eqn:Ee; [|discriminate]. unfold asg_trace. simpl. rewrite <- app_assoc.
    eapply local_impl; [|eapply local_seq; [eapply (local_reads (fun t => eval (env_of t) e = Some v) (atoms e)); [exact Ee|]|
      eapply local_seq; [apply local_wr|apply (IH _ _ H)]]].
    + simpl. intros p q (z & (P & ->) & z' & -> & Q). rewrite P. exact Q.
    + intros a2 A. rewrite <- (eval_agree s a2 e A). exact Ee.
Qed.
Lemma local_cev c b a : cev (env_of a) c = Some b -> local (fun x y => cev (env_of x) c = Some b /\ x = y) (rds (catoms c)) a a.
Proof. intros H. apply local_reads; [exact H|]. intros a2 A. rewrite <- (cevT_agree a a2 c A). exact H. Qed.
Lemma local_eval e v a : eval (env_of a) e = Some v -> local (fun x y => eval (env_of x) e = Some v /\ x = y) (rds (atoms e)) a a.
Proof. intros H. apply local_reads; [exact H|]. intros a2 A. rewrite <- (eval_agree a a2 e A). exact H. Qed.

(** Every execution depends only on the cells it reads before writing them, and
    changes only the cells it writes. *)
Theorem run_local I :
  (forall n st o st' T, runT I n st o st' T -> local (fun x y => runT I n x o y T) T st st') /\
  (forall s st o st' T, runsT I s st o st' T -> local (fun x y => runsT I s x o y T) T st st') /\
  (forall b st o st' T, runbT I b st o st' T -> local (fun x y => runbT I b x o y T) T st st') /\
  (forall s st o st' T, runwT I s st o st' T -> local (fun x y => runwT I s x o y T) T st st') /\
  (forall i c u s st o st' T, runlT I i c u s st o st' T -> local (fun x y => runlT I i c u s x o y T) T st st').
Proof.
  apply runT_mind; intros;
    try (eapply local_impl; [|eassumption]; intros; econstructor; solve [eauto]).
  - eapply local_impl; [|apply (local_block I b st st' H)]. intros x y (P & Q). rewrite <- Q. constructor. exact P.
  - change (Ev true i [] [] :: T) with ([Ev true i [] []] ++ T).
    eapply local_impl; [|eapply local_seq; [apply (local_eval init v st H)|eapply local_seq; [apply local_wr|eassumption]]].
    simpl. intros x y (z & (P & <-) & z' & -> & Q). change (Ev true i [] [] :: T) with ([Ev true i [] []] ++ T). econstructor; eauto.
  - eapply local_impl; [|apply local_id]. intros x y ->. constructor.
  - eapply local_impl; [|apply local_id]. intros x y ->. constructor.
  - eapply local_impl; [|apply local_id]. intros x y ->. constructor.
  - eapply local_impl; [|apply local_id]. intros x y ->. constructor.
  - eapply local_impl; [|eapply local_seq; [exact H0|eapply local_seq; [apply (local_asg a _ _ H1)|exact H3]]].
    simpl. intros x y (z & P & z' & Q & R). eapply T_cons; eauto.
  - eapply local_impl; [|apply local_id]. intros x y ->. constructor.
  - eapply local_impl; [|eapply local_seq; [apply (local_cev c true st H)|exact H1]].
    simpl. intros x y (z & (P & <-) & Q). constructor; assumption.
  - eapply local_impl; [|eapply local_seq; [apply (local_cev c false st H)|exact H1]].
    simpl. intros x y (z & (P & <-) & Q). apply T_bfalse; assumption.
  - eapply local_impl; [|eapply local_seq; [exact H0|exact H3]].
    simpl. intros x y (z & P & Q). eapply T_wnext; eauto.
  - eapply local_impl; [|apply (local_cev c false st H)]. intros x y (P & <-). constructor. exact P.
  - change (Ev true i [] [] :: T2) with ([Ev true i [] []] ++ T2).
    eapply local_impl; [|eapply local_seq; [apply (local_cev c true st H)|eapply local_seq; [exact H1|eapply local_seq; [apply (local_eval u v st1 H3)|eapply local_seq; [apply local_wr|exact H5]]]]].
    simpl. intros x y (z & (P & <-) & z' & Q & z2 & (R & <-) & z3 & -> & S). eapply T_lnext; eauto.
  - eapply local_impl; [|eapply local_seq; [apply (local_cev c true st H)|exact H1]].
    simpl. intros x y (z & (P & <-) & Q). apply T_lbreak; assumption.
  - eapply local_impl; [|eapply local_seq; [apply (local_cev c true st H)|exact H1]].
    simpl. intros x y (z & (P & <-) & Q). apply T_lret; assumption.
Qed.
