(** Elimination of array dimensions of size one.

    Modelled: sdfg/src/passes/dataflow/trivial_array_elimination.cpp:19-88 (run_pass), for
    one container. Simplified: element types other than arrays are not looked at; the
    container's moves and views, which the pass excludes (31-33), do not exist in this
    language. *)
From Verif Require Import Sym SymFacts IR IRFacts Trace.

(** 36-47: the first dimension of size one *)
Fixpoint trivial_dim (dims : list expr) : option nat :=
  match dims with
  | [] => None
  | n :: r => if expr_eqb n (EInt 1) then Some O else match trivial_dim r with Some k => Some (S k) | None => None end
  end.
(** vector::erase(begin + d), 66 and 80 *)
Fixpoint erase_at {A} (d : nat) (l : list A) : list A :=
  match l, d with [], _ => [] | _ :: r, O => r | a :: r, S k => a :: erase_at k r end.
Section Strip.
  Variables (x : string) (d : nat).
  (** 58-70: the memlets that read the container *)
  Definition strip_operand (o : operand) : operand :=
    match o with OConst z => OConst z | ORead y sub => ORead y (if String.eqb x y then erase_at d sub else sub) end.
  (** 72-84: the memlets that write it *)
  Definition strip_op (o : op) : op :=
    {| o_code := o_code o; o_ins := map strip_operand (o_ins o); o_out := o_out o; o_sub := if String.eqb x (o_out o) then erase_at d (o_sub o) else o_sub o |}.
  Fixpoint strip_node (n : node) : node :=
    match n with
    | NBlock b => NBlock (map strip_op b)
    | NSeq s => NSeq (strip_seq s)
    | NWhile s => NWhile (strip_seq s)
    | NIf bs => NIf (strip_brs bs)
    | NLoop k i init c u s => NLoop k i init c u (strip_seq s)
    | NBreak => NBreak | NContinue => NContinue | NReturn q => NReturn q
    end
  with strip_seq (s : seq) : seq := match s with SNil => SNil | SCons n a r => SCons (strip_node n) a (strip_seq r) end
  with strip_brs (b : brs) : brs := match b with BNil => BNil | BCons c s r => BCons c (strip_seq s) (strip_brs r) end.

  (** Elements of the old container at index 0 of the dimension are the elements of the
      new one; all other containers agree. *)
  Definition stripped (a b : store) : Prop :=
    (forall y j, y <> x -> a y j = b y j) /\ (forall j, nth_error j d = Some 0 -> a x j = b x (erase_at d j)).
  (** every access to the container has index 0 in the dimension *)
  Definition flat (T : trace) : Prop := forall w e j, In (Ev w x e j) T -> nth_error j d = Some 0.

  Lemma flat_app T1 T2 : flat (T1 ++ T2) -> flat T1 /\ flat T2.
  Proof. intros F. split; intros w e j H; apply (F w e j), in_app_iff; auto. Qed.
  Lemma flat_cons w y e j T : flat (Ev w y e j :: T) -> (y = x -> nth_error j d = Some 0) /\ flat T.
  Proof. intros F. split; [intros ->; apply (F w e j); left; reflexivity|intros w' e' j' H; apply (F w' e' j'); right; exact H]. Qed.
  Lemma flat_rds l : flat (rds l) -> ~ In x l.
  Proof.
    intros F H. assert (K : nth_error (@nil Z) d = Some 0); [|destruct d; discriminate].
    apply (F false [] []). apply in_map_iff. exists x. auto.
  Qed.
  Lemma erase_inj (j k : list Z) : nth_error j d = Some 0 -> nth_error k d = Some 0 -> erase_at d j = erase_at d k -> j = k.
  Proof.
    revert j k. induction d as [|m IH]; intros [|u j] [|v k]; cbn; try discriminate.
    - intros A B ->. congruence.
    - intros A B E. injection E as -> E. rewrite (IH j k A B E). reflexivity.
  Qed.
  Lemma sq_env a b l : stripped a b -> ~ In x l -> forall y, In y l -> env_of a y = env_of b y.
  Proof. intros (S1 & _) N y Hy. apply S1. intros ->. auto. Qed.
  Lemma sq_eval a b e : stripped a b -> ~ In x (atoms e) -> eval (env_of b) e = eval (env_of a) e.
  Proof. intros S1 N. unfold eval. rewrite (ev_agree (env_of b) (env_of a)); [reflexivity|]. intros y Hy. symmetry. eapply sq_env; eauto. Qed.
  Lemma sq_cev a b c : stripped a b -> ~ In x (catoms c) -> cev (env_of b) c = cev (env_of a) c.
  Proof. intros S1 N. apply cev_agree. intros y Hy. symmetry. eapply sq_env; eauto. Qed.
  Lemma sq_evals a b l : stripped a b -> ~ In x (concat (map atoms l)) -> evals (env_of b) l = evals (env_of a) l.
  Proof.
    intros S1. induction l as [|e l IH]; simpl; [reflexivity|]. rewrite in_app_iff. intros N. rewrite IH, (sq_eval a b) by tauto. reflexivity.
  Qed.
  Lemma evals_erase s l : forall k j, evals s l = Some j -> evals s (erase_at k l) = Some (erase_at k j).
  Proof.
    induction l as [|e l IH]; intros k j H; cbn in H; [injection H as <-; destruct k; reflexivity|].
    destruct (eval s e) as [v|] eqn:Ev; [|discriminate]. destruct (evals s l) as [r|] eqn:Er; [|discriminate]. injection H as <-.
    destruct k as [|k]; cbn [erase_at]; [exact Er|]. cbn [evals]. rewrite Ev, (IH k r eq_refl). reflexivity.
  Qed.
  Lemma sq_wr a b y j v : stripped a b -> (y = x -> nth_error j d = Some 0) -> stripped (wr a y j v) (wr b y (if String.eqb x y then erase_at d j else j) v).
  Proof.
    intros (S1 & S2) N. split.
    - intros z k Hz. unfold wr. destruct (String.eqb_spec y z) as [->|]; [|apply S1, Hz].
      destruct (String.eqb_spec x z); [congruence|]. cbn [andb]. destruct (idx_eqb j k); auto.
    - intros k Hk. unfold wr. destruct (String.eqb_spec y x) as [->|Ny]; cbn [andb]; [|apply S2, Hk]. rewrite String.eqb_refl.
      specialize (N eq_refl). destruct (idx_eqb j k) eqn:E1, (idx_eqb (erase_at d j) (erase_at d k)) eqn:E2; auto; try (apply S2, Hk).
      + apply idx_eqb_eq in E1. subst k. apply not_true_iff_false in E2. elim E2. apply idx_eqb_eq. reflexivity.
      + apply idx_eqb_eq in E2. apply erase_inj in E2; auto. subst k. apply not_true_iff_false in E1. elim E1. apply idx_eqb_eq. reflexivity.
  Qed.
  Lemma sq_sym a b y v : stripped a b -> y <> x -> stripped (wr a y [] v) (wr b y [] v).
  Proof. intros S1 N. pose proof (sq_wr a b y [] v S1 (fun E => False_ind _ (N E))) as W. destruct (String.eqb_spec x y); [congruence|exact W]. Qed.

  Section Exec.
    Variable I : nat -> list Z -> option Z.
    Lemma strip_read a b o : stripped a b -> flat (operand_trace a o) -> forall v, read_in a o = Some v -> read_in b (strip_operand o) = Some v.
    Proof.
      intros S1 F v. destruct o as [q|y sub]; cbn [strip_operand operand_trace read_in] in *; [auto|]. apply flat_app in F as [F1 F2]. apply flat_rds in F1.
      destruct (evals (env_of a) sub) as [j|] eqn:E; [|discriminate]. apply flat_cons in F2 as [F2 _]. destruct (String.eqb_spec x y) as [<-|N].
      - rewrite <- (sq_evals a b) in E by assumption. rewrite (evals_erase _ _ _ _ E). intros H. rewrite <- (proj2 S1 j (F2 eq_refl)). exact H.
      - rewrite (sq_evals a b), E by assumption. intros H. rewrite <- (proj1 S1 y j) by congruence. exact H.
    Qed.
    Lemma strip_reads a b l : stripped a b -> flat (concat (map (operand_trace a) l)) -> forall v, reads_in a l = Some v -> reads_in b (map strip_operand l) = Some v.
    Proof.
      intros S1. induction l as [|o l IH]; cbn [map concat reads_in]; intros F v H; [exact H|]. apply flat_app in F as [F1 F2].
      destruct (read_in a o) as [z|] eqn:E; [|discriminate]. destruct (reads_in a l) as [zs|] eqn:E2; [|discriminate].
      rewrite (strip_read _ _ _ S1 F1 _ E), (IH F2 _ eq_refl). exact H.
    Qed.
    Lemma strip_block bl : forall a b a', stripped a b -> flat (block_trace I a bl) -> exec_block I a bl = Some a' ->
      exists b', exec_block I b (map strip_op bl) = Some b' /\ stripped a' b'.
    Proof.
      induction bl as [|o bl IH]; intros a b a' S1 F R; cbn [exec_block map block_trace] in *; [injection R as <-; exists b; auto|].
      apply flat_app in F as [F1 F2]. unfold op_trace in F1. apply flat_app in F1 as [F1 F3]. apply flat_app in F3 as [F3 F4]. apply flat_rds in F3.
      destruct (exec_op I a o) as [a1|] eqn:EO; [|discriminate].
      assert (Q : exists b1, exec_op I b (strip_op o) = Some b1 /\ stripped a1 b1).
      { unfold exec_op in *. cbn [o_ins o_sub o_code o_out strip_op].
        destruct (reads_in a (o_ins o)) as [vs|] eqn:E1; [|discriminate]. rewrite (strip_reads _ _ _ S1 F1 _ E1).
        destruct (evals (env_of a) (o_sub o)) as [j|] eqn:E2; [|discriminate]. apply flat_cons in F4 as [F4 _].
        destruct (I (o_code o) vs) as [v|]; [|discriminate]. injection EO as <-. rewrite <- (sq_evals a b) in E2 by assumption.
        destruct (String.eqb x (o_out o)) eqn:Ex.
        - rewrite (evals_erase _ _ _ _ E2). eexists. split; [reflexivity|]. pose proof (sq_wr a b (o_out o) j v S1 F4) as W. rewrite Ex in W. exact W.
        - rewrite E2. eexists. split; [reflexivity|]. pose proof (sq_wr a b (o_out o) j v S1 F4) as W. rewrite Ex in W. exact W. }
      destruct Q as (b1 & Q1 & Q2). rewrite Q1. eapply IH; eassumption.
    Qed.
    Lemma strip_asg l : forall a b a', stripped a b -> flat (asg_trace l) -> exec_assigns a l = Some a' -> exists b', exec_assigns b l = Some b' /\ stripped a' b'.
    Proof.
      induction l as [|[y e] l IH]; intros a b a' S1 F R; cbn [exec_assigns] in *; [injection R as <-; exists b; auto|].
      unfold asg_trace in F. cbn [map concat fst snd] in F. apply flat_app in F as [F1 F2]. apply flat_app in F1 as [F1 F3]. apply flat_rds in F1. apply flat_cons in F3 as [F3 _].
      rewrite (sq_eval a b) by assumption. destruct (eval (env_of a) e) as [v|]; [|discriminate].
      eapply IH; [|exact F2|exact R]. apply sq_sym; [exact S1|]. intros ->. specialize (F3 eq_refl). destruct d; discriminate.
    Qed.
    Theorem strip_sim :
      (forall n a o a' T, runT I n a o a' T -> forall b, stripped a b -> flat T -> exists b', run I (strip_node n) b o b' /\ stripped a' b') /\
      (forall s a o a' T, runsT I s a o a' T -> forall b, stripped a b -> flat T -> exists b', runs I (strip_seq s) b o b' /\ stripped a' b') /\
      (forall s a o a' T, runbT I s a o a' T -> forall b, stripped a b -> flat T -> exists b', runb I (strip_brs s) b o b' /\ stripped a' b') /\
      (forall s a o a' T, runwT I s a o a' T -> forall b, stripped a b -> flat T -> exists b', runw I (strip_seq s) b o b' /\ stripped a' b') /\
      (forall i c u s a o a' T, runlT I i c u s a o a' T -> forall b, stripped a b -> flat T -> exists b', runl I i c u (strip_seq s) b o b' /\ stripped a' b').
    Proof.
      assert (NX : forall y T, flat (Ev true y [] [] :: T) -> y <> x /\ flat T).
      { intros y T F. apply flat_cons in F as [F1 F2]. split; [intros E; specialize (F1 E); destruct d; discriminate|exact F2]. }
      apply runT_mind; cbn [strip_node strip_seq strip_brs].
      - intros bl a a' R b S1 F. destruct (strip_block bl a b a' S1 F R) as (b' & R' & S2). exists b'. split; [constructor; exact R'|exact S2].
      - intros s a o a' T _ IH b S1 F. destruct (IH b S1 F) as (b' & R' & S2). exists b'. split; [constructor; exact R'|exact S2].
      - intros s a o a' T _ IH b S1 F. destruct (IH b S1 F) as (b' & R' & S2). exists b'. split; [constructor; exact R'|exact S2].
      - intros s a o a' T _ IH b S1 F. destruct (IH b S1 F) as (b' & R' & S2). exists b'. split; [constructor; exact R'|exact S2].
      - intros k i init c u s a v o a' T E _ IH b S1 F. apply flat_app in F as [F1 F2]. apply flat_rds in F1. apply NX in F2 as [N F2].
        destruct (IH _ (sq_sym a b i v S1 N) F2) as (b' & R' & S2). exists b'. split; [econstructor; [rewrite (sq_eval a b) by assumption; exact E|exact R']|exact S2].
      - intros a b S1 _. exists b. split; [constructor|exact S1].
      - intros a b S1 _. exists b. split; [constructor|exact S1].
      - intros r a b S1 _. exists b. split; [constructor|exact S1].
      - intros a b S1 _. exists b. split; [constructor|exact S1].
      - intros n g r a a1 a2 o a' T1 T2 _ IH1 E _ IH2 b S1 F. apply flat_app in F as [F1 F2]. apply flat_app in F2 as [F2 F3].
        destruct (IH1 b S1 F1) as (b1 & R1 & S2). destruct (strip_asg g a1 b1 a2 S2 F2 E) as (b2 & R2 & S3). destruct (IH2 b2 S3 F3) as (b' & R3 & S4).
        exists b'. split; [econstructor; eassumption|exact S4].
      - intros n g r a o a' T _ IH N b S1 F. destruct (IH b S1 F) as (b' & R' & S2). exists b'. split; [econstructor; eassumption|exact S2].
      - intros a b S1 _. exists b. split; [constructor|exact S1].
      - intros c s r a o a' T E _ IH b S1 F. apply flat_app in F as [F1 F2]. apply flat_rds in F1. destruct (IH b S1 F2) as (b' & R' & S2).
        exists b'. split; [econstructor; [rewrite (sq_cev a b) by assumption; exact E|exact R']|exact S2].
      - intros c s r a o a' T E _ IH b S1 F. apply flat_app in F as [F1 F2]. apply flat_rds in F1. destruct (IH b S1 F2) as (b' & R' & S2).
        exists b'. split; [eapply R_bfalse; [rewrite (sq_cev a b) by assumption; exact E|exact R']|exact S2].
      - intros s a o1 a1 o a' T1 T2 _ IH1 O _ IH2 b S1 F. apply flat_app in F as [F1 F2]. destruct (IH1 b S1 F1) as (b1 & R1 & S2). destruct (IH2 b1 S2 F2) as (b' & R2 & S3).
        exists b'. split; [econstructor; eassumption|exact S3].
      - intros s a a' T _ IH b S1 F. destruct (IH b S1 F) as (b' & R' & S2). exists b'. split; [econstructor; exact R'|exact S2].
      - intros s a r a' T _ IH b S1 F. destruct (IH b S1 F) as (b' & R' & S2). exists b'. split; [econstructor; exact R'|exact S2].
      - intros i c u s a E b S1 F. apply flat_rds in F. exists b. split; [econstructor; rewrite (sq_cev a b) by assumption; exact E|exact S1].
      - intros i c u s a o1 a1 v o a' T1 T2 E _ IH1 O E2 _ IH2 b S1 F. apply flat_app in F as [F1 F2]. apply flat_rds in F1. apply flat_app in F2 as [F2 F3].
        apply flat_app in F3 as [F3 F4]. apply flat_rds in F3. apply NX in F4 as [N F4]. destruct (IH1 b S1 F2) as (b1 & R1 & S2).
        destruct (IH2 _ (sq_sym a1 b1 i v S2 N) F4) as (b' & R2 & S3).
        exists b'. split; [eapply R_lnext; [rewrite (sq_cev a b) by assumption; exact E|exact R1|exact O|rewrite (sq_eval a1 b1) by assumption; exact E2|exact R2]|exact S3].
      - intros i c u s a a' T E _ IH b S1 F. apply flat_app in F as [F1 F2]. apply flat_rds in F1. destruct (IH b S1 F2) as (b' & R' & S2).
        exists b'. split; [eapply R_lbreak; [rewrite (sq_cev a b) by assumption; exact E|exact R']|exact S2].
      - intros i c u s a r a' T E _ IH b S1 F. apply flat_app in F as [F1 F2]. apply flat_rds in F1. destruct (IH b S1 F2) as (b' & R' & S2).
        exists b'. split; [eapply R_lret; [rewrite (sq_cev a b) by assumption; exact E|exact R']|exact S2].
    Qed.
  End Exec.
End Strip.
