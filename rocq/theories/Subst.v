(** Execution of a program in which a symbol has been replaced ([repl_*], IR.v). *)
From Verif Require Import Sym SymFacts SymFuns SymProofs1 IR IRFacts IRRefine PassCFG PassInline PassCFGProofs2 LoopTile LoopIter.

Lemma rename_other' i r x : x <> i -> rename i r x = x.
Proof. intros N. unfold rename. destruct r; auto. destruct (String.eqb_spec i x); congruence. Qed.

(** Replacement of [i] by an expression with the same value: [a] is the store of
    the original, [b] that of the replaced program; they agree except at [i]. *)
Section Expr.
  Variables (I : nat -> list Z -> option Z) (i : string) (e : expr).
  Definition same_value (a b : store) : Prop :=
    (forall x j, x <> i -> b x j = a x j) /\ eval (env_of b) e = Some (a i []).
  (** nothing written that is replaced or that the replacement reads *)
  Definition keeps (l : list string) : Prop := forall x, In x l -> x <> i /\ ~ In x (atoms e).
  Lemma keeps_cons x l : keeps (x :: l) <-> (x <> i /\ ~ In x (atoms e)) /\ keeps l.
  Proof. unfold keeps. simpl. split; [intros H; split; [apply H; auto|intros; apply H; auto]|intros (A & B) y [<-|Q]; auto]. Qed.
  Lemma keeps_app l m : keeps (l ++ m) <-> keeps l /\ keeps m.
  Proof. unfold keeps. setoid_rewrite in_app_iff. firstorder. Qed.

  Lemma sv_wr a b x j v : same_value a b -> x <> i -> ~ In x (atoms e) -> same_value (wr a x j v) (wr b x j v).
  Proof.
    intros (A & B) N M. split.
    - intros y k Ny. unfold wr. destruct (_ && _); [reflexivity|apply A; exact Ny].
    - rewrite wr_other by auto. rewrite <- B. unfold eval. rewrite (ev_agree _ (env_of b)); [reflexivity|].
      intros y Hy. unfold env_of. apply wr_other. left. congruence.
  Qed.
  Lemma sv_env a b : same_value a b -> forall x, upd (env_of b) i (a i []) x = env_of a x.
  Proof. intros (A & _) x. unfold upd, env_of. destruct (String.eqb_spec i x) as [->|N]; auto. Qed.
  Lemma sv_eval a b d : same_value a b -> eval (env_of b) (subs d i e) = eval (env_of a) d.
  Proof.
    intros S. unfold eval. rewrite (ev_subs _ _ _ _ (a i [])) by (apply eval_ev; apply S). rewrite (ev_agree _ (env_of a)); [reflexivity|].
    intros x _. apply sv_env. exact S.
  Qed.
  Lemma sv_cev a b c : same_value a b -> cev (env_of b) (csubs c i e) = cev (env_of a) c.
  Proof. intros S. rewrite (cev_subs _ _ _ _ (a i [])) by (apply eval_ev; apply S). apply cev_agree. intros x _. apply sv_env. exact S. Qed.
  Lemma sv_evals a b l : same_value a b -> evals (env_of b) (map (fun d => subs d i e) l) = evals (env_of a) l.
  Proof. intros S. induction l as [|d l IH]; simpl; [reflexivity|]. rewrite IH, (sv_eval a b) by exact S. reflexivity. Qed.
  Lemma sv_reads a b l : same_value a b -> ~ In i (concat (map op_data l)) -> reads_in b (map (repl_operand i e) l) = reads_in a l.
  Proof.
    intros S. induction l as [|o l IH]; simpl; [reflexivity|]. rewrite in_app_iff. intros N. rewrite IH by tauto.
    destruct o as [z|x sub]; simpl; [reflexivity|]. simpl in N. rewrite rename_other' by (intros ->; tauto). rewrite (sv_evals a b) by exact S.
    destruct (evals (env_of a) sub) as [j|]; [|reflexivity]. rewrite (proj1 S) by (intros ->; tauto). reflexivity.
  Qed.
  Lemma sv_block bl : forall a b a', same_value a b -> ~ In i (block_data bl) -> keeps (map o_out bl) ->
    exec_block I a bl = Some a' -> exists b', exec_block I b (map (repl_op i e) bl) = Some b' /\ same_value a' b'.
  Proof.
    induction bl as [|o bl IH]; cbn [exec_block map]; intros a b a' S N K R.
    - injection R as <-. eauto.
    - apply keeps_cons in K as [[K0 K1] K2]. change (block_data (o :: bl)) with (concat (map op_data (o_ins o)) ++ block_data bl) in N.
      rewrite in_app_iff in N. unfold exec_op in *. cbn [o_ins o_sub o_code o_out repl_op].
      rewrite (sv_reads a b), (sv_evals a b) by tauto. rewrite rename_other' by exact K0.
      destruct (reads_in a (o_ins o)); [|discriminate]. destruct (evals (env_of a) (o_sub o)); [|discriminate].
      destruct (I (o_code o) l); [|discriminate]. eapply IH; [| | |exact R]; auto using sv_wr.
  Qed.
  Lemma sv_assigns l : forall a b a', same_value a b -> keeps (map fst l) ->
    exec_assigns a l = Some a' -> exists b', exec_assigns b (repl_asg i e l) = Some b' /\ same_value a' b'.
  Proof.
    induction l as [|[x d] l IH]; cbn [exec_assigns map fst]; intros a b a' S K R.
    - injection R as <-. exists b; split; auto.
    - apply keeps_cons in K as [[K0 K1] K2]. unfold repl_asg. cbn [exec_assigns map fst snd]. rewrite rename_other' by exact K0.
      rewrite (sv_eval a b) by exact S. destruct (eval (env_of a) d); [|discriminate]. eapply IH; [| |exact R]; auto using sv_wr.
  Qed.
  Lemma subst_sim :
    (forall n a o a', run I n a o a' -> forall b, keeps (nwrites n) -> ~ In i (ndata n) -> same_value a b ->
       exists b', run I (repl_node i e n) b o b' /\ same_value a' b') /\
    (forall n a o a', runs I n a o a' -> forall b, keeps (swrites n) -> ~ In i (sdata n) -> same_value a b ->
       exists b', runs I (repl_seq i e n) b o b' /\ same_value a' b') /\
    (forall n a o a', runb I n a o a' -> forall b, keeps (bwrites n) -> ~ In i (bdata n) -> same_value a b ->
       exists b', runb I (repl_brs i e n) b o b' /\ same_value a' b') /\
    (forall n a o a', runw I n a o a' -> forall b, keeps (swrites n) -> ~ In i (sdata n) -> same_value a b ->
       exists b', runw I (repl_seq i e n) b o b' /\ same_value a' b') /\
    (forall j c u n a o a', runl I j c u n a o a' -> forall b, keeps (j :: swrites n) -> ~ In i (sdata n) -> same_value a b ->
       exists b', runl I j (csubs c i e) (subs u i e) (repl_seq i e n) b o b' /\ same_value a' b').
  Proof.
    apply run_mind; cbn [nwrites swrites bwrites ndata sdata bdata repl_node repl_seq repl_brs]; intros.
    - destruct (sv_block b st b0 st') as (q & ? & ?); auto. exists q; split; auto; constructor; auto.
    - destruct (H0 b) as (q & ? & ?); auto; exists q; split; auto; constructor; auto.
    - destruct (H0 b) as (q & ? & ?); auto; exists q; split; auto; constructor; auto.
    - destruct (H0 b) as (q & ? & ?); auto; exists q; split; auto; constructor; auto.
    - pose proof H2 as S. apply keeps_cons in S as [[S0 S1] _].
      destruct (H1 (wr b i0 [] v)) as (q & ? & ?); auto using sv_wr.
      exists q; split; auto. rewrite rename_other' by auto. econstructor; eauto. rewrite (sv_eval st b); auto.
    - eexists; split; eauto; constructor.
    - eexists; split; eauto; constructor.
    - eexists; split; eauto; constructor.
    - eexists; split; eauto; constructor.
    - apply keeps_app in H4 as [S1 S2]. apply keeps_app in S2 as [S2 S3]. rewrite in_app_iff in H5.
      destruct (H0 b) as (q & ? & ?); auto. destruct (sv_assigns a st1 q st2) as (q2 & ? & ?); auto.
      destruct (H3 q2) as (q3 & ? & ?); auto. exists q3; split; auto. econstructor; eauto.
    - apply keeps_app in H2 as [S1 S2]. rewrite in_app_iff in H3. destruct (H0 b) as (q & ? & ?); auto. exists q; split; auto. apply R_exit; auto.
    - eexists; split; eauto; constructor.
    - apply keeps_app in H2 as [S1 S2]. rewrite in_app_iff in H3. destruct (H1 b) as (q & ? & ?); auto. exists q; split; auto. apply R_btrue; auto. rewrite (sv_cev st b); auto.
    - apply keeps_app in H2 as [S1 S2]. rewrite in_app_iff in H3. destruct (H1 b) as (q & ? & ?); auto. exists q; split; auto. apply R_bfalse; auto. rewrite (sv_cev st b); auto.
    - destruct (H0 b) as (q & ? & ?); auto. destruct (H3 q) as (q2 & ? & ?); auto. exists q2; split; auto. eapply R_wnext; eauto.
    - destruct (H0 b) as (q & ? & ?); auto. exists q; split; auto. apply R_wbreak; auto.
    - destruct (H0 b) as (q & ? & ?); auto. exists q; split; auto. apply R_wret; auto.
    - exists b; split; auto. apply R_lend. rewrite (sv_cev st b); auto.
    - pose proof H6 as S. apply keeps_cons in S as [[S0 S1] S2]. destruct (H1 b) as (q & ? & ?); auto.
      destruct (H5 (wr q i0 [] v)) as (q2 & ? & ?); auto using sv_wr.
      exists q2; split; auto. eapply R_lnext; eauto; [rewrite (sv_cev st b); auto|rewrite (sv_eval st1 q); auto].
    - apply keeps_cons in H2 as [_ S2]. destruct (H1 b) as (q & ? & ?); auto. exists q; split; auto. apply R_lbreak; auto. rewrite (sv_cev st b); auto.
    - apply keeps_cons in H2 as [_ S2]. destruct (H1 b) as (q & ? & ?); auto. exists q; split; auto. apply R_lret; auto. rewrite (sv_cev st b); auto.
  Qed.
End Expr.

(** [i] is a scalar: blocks access it with the empty index only. *)
Definition sc_operand (i : string) (o : operand) : bool :=
  match o with OConst _ => true | ORead x sub => negb (String.eqb i x) || match sub with [] => true | _ => false end end.
Definition sc_op (i : string) (o : op) : bool :=
  forallb (sc_operand i) (o_ins o) && (negb (String.eqb i (o_out o)) || match o_sub o with [] => true | _ => false end).
Fixpoint nscalar (i : string) (n : node) : bool :=
  match n with
  | NBlock b => forallb (sc_op i) b
  | NSeq s | NWhile s | NLoop _ _ _ _ _ s => sscalar i s
  | NIf bs => bscalar i bs
  | NBreak | NContinue | NReturn _ => true
  end
with sscalar (i : string) (s : seq) : bool :=
  match s with SNil => true | SCons n _ r => nscalar i n && sscalar i r end
with bscalar (i : string) (b : brs) : bool :=
  match b with BNil => true | BCons _ s r => sscalar i s && bscalar i r end.

(** Renaming of the scalar [i] to a symbol [z] that does not occur. *)
Section Rename.
  Variables (I : nat -> list Z -> option Z) (i z : string).
  Definition renamed (a b : store) : Prop := b z [] = a i [] /\ (forall x j, x <> i -> x <> z -> b x j = a x j).
  Definition free (l : list string) : Prop := ~ In z l.
  Lemma free_app l m : free (l ++ m) <-> free l /\ free m. Proof. unfold free. rewrite in_app_iff. tauto. Qed.
  Lemma free_cons x l : free (x :: l) <-> x <> z /\ free l. Proof. unfold free. simpl. intuition. Qed.
  Notation rn := (rename i (ESym z)).
  Lemma rn_eq x : rn x = if String.eqb i x then z else x. Proof. reflexivity. Qed.
  Lemma rn_at a b x j : renamed a b -> x <> z -> x <> i \/ j = [] -> b (rn x) j = a x j.
  Proof. intros (A & B) N Q. rewrite rn_eq. destruct (String.eqb_spec i x) as [<-|M]; auto. destruct Q as [Q| ->]; [congruence|exact A]. Qed.
  Lemma rn_wr a b x j v : renamed a b -> x <> z -> x <> i \/ j = [] -> renamed (wr a x j v) (wr b (rn x) j v).
  Proof.
    intros (A & B) N Q. rewrite rn_eq. split; [|intros y k Ny Nz]; unfold wr.
    - destruct (String.eqb_spec i x) as [<-|M].
      + destruct Q as [Q| ->]; [congruence|]. rewrite !String.eqb_refl. reflexivity.
      + destruct (String.eqb_spec x z); [congruence|]. destruct (String.eqb_spec x i); [congruence|]. simpl. apply A.
    - destruct (String.eqb_spec i x) as [<-|M].
      + destruct (String.eqb_spec z y); [congruence|]. destruct (String.eqb_spec i y); [congruence|]. simpl. auto.
      + destruct (String.eqb_spec x y); simpl; [|auto]. destruct (idx_eqb j k); auto.
  Qed.
  Lemma rn_wr0 a b x v : renamed a b -> x <> z -> renamed (wr a x [] v) (wr b (rn x) [] v).
  Proof. intros. apply rn_wr; auto. Qed.
  Lemma rn_env a b : renamed a b -> forall x, x <> z -> upd (env_of b) i (b z []) x = env_of a x.
  Proof. intros (A & B) x N. unfold upd, env_of. destruct (String.eqb_spec i x) as [<-|M]; auto. Qed.
  Lemma rn_eval a b d : renamed a b -> free (atoms d) -> eval (env_of b) (subs d i (ESym z)) = eval (env_of a) d.
  Proof.
    intros S F. unfold eval. rewrite (ev_subs _ _ _ _ (b z [])) by reflexivity. rewrite (ev_agree _ (env_of a)); [reflexivity|].
    intros x Hx. apply rn_env; [exact S|]. intros ->. auto.
  Qed.
  Lemma rn_cev a b c : renamed a b -> free (catoms c) -> cev (env_of b) (csubs c i (ESym z)) = cev (env_of a) c.
  Proof.
    intros S F. rewrite (cev_subs _ _ _ _ (b z [])) by reflexivity. apply cev_agree. intros x Hx. apply rn_env; [exact S|]. intros ->. auto.
  Qed.
  Lemma rn_evals a b l : renamed a b -> free (concat (map atoms l)) -> evals (env_of b) (map (fun d => subs d i (ESym z)) l) = evals (env_of a) l.
  Proof.
    intros S. induction l as [|d l IH]; simpl; [reflexivity|]. rewrite free_app. intros (F1 & F2). rewrite IH, (rn_eval a b) by auto. reflexivity.
  Qed.
  Lemma sc_idx x sub s j : negb (String.eqb i x) || match sub with [] => true | _ => false end = true -> evals s sub = Some j -> x <> i \/ j = [].
  Proof.
    intros H E. destruct (String.eqb_spec i x) as [<-|N]; [|left; congruence]. simpl in H. destruct sub; [|discriminate].
    simpl in E. injection E as <-. auto.
  Qed.
  Lemma rn_reads a b l : renamed a b -> free (concat (map opnames l)) -> forallb (sc_operand i) l = true -> reads_in b (map (repl_operand i (ESym z)) l) = reads_in a l.
  Proof.
    intros S. induction l as [|o l IH]; simpl; [reflexivity|]. rewrite free_app. intros (F1 & F2) C. apply andb_true_iff in C as [C1 C2]. rewrite IH by auto.
    destruct o as [q|x sub]; simpl in *; [reflexivity|]. apply free_cons in F1 as [F0 F1]. rewrite (rn_evals a b) by auto.
    destruct (evals (env_of a) sub) as [j|] eqn:E; [|reflexivity]. rewrite <- (rn_at a b x j) by (eauto using sc_idx). reflexivity.
  Qed.
  Lemma rn_block bl : forall a b a', renamed a b -> free (block_names bl) -> forallb (sc_op i) bl = true ->
    exec_block I a bl = Some a' -> exists b', exec_block I b (map (repl_op i (ESym z)) bl) = Some b' /\ renamed a' b'.
  Proof.
    induction bl as [|o bl IH]; cbn [exec_block map forallb]; intros a b a' S N C R.
    - injection R as <-. eauto.
    - apply andb_true_iff in C as [C C3]. apply andb_true_iff in C as [C1 C2].
      change (block_names (o :: bl)) with (op_names o ++ block_names bl) in N. apply free_app in N as [N1 N2].
      unfold op_names in N1. apply free_cons in N1 as [N0 N1]. apply free_app in N1 as [N1 N3].
      unfold exec_op in *. cbn [o_ins o_sub o_code o_out repl_op].
      rewrite (rn_reads a b), (rn_evals a b) by auto.
      destruct (reads_in a (o_ins o)); [|discriminate]. destruct (evals (env_of a) (o_sub o)) as [j|] eqn:E; [|discriminate].
      destruct (I (o_code o) l); [|discriminate]. eapply IH; [| | |exact R]; auto. apply rn_wr; eauto using sc_idx.
  Qed.
  Lemma rn_assigns l : forall a b a', renamed a b -> free (asg_names l) ->
    exec_assigns a l = Some a' -> exists b', exec_assigns b (repl_asg i (ESym z) l) = Some b' /\ renamed a' b'.
  Proof.
    induction l as [|[x d] l IH]; cbn [exec_assigns map fst]; intros a b a' S K R.
    - injection R as <-. exists b; split; auto.
    - change (asg_names ((x, d) :: l)) with ((x :: atoms d) ++ asg_names l) in K. apply free_app in K as [K1 K2]. apply free_cons in K1 as [K0 K1].
      unfold repl_asg. cbn [exec_assigns map fst snd].
      rewrite (rn_eval a b) by auto. destruct (eval (env_of a) d); [|discriminate]. eapply IH; [| |exact R]; auto using rn_wr0.
  Qed.
  Lemma rename_sim :
    (forall n a o a', run I n a o a' -> forall b, free (nnames n) -> nscalar i n = true -> renamed a b -> exists b', run I (repl_node i (ESym z) n) b o b' /\ renamed a' b') /\
    (forall n a o a', runs I n a o a' -> forall b, free (snames n) -> sscalar i n = true -> renamed a b -> exists b', runs I (repl_seq i (ESym z) n) b o b' /\ renamed a' b') /\
    (forall n a o a', runb I n a o a' -> forall b, free (bnames n) -> bscalar i n = true -> renamed a b -> exists b', runb I (repl_brs i (ESym z) n) b o b' /\ renamed a' b') /\
    (forall n a o a', runw I n a o a' -> forall b, free (snames n) -> sscalar i n = true -> renamed a b -> exists b', runw I (repl_seq i (ESym z) n) b o b' /\ renamed a' b') /\
    (forall j c u n a o a', runl I j c u n a o a' -> forall b, free (j :: catoms c ++ atoms u ++ snames n) -> sscalar i n = true -> renamed a b ->
       exists b', runl I (rn j) (csubs c i (ESym z)) (subs u i (ESym z)) (repl_seq i (ESym z) n) b o b' /\ renamed a' b').
  Proof.
    apply run_mind; cbn [nnames snames bnames repl_node repl_seq repl_brs nscalar sscalar bscalar]; intros;
      repeat match goal with H : free (_ ++ _) |- _ => apply free_app in H as [? ?] | H : free (_ :: _) |- _ => apply free_cons in H as [? ?]
                           | H : _ && _ = true |- _ => apply andb_true_iff in H as [? ?] end.
    - destruct (rn_block b st b0 st') as (q & ? & ?); auto. exists q; split; auto; constructor; auto.
    - destruct (H0 b) as (q & ? & ?); auto; exists q; split; auto; constructor; auto.
    - destruct (H0 b) as (q & ? & ?); auto; exists q; split; auto; constructor; auto.
    - destruct (H0 b) as (q & ? & ?); auto; exists q; split; auto; constructor; auto.
    - destruct (H1 (wr b (rn i0) [] v)) as (q & ? & ?); auto using rn_wr0. { rewrite free_cons, !free_app. auto. }
      exists q; split; auto. econstructor; eauto. rewrite (rn_eval st b); auto.
    - eexists; split; eauto; constructor.
    - eexists; split; eauto; constructor.
    - eexists; split; eauto; constructor.
    - eexists; split; eauto; constructor.
    - destruct (H0 b) as (q & ? & ?); auto. destruct (rn_assigns a st1 q st2) as (q2 & ? & ?); auto.
      destruct (H3 q2) as (q3 & ? & ?); auto. exists q3; split; auto. econstructor; eauto.
    - destruct (H0 b) as (q & ? & ?); auto. exists q; split; auto. apply R_exit; auto.
    - eexists; split; eauto; constructor.
    - destruct (H1 b) as (q & ? & ?); auto. exists q; split; auto. apply R_btrue; auto. rewrite (rn_cev st b); auto.
    - destruct (H1 b) as (q & ? & ?); auto. exists q; split; auto. apply R_bfalse; auto. rewrite (rn_cev st b); auto.
    - destruct (H0 b) as (q & ? & ?); auto. destruct (H3 q) as (q2 & ? & ?); auto. exists q2; split; auto. eapply R_wnext; eauto.
    - destruct (H0 b) as (q & ? & ?); auto. exists q; split; auto. apply R_wbreak; auto.
    - destruct (H0 b) as (q & ? & ?); auto. exists q; split; auto. apply R_wret; auto.
    - exists b; split; auto. apply R_lend. rewrite (rn_cev st b); auto.
    - destruct (H1 b) as (q & ? & ?); auto.
      destruct (H5 (wr q (rn i0) [] v)) as (q2 & ? & ?); auto using rn_wr0. { rewrite free_cons, !free_app. auto. }
      exists q2; split; auto. eapply R_lnext; eauto; [rewrite (rn_cev st b); auto|rewrite (rn_eval st1 q); auto].
    - destruct (H1 b) as (q & ? & ?); auto. exists q; split; auto. apply R_lbreak; auto. rewrite (rn_cev st b); auto.
    - destruct (H1 b) as (q & ? & ?); auto. exists q; split; auto. apply R_lret; auto. rewrite (rn_cev st b); auto.
  Qed.
End Rename.
