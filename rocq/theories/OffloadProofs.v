(** Proofs about Offload.v. *)
From Verif Require Import Sym SymFacts IR IRFacts Trace DepProofs For2MapProofs Distribute ParProofs Offload.

(** Events that read are reads of the program. *)
Lemma block_reads_trace I b : forall st x e j, In (Ev false x e j) (block_trace I st b) -> In x (block_reads b).
Proof.
  induction b as [|p b IH]; cbn [block_trace]; intros st x e j H; [elim H|].
  change (block_reads (p :: b)) with ((concat (map opnames (o_ins p)) ++ concat (map atoms (o_sub p))) ++ block_reads b).
  rewrite !in_app_iff. apply in_app_iff in H as [H|H].
  - left. unfold op_trace in H. apply in_app_iff in H as [H|H]; [|apply in_app_iff in H as [H|H]].
    + left. apply in_concat in H as (l & Hl & H). apply in_map_iff in Hl as (o & <- & Ho). apply in_concat. exists (opnames o). split; [apply in_map_iff; eauto|].
      destruct o as [q|y sub]; simpl in *; [elim H|]. apply in_app_iff in H as [H|H]; [apply rds_events in H; tauto|].
      destruct (evals _ _); [|elim H]. destruct H as [H|[]]. left. congruence.
    + right. apply rds_events in H. tauto.
    + destruct (evals _ _); [|elim H]. destruct H as [H|[]]. discriminate.
  - right. destruct (exec_op I st p); [eapply IH; eauto|elim H].
Qed.
Lemma trace_reads I : (forall n st o st' T, runT I n st o st' T -> forall x e j, In (Ev false x e j) T -> In x (nreads n)) /\
  (forall s st o st' T, runsT I s st o st' T -> forall x e j, In (Ev false x e j) T -> In x (sreads s)) /\
  (forall b st o st' T, runbT I b st o st' T -> forall x e j, In (Ev false x e j) T -> In x (breads b)) /\
  (forall s st o st' T, runwT I s st o st' T -> forall x e j, In (Ev false x e j) T -> In x (sreads s)) /\
  (forall k c u s st o st' T, runlT I k c u s st o st' T -> forall x e j, In (Ev false x e j) T -> In x (catoms c) \/ In x (atoms u) \/ In x (sreads s)).
Proof.
  apply runT_mind; simpl; intros; try (match goal with H : In _ _ |- _ => rewrite ?in_app_iff in H; simpl in H end);
    repeat match goal with H : _ \/ _ |- _ => destruct H | H : False |- _ => elim H end; try discriminate;
    try match goal with H : Ev _ _ _ _ = Ev _ _ _ _ |- _ => injection H as <- <- <- end;
    try match goal with H : In _ (rds _) |- _ => apply rds_events in H as (_ & _ & _ & ?) end;
    try match goal with H : In _ (asg_trace _) |- _ => apply asg_events in H as (_ & _ & ?) end;
    rewrite ?in_app_iff; eauto using block_reads_trace; try tauto.
  all: match goal with H1 : forall x e j, _ -> _ \/ _, H2 : In _ _ |- _ => destruct (H1 _ _ _ H2) as [|[|]]; tauto end.
Qed.

(** The log of an execution is determined. *)
Ltac same_ex := match goal with
  | H : eval ?e ?x = Some ?v, H' : eval ?e ?x = Some ?w |- _ => rewrite H in H'; injection H' as <-
  | H : cev ?e ?x = Some ?v, H' : cev ?e ?x = Some ?w |- _ => rewrite H in H'; try discriminate H'; clear H'
  | H : exec_assigns ?e ?x = Some ?v, H' : exec_assigns ?e ?x = Some ?w |- _ => rewrite H in H'; injection H' as <-
  | H : exec_block ?i ?e ?x = Some ?v, H' : exec_block ?i ?e ?x = Some ?w |- _ => rewrite H in H'; injection H' as <-
  | IH : forall o2 b2 T2, runT _ ?n ?a _ _ _ -> _, H : runT _ ?n ?a _ _ _ |- _ => destruct (IH _ _ _ H) as (? & ? & ?); clear H
  | IH : forall o2 b2 T2, runsT _ ?n ?a _ _ _ -> _, H : runsT _ ?n ?a _ _ _ |- _ => destruct (IH _ _ _ H) as (? & ? & ?); clear H
  | IH : forall o2 b2 T2, runbT _ ?n ?a _ _ _ -> _, H : runbT _ ?n ?a _ _ _ |- _ => destruct (IH _ _ _ H) as (? & ? & ?); clear H
  | IH : forall o2 b2 T2, runwT _ ?n ?a _ _ _ -> _, H : runwT _ ?n ?a _ _ _ |- _ => destruct (IH _ _ _ H) as (? & ? & ?); clear H
  | IH : forall o2 b2 T2, runlT _ ?k ?c ?u ?n ?a _ _ _ -> _, H : runlT _ ?k ?c ?u ?n ?a _ _ _ |- _ => destruct (IH _ _ _ H) as (? & ? & ?); clear H
  end; subst.
Lemma trace_det I :
  (forall n st o st' T, runT I n st o st' T -> forall o2 st2 T2, runT I n st o2 st2 T2 -> o = o2 /\ st' = st2 /\ T = T2) /\
  (forall s st o st' T, runsT I s st o st' T -> forall o2 st2 T2, runsT I s st o2 st2 T2 -> o = o2 /\ st' = st2 /\ T = T2) /\
  (forall b st o st' T, runbT I b st o st' T -> forall o2 st2 T2, runbT I b st o2 st2 T2 -> o = o2 /\ st' = st2 /\ T = T2) /\
  (forall s st o st' T, runwT I s st o st' T -> forall o2 st2 T2, runwT I s st o2 st2 T2 -> o = o2 /\ st' = st2 /\ T = T2) /\
  (forall k c u s st o st' T, runlT I k c u s st o st' T -> forall o2 st2 T2, runlT I k c u s st o2 st2 T2 -> o = o2 /\ st' = st2 /\ T = T2).
Proof.
  apply runT_mind; intros;
    match goal with H : runT _ _ _ _ _ ?T |- _ = _ /\ _ = _ /\ _ = ?T => inversion H; clear H
      | H : runsT _ _ _ _ _ ?T |- _ = _ /\ _ = _ /\ _ = ?T => inversion H; clear H
      | H : runbT _ _ _ _ _ ?T |- _ = _ /\ _ = _ /\ _ = ?T => inversion H; clear H
      | H : runwT _ _ _ _ _ ?T |- _ = _ /\ _ = _ /\ _ = ?T => inversion H; clear H
      | H : runlT _ _ _ _ _ _ _ _ ?T |- _ = _ /\ _ = _ /\ _ = ?T => inversion H; clear H end; subst; repeat same_ex;
    repeat match goal with H : _ \/ _ |- _ => destruct H end; try discriminate; try congruence; auto.
Qed.

(* ----------------------------------------------------------------- *)
(** Renaming a container to a name that does not occur. *)
Definition map_ev (f : string -> string) (T T' : trace) : Prop :=
  Forall2 (fun a b => match a, b with Ev w x _ j, Ev w' x' _ j' => w' = w /\ x' = f x /\ j' = j end) T T'.
Lemma map_ev_app f T1 T1' T2 T2' : map_ev f T1 T1' -> map_ev f T2 T2' -> map_ev f (T1 ++ T2) (T1' ++ T2').
Proof. apply Forall2_app. Qed.
Lemma map_ev_rds f l : map_ev f (rds l) (rds (map f l)).
Proof. induction l as [|x l IH]; constructor; auto. Qed.

Section Ren.
  Variables (I : nat -> list Z -> option Z) (i z : string).
  Notation rn := (rename i (ESym z)).
  Notation fr := (fun l => ~ In z l).
  Definition moved (a b : store) : Prop := forall y j, y <> z -> b (rn y) j = a y j.
  Lemma rn_i : rn i = z. Proof. unfold rename. rewrite String.eqb_refl. reflexivity. Qed.
  Lemma rn_o y : y <> i -> rn y = y. Proof. intros N. unfold rename. destruct (String.eqb_spec i y); congruence. Qed.
  Lemma rn_inj x y : x <> z -> y <> z -> rn x = rn y -> x = y.
  Proof. unfold rename. destruct (String.eqb_spec i x), (String.eqb_spec i y); congruence. Qed.
  Lemma moved_wr a b x j v : moved a b -> x <> z -> moved (wr a x j v) (wr b (rn x) j v).
  Proof.
    intros M N y k Ny. unfold wr. destruct (String.eqb_spec x y) as [<-|Nx].
    - rewrite String.eqb_refl. cbn [andb]. destruct (idx_eqb j k); auto.
    - destruct (String.eqb_spec (rn x) (rn y)) as [E|_]; [apply rn_inj in E; congruence|]. cbn [andb]. auto.
  Qed.
  Lemma moved_env a b : moved a b -> forall y, y <> z -> upd (env_of b) i (b z []) y = env_of a y.
  Proof.
    intros M y N. unfold upd, env_of. destruct (String.eqb_spec i y) as [<-|Ny].
    - rewrite <- (M i [] N), rn_i. reflexivity.
    - rewrite <- (M y [] N), rn_o by congruence. reflexivity.
  Qed.
  Lemma moved_eval a b d : moved a b -> fr (atoms d) -> eval (env_of b) (subs d i (ESym z)) = eval (env_of a) d.
  Proof.
    intros M F. unfold eval. rewrite (ev_subs _ _ _ _ (b z [])) by reflexivity. rewrite (ev_agree _ (env_of a)); [reflexivity|].
    intros x Hx. apply moved_env; [exact M|]. intros ->. auto.
  Qed.
  Lemma moved_cev a b c : moved a b -> fr (catoms c) -> cev (env_of b) (csubs c i (ESym z)) = cev (env_of a) c.
  Proof. intros M F. rewrite (cev_subs _ _ _ _ (b z [])) by reflexivity. apply cev_agree. intros x Hx. apply moved_env; [exact M|]. intros ->. auto. Qed.
  Lemma moved_evals a b l : moved a b -> fr (concat (map atoms l)) -> evals (env_of b) (map (fun d => subs d i (ESym z)) l) = evals (env_of a) l.
  Proof.
    intros M. induction l as [|d l IH]; simpl; [reflexivity|]. rewrite in_app_iff. intros F. rewrite IH, (moved_eval a b) by tauto. reflexivity.
  Qed.
  Lemma concat_ren {A} (f : A -> list string) (g : A -> A) l : Forall (fun e => f (g e) = map rn (f e)) l -> concat (map f (map g l)) = map rn (concat (map f l)).
  Proof. induction 1; simpl; [reflexivity|]. rewrite map_app. congruence. Qed.
  Lemma atoms_ren e : atoms (subs e i (ESym z)) = map rn (atoms e).
  Proof.
    induction e using expr_ind'; cbn [atoms subs map]; rewrite ?map_app; try congruence; try (apply concat_ren; assumption).
    unfold rename. destruct (String.eqb_spec i x); reflexivity.
  Qed.
  Lemma catoms_ren c : catoms (csubs c i (ESym z)) = map rn (catoms c).
  Proof. induction c using cond_ind'; cbn [catoms csubs map]; rewrite ?map_app, ?atoms_ren; try congruence; try (apply concat_ren; assumption). Qed.
  Lemma catoms_rens l : concat (map atoms (map (fun d => subs d i (ESym z)) l)) = map rn (concat (map atoms l)).
  Proof. apply concat_ren. apply Forall_forall. intros. apply atoms_ren. Qed.
  Lemma operand_ren a b o : moved a b -> fr (opnames o) ->
    read_in b (repl_operand i (ESym z) o) = read_in a o /\ map_ev rn (operand_trace a o) (operand_trace b (repl_operand i (ESym z) o)).
  Proof.
    intros M. destruct o as [q|x sub]; cbn [repl_operand operand_trace opnames]; intros F; [split; [reflexivity|constructor]|].
    assert (x <> z) by (intros ->; apply F; left; reflexivity). assert (fr (concat (map atoms sub))) by (intros K; apply F; right; exact K).
    cbn [read_in]. rewrite (moved_evals a b), catoms_rens by auto. split.
    - destruct (evals (env_of a) sub); [|reflexivity]. rewrite M by auto. reflexivity.
    - apply map_ev_app; [apply map_ev_rds|]. destruct (evals (env_of a) sub); repeat constructor.
  Qed.
  Lemma operands_ren a b l : moved a b -> fr (concat (map opnames l)) ->
    reads_in b (map (repl_operand i (ESym z)) l) = reads_in a l /\ map_ev rn (concat (map (operand_trace a) l)) (concat (map (operand_trace b) (map (repl_operand i (ESym z)) l))).
  Proof.
    intros M. induction l as [|o l IH]; cbn [map concat]; intros F; [split; [reflexivity|constructor]|]. rewrite in_app_iff in F.
    destruct IH as (E1 & E2); [tauto|]. destruct (operand_ren a b o) as (E3 & E4); [auto|tauto|]. split; [|apply map_ev_app; assumption].
    cbn [reads_in]. rewrite E1, E3. reflexivity.
  Qed.
  Lemma block_ren bl : forall a b a', moved a b -> fr (block_names bl) -> exec_block I a bl = Some a' ->
    exists b', exec_block I b (map (repl_op i (ESym z)) bl) = Some b' /\ moved a' b' /\ map_ev rn (block_trace I a bl) (block_trace I b (map (repl_op i (ESym z)) bl)).
  Proof.
    induction bl as [|o bl IH]; intros a b a' M F R.
    - cbn in R. injection R as <-. exists b. split; [reflexivity|split; [exact M|constructor]].
    - change (block_names (o :: bl)) with (op_names o ++ block_names bl) in F. rewrite in_app_iff in F.
      assert (F1: ~ In z (o_out o :: concat (map opnames (o_ins o)) ++ concat (map atoms (o_sub o)))) by (intros K; apply F; left; exact K).
      assert (F2: ~ In z (concat (map opnames (o_ins o)))) by (intros K; apply F1; right; apply in_app_iff; auto).
      assert (F3: ~ In z (concat (map atoms (o_sub o)))) by (intros K; apply F1; right; apply in_app_iff; auto).
      assert (F4: o_out o <> z) by (intros K; apply F1; left; exact K).
      destruct (operands_ren a b (o_ins o) M F2) as (E1 & E2).
      cbn [exec_block map block_trace] in *. 
      assert (E: exec_op I b (repl_op i (ESym z) o) = match exec_op I a o with Some _ => exec_op I b (repl_op i (ESym z) o) | None => None end).
      { unfold exec_op. cbn [o_ins o_sub o_code o_out repl_op]. rewrite E1, (moved_evals a b) by auto.
        destruct (reads_in a (o_ins o)); [|reflexivity]. destruct (evals (env_of a) (o_sub o)) as [j|]; [|reflexivity]. destruct (I (o_code o) l); reflexivity. }
      destruct (exec_op I a o) as [a1|] eqn:EO; [|discriminate].
      assert (Q: exists b1, exec_op I b (repl_op i (ESym z) o) = Some b1 /\ moved a1 b1).
      { unfold exec_op in *. cbn [o_ins o_sub o_code o_out repl_op]. rewrite E1, (moved_evals a b) by auto.
        destruct (reads_in a (o_ins o)); [|discriminate]. destruct (evals (env_of a) (o_sub o)) as [j|]; [|discriminate]. destruct (I (o_code o) l); [|discriminate].
        injection EO as <-. eexists. split; [reflexivity|]. apply moved_wr; auto. }
      destruct Q as (b1 & Q1 & Q2). rewrite Q1. destruct (IH a1 b1 a' Q2) as (b' & R1 & R2 & R3); [tauto|exact R|].
      exists b'. split; [exact R1|]. split; [exact R2|]. apply map_ev_app; [|exact R3].
      unfold op_trace. cbn [o_ins o_sub o_code o_out repl_op]. apply map_ev_app; [exact E2|]. rewrite catoms_rens, (moved_evals a b) by auto. apply map_ev_app; [apply map_ev_rds|].
      destruct (evals (env_of a) (o_sub o)); repeat constructor.
  Qed.
  Lemma asg_ren l : forall a b a', moved a b -> fr (asg_names l) -> exec_assigns a l = Some a' ->
    exists b', exec_assigns b (repl_asg i (ESym z) l) = Some b' /\ moved a' b' /\ map_ev rn (asg_trace l) (asg_trace (repl_asg i (ESym z) l)).
  Proof.
    induction l as [|[x d] l IH]; intros a b a' M F R.
    - cbn in R. injection R as <-. exists b. split; [reflexivity|split; [exact M|constructor]].
    - change (asg_names ((x, d) :: l)) with ((x :: atoms d) ++ asg_names l) in F. rewrite in_app_iff in F.
      assert (F1: x <> z) by (intros ->; apply F; left; left; reflexivity). assert (F2: fr (atoms d)) by (intros K; apply F; left; right; exact K).
      unfold repl_asg in *. cbn [exec_assigns map fst snd] in *. rewrite (moved_eval a b) by auto.
      destruct (eval (env_of a) d) as [v|]; [|discriminate]. destruct (IH (wr a x [] v) (wr b (rn x) [] v) a') as (b' & R1 & R2 & R3); [apply moved_wr; auto|tauto|exact R|].
      exists b'. split; [exact R1|]. split; [exact R2|]. unfold asg_trace. cbn [map concat fst snd]. apply map_ev_app; [|exact R3].
      rewrite atoms_ren. apply map_ev_app; [apply map_ev_rds|]. repeat constructor.
  Qed.
  Lemma ev1 f x y e e' j w T T' : y = f x -> map_ev f T T' -> map_ev f (Ev w x e j :: T) (Ev w y e' j :: T').
  Proof. intros -> H. constructor; auto. Qed.
  Lemma node_ren :
    (forall n a o a' T, runT I n a o a' T -> forall b, fr (nnames n) -> moved a b -> exists b' T', runT I (repl_node i (ESym z) n) b o b' T' /\ moved a' b' /\ map_ev rn T T') /\
    (forall n a o a' T, runsT I n a o a' T -> forall b, fr (snames n) -> moved a b -> exists b' T', runsT I (repl_seq i (ESym z) n) b o b' T' /\ moved a' b' /\ map_ev rn T T') /\
    (forall n a o a' T, runbT I n a o a' T -> forall b, fr (bnames n) -> moved a b -> exists b' T', runbT I (repl_brs i (ESym z) n) b o b' T' /\ moved a' b' /\ map_ev rn T T') /\
    (forall n a o a' T, runwT I n a o a' T -> forall b, fr (snames n) -> moved a b -> exists b' T', runwT I (repl_seq i (ESym z) n) b o b' T' /\ moved a' b' /\ map_ev rn T T') /\
    (forall j c u n a o a' T, runlT I j c u n a o a' T -> forall b, fr (j :: catoms c ++ atoms u ++ snames n) -> moved a b ->
       exists b' T', runlT I (rn j) (csubs c i (ESym z)) (subs u i (ESym z)) (repl_seq i (ESym z) n) b o b' T' /\ moved a' b' /\ map_ev rn T T').
  Proof.
    apply runT_mind; cbn [nnames snames bnames repl_node repl_seq repl_brs]; intros; cbn [In] in *;
      repeat match goal with H : context [In _ (_ ++ _)] |- _ => rewrite in_app_iff in H end.
    - destruct (block_ren b st b0 st') as (q & ? & ? & ?); auto. exists q. eexists. split; [constructor; eassumption|auto].
    - destruct (H0 b) as (q & T' & ? & ? & ?); auto. exists q, T'. split; [constructor; assumption|auto].
    - destruct (H0 b) as (q & T' & ? & ? & ?); auto. exists q, T'. split; [constructor; assumption|auto].
    - destruct (H0 b) as (q & T' & ? & ? & ?); auto. exists q, T'. split; [constructor; assumption|auto].
    - destruct (H1 (wr b (rn i0) [] v)) as (q & T' & ? & ? & ?); [rewrite !in_app_iff; tauto|apply moved_wr; auto; intros ->; tauto|].
      exists q. eexists. split; [econstructor; [rewrite (moved_eval st b); [eassumption|assumption|tauto]|eassumption]|]. split; [assumption|].
      rewrite atoms_ren. apply map_ev_app; [apply map_ev_rds|]. apply ev1; auto.
    - exists b, []. split; [constructor|split; [assumption|constructor]].
    - exists b, []. split; [constructor|split; [assumption|constructor]].
    - exists b, []. split; [constructor|split; [assumption|constructor]].
    - exists b, []. split; [constructor|split; [assumption|constructor]].
    - destruct (H0 b) as (q & T' & ? & ? & ?); [tauto|assumption|]. destruct (asg_ren a st1 q st2) as (q2 & ? & ? & ?); [assumption|tauto|assumption|].
      destruct (H3 q2) as (q3 & T3 & ? & ? & ?); [tauto|assumption|]. exists q3. eexists. split; [econstructor; eassumption|]. split; [assumption|].
      apply map_ev_app; [assumption|apply map_ev_app; assumption].
    - destruct (H0 b) as (q & T' & ? & ? & ?); [tauto|assumption|]. exists q, T'. split; [apply T_exit; auto|auto].
    - exists b, []. split; [constructor|split; [assumption|constructor]].
    - destruct (H1 b) as (q & T' & ? & ? & ?); [tauto|assumption|]. exists q. eexists. split; [apply T_btrue; [rewrite (moved_cev st b); [assumption|assumption|tauto]|eassumption]|].
      split; [assumption|]. rewrite catoms_ren. apply map_ev_app; [apply map_ev_rds|assumption].
    - destruct (H1 b) as (q & T' & ? & ? & ?); [tauto|assumption|]. exists q. eexists. split; [apply T_bfalse; [rewrite (moved_cev st b); [assumption|assumption|tauto]|eassumption]|].
      split; [assumption|]. rewrite catoms_ren. apply map_ev_app; [apply map_ev_rds|assumption].
    - destruct (H0 b) as (q & T' & ? & ? & ?); auto. destruct (H3 q) as (q2 & T2' & ? & ? & ?); auto. exists q2. eexists. split; [eapply T_wnext; eassumption|].
      split; [assumption|apply map_ev_app; assumption].
    - destruct (H0 b) as (q & T' & ? & ? & ?); auto. exists q, T'. split; [apply T_wbreak; assumption|auto].
    - destruct (H0 b) as (q & T' & ? & ? & ?); auto. exists q, T'. split; [apply T_wret; assumption|auto].
    - exists b. eexists. split; [apply T_lend; rewrite (moved_cev st b); [assumption|assumption|tauto]|]. split; [assumption|rewrite catoms_ren; apply map_ev_rds].
    - destruct (H1 b) as (q & T' & ? & ? & ?); [tauto|assumption|].
      destruct (H5 (wr q (rn i0) [] v)) as (q2 & T2' & ? & ? & ?); [rewrite !in_app_iff; tauto|apply moved_wr; auto; intros ->; tauto|].
      exists q2. eexists. split; [eapply T_lnext; [rewrite (moved_cev st b); [assumption|assumption|tauto]|eassumption|assumption|rewrite (moved_eval st1 q); [eassumption|assumption|tauto]|eassumption]|].
      split; [assumption|]. rewrite catoms_ren, atoms_ren. apply map_ev_app; [apply map_ev_rds|]. apply map_ev_app; [assumption|]. apply map_ev_app; [apply map_ev_rds|]. apply ev1; auto.
    - destruct (H1 b) as (q & T' & ? & ? & ?); [tauto|assumption|]. exists q. eexists. split; [apply T_lbreak; [rewrite (moved_cev st b); [assumption|assumption|tauto]|eassumption]|].
      split; [assumption|]. rewrite catoms_ren. apply map_ev_app; [apply map_ev_rds|assumption].
    - destruct (H1 b) as (q & T' & ? & ? & ?); [tauto|assumption|]. exists q. eexists. split; [apply T_lret; [rewrite (moved_cev st b); [assumption|assumption|tauto]|eassumption]|].
      split; [assumption|]. rewrite catoms_ren. apply map_ev_app; [apply map_ev_rds|assumption].
  Qed.
End Ren.

Section RenNames.
  Variables (i z : string).
  Notation rn := (rename i (ESym z)).
  Lemma block_names_ren b : block_names (map (repl_op i (ESym z)) b) = map rn (block_names b).
  Proof.
    induction b as [|o b IH]; [reflexivity|]. change (block_names (o :: b)) with (op_names o ++ block_names b).
    change (block_names (map (repl_op i (ESym z)) (o :: b))) with (op_names (repl_op i (ESym z) o) ++ block_names (map (repl_op i (ESym z)) b)).
    rewrite map_app, IH. f_equal. unfold op_names. cbn [o_ins o_sub o_code o_out repl_op map]. rewrite map_app, catoms_rens. f_equal. f_equal.
    apply concat_ren. apply Forall_forall. intros [q|x sub] _; cbn [opnames repl_operand map]; [reflexivity|]. rewrite catoms_rens. reflexivity.
  Qed.
  Lemma asg_names_ren l : asg_names (repl_asg i (ESym z) l) = map rn (asg_names l).
  Proof.
    unfold asg_names, repl_asg. apply concat_ren. apply Forall_forall. intros [x d] _. cbn [fst snd map]. rewrite atoms_ren. reflexivity.
  Qed.
  Lemma in_ren y l : In y (map rn l) -> y = z \/ In y l.
  Proof. intros H. apply in_map_iff in H as (x & <- & H). unfold rename. destruct (String.eqb i x); auto. Qed.
  Lemma names_ren : (forall n y, In y (nnames (repl_node i (ESym z) n)) -> y = z \/ In y (nnames n)) /\
    (forall s y, In y (snames (repl_seq i (ESym z) s)) -> y = z \/ In y (snames s)) /\ (forall b y, In y (bnames (repl_brs i (ESym z) b)) -> y = z \/ In y (bnames b)).
  Proof.
    apply ir_mind; cbn [nnames snames bnames repl_node repl_seq repl_brs]; intros; cbn [In] in *;
      repeat match goal with H : context [In _ (_ ++ _)] |- _ => rewrite in_app_iff in H end; rewrite ?in_app_iff;
      try match goal with H : In _ _ |- _ => rewrite block_names_ren in H; apply in_ren in H end; auto;
      try match goal with H : forall y, In y (snames (repl_seq _ _ _)) -> _, K : _ |- ?y = z \/ _ => pose proof (H y) end;
      try match goal with H : forall y, In y (bnames (repl_brs _ _ _)) -> _, K : _ |- ?y = z \/ _ => pose proof (H y) end;
      try match goal with H : forall y, In y (nnames (repl_node _ _ _)) -> _, K : _ |- ?y = z \/ _ => pose proof (H y) end;
      rewrite ?atoms_ren, ?catoms_ren, ?asg_names_ren in *;
      repeat match goal with H : In _ (map _ _) \/ _ |- _ => destruct H as [H|H]; [apply in_ren in H|] | H : _ \/ In _ (map _ _) \/ _ |- _ => destruct H as [H|H]
                           | H : _ = rename _ _ _ |- _ => idtac | H : rename _ _ ?x = _ |- _ => assert (In (rename i (ESym z) x) (map rn [x])) by (left; reflexivity); rewrite H in *; clear H end;
      repeat match goal with H : In _ (map _ _) |- _ => apply in_ren in H; cbn [In] in H end; try tauto.
  Qed.
End RenNames.

Definition devs (pre : string) (args : list (string * expr)) : list string := map (fun p => (pre ++ fst p)%string) args.
Definition devname (pre : string) (args : list (string * expr)) (y : string) : string :=
  fold_left (fun y p => rename (fst p) (ESym (pre ++ fst p)%string) y) args y.
Lemma app_inj p x y : (p ++ x)%string = (p ++ y)%string -> x = y.
Proof. induction p as [|c p IH]; cbn; intros H; [exact H|]. injection H as H. auto. Qed.
Lemma map_ev_trans f g T1 : forall T2 T3, map_ev f T1 T2 -> map_ev g T2 T3 -> map_ev (fun x => g (f x)) T1 T3.
Proof.
  induction T1 as [|e T1 IH]; intros T2 T3 H1 H2; inversion H1; subst; inversion H2; subst; constructor; [|eapply IH; eassumption].
  destruct e as [w x ee j], y as [w2 x2 e2 j2], y0 as [w3 x3 e3 j3]. destruct H3 as (-> & -> & ->), H4 as (-> & -> & ->). auto.
Qed.
Lemma devname_out pre args : forall y, ~ In y (map fst args) -> devname pre args y = y.
Proof.
  unfold devname. induction args as [|p args IH]; intros y N; [reflexivity|]. cbn [fold_left map In] in *. rewrite rn_o by (intros ->; apply N; left; reflexivity). apply IH. tauto.
Qed.
Lemma devname_in pre args y : (forall p q, In p args -> In q args -> (pre ++ fst p)%string <> fst q) -> In y (map fst args) -> devname pre args y = (pre ++ y)%string.
Proof.
  unfold devname. induction args as [|p args IH]; intros N Hy; [elim Hy|]. cbn [fold_left map In] in *.
  destruct (string_dec (fst p) y) as [<-|Ne].
  - rewrite rn_i. apply devname_out. intros K. apply in_map_iff in K as (q & K & Hq). apply (N p q); auto.
  - rewrite rn_o by congruence. apply IH; [intros; apply N; auto|]. destruct Hy; [contradiction|assumption].
Qed.
Lemma on_device_run I pre args : forall n a o a' T, runT I n a o a' T -> NoDup (map fst args) -> (forall p, In p args -> ~ In (pre ++ fst p)%string (nnames n)) ->
  (forall p q, In p args -> In q args -> (pre ++ fst p)%string <> fst q) ->
  exists m m' T', (forall y j, ~ In y (devs pre args) -> m (devname pre args y) j = a y j) /\ runT I (on_device pre args n) m o m' T' /\
    (forall y j, ~ In y (devs pre args) -> m' (devname pre args y) j = a' y j) /\ map_ev (devname pre args) T T'.
Proof.
  induction args as [|p args IH]; intros n a o a' T R ND F N.
  - exists a, a', T. cbn. repeat split; auto. unfold map_ev. clear. induction T as [|[w x e j] T]; constructor; auto.
  - cbn [map] in ND. inversion ND; subst.
    pose (z := (pre ++ fst p)%string). pose (m := fun y j => if String.eqb z y then a (fst p) j else a y j).
    assert (M: moved (fst p) z a m).
    { intros y j Ny. unfold m. destruct (string_dec y (fst p)) as [->|Np].
      - rewrite rn_i, String.eqb_refl. reflexivity.
      - rewrite rn_o by exact Np. destruct (String.eqb_spec z y); congruence. }
    destruct (proj1 (node_ren I (fst p) z) _ _ _ _ _ R m) as (m' & T1 & R1 & M1 & E1); [apply F; left; reflexivity|exact M|].
    destruct (IH _ _ _ _ _ R1) as (b & b' & T' & B1 & B2 & B3 & B4).
    + assumption.
    + intros q Hq K. apply (proj1 (names_ren (fst p) z)) in K as [K|K].
      * apply app_inj in K. apply H1. rewrite <- K. apply in_map. exact Hq.
      * apply (F q); [right; exact Hq|exact K].
    + intros; apply N; right; assumption.
    + assert (Q: forall y, ~ In y (devs pre (p :: args)) -> y <> z /\ ~ In (rename (fst p) (ESym z) y) (devs pre args)).
      { intros y Ny. cbn [devs map In] in Ny. split; [intros ->; apply Ny; left; reflexivity|].
        destruct (string_dec y (fst p)) as [->|Np]; [rewrite rn_i|rewrite rn_o by exact Np; intros K; apply Ny; right; exact K].
        intros K. apply in_map_iff in K as (q & K & Hq). apply app_inj in K. apply H1. rewrite <- K. apply in_map. exact Hq. }
      exists b, b', T'. split; [|split; [exact B2|split]].
      * intros y j Ny. destruct (Q y Ny) as (Q1 & Q2). cbn [devname fold_left]. fold z. change (fold_left _ args ?y) with (devname pre args y). rewrite B1 by exact Q2. apply M. exact Q1.
      * intros y j Ny. destruct (Q y Ny) as (Q1 & Q2). cbn [devname fold_left]. fold z. change (fold_left _ args ?y) with (devname pre args y). rewrite B3 by exact Q2. apply M1. exact Q1.
      * apply (map_ev_trans _ _ _ _ _ E1 B4).
Qed.

(* ----------------------------------------------------------------- *)
(** Commands are deterministic. *)
Lemma live_det s x q b q' b' : live s x q b -> live s x q' b' -> q = q' /\ b = b'.
Proof. intros (A & B) (C & D). rewrite A in C. injection C as <-. rewrite B in D. injection D as <-. auto. Qed.
Lemma allocs_det x n s s1 s2 : allocs x n s s1 -> allocs x n s s2 -> s1 = s2.
Proof. intros H K; inversion H; inversion K; subst; congruence. Qed.
Lemma copies_det x n s s1 s2 : copies x n s s1 -> copies x n s s2 -> s1 = s2.
Proof.
  intros H K; inversion H; inversion K; subst; try congruence;
  match goal with A : live _ _ _ _, B : live _ _ _ _ |- _ => destruct (live_det _ _ _ _ _ _ A B); subst; reflexivity end.
Qed.
Lemma frees_det x s s1 s2 : frees x s s1 -> frees x s s2 -> s1 = s2.
Proof.
  intros H K; inversion H; inversion K; subst; try congruence;
  match goal with A : live _ _ _ _, B : live _ _ _ _ |- _ => destruct (live_det _ _ _ _ _ _ A B); subst; reflexivity end.
Qed.
Lemma does_det I dev c s s1 s2 : does I dev c s s1 -> does I dev c s s2 -> s1 = s2.
Proof.
  intros H K. destruct H as [x n s a b d E A B D|n s h N R|n s v T R ? ? ?|].
  - inversion K as [x' n' ? a' b' d' E' A' B' D'| | |]; subst. rewrite E in E'. injection E' as <-.
    rewrite <- (allocs_det _ _ _ _ _ A A') in B'. rewrite <- (copies_det _ _ _ _ _ B B') in D'. apply (frees_det _ _ _ _ D D').
  - inversion K as [|n' ? h' N' R'| |]; subst. destruct (run_det _ _ _ _ _ _ _ R R') as [_ <-]. reflexivity.
  - inversion K as [| |n' ? v' T' R' ? ? ?|]; subst. destruct (proj1 (trace_det I) _ _ _ _ _ R _ _ _ R') as (_ & <- & <-). reflexivity.
  - inversion K; subst. reflexivity.
Qed.
Lemma doall_det I dev l : forall s s1 s2, doall I dev l s s1 -> doall I dev l s s2 -> s1 = s2.
Proof.
  induction l as [|c l IH]; intros s s1 s2 H K; inversion H as [|? ? ? a ? A1 A2]; inversion K as [|? ? ? b ? B1 B2]; subst; [reflexivity|].
  rewrite <- (does_det _ _ _ _ _ _ A1 B1) in B2. eapply IH; eassumption.
Qed.
Lemma doall_app I dev l m : forall s s2, doall I dev (l ++ m) s s2 <-> exists s1, doall I dev l s s1 /\ doall I dev m s1 s2.
Proof.
  induction l as [|c l IH]; intros s s2; cbn [app]; split.
  - intros H. exists s. split; [constructor|exact H].
  - intros (s1 & H & K). inversion H; subst. exact K.
  - intros H. inversion H as [|? ? ? ? ? A1 A2]; subst. apply IH in A2 as (s3 & H1 & H2). exists s3. split; [econstructor; eassumption|exact H2].
  - intros (s1 & H & K). inversion H; subst. econstructor; [eassumption|]. apply IH. eauto.
Qed.
Lemma setp_same {A} (f : string -> A) x v : setp f x v x = v. Proof. unfold setp. rewrite String.eqb_refl. reflexivity. Qed.
Lemma setp_other {A} (f : string -> A) x y v : x <> y -> setp f x v y = f y. Proof. intros N. unfold setp. destruct (String.eqb_spec x y); congruence. Qed.
Lemma seth_same {A} (f : nat -> A) x v : seth f x v x = v. Proof. unfold seth. rewrite Nat.eqb_refl. reflexivity. Qed.
Lemma seth_other {A} (f : nat -> A) x y v : x <> y -> seth f x v y = f y. Proof. intros N. unfold seth. destruct (Nat.eqb_spec x y); congruence. Qed.
Lemma inr_true k n : inr k n = true <-> 0 <= k < n.
Proof. unfold inr. rewrite andb_true_iff, Z.leb_le, Z.ltb_lt. reflexivity. Qed.

(* ----------------------------------------------------------------- *)
(** The transfers around an offloaded map. *)
Section Around.
  Variables (I : nat -> list Z -> option Z) (dev : string -> bool) (pre : string).
  Notation dn := (fun p : string * expr => (pre ++ fst p)%string).
  Definition size_in (s : store) (p : string * expr) (n : Z) : Prop := eval (env_of s) (snd p) = Some n /\ 0 <= n.
  Lemma copy_ins (sz : string * expr -> Z) : forall args s, (forall p, In p args -> size_in (host s) p (sz p)) -> NoDup (map fst args) -> (forall q, (fresh s <= q)%nat -> heap s q = None) ->
    exists s1, doall I dev (map (copy_in pre) args) s s1 /\ host s1 = host s /\ (fresh s <= fresh s1)%nat /\
      (forall q, (q < fresh s)%nat -> heap s1 q = heap s q) /\ (forall q, (fresh s1 <= q)%nat -> heap s1 q = None) /\
      (forall x, ~ In x (devs pre args) -> ptr s1 x = ptr s x) /\
      (forall p, In p args -> exists q, (fresh s <= q < fresh s1)%nat /\ ptr s1 (dn p) = Some q /\ heap s1 q = Some (sz p, fun k => if inr k (sz p) then Some (host s (fst p) [k]) else None)) /\
      (forall p p' q, In p args -> In p' args -> ptr s1 (dn p) = Some q -> ptr s1 (dn p') = Some q -> fst p = fst p') /\
      (forall q, (fresh s <= q < fresh s1)%nat -> exists p, In p args /\ ptr s1 (dn p) = Some q).
  Proof.
    induction args as [|p args IH]; intros s SZ ND WF.
    - exists s. split; [constructor|]. repeat split; auto; try contradiction. intros q Hq. lia.
    - cbn [map] in ND. inversion ND as [|? ? NP ND']. subst.
      destruct (SZ p (or_introl eq_refl)) as (E & L).
      pose (sa := alloc (dn p) (sz p) s). pose (sb := to_device (fst p) (fresh s) (sz p, fun _ => None) (sz p) sa).
      assert (D0: does I dev (copy_in pre p) s sb).
      { eapply D_xfer with (n := sz p) (s1 := sa) (s2 := sb).
        - exact E.
        - apply A_yes; [reflexivity|exact L].
        - apply C_in; [reflexivity| |cbn; lia]. split; [unfold sa, alloc; cbn [ptr x_dev]; apply setp_same|unfold sa, alloc; cbn [heap]; apply seth_same].
        - apply F_no. discriminate. }
      assert (Hb: host sb = host s) by reflexivity. assert (Fb: fresh sb = S (fresh s)) by reflexivity.
      assert (Pb: forall x, x <> dn p -> ptr sb x = ptr s x) by (intros x Nx; unfold sb, sa, to_device, alloc; cbn [ptr]; apply setp_other; congruence).
      assert (Pp: ptr sb (dn p) = Some (fresh s)) by (unfold sb, sa, to_device, alloc; cbn [ptr]; apply setp_same).
      assert (Qb: forall q, q <> fresh s -> heap sb q = heap s q) by (intros q Nq; unfold sb, sa, to_device, alloc; cbn [heap]; rewrite !seth_other by congruence; reflexivity).
      assert (Qp: heap sb (fresh s) = Some (sz p, fun k => if inr k (sz p) then Some (host s (fst p) [k]) else None)) by (unfold sb, to_device; cbn [heap]; rewrite seth_same; reflexivity).
      destruct (IH sb) as (s1 & D1 & H1 & F1 & O1 & N1 & X1 & L1 & J1 & G1).
      { intros q Hq. rewrite Hb. apply SZ. right. exact Hq. } { exact ND'. } { intros q Hq. rewrite Fb in Hq. rewrite Qb by lia. apply WF. lia. }
      assert (ND0: forall q, In q args -> dn q <> dn p). { intros q Hq K. apply app_inj in K. apply NP. rewrite <- K. apply in_map. exact Hq. }
      assert (Np: ~ In (dn p) (devs pre args)). { intros K. apply in_map_iff in K as (q & K & Hq). apply (ND0 q Hq K). }
      assert (P1: ptr s1 (dn p) = Some (fresh s)) by (rewrite X1 by exact Np; exact Pp).
      exists s1. split; [econstructor; eassumption|]. rewrite Fb in *. split; [congruence|]. split; [lia|]. split; [|split; [|split; [|split; [|split]]]].
      + intros q Hq. rewrite O1 by lia. apply Qb. lia.
      + exact N1.
      + intros x Hx. cbn [devs map In] in Hx. rewrite X1 by (intros K; apply Hx; right; exact K). apply Pb. intros ->. apply Hx. left. reflexivity.
      + intros q [<-|Hq].
        * exists (fresh s). split; [lia|]. split; [exact P1|]. rewrite O1 by lia. exact Qp.
        * destruct (L1 q Hq) as (r & R1 & R2 & R3). exists r. split; [lia|]. split; [exact R2|]. rewrite R3, Hb. reflexivity.
      + intros a b q [<-|Ha] [<-|Hb0] Ka Kb; auto.
        * exfalso. destruct (L1 b Hb0) as (r & R1 & R2 & _). rewrite P1 in Ka. rewrite R2 in Kb. injection Ka as <-. injection Kb as ->. lia.
        * exfalso. destruct (L1 a Ha) as (r & R1 & R2 & _). rewrite P1 in Kb. rewrite R2 in Ka. injection Kb as <-. injection Ka as ->. lia.
        * eapply J1; eassumption.
      + intros q Hq. destruct (Nat.eq_dec q (fresh s)) as [->|Nq].
        * exists p. split; [left; reflexivity|exact P1].
        * destruct (G1 q) as (a & Ha & Ka); [lia|]. exists a. split; [right; exact Ha|exact Ka].
  Qed.

  (** the transfers after it; [h]: the memory the sequential map leaves *)
  Lemma copy_outs (n : node) (sz : string * expr -> Z) (h : store) : forall l s, (forall p, In p l -> size_in (host s) p (sz p)) -> NoDup (map fst l) ->
    (forall p, In p l -> exists q f, live s (dn p) q (sz p, f) /\ forall k, 0 <= k < sz p -> f k = Some (h (fst p) [k])) ->
    (forall p p' q, In p l -> In p' l -> ptr s (dn p) = Some q -> ptr s (dn p') = Some q -> fst p = fst p') ->
    (forall p j, In p l -> (forall k, 0 <= k < sz p -> j <> [k]) \/ ~ In (fst p) (nwrites n) -> host s (fst p) j = h (fst p) j) ->
    exists s1, doall I dev (map (copy_out pre n) l) s s1 /\ ptr s1 = ptr s /\ fresh s1 = fresh s /\
      (forall x j, In x (map fst l) -> host s1 x j = h x j) /\ (forall x j, ~ In x (map fst l) -> host s1 x j = host s x j) /\
      (forall q, (forall p, In p l -> ptr s (dn p) <> Some q) -> heap s1 q = heap s q) /\
      (forall p q, In p l -> ptr s (dn p) = Some q -> heap s1 q = None).
  Proof.
    induction l as [|p l IH]; intros s SZ ND LV INJ HH.
    - exists s. split; [constructor|]. repeat split; auto; contradiction.
    - cbn [map] in ND. inversion ND as [|? ? NP ND']. subst.
      destruct (SZ p (or_introl eq_refl)) as (E & L). destruct (LV p (or_introl eq_refl)) as (q & f & (Lq1 & Lq2) & Lf).
      assert (D: exists sa, does I dev (copy_out pre n p) s sa /\ ptr sa = ptr s /\ fresh sa = fresh s /\ heap sa = seth (heap s) q None /\
        (forall j, host sa (fst p) j = h (fst p) j) /\ (forall x j, x <> fst p -> host sa x j = host s x j) /\ (forall x, host sa x [] = host s x [])).
      { unfold copy_out. destruct (existsb (String.eqb (fst p)) (nwrites n)) eqn:W.
        - pose (sa := to_host (fst p) (sz p, f) (sz p) s). exists (release q sa). split.
          + eapply D_xfer with (n := sz p) (s1 := s) (s2 := sa).
            * exact E.
            * apply A_no. discriminate.
            * unfold sa. eapply (C_out (Xf D2H Free (snd p) (fst p) (dn p)) (sz p) s q (sz p, f)); [reflexivity|split; assumption|cbn; lia|].
              intros k Hk. cbn [snd]. rewrite Lf by exact Hk. discriminate.
            * eapply F_yes; [reflexivity|]. split; [exact Lq1|exact Lq2].
          + repeat split; auto.
            * intros j. unfold sa, release, to_host. cbn [host snd fst]. destruct j as [|k [|]].
              -- apply HH; [left; reflexivity|]. left. discriminate.
              -- rewrite String.eqb_refl. cbn [andb]. destruct (inr k (sz p)) eqn:K; [apply inr_true in K; rewrite Lf by exact K; reflexivity|].
                 apply HH; [left; reflexivity|]. left. intros k' Hk' Q. injection Q as ->. apply inr_true in Hk'. congruence.
              -- apply HH; [left; reflexivity|]. left. discriminate.
            * intros x j Nx. unfold sa, release, to_host. cbn [host]. destruct j as [|k [|]]; auto. destruct (String.eqb_spec (fst p) x); [congruence|]. reflexivity.
        - exists (release q s). split.
          + eapply D_xfer with (n := sz p) (s1 := s) (s2 := s); [exact E|apply A_no; discriminate|apply C_no; reflexivity|].
            eapply F_yes; [reflexivity|]. split; [exact Lq1|exact Lq2].
          + repeat split; auto. intros j. cbn [release host]. apply HH; [left; reflexivity|]. right. intros K.
            assert (existsb (String.eqb (fst p)) (nwrites n) = true) by (apply existsb_exists; exists (fst p); split; [exact K|apply String.eqb_refl]). congruence. }
      destruct D as (sa & D0 & Pa & Fa & Ha & A1 & A2 & A3).
      assert (Env: forall e, eval (env_of (host sa)) e = eval (env_of (host s)) e) by (intros e; unfold eval; rewrite (ev_agree _ (env_of (host s))); [reflexivity|intros x _; apply A3]).
      destruct (IH sa) as (s1 & D1 & P1 & F1 & X1 & Y1 & G1 & K1).
      + intros p' Hp'. unfold size_in. rewrite Env. apply SZ. right. exact Hp'.
      + exact ND'.
      + intros p' Hp'. destruct (LV p' (or_intror Hp')) as (q' & f' & (L1 & L2) & L3). exists q', f'. split; [|exact L3]. split; [rewrite Pa; exact L1|].
        rewrite Ha, seth_other; [exact L2|]. intros <-. apply NP. rewrite (INJ p p' q); auto; [apply in_map; exact Hp'|left; reflexivity|right; exact Hp'].
      + intros a b r Ha' Hb'. rewrite Pa. apply INJ; right; assumption.
      + intros p' j Hp' K. rewrite A2; [apply HH; [right; exact Hp'|exact K]|]. intros Q. apply NP. rewrite <- Q. apply in_map. exact Hp'.
      + exists s1. split; [econstructor; eassumption|]. split; [congruence|]. split; [congruence|]. split; [|split; [|split]].
        * intros x j Hx. cbn [map In] in Hx. destruct (in_dec string_dec x (map fst l)) as [Hl|Nl]; [apply X1; exact Hl|].
          destruct Hx as [<-|Hx]; [|contradiction]. rewrite Y1 by exact Nl. apply A1.
        * intros x j Hx. cbn [map In] in Hx. rewrite Y1 by tauto. apply A2. intros ->. tauto.
        * intros r Hr. rewrite G1; [rewrite Ha; apply seth_other; intros ->; apply (Hr p (or_introl eq_refl)); exact Lq1|]. intros p' Hp'. rewrite Pa. apply Hr. right. exact Hp'.
        * intros p' r [<-|Hp'] Hr.
          -- rewrite Lq1 in Hr. injection Hr as <-. rewrite G1; [rewrite Ha; apply seth_same|]. intros p' Hp' K. rewrite Pa in K. apply NP.
             rewrite (INJ p p' q); auto; [apply in_map; exact Hp'|left; reflexivity|right; exact Hp'].
          -- apply (K1 p' r Hp'). rewrite Pa. exact Hr.
  Qed.
End Around.

Lemma map_ev_touched f T T' x j : map_ev f T T' -> touched T' x j -> exists y, x = f y /\ touched T y j.
Proof.
  intros H (w & e & K). induction H as [|[w1 x1 e1 j1] [w2 x2 e2 j2] T T' E F IH]; [elim K|]. destruct E as (-> & -> & ->). destruct K as [K|K].
  - injection K as -> <- -> ->. exists x1. split; [reflexivity|]. exists w, e1. left. reflexivity.
  - destruct (IH K) as (y & -> & w' & e' & Q). exists y. split; [reflexivity|]. exists w', e'. right. exact Q.
Qed.
Lemma map_ev_written f T T' x j : map_ev f T T' -> written T' x j -> exists y, x = f y /\ written T y j.
Proof.
  intros H (e & K). induction H as [|[w1 x1 e1 j1] [w2 x2 e2 j2] T T' E F IH]; [elim K|]. destruct E as (-> & -> & ->). destruct K as [K|K].
  - injection K as -> <- -> ->. exists x1. split; [reflexivity|]. exists e1. left. reflexivity.
  - destruct (IH K) as (y & -> & e' & Q). exists y. split; [reflexivity|]. exists e'. right. exact Q.
Qed.
Lemma map_ev_written' f T T' y j : map_ev f T T' -> written T y j -> written T' (f y) j.
Proof.
  intros H (e & K). induction H as [|[w1 x1 e1 j1] [w2 x2 e2 j2] T T' E F IH]; [elim K|]. destruct E as (-> & -> & ->). destruct K as [K|K].
  - injection K as -> -> -> ->. exists e2. left. reflexivity.
  - destruct (IH K) as (e' & Q). exists e'. right. exact Q.
Qed.
Lemma writes_b_written T x k : writes_b T x k = true <-> written T x [k].
Proof.
  unfold writes_b. rewrite existsb_exists. split.
  - intros ([[] y e [|j [|]]] & Hi & H); try discriminate. apply andb_true_iff in H as [H1 H2]. apply String.eqb_eq in H1. apply Z.eqb_eq in H2. subst. exists e. exact Hi.
  - intros (e & H). eexists. split; [exact H|]. cbn. rewrite String.eqb_refl, Z.eqb_refl. reflexivity.
Qed.
Lemma exposed_touched T x j : exposed T x j -> touched T x j.
Proof. intros H. apply exposed_read in H as (e & H). exists false, e. exact H. Qed.

Definition same_buffer (b b' : option buffer) : Prop :=
  match b, b' with Some b, Some b' => fst b = fst b' /\ forall k, snd b k = snd b' k | None, None => True | _, _ => False end.

Lemma offload_ok I dev pre args n s h T (sz : string * expr -> Z) :
  NoDup (map fst args) -> (forall p, In p args -> dev (pre ++ fst p)%string = true) -> (forall x, In x (nnames n) \/ In x (map fst args) -> dev x = false) ->
  (forall p, In p args -> size_in (host s) p (sz p)) -> (forall q, (fresh s <= q)%nat -> heap s q = None) ->
  runT I n (host s) ONorm h T ->
  (forall p j, In p args -> touched T (fst p) j -> exists k, j = [k] /\ 0 <= k < sz p) ->
  exists s', doall I dev (offload pre args n) s s' /\
    (forall x j, In x (map fst args) -> host s' x j = h x j) /\ (forall x j, ~ In x (map fst args) -> host s' x j = host s x j) /\
    (forall q, same_buffer (heap s q) (heap s' q)) /\ (forall x, ~ In x (devs pre args) -> ptr s' x = ptr s x).
Proof.
  intros ND DV HV SZ WF R TB.
  assert (N1: forall p q, In p args -> In q args -> (pre ++ fst p)%string <> fst q).
  { intros p q Hp Hq K. pose proof (DV p Hp) as Q. rewrite K, HV in Q by (right; apply in_map; exact Hq). discriminate. }
  assert (N2: forall p, In p args -> ~ In (pre ++ fst p)%string (nnames n)).
  { intros p Hp K. pose proof (DV p Hp) as Q. rewrite HV in Q by (left; exact K). discriminate. }
  destruct (copy_ins I dev pre sz args s SZ ND WF) as (s1 & D1 & H1 & F1 & O1 & E1 & X1 & L1 & J1 & G1).
  destruct (on_device_run I pre args n _ _ _ _ R ND N2 N1) as (m & m' & T' & M1 & RT & M2 & ME).
  assert (NM: forall x e j w, In (Ev w x e j) T -> In x (nnames n)) by (intros x e j w; apply (proj1 (trace_names I) _ _ _ _ _ R)).
  assert (NDV: forall y, In y (nnames n) \/ In y (map fst args) -> ~ In y (devs pre args)).
  { intros y Hy K. apply in_map_iff in K as (p & <- & Hp). pose proof (DV p Hp) as Q. rewrite HV in Q by exact Hy. discriminate. }
  assert (TT: forall x j, touched T' x j -> exists y, x = devname pre args y /\ touched T y j /\ In y (nnames n)).
  { intros x j K. destruct (map_ev_touched _ _ _ _ _ ME K) as (y & -> & w & e & Q). exists y. split; [reflexivity|]. split; [exists w, e; exact Q|eapply NM; exact Q]. }
  assert (DT: forall x j, touched T' x j -> dev x = true -> exists p k, In p args /\ x = (pre ++ fst p)%string /\ j = [k] /\ 0 <= k < sz p).
  { intros x j K Dx. destruct (TT x j K) as (y & -> & Ty & Ny). destruct (in_dec string_dec y (map fst args)) as [Hy|Hy].
    - rewrite devname_in by assumption. apply in_map_iff in Hy as (p & <- & Hp). destruct (TB p j Hp Ty) as (k & -> & Hk). exists p, k. auto.
    - rewrite devname_out in Dx by exact Hy. rewrite HV in Dx by (left; exact Ny). discriminate. }
  assert (LV: forall p, In p args -> exists q, live s1 (pre ++ fst p)%string q (sz p, fun k => if inr k (sz p) then Some (host s (fst p) [k]) else None)).
  { intros p Hp. destruct (L1 p Hp) as (q & _ & A & B). exists q. split; assumption. }
  (* the kernel *)
  assert (AG: agree (exposed T') m (view dev s1)).
  { intros x j K. apply exposed_touched in K. destruct (TT x j K) as (y & -> & Ty & Ny). rewrite M1 by (apply NDV; auto).
    destruct (in_dec string_dec y (map fst args)) as [Hy|Hy].
    - rewrite devname_in by assumption. apply in_map_iff in Hy as (p & <- & Hp). destruct (TB p j Hp Ty) as (k & -> & Hk).
      destruct (LV p Hp) as (q & Q1 & Q2). unfold view. rewrite (DV p Hp), Q1, Q2. cbn [snd]. apply inr_true in Hk. rewrite Hk. reflexivity.
    - rewrite devname_out by exact Hy. unfold view. rewrite HV by auto. rewrite H1. reflexivity. }
  destruct (proj1 (run_local I) _ _ _ _ _ RT) as (_ & LC). destruct (LC _ AG) as (v & RV & _ & WV).
  pose (n' := on_device pre args n). pose (s2 := device_after dev (nnames n') v T' s1).
  assert (DK: does I dev (Kernel n') s1 s2).
  { apply D_kernel.
    - exact RV.
    - intros x j Dx K. destruct (DT x j K Dx) as (p & k & Hp & -> & -> & Hk). destruct (LV p Hp) as (q & Q). exists k, q. eexists. split; [reflexivity|]. split; [exact Q|exact Hk].
    - intros x k q b Dx K Lx. destruct (DT x [k] (exposed_touched _ _ _ K) Dx) as (p & k' & Hp & -> & Ek & Hk). injection Ek as <-.
      destruct (LV p Hp) as (q' & Q). destruct (live_det _ _ _ _ _ _ Lx Q) as (_ & ->). cbn [snd]. apply inr_true in Hk. rewrite Hk. discriminate.
    - intros x y i j q b Kx Ky Dx Dy (Lx & _) (Ly & _). destruct (DT x i Kx Dx) as (p & _ & Hp & -> & _). destruct (DT y j Ky Dy) as (p' & _ & Hp' & -> & _).
      f_equal. apply (J1 p p' q Hp Hp' Lx Ly). }
  assert (B2: forall p, In p args -> exists q f, live s2 (pre ++ fst p)%string q (sz p, f) /\ forall k, 0 <= k < sz p -> f k = Some (h (fst p) [k])).
  { intros p Hp. destruct (LV p Hp) as (q & Q1 & Q2). exists q. eexists. split; [split; [exact Q1|]; unfold s2, device_after; cbn [heap]; rewrite Q2; reflexivity|].
    intros k Hk. cbn beta. destruct (find _ (nnames n')) as [x|] eqn:FD.
    - apply find_some in FD as (_ & K). apply andb_true_iff in K as [K K3]. apply andb_true_iff in K as [K1 K2]. apply writes_b_written in K3.
      destruct (DT x [k] (touched_written _ _ _ K3) K1) as (p' & k' & Hp' & -> & _ & _).
      destruct (ptr s1 (pre ++ fst p')%string) as [r|] eqn:Pr; [|discriminate]. apply Nat.eqb_eq in K2. subst r.
      rewrite (J1 p p' q Hp Hp' Q1 Pr). f_equal. rewrite <- (WV _ _ K3). rewrite <- (devname_in pre args (fst p')) by (try assumption; apply in_map; exact Hp').
      apply M2. apply NDV. right. apply in_map. exact Hp'.
    - cbn [snd]. pose proof Hk as Hk'. apply inr_true in Hk'. rewrite Hk'. f_equal. symmetry. apply (proj1 (proj1 (run_local I) _ _ _ _ _ R)). intros W.
      pose proof (map_ev_written' _ _ _ _ _ ME W) as W'. rewrite devname_in in W' by (try assumption; apply in_map; exact Hp).
      assert (In (pre ++ fst p)%string (nnames n')) by (destruct W' as (e & W'); eapply (proj1 (trace_names I) _ _ _ _ _ RV); exact W').
      eapply find_none in FD; [|eassumption]. rewrite (DV p Hp), Q1, Nat.eqb_refl in FD. cbn [andb] in FD. apply writes_b_written in W'. congruence. }
  destruct (copy_outs I dev pre n sz h (rev args) s2) as (s' & D3 & P3 & F3 & A3 & C3 & G3 & K3).
  - intros p Hp. apply in_rev in Hp. change (host s2) with (host s1). rewrite H1. apply SZ. exact Hp.
  - rewrite map_rev. apply NoDup_rev. exact ND.
  - intros p Hp. apply in_rev in Hp. apply B2. exact Hp.
  - intros p p' q Hp Hp'. apply in_rev in Hp. apply in_rev in Hp'. apply J1; assumption.
  - intros p j Hp K. apply in_rev in Hp. change (host s2) with (host s1). rewrite H1. symmetry. apply (proj1 (proj1 (run_local I) _ _ _ _ _ R)). intros W. destruct K as [K|K].
    + destruct (TB p j Hp (touched_written _ _ _ W)) as (k & -> & Hk). apply (K k Hk). reflexivity.
    + destruct W as (e & W). apply K. apply (proj1 (trace_writes I) _ _ _ _ _ R _ _ _ W).
  - exists s'. split; [|split; [|split; [|split]]].
    + unfold offload. apply doall_app. exists s1. split; [exact D1|]. apply doall_app. exists s2. split; [econstructor; [exact DK|constructor]|]. rewrite <- map_rev. exact D3.
    + intros x j Hx. apply A3. rewrite map_rev. apply in_rev in Hx. exact Hx.
    + intros x j Hx. rewrite C3; [change (host s2) with (host s1); rewrite H1; reflexivity|]. rewrite map_rev. intros K. apply Hx. apply in_rev. exact K.
    + intros q. destruct (le_lt_dec (fresh s) q) as [G|Lq].
      * rewrite WF by exact G. destruct (le_lt_dec (fresh s1) q) as [G'|L'].
        -- rewrite G3; [unfold s2, device_after; cbn [heap]; rewrite E1 by exact G'; exact Logic.I|]. intros p Hp K. apply in_rev in Hp.
           destruct (L1 p Hp) as (r & Hr & Pr & _). change (ptr s2) with (ptr s1) in K. rewrite Pr in K. injection K as ->. lia.
        -- destruct (G1 q) as (p & Hp & Pp); [lia|]. rewrite (K3 p q); [exact Logic.I|apply in_rev in Hp; exact Hp|exact Pp].
      * assert (NQ: forall p, In p args -> ptr s1 (pre ++ fst p)%string <> Some q).
        { intros p Hp K. destruct (L1 p Hp) as (r & Hr & Pr & _). rewrite Pr in K. injection K as ->. lia. }
        rewrite G3 by (intros p Hp; apply in_rev in Hp; apply NQ; exact Hp). unfold s2, device_after. cbn [heap]. rewrite O1 by exact Lq.
        destruct (heap s q) as [b|]; [|exact Logic.I]. split; [reflexivity|]. intros k. cbn [snd fst]. destruct (find _ (nnames n')) as [x|] eqn:FD; [|reflexivity].
        exfalso. apply find_some in FD as (_ & K). apply andb_true_iff in K as [K Kw]. apply andb_true_iff in K as [K1 K2]. apply writes_b_written in Kw.
        destruct (DT x [k] (touched_written _ _ _ Kw) K1) as (p & _ & Hp & -> & _). destruct (ptr s1 (pre ++ fst p)%string) as [r|] eqn:Pr; [|discriminate].
        apply Nat.eqb_eq in K2. subst r. apply (NQ p Hp Pr).
    + intros x Hx. rewrite P3. change (ptr s2) with (ptr s1). apply X1. exact Hx.
Qed.
