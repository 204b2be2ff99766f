(** Basic facts about execution: determinism, framing, interpreter soundness,
    sequence concatenation. *)
From Verif Require Import Sym SymFacts SymProofs1.
From Verif Require Export IR.

Lemma idx_eqb_eq i j : idx_eqb i j = true <-> i = j.
Proof.
  revert j; induction i as [|a i IH]; intros [|b j]; simpl; split; try congruence.
  - rewrite andb_true_iff, Z.eqb_eq, IH. intros [-> ->]; auto.
  - intros [= -> ->]. rewrite Z.eqb_refl. simpl. apply IH; auto.
Qed.
Lemma wr_same st x i v : wr st x i v x i = v.
Proof. unfold wr. rewrite String.eqb_refl. assert (idx_eqb i i = true) as -> by (apply idx_eqb_eq; auto). auto. Qed.
Lemma wr_other st x i v y j : x <> y \/ i <> j -> wr st x i v y j = st y j.
Proof.
  unfold wr. intros H. destruct (String.eqb_spec x y); simpl; auto.
  destruct (idx_eqb i j) eqn:E; auto. apply idx_eqb_eq in E. tauto.
Qed.
Lemma env_wr_scalar st x v y : env_of (wr st x [] v) y = upd (env_of st) x v y.
Proof. unfold env_of, wr, upd. destruct (String.eqb x y); auto. Qed.

(** Agreement of two stores outside the containers [D]. *)
Definition eqx (D : string -> Prop) (st st' : store) : Prop :=
  forall x, ~ D x -> forall i, st x i = st' x i.
Definition none (_ : string) : Prop := False.
Definition one (y : string) (x : string) : Prop := x = y.
Notation steq := (eqx none).

Lemma eqx_refl D st : eqx D st st. Proof. intros x _ i; auto. Qed.
Lemma eqx_sym D a b : eqx D a b -> eqx D b a. Proof. intros H x Hx i; symmetry; auto. Qed.
Lemma eqx_trans D a b c : eqx D a b -> eqx D b c -> eqx D a c.
Proof. intros H1 H2 x Hx i. rewrite H1; auto. Qed.
Lemma eqx_weaken (D D' : string -> Prop) a b : (forall x, D x -> D' x) -> eqx D a b -> eqx D' a b.
Proof. intros HD H x Hx i. apply H; auto. Qed.
Lemma steq_eqx D a b : steq a b -> eqx D a b.
Proof. apply eqx_weaken. intros x []. Qed.
Lemma eqx_wr D a b x i v : eqx D a b -> eqx D (wr a x i v) (wr b x i v).
Proof. intros H y Hy j. unfold wr. destruct (_ && _); auto. Qed.
Lemma eqx_wr_l (D : string -> Prop) a b x i v : D x -> eqx D a b -> eqx D (wr a x i v) b.
Proof. intros Hx H y Hy j. rewrite wr_other; auto. left; intros ->; auto. Qed.
Lemma eqx_wr_r (D : string -> Prop) a b x i v : D x -> eqx D a b -> eqx D a (wr b x i v).
Proof. intros Hx H. apply eqx_sym, eqx_wr_l; auto using eqx_sym. Qed.

(** Expressions that read nothing in [D]. *)
Definition avoids (D : string -> Prop) (l : list string) : Prop := forall x, In x l -> ~ D x.
Lemma avoids_app D l m : avoids D (l ++ m) <-> avoids D l /\ avoids D m.
Proof. unfold avoids. setoid_rewrite in_app_iff. firstorder. Qed.
Lemma avoids_none l : avoids none l. Proof. intros x _ []. Qed.
Lemma avoids_cons D x l : avoids D (x :: l) <-> ~ D x /\ avoids D l.
Proof. unfold avoids; simpl. firstorder subst; auto. Qed.
Lemma avoids_nil D : avoids D [].
Proof. intros x []. Qed.

Lemma ev_eqx D a b e : eqx D a b -> avoids D (atoms e) -> ev (env_of a) e = ev (env_of b) e.
Proof. intros H Ha. apply ev_agree. intros y Hy. apply H; auto. Qed.
Lemma eval_eqx D a b e : eqx D a b -> avoids D (atoms e) -> eval (env_of a) e = eval (env_of b) e.
Proof. intros H Ha. unfold eval. rewrite (ev_eqx D a b); auto. Qed.
Lemma cev_eqx D a b c : eqx D a b -> avoids D (catoms c) -> cev (env_of a) c = cev (env_of b) c.
Proof. intros H Ha. apply cev_agree. intros y Hy. apply H; auto. Qed.
Lemma evals_eqx D a b l : eqx D a b -> avoids D (concat (map atoms l)) -> evals (env_of a) l = evals (env_of b) l.
Proof.
  induction l as [|e l IH]; simpl; auto. intros H Ha. apply avoids_app in Ha as [H1 H2].
  rewrite (eval_eqx D a b e), IH; auto.
Qed.

Section Sem.
  Variable I : nat -> list Z -> option Z.
  Notation run := (run I). Notation runs := (runs I). Notation runb := (runb I).
  Notation runw := (runw I). Notation runl := (runl I).

  Lemma read_in_eqx D a b o : eqx D a b -> avoids D (opnames o) -> read_in a o = read_in b o.
  Proof.
    destruct o as [z|x sub]; simpl; auto. intros H Ha. apply avoids_cons in Ha as [Hx Hs].
    rewrite (evals_eqx D a b); auto. destruct (evals _ sub); auto. rewrite H; auto.
  Qed.
  Lemma reads_in_eqx D a b l : eqx D a b -> avoids D (concat (map opnames l)) -> reads_in a l = reads_in b l.
  Proof.
    induction l as [|o l IH]; simpl; auto. intros H Ha. apply avoids_app in Ha as [H1 H2].
    rewrite (read_in_eqx D a b o), IH; auto.
  Qed.
  Lemma exec_op_eqx D a b o a' : eqx D a b ->
    avoids D (concat (map opnames (o_ins o)) ++ concat (map atoms (o_sub o))) ->
    exec_op I a o = Some a' -> exists b', exec_op I b o = Some b' /\ eqx D a' b'.
  Proof.
    unfold exec_op. intros H Ha. apply avoids_app in Ha as [H1 H2].
    rewrite (reads_in_eqx D a b), (evals_eqx D a b); auto.
    destruct (reads_in b (o_ins o)); [|discriminate]. destruct (evals _ (o_sub o)); [|discriminate].
    destruct (I (o_code o) l); [|discriminate]. intros [= <-]. eexists; split; eauto. apply eqx_wr; auto.
  Qed.
  Lemma exec_block_eqx D bl : forall a b a', eqx D a b -> avoids D (block_reads bl) ->
    exec_block I a bl = Some a' -> exists b', exec_block I b bl = Some b' /\ eqx D a' b'.
  Proof.
    induction bl as [|o bl IH]; intros a b a' H Ha E; simpl in *.
    - injection E as <-; eauto.
    - unfold block_reads in Ha. cbn [map concat] in Ha. apply avoids_app in Ha as [H1 H2].
      destruct (exec_op I a o) as [a1|] eqn:E1; [|discriminate].
      destruct (exec_op_eqx D a b o a1 H H1 E1) as (b1 & -> & Hb1). eapply IH; eauto.
  Qed.
  Lemma exec_assigns_eqx D l : forall a b a', eqx D a b -> avoids D (asg_reads l) ->
    exec_assigns a l = Some a' -> exists b', exec_assigns b l = Some b' /\ eqx D a' b'.
  Proof.
    induction l as [|[x e] l IH]; intros a b a' H Ha E; simpl in *.
    - injection E as <-; eauto.
    - unfold asg_reads in Ha. cbn [map concat snd] in Ha. apply avoids_app in Ha as [H1 H2].
      rewrite (eval_eqx D a b e) in E; auto. destruct (eval (env_of b) e); [|discriminate].
      eapply IH; eauto. apply eqx_wr; auto.
  Qed.

  (** Framing: a program that reads nothing in [D] behaves the same from
      stores that differ only in [D]. *)
  Lemma frame_all :
    (forall n a o a', run n a o a' -> forall D b, eqx D a b -> avoids D (nreads n) ->
        exists b', run n b o b' /\ eqx D a' b') /\
    (forall s a o a', runs s a o a' -> forall D b, eqx D a b -> avoids D (sreads s) ->
        exists b', runs s b o b' /\ eqx D a' b') /\
    (forall s a o a', runb s a o a' -> forall D b, eqx D a b -> avoids D (breads s) ->
        exists b', runb s b o b' /\ eqx D a' b') /\
    (forall s a o a', runw s a o a' -> forall D b, eqx D a b -> avoids D (sreads s) ->
        exists b', runw s b o b' /\ eqx D a' b') /\
    (forall i c u s a o a', runl i c u s a o a' -> forall D b, eqx D a b ->
        avoids D (catoms c) -> avoids D (atoms u) -> avoids D (sreads s) ->
        exists b', runl i c u s b o b' /\ eqx D a' b').
  Proof.
    apply run_mind; intros; cbn [nreads sreads breads] in *;
      repeat match goal with H : avoids _ (_ ++ _) |- _ => apply avoids_app in H as [? ?] end.
    - destruct (exec_block_eqx D b st b0 st') as (b' & E & ?); auto. exists b'; split; [constructor|]; auto.
    - destruct (H0 D b) as (b' & ? & ?); auto. exists b'; split; [constructor|]; auto.
    - destruct (H0 D b) as (b' & ? & ?); auto. exists b'; split; [constructor|]; auto.
    - destruct (H0 D b) as (b' & ? & ?); auto. exists b'; split; [constructor|]; auto.
    - destruct (H1 D (wr b i [] v)) as (b' & ? & ?); auto using eqx_wr.
      exists b'; split; auto. econstructor; eauto. rewrite <- (eval_eqx D st b); auto.
    - exists b; split; [constructor|]; auto.
    - exists b; split; [constructor|]; auto.
    - exists b; split; [constructor|]; auto.
    - exists b; split; [constructor|]; auto.
    - destruct (H0 D b) as (b1 & ? & ?); auto.
      destruct (exec_assigns_eqx D a st1 b1 st2) as (b2 & ? & ?); auto.
      destruct (H3 D b2) as (b' & ? & ?); auto. exists b'; split; auto. econstructor; eauto.
    - destruct (H0 D b) as (b' & ? & ?); auto. exists b'; split; auto. apply R_exit; auto.
    - exists b; split; [constructor|]; auto.
    - destruct (H1 D b) as (b' & ? & ?); auto. exists b'; split; auto. apply R_btrue; auto.
      rewrite <- (cev_eqx D st b); auto.
    - destruct (H1 D b) as (b' & ? & ?); auto. exists b'; split; auto. apply R_bfalse; auto.
      rewrite <- (cev_eqx D st b); auto.
    - destruct (H0 D b) as (b1 & ? & ?); auto. destruct (H3 D b1) as (b' & ? & ?); auto.
      exists b'; split; auto. eapply R_wnext; eauto.
    - destruct (H0 D b) as (b' & ? & ?); auto. exists b'; split; auto. apply R_wbreak; auto.
    - destruct (H0 D b) as (b' & ? & ?); auto. exists b'; split; auto. apply R_wret; auto.
    - exists b; split; auto. apply R_lend. rewrite <- (cev_eqx D st b); auto.
    - destruct (H1 D b) as (b1 & ? & ?); auto. destruct (H5 D (wr b1 i [] v)) as (b' & ? & ?); auto using eqx_wr.
      exists b'; split; auto. eapply R_lnext; eauto; [rewrite <- (cev_eqx D st b)|rewrite <- (eval_eqx D st1 b1)]; auto.
    - destruct (H1 D b) as (b' & ? & ?); auto. exists b'; split; auto. apply R_lbreak; auto.
      rewrite <- (cev_eqx D st b); auto.
    - destruct (H1 D b) as (b' & ? & ?); auto. exists b'; split; auto. apply R_lret; auto.
      rewrite <- (cev_eqx D st b); auto.
  Qed.
  Lemma runs_frame s a o a' D b : runs s a o a' -> eqx D a b -> avoids D (sreads s) ->
    exists b', runs s b o b' /\ eqx D a' b'.
  Proof. intros H; eapply frame_all; eauto. Qed.
  Lemma run_frame s a o a' D b : run s a o a' -> eqx D a b -> avoids D (nreads s) ->
    exists b', run s b o b' /\ eqx D a' b'.
  Proof. intros H; eapply frame_all; eauto. Qed.
  Lemma runb_frame s a o a' D b : runb s a o a' -> eqx D a b -> avoids D (breads s) ->
    exists b', runb s b o b' /\ eqx D a' b'.
  Proof. intros H; eapply frame_all; eauto. Qed.
  Lemma runw_frame s a o a' D b : runw s a o a' -> eqx D a b -> avoids D (sreads s) ->
    exists b', runw s b o b' /\ eqx D a' b'.
  Proof. intros H; eapply frame_all; eauto. Qed.
  Lemma runl_frame i c u s a o a' D b : runl i c u s a o a' -> eqx D a b ->
    avoids D (catoms c) -> avoids D (atoms u) -> avoids D (sreads s) ->
    exists b', runl i c u s b o b' /\ eqx D a' b'.
  Proof. intros H; eapply frame_all; eauto. Qed.

  (** Containers not in the write set keep their contents. *)
  Lemma exec_block_writes bl : forall st st', exec_block I st bl = Some st' ->
    forall x, ~ In x (map o_out bl) -> forall i, st' x i = st x i.
  Proof.
    induction bl as [|o bl IH]; intros st st' E x Hx i; simpl in *; [congruence|].
    destruct (exec_op I st o) as [st1|] eqn:E1; [|discriminate].
    rewrite (IH _ _ E); auto. unfold exec_op in E1.
    destruct (reads_in st (o_ins o)); [|discriminate]. destruct (evals _ (o_sub o)); [|discriminate].
    destruct (I (o_code o) l); [|discriminate]. injection E1 as <-. apply wr_other; auto.
  Qed.
  Lemma exec_assigns_writes a : forall st st', exec_assigns st a = Some st' ->
    forall x, ~ In x (map fst a) -> forall i, st' x i = st x i.
  Proof.
    induction a as [|[y e] a IH]; intros st st' E x Hx i; simpl in *; [congruence|].
    destruct (eval _ e); [|discriminate]. rewrite (IH _ _ E); auto. apply wr_other; auto.
  Qed.
  Lemma writes_all :
    (forall n a o a', run n a o a' -> forall x, ~ In x (nwrites n) -> forall i, a' x i = a x i) /\
    (forall s a o a', runs s a o a' -> forall x, ~ In x (swrites s) -> forall i, a' x i = a x i) /\
    (forall s a o a', runb s a o a' -> forall x, ~ In x (bwrites s) -> forall i, a' x i = a x i) /\
    (forall s a o a', runw s a o a' -> forall x, ~ In x (swrites s) -> forall i, a' x i = a x i) /\
    (forall i c u s a o a', runl i c u s a o a' -> forall x, x <> i -> ~ In x (swrites s) -> forall j, a' x j = a x j).
  Proof.
    apply run_mind; intros; cbn [nwrites swrites bwrites] in *; rewrite ?in_app_iff in *; auto.
    - eapply exec_block_writes; eauto.
    - simpl in *. rewrite H1; auto. apply wr_other; auto.
    - rewrite H3 by tauto. rewrite (exec_assigns_writes _ _ _ H1) by tauto. apply H0; tauto.
    - rewrite H3; auto.
    - rewrite H5; auto. rewrite wr_other; auto.
  Qed.
  Lemma runs_writes s a o a' x i : runs s a o a' -> ~ In x (swrites s) -> a' x i = a x i.
  Proof. intros H Hx. destruct writes_all as (_ & W & _). eapply W; eauto. Qed.
  Lemma run_writes s a o a' x i : run s a o a' -> ~ In x (nwrites s) -> a' x i = a x i.
  Proof. intros H Hx. destruct writes_all as (W & _). eapply W; eauto. Qed.

  (** Determinism (of outcome and final store). *)
  Lemma det_all :
    (forall n a o a', run n a o a' -> forall o2 a2, run n a o2 a2 -> o = o2 /\ a' = a2) /\
    (forall s a o a', runs s a o a' -> forall o2 a2, runs s a o2 a2 -> o = o2 /\ a' = a2) /\
    (forall s a o a', runb s a o a' -> forall o2 a2, runb s a o2 a2 -> o = o2 /\ a' = a2) /\
    (forall s a o a', runw s a o a' -> forall o2 a2, runw s a o2 a2 -> o = o2 /\ a' = a2) /\
    (forall i c u s a o a', runl i c u s a o a' -> forall o2 a2, runl i c u s a o2 a2 -> o = o2 /\ a' = a2).
  Proof.
    apply run_mind; intros;
      repeat match goal with IH : forall o2 a2, ?P o2 a2 -> ?o = o2 /\ ?a = a2, H : ?P ?o ?a |- _ => clear H end;
      match goal with H : _ |- _ = ?o2 /\ _ = ?a2 =>
        match type of H with context [o2] => inversion H; subst; clear H end end;
      repeat first
        [ congruence
        | split; congruence
        | match goal with H : ?o = ONorm \/ ?o = OCont |- _ => destruct H; subst end
        | match goal with IH : forall o2 a2, ?P o2 a2 -> _, H : ?P ?o2 ?a2 |- _ =>
            let E1 := fresh in let E2 := fresh in
            destruct (IH _ _ H) as [E1 E2]; clear IH; try discriminate E1; try subst end
        | match goal with H1 : eval ?s ?e = Some ?v, H2 : eval ?s ?e = Some ?w |- _ =>
            assert (v = w) by congruence; subst; clear H2 end
        | match goal with H1 : exec_assigns ?s ?e = Some ?v, H2 : exec_assigns ?s ?e = Some ?w |- _ =>
            assert (v = w) by congruence; subst; clear H2 end
        | solve [auto] ].
  Qed.
  Lemma run_det n a o a' o2 a2 : run n a o a' -> run n a o2 a2 -> o = o2 /\ a' = a2.
  Proof. destruct det_all as (D & _). eauto. Qed.
  Lemma runs_det s a o a' o2 a2 : runs s a o a' -> runs s a o2 a2 -> o = o2 /\ a' = a2.
  Proof. destruct det_all as (_ & D & _). eauto. Qed.
  Lemma runl_det i c u s a o a' o2 a2 : runl i c u s a o a' -> runl i c u s a o2 a2 -> o = o2 /\ a' = a2.
  Proof. destruct det_all as (_ & _ & _ & _ & D). eauto. Qed.

  Ltac unf H := cbn [xnode xseq xbrs xloop] in H; fold (xnode I) (xseq I) (xbrs I) (xloop I) in H.
  (** The interpreter only produces results of the relation. *)
  Lemma interp_sound n :
    (forall p st o st', xnode I n p st = Some (o, st') -> run p st o st') /\
    (forall p st o st', xseq I n p st = Some (o, st') -> runs p st o st') /\
    (forall p st o st', xbrs I n p st = Some (o, st') -> runb p st o st') /\
    (forall i c u s st o st', xloop I n i c u s st = Some (o, st') -> runl i c u s st o st').
  Proof.
    induction n as [|n (IN & IS & IB & IL)]; [repeat split; intros; discriminate|].
    split; [|split; [|split]].
    - intros p st o st' H. destruct p; unf H.
      + destruct (exec_block I st b) eqn:E; [|discriminate]. injection H as <- <-. constructor; auto.
      + constructor; auto.
      + constructor; auto.
      + destruct (xseq I n s st) as [[[] st1]|] eqn:E; try discriminate.
        * constructor. apply IN in H. inversion H; subst. eapply R_wnext; eauto.
        * injection H as <- <-. constructor. apply R_wbreak; auto.
        * constructor. apply IN in H. inversion H; subst. eapply R_wnext; eauto.
        * injection H as <- <-. constructor. apply R_wret; auto.
      + destruct (eval (env_of st) init) eqn:E; [|discriminate]. econstructor; eauto.
      + injection H as <- <-; constructor.
      + injection H as <- <-; constructor.
      + injection H as <- <-; constructor.
    - intros p st o st' H. destruct p; unf H; [injection H as <- <-; constructor|].
      destruct (xnode I n n0 st) as [[[] st1]|] eqn:E; try discriminate;
        try (injection H as <- <-; apply R_exit; auto; discriminate).
      destruct (exec_assigns st1 a) eqn:Ea; [|discriminate]. econstructor; eauto.
    - intros p st o st' H. destruct p; unf H; [injection H as <- <-; constructor|].
      destruct (cev (env_of st) c) as [[]|] eqn:E; [apply R_btrue|apply R_bfalse|discriminate]; auto.
    - intros i c u s st o st' H. unf H.
      destruct (cev (env_of st) c) as [[]|] eqn:E; [|injection H as <- <-; apply R_lend; auto|discriminate].
      destruct (xseq I n s st) as [[[] st1]|] eqn:Es; try discriminate.
      + destruct (eval (env_of st1) u) eqn:Eu; [|discriminate]. eapply R_lnext; eauto.
      + injection H as <- <-. apply R_lbreak; auto.
      + destruct (eval (env_of st1) u) eqn:Eu; [|discriminate]. eapply R_lnext; eauto.
      + injection H as <- <-. apply R_lret; auto.
  Qed.
  Lemma xseq_runs n p st o st' : xseq I n p st = Some (o, st') -> runs p st o st'.
  Proof. apply interp_sound. Qed.
  Lemma xnode_run n p st o st' : xnode I n p st = Some (o, st') -> run p st o st'.
  Proof. apply interp_sound. Qed.

  (** Sequencing. *)
  Lemma runs_app s t st o st' :
    runs (sapp s t) st o st' <->
    (exists st1, runs s st ONorm st1 /\ runs t st1 o st') \/ (runs s st o st' /\ o <> ONorm).
  Proof.
    split.
    - revert st; induction s as [|n a r IH]; intros st H; simpl in H.
      + left; exists st; split; auto; constructor.
      + inversion H; subst.
        * destruct (IH _ H8) as [(m & ? & ?)|[? ?]].
          -- left; exists m; split; auto. econstructor; eauto.
          -- right; split; auto. econstructor; eauto.
        * right; split; auto. apply R_exit; auto.
    - revert st; induction s as [|n a r IH]; intros st [(m & H1 & H2)|[H1 H2]]; simpl.
      + inversion H1; subst; auto.
      + inversion H1; subst; congruence.
      + inversion H1; subst; [|congruence]. econstructor; eauto.
      + inversion H1; subst; [econstructor; eauto|apply R_exit; auto].
  Qed.
  Lemma sapp_nil s : sapp s SNil = s.
  Proof. induction s; simpl; congruence. Qed.
  Lemma sapp_assoc s t u : sapp (sapp s t) u = sapp s (sapp t u).
  Proof. induction s; simpl; congruence. Qed.
End Sem.
