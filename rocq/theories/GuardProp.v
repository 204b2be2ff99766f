(** Moving the bounds test of a kernel with barriers to the statements of its body.

    Modelled: opt/src/transformations/offloading/gpu_condition_propagation.cpp:15-112
    (can_be_applied, apply) and BarrierFinder (149-189), with
    StructuredSDFGBuilder::add_if_else_before (structured_sdfg_builder.cpp:885-905) and
    move_child (584-601): a child is moved with the assignments of its transition. A barrier
    is an operation that writes the container [bar], so that the log of an execution (Trace.v)
    shows the barriers it passes. Simplified: one map (nested kernel maps are loops here); the
    work list of the code, which has no effect on the result, is a recursion; None: the code
    throws or casts an IfElse to a Sequence. *)
From Coq Require Import String List ZArith Bool Lia.
From Verif Require Import Sym SymFacts IR IRFacts Trace For2MapProofs.
Import ListNotations.
Open Scope string_scope.
Open Scope list_scope.
Open Scope Z_scope.

Definition mem (x : string) (l : list string) : bool := existsb (String.eqb x) l.
Section Guard.
  Variables (bar : string) (i : string) (c : cond).
  (** BarrierFinder::visit, 149-189 *)
  Definition has_bar (n : node) : bool := mem bar (nwrites n).
  Definition has_barS (s : seq) : bool := mem bar (swrites s).
  (** UsersView(current_node).uses(indvar) is not empty, 51-56 *)
  Definition uses_i (n : node) : bool := mem i (nreads n ++ nwrites n).
  Definition uses_iS (s : seq) : bool := mem i (sreads s ++ swrites s).
  (** 59-62: if (condition) { child; its assignments } *)
  Definition wrap (n : node) (a : assigns) : node := NIf (BCons c (SCons n a SNil) BNil).

  (** 47-110: the children of a node with barriers *)
  Fixpoint guardN (n : node) : option node :=
    match n with
    | NSeq s => option_map NSeq (guardS s)
    | NIf bs => option_map NIf (guardB bs)
    | NLoop k x init d u s => option_map (NLoop k x init d u) (guardS s)
    | NWhile s => option_map NWhile (guardS s)
    | _ => Some n
    end
  with guardS (s : seq) : option seq :=
    match s with
    | SNil => Some SNil
    | SCons n a r =>
        match guardS r with
        | None => None
        | Some r' =>
            if negb (uses_i n) then Some (SCons n a r')
            else if has_bar n then match guardN n with Some n' => Some (SCons n' a r') | None => None end
            else match n with
                 | NSeq _ => None
                 | NBreak | NContinue | NReturn _ => Some (SCons n a r')
                 | _ => Some (SCons (wrap n a) [] r')
                 end
        end
    end
  with guardB (b : brs) : option brs :=
    match b with
    | BNil => Some BNil
    | BCons d s r =>
        match guardB r with
        | None => None
        | Some r' =>
            if negb (uses_iS s) then Some (BCons d s r')
            else if has_barS s then match guardS s with Some s' => Some (BCons d s' r') | None => None end
            else None
        end
    end.

  (** The body of the kernel, from 45 *)
  Definition propagate_guard (body : seq) : option seq :=
    if negb (has_barS body) then None else if negb (uses_iS body) then Some body else guardS body.
End Guard.
Scheme node_ind3 := Induction for node Sort Prop with seq_ind3 := Induction for seq Sort Prop with brs_ind3 := Induction for brs Sort Prop.
Combined Scheme ir_ind3 from node_ind3, seq_ind3, brs_ind3.

Lemma mem_in x l : mem x l = true <-> In x l.
Proof.
  unfold mem. rewrite existsb_exists. split; [intros (y & H & E); apply String.eqb_eq in E; congruence|]. intros H. exists x. split; [exact H|apply String.eqb_refl].
Qed.

Section Facts.
  Variables (bar : string) (i : string) (c : cond).
  Notation guardN := (guardN bar i c). Notation guardS := (guardS bar i c). Notation guardB := (guardB bar i c).
  Inductive is_jump : node -> Prop := J_break : is_jump NBreak | J_cont : is_jump NContinue | J_ret r : is_jump (NReturn r).
  (** what becomes of a child *)
  Inductive child (n : node) (a : assigns) (r' : seq) : seq -> Prop :=
  | C_unused : uses_i i n = false -> child n a r' (SCons n a r')
  | C_barrier n' : uses_i i n = true -> has_bar bar n = true -> guardN n = Some n' -> child n a r' (SCons n' a r')
  | C_jump : uses_i i n = true -> has_bar bar n = false -> is_jump n -> child n a r' (SCons n a r')
  | C_wrap : uses_i i n = true -> has_bar bar n = false -> ~ is_jump n -> child n a r' (SCons (wrap c n a) [] r').
  Lemma guardS_eq n a r : guardS (SCons n a r) =
    match guardS r with
    | None => None
    | Some r' =>
        if negb (uses_i i n) then Some (SCons n a r')
        else if has_bar bar n then match guardN n with Some n' => Some (SCons n' a r') | None => None end
        else match n with NSeq _ => None | NBreak | NContinue | NReturn _ => Some (SCons n a r') | _ => Some (SCons (wrap c n a) [] r') end
    end.
  Proof. reflexivity. Qed.
  Lemma guardB_eq d s r : guardB (BCons d s r) =
    match guardB r with
    | None => None
    | Some r' => if negb (uses_iS i s) then Some (BCons d s r') else if has_barS bar s then match guardS s with Some s' => Some (BCons d s' r') | None => None end else None
    end.
  Proof. reflexivity. Qed.
  Lemma guard_cons n a r s' : guardS (SCons n a r) = Some s' -> exists r', guardS r = Some r' /\ child n a r' s'.
  Proof.
    rewrite guardS_eq. destruct (guardS r) as [r'|]; [|discriminate]. intros H. exists r'. split; [reflexivity|].
    destruct (uses_i i n) eqn:U; cbn [negb] in H; [|injection H as <-; apply C_unused; exact U].
    destruct (has_bar bar n) eqn:B; [destruct (guardN n) as [n'|] eqn:G; [injection H as <-; eapply C_barrier; eassumption|discriminate]|].
    destruct n; cbv beta iota in H; try discriminate; injection H as <-; first [apply C_jump; solve [assumption|constructor]|apply C_wrap; [assumption|assumption|intros J; inversion J]].
  Qed.
  Lemma guard_branch d s r b' : guardB (BCons d s r) = Some b' -> exists s' r', guardB r = Some r' /\ b' = BCons d s' r' /\
    ((uses_iS i s = false /\ s' = s) \/ (uses_iS i s = true /\ has_barS bar s = true /\ guardS s = Some s')).
  Proof.
    rewrite guardB_eq. destruct (guardB r) as [r'|]; [|discriminate]. destruct (uses_iS i s) eqn:U; cbn [negb].
    - destruct (has_barS bar s) eqn:B; [|discriminate]. destruct (guardS s) as [s'|]; [|discriminate]. intros H. injection H as <-. exists s', r'. auto 7.
    - intros H. injection H as <-. exists s, r'. auto 7.
  Qed.
  Lemma gN_seq s n' : guardN (NSeq s) = Some n' -> exists s', guardS s = Some s' /\ n' = NSeq s'.
  Proof. cbn. fold (guardS s). destruct (guardS s) as [s'|]; [|discriminate]. intros H. injection H as <-. eauto. Qed.
  Lemma gN_if s n' : guardN (NIf s) = Some n' -> exists s', guardB s = Some s' /\ n' = NIf s'.
  Proof. cbn. fold (guardB s). destruct (guardB s) as [s'|]; [|discriminate]. intros H. injection H as <-. eauto. Qed.
  Lemma gN_while s n' : guardN (NWhile s) = Some n' -> exists s', guardS s = Some s' /\ n' = NWhile s'.
  Proof. cbn. fold (guardS s). destruct (guardS s) as [s'|]; [|discriminate]. intros H. injection H as <-. eauto. Qed.
  Lemma gN_loop k x e d u s n' : guardN (NLoop k x e d u s) = Some n' -> exists s', guardS s = Some s' /\ n' = NLoop k x e d u s'.
  Proof. cbn. fold (guardS s). destruct (guardS s) as [s'|]; [|discriminate]. intros H. injection H as <-. eauto. Qed.

  (** a part that does not use the index has no child that does *)
  Lemma unused_cons n a r : uses_iS i (SCons n a r) = false -> uses_i i n = false /\ uses_iS i r = false.
  Proof.
    intros H. split; apply not_true_iff_false; intros K; apply not_true_iff_false in H; apply H; apply mem_in in K; apply mem_in; cbn [sreads swrites]; rewrite !in_app_iff in *; tauto.
  Qed.
  Lemma unusedS s : uses_iS i s = false -> guardS s = Some s.
  Proof.
    induction s as [|n a r IH]; intros H; [reflexivity|]. apply unused_cons in H as [H1 H2]. rewrite guardS_eq, (IH H2), H1. reflexivity.
  Qed.

  (** the same names are written *)
  Lemma guard_writes :
    (forall n n', guardN n = Some n' -> forall y, In y (nwrites n') <-> In y (nwrites n)) /\
    (forall s s', guardS s = Some s' -> forall y, In y (swrites s') <-> In y (swrites s)) /\
    (forall b b', guardB b = Some b' -> forall y, In y (bwrites b') <-> In y (bwrites b)).
  Proof.
    apply ir_ind3.
    - intros b n' H. injection H as <-. tauto.
    - intros s IH n' H. apply gN_seq in H as (s' & H & ->). exact (IH s' H).
    - intros s IH n' H. apply gN_if in H as (s' & H & ->). exact (IH s' H).
    - intros s IH n' H. apply gN_while in H as (s' & H & ->). exact (IH s' H).
    - intros k x e d u s IH n' H. apply gN_loop in H as (s' & H & ->). intros y. cbn [nwrites In]. rewrite (IH s' H y). tauto.
    - intros n' H. injection H as <-. tauto.
    - intros n' H. injection H as <-. tauto.
    - intros r n' H. injection H as <-. tauto.
    - intros s' H. injection H as <-. tauto.
    - intros n IHn a r IHr s' H. apply guard_cons in H as (r' & Hr & C). specialize (IHr r' Hr).
      inversion C as [U|n2 U B G|U B J|U B NJ]; subst; intros y; cbn [swrites nwrites bwrites wrap map app]; rewrite ?in_app_iff, ?(IHr y); try tauto.
      + rewrite (IHn n2 G y). tauto.
      + cbn [In]. tauto.
    - intros b' H. injection H as <-. tauto.
    - intros d s IHs r IHr b' H. apply guard_branch in H as (s' & r' & Hr & -> & [[_ ->]|(_ & _ & Hs)]); intros y; cbn [bwrites]; rewrite !in_app_iff, (IHr r' Hr y); [tauto|]. rewrite (IHs s' Hs y). tauto.
  Qed.
End Facts.

(** ** A thread with an index in range *)
Section InRange.
  Variables (bar : string) (i : string) (c : cond) (I : nat -> list Z -> option Z).
  Notation guardN := (guardN bar i c). Notation guardS := (guardS bar i c). Notation guardB := (guardB bar i c).
  Definition spares (l : list string) : Prop := forall y, In y (catoms c) -> ~ In y l.
  Lemma spares_app a b : spares (a ++ b) <-> spares a /\ spares b.
  Proof.
    unfold spares. split; [intros H; split; intros y Hy K; apply (H y Hy), in_app_iff; auto|]. intros [A B] y Hy K. apply in_app_iff in K as [K|K]; [exact (A y Hy K)|exact (B y Hy K)].
  Qed.
  Lemma spares_wr (st : store) x v : spares [x] -> cev (env_of (wr st x [] v)) c = cev (env_of st) c.
  Proof. intros H. apply cev_agree. intros y Hy. unfold env_of. rewrite IRFacts.wr_other; [reflexivity|]. left. intros K. apply (H y Hy). left. congruence. Qed.
  Lemma spares_wr2 (st : store) x j v : spares [x] -> cev (env_of (wr st x j v)) c = cev (env_of st) c.
  Proof. intros H. apply cev_agree. intros y Hy. unfold env_of. rewrite IRFacts.wr_other; [reflexivity|]. left. intros K. apply (H y Hy). left. congruence. Qed.
  Lemma spares_run n st o st' : run I n st o st' -> spares (nwrites n) -> cev (env_of st') c = cev (env_of st) c.
  Proof. intros R H. apply cev_agree. intros y Hy. eapply run_writes; [exact R|]. apply H, Hy. Qed.
  Lemma spares_runs n st o st' : runs I n st o st' -> spares (swrites n) -> cev (env_of st') c = cev (env_of st) c.
  Proof. intros R H. apply cev_agree. intros y Hy. eapply runs_writes; [exact R|]. apply H, Hy. Qed.
  Lemma spares_asg st a st' : exec_assigns st a = Some st' -> spares (map fst a) -> cev (env_of st') c = cev (env_of st) c.
  Proof. intros R H. apply cev_agree. intros y Hy. unfold env_of. rewrite (exec_assigns_writes _ _ _ R); [reflexivity|]. apply H, Hy. Qed.

  Lemma in_range_sim :
    (forall n st o st', run I n st o st' -> forall n', guardN n = Some n' -> spares (nwrites n) -> cev (env_of st) c = Some true -> run I n' st o st') /\
    (forall s st o st', runs I s st o st' -> forall s', guardS s = Some s' -> spares (swrites s) -> cev (env_of st) c = Some true -> runs I s' st o st') /\
    (forall b st o st', runb I b st o st' -> forall b', guardB b = Some b' -> spares (bwrites b) -> cev (env_of st) c = Some true -> runb I b' st o st') /\
    (forall s st o st', runw I s st o st' -> forall s', guardS s = Some s' -> spares (swrites s) -> cev (env_of st) c = Some true -> runw I s' st o st') /\
    (forall x d u s st o st', runl I x d u s st o st' -> forall s', guardS s = Some s' -> spares (x :: swrites s) -> cev (env_of st) c = Some true -> runl I x d u s' st o st').
  Proof.
    apply run_mind.
    - intros b st st' R n' G _ _. injection G as <-. constructor. exact R.
    - intros s st o st' _ IH n' G F C. apply gN_seq in G as (s' & G & ->). constructor. auto.
    - intros s st o st' _ IH n' G F C. apply gN_if in G as (s' & G & ->). constructor. auto.
    - intros s st o st' _ IH n' G F C. apply gN_while in G as (s' & G & ->). constructor. auto.
    - intros k x e d u s st v o st' E _ IH n' G F C. apply gN_loop in G as (s' & G & ->). econstructor; [exact E|]. apply IH; [exact G|exact F|].
      apply (spares_app [x] (swrites s)) in F as [F _]. rewrite spares_wr by exact F. exact C.
    - intros st n' G _ _. injection G as <-. constructor.
    - intros st n' G _ _. injection G as <-. constructor.
    - intros r st n' G _ _. injection G as <-. constructor.
    - intros st s' G _ _. injection G as <-. constructor.
    - intros n a r st s1 s2 o s3 R1 IH1 E R2 IH2 s' G F C. apply guard_cons in G as (r' & Hr & Ch). cbn [swrites] in F. apply spares_app in F as [F1 F2]. apply spares_app in F2 as [F2 F3].
      assert (C1 : cev (env_of s1) c = Some true) by (rewrite (spares_run _ _ _ _ R1 F1); exact C).
      assert (C2 : cev (env_of s2) c = Some true) by (rewrite (spares_asg _ _ _ E F2); exact C1).
      specialize (IH2 r' Hr F3 C2). inversion Ch as [U|n2 U B G|U B J|U B NJ]; subst.
      + econstructor; eassumption.
      + econstructor; [apply IH1; assumption|exact E|exact IH2].
      + econstructor; eassumption.
      + econstructor; [apply R_if, R_btrue; [exact C|]|reflexivity|exact IH2]. econstructor; [exact R1|exact E|constructor].
    - intros n a r st o s1 R1 IH1 N s' G F C. apply guard_cons in G as (r' & Hr & Ch). cbn [swrites] in F. apply spares_app in F as [F1 F2].
      inversion Ch as [U|n2 U B G|U B J|U B NJ]; subst.
      + apply R_exit; assumption.
      + apply R_exit; [apply IH1; assumption|exact N].
      + apply R_exit; assumption.
      + apply R_exit; [|exact N]. apply R_if, R_btrue; [exact C|]. apply R_exit; assumption.
    - intros st b' G _ _. injection G as <-. constructor.
    - intros d s r st o s1 E R IH b' G F C. apply guard_branch in G as (s' & r' & Hr & -> & K). cbn [bwrites] in F. apply spares_app in F as [F1 F2].
      apply R_btrue; [exact E|]. destruct K as [[_ ->]|(_ & _ & Hs)]; [exact R|apply IH; assumption].
    - intros d s r st o s1 E R IH b' G F C. apply guard_branch in G as (s' & r' & Hr & -> & K). cbn [bwrites] in F. apply spares_app in F as [F1 F2].
      apply R_bfalse; [exact E|]. apply IH; assumption.
    - intros s st o1 s1 o s2 R IH O W IHw s' G F C. econstructor; [apply IH; assumption|exact O|apply IHw; [exact G|exact F|]]. rewrite (spares_runs _ _ _ _ R F). exact C.
    - intros s st s1 R IH s' G F C. apply R_wbreak. auto.
    - intros s st r s1 R IH s' G F C. apply R_wret. auto.
    - intros x d u s st E s' G F C. constructor. exact E.
    - intros x d u s st o1 s1 v o s2 E R IH O E2 W IHw s' G F C. pose proof F as F'. apply (spares_app [x] (swrites s)) in F' as [F1 F2].
      eapply R_lnext; [exact E|apply IH; assumption|exact O|exact E2|apply IHw; [exact G|exact F|]]. rewrite spares_wr by exact F1. rewrite (spares_runs _ _ _ _ R F2). exact C.
    - intros x d u s st s1 E R IH s' G F C. apply (spares_app [x] (swrites s)) in F as [F1 F2]. apply R_lbreak; [exact E|]. auto.
    - intros x d u s st r s1 E R IH s' G F C. apply (spares_app [x] (swrites s)) in F as [F1 F2]. apply R_lret; [exact E|]. auto.
  Qed.
End InRange.

(** ** A thread with an index out of range *)
Section OutRange.
  Variables (bar : string) (i : string) (c : cond) (I : nat -> list Z -> option Z) (shared : string -> Prop).
  Notation guardN := (guardN bar i c). Notation guardS := (guardS bar i c). Notation guardB := (guardB bar i c).
  Definition private (l : list string) : Prop := forall y, In y l -> ~ shared y.
  (** What other threads see is written only by statements that mention the index and hold
      no barrier; not by loop headers or assignments. *)
  Fixpoint tidyN (n : node) : Prop :=
    match n with
    | NBlock b => private (map o_out b)
    | NSeq s | NWhile s => tidyS s
    | NIf b => tidyB b
    | NLoop _ x _ _ _ s => ~ shared x /\ tidyS s
    | NBreak | NContinue | NReturn _ => True
    end
  with tidyS (s : seq) : Prop :=
    match s with
    | SNil => True
    | SCons n a r => private (map fst a) /\ (if has_bar bar n then tidyN n else uses_i i n = true \/ private (nwrites n)) /\ tidyS r
    end
  with tidyB (b : brs) : Prop := match b with BNil => True | BCons _ s r => tidyS s /\ tidyB r end.

  Definition hidden (st st' : store) : Prop := forall y j, shared y -> st' y j = st y j.
  Lemma hidden_refl st : hidden st st. Proof. intros y j _. reflexivity. Qed.
  Lemma hidden_trans a b d : hidden a b -> hidden b d -> hidden a d.
  Proof. intros H K y j S. rewrite (K y j S). apply H, S. Qed.
  Lemma hidden_wr st x v : ~ shared x -> hidden st (wr st x [] v).
  Proof. intros N y j S. apply IRFacts.wr_other. left. intros K. subst. contradiction. Qed.
  Lemma hidden_run n st o st' : run I n st o st' -> private (nwrites n) -> hidden st st'.
  Proof. intros R P y j S. eapply run_writes; [exact R|]. intros K. exact (P y K S). Qed.
  Lemma hidden_asg st a st' : exec_assigns st a = Some st' -> private (map fst a) -> hidden st st'.
  Proof. intros R P y j S. eapply exec_assigns_writes; [exact R|]. intros K. exact (P y K S). Qed.
  (** nothing that does not use the index writes a shared container *)
  Lemma tidy_unused :
    (forall n, tidyN n -> uses_i i n = false -> private (nwrites n)) /\ (forall s, tidyS s -> uses_iS i s = false -> private (swrites s)) /\
    (forall b, tidyB b -> mem i (breads b ++ bwrites b) = false -> private (bwrites b)).
  Proof.
    assert (M : forall l l', (forall y, In y l -> In y l') -> mem i l' = false -> mem i l = false).
    { intros l l' H N. apply not_true_iff_false in N. apply not_true_iff_false. intros K. apply N, mem_in, H, mem_in, K. }
    apply ir_ind3; cbn [tidyN tidyS tidyB].
    - intros b H _. exact H.
    - intros s IH H U. exact (IH H U).
    - intros s IH H U. exact (IH H U).
    - intros s IH H U. exact (IH H U).
    - intros k x e d u s IH [H1 H2] U y [<-|Hy]; [exact H1|]. apply (IH H2); [|exact Hy]. eapply M; [|exact U]. intros z. cbn [nreads nwrites In]. rewrite !in_app_iff. cbn [In]. tauto.
    - intros _ _ y [].
    - intros _ _ y [].
    - intros r _ _ y [].
    - intros _ _ y [].
    - intros n IHn a r IHr (P & T & Tr) U. apply unused_cons in U as [U1 U2]. specialize (IHr Tr U2). intros y Hy. cbn [swrites] in Hy. rewrite !in_app_iff in Hy.
      destruct Hy as [Hy|[Hy|Hy]]; [|exact (P y Hy)|exact (IHr y Hy)]. destruct (has_bar bar n); [exact (IHn T U1 y Hy)|]. destruct T as [T|T]; [congruence|exact (T y Hy)].
    - intros _ _ y [].
    - intros d s IHs r IHr (T1 & T2) U y Hy. cbn [bwrites] in Hy. apply in_app_iff in Hy as [Hy|Hy].
      + apply (IHs T1); [|exact Hy]. eapply M; [|exact U]. intros z. cbn [breads bwrites]. rewrite !in_app_iff. tauto.
      + apply (IHr T2); [|exact Hy]. eapply M; [|exact U]. intros z. cbn [breads bwrites]. rewrite !in_app_iff. tauto.
  Qed.

  (** The result of the pass, told apart from the program: what is executed is hidden. *)
  Fixpoint safeN (n : node) : Prop :=
    match n with
    | NBlock b => private (map o_out b)
    | NSeq s | NWhile s => safeS s
    | NIf b => safeB b
    | NLoop _ x _ _ _ s => ~ shared x /\ safeS s
    | NBreak | NContinue | NReturn _ => True
    end
  with safeS (s : seq) : Prop :=
    match s with SNil => True | SCons n a r => private (map fst a) /\ (safeN n \/ exists m b, n = wrap c m b) /\ safeS r end
  with safeB (b : brs) : Prop := match b with BNil => True | BCons _ s r => safeS s /\ safeB r end.
  Lemma private_app a b : private (a ++ b) <-> private a /\ private b.
  Proof. unfold private. split; [intros H; split; intros y Hy; apply H, in_app_iff; auto|]. intros [H1 H2] y Hy. apply in_app_iff in Hy as [Hy|Hy]; auto. Qed.
  Lemma private_safe : (forall n, private (nwrites n) -> safeN n) /\ (forall s, private (swrites s) -> safeS s) /\ (forall b, private (bwrites b) -> safeB b).
  Proof.
    apply ir_ind3; cbn [nwrites swrites bwrites safeN safeS safeB]; auto.
    - intros k x e d u s IH H. split; [apply H; left; reflexivity|]. apply IH. intros y Hy. apply H. right. exact Hy.
    - intros n IHn a r IHr H. apply private_app in H as [H1 H2]. apply private_app in H2 as [H2 H3]. auto.
    - intros d s IHs r IHr H. apply private_app in H as [H1 H2]. auto.
  Qed.
  Lemma tidy_safe :
    (forall n, tidyN n -> forall n', guardN n = Some n' -> safeN n') /\ (forall s, tidyS s -> forall s', guardS s = Some s' -> safeS s') /\
    (forall b, tidyB b -> forall b', guardB b = Some b' -> safeB b').
  Proof.
    apply ir_ind3; cbn [tidyN tidyS tidyB].
    - intros b H n' G. injection G as <-. exact H.
    - intros s IH H n' G. apply gN_seq in G as (s' & G & ->). exact (IH H s' G).
    - intros s IH H n' G. apply gN_if in G as (s' & G & ->). exact (IH H s' G).
    - intros s IH H n' G. apply gN_while in G as (s' & G & ->). exact (IH H s' G).
    - intros k x e d u s IH [H1 H2] n' G. apply gN_loop in G as (s' & G & ->). split; [exact H1|exact (IH H2 s' G)].
    - intros _ n' G. injection G as <-. exact Logic.I.
    - intros _ n' G. injection G as <-. exact Logic.I.
    - intros r _ n' G. injection G as <-. exact Logic.I.
    - intros _ s' G. injection G as <-. exact Logic.I.
    - intros n IHn a r IHr (P & T & Tr) s' G. apply guard_cons in G as (r' & Hr & Ch). specialize (IHr Tr r' Hr).
      inversion Ch as [U|n2 U B G|U B J|U B NJ]; subst; cbn [safeS]; (split; [|split; [|exact IHr]]); try exact P.
      + left. apply private_safe. destruct (has_bar bar n); [exact (proj1 tidy_unused n T U)|]. destruct T as [T|T]; [congruence|exact T].
      + left. rewrite B in T. exact (IHn T n2 G).
      + left. destruct J; exact Logic.I.
      + intros y [].
      + right. eauto.
    - intros _ b' G. injection G as <-. exact Logic.I.
    - intros d s IHs r IHr (T1 & T2) b' G. apply guard_branch in G as (s' & r' & Hr & -> & K). split; [|exact (IHr T2 r' Hr)].
      destruct K as [[U ->]|(_ & _ & Hs)]; [|exact (IHs T1 s' Hs)]. apply private_safe. exact (proj1 (proj2 tidy_unused) s T1 U).
  Qed.

  Lemma wrap_false m a st o st' : run I (wrap c m a) st o st' -> cev (env_of st) c = Some false -> o = ONorm /\ st' = st.
  Proof.
    intros R C. inversion R as [| |? ? ? ? RB| | | | |]; subst. inversion RB as [|? ? ? ? ? ? E RS|? ? ? ? ? ? E RS]; subst; [congruence|]. inversion RS; subst. auto.
  Qed.
  Lemma out_range_sim :
    (forall n st o st', run I n st o st' -> safeN n -> spares c (nwrites n) -> cev (env_of st) c = Some false -> hidden st st') /\
    (forall s st o st', runs I s st o st' -> safeS s -> spares c (swrites s) -> cev (env_of st) c = Some false -> hidden st st') /\
    (forall b st o st', runb I b st o st' -> safeB b -> spares c (bwrites b) -> cev (env_of st) c = Some false -> hidden st st') /\
    (forall s st o st', runw I s st o st' -> safeS s -> spares c (swrites s) -> cev (env_of st) c = Some false -> hidden st st') /\
    (forall x d u s st o st', runl I x d u s st o st' -> ~ shared x -> safeS s -> spares c (x :: swrites s) -> cev (env_of st) c = Some false -> hidden st st').
  Proof.
    apply run_mind; cbn [safeN safeS safeB nwrites swrites bwrites].
    - intros b st st' R S F C. apply (hidden_run (NBlock b) st ONorm st'); [constructor; exact R|exact S].
    - intros s st o st' _ IH S F C. auto.
    - intros s st o st' _ IH S F C. auto.
    - intros s st o st' _ IH S F C. auto.
    - intros k x e d u s st v o st' E _ IH [S1 S2] F C. eapply hidden_trans; [apply (hidden_wr st x v S1)|]. apply IH; auto.
      apply (spares_app c [x] (swrites s)) in F as [F _]. rewrite spares_wr by exact F. exact C.
    - intros st _ _ _. apply hidden_refl.
    - intros st _ _ _. apply hidden_refl.
    - intros r st _ _ _. apply hidden_refl.
    - intros st _ _ _. apply hidden_refl.
    - intros n a r st s1 s2 o s3 R1 IH1 E R2 IH2 (P & S & Sr) F C. apply spares_app in F as [F1 F2]. apply spares_app in F2 as [F2 F3].
      assert (C1 : cev (env_of s1) c = Some false) by (rewrite (spares_run c I _ _ _ _ R1 F1); exact C).
      assert (C2 : cev (env_of s2) c = Some false) by (rewrite (spares_asg c _ _ _ E F2); exact C1).
      eapply hidden_trans; [|apply IH2; assumption]. eapply hidden_trans; [|exact (hidden_asg _ _ _ E P)].
      destruct S as [S|(m & b & ->)]; [apply IH1; assumption|]. apply wrap_false in R1 as [_ ->]; [apply hidden_refl|exact C].
    - intros n a r st o s1 R1 IH1 N (P & S & Sr) F C. apply spares_app in F as [F1 F2].
      destruct S as [S|(m & b & ->)]; [apply IH1; assumption|]. apply wrap_false in R1 as [_ ->]; [apply hidden_refl|exact C].
    - intros st _ _ _. apply hidden_refl.
    - intros d s r st o s1 E R IH [S1 S2] F C. apply spares_app in F as [F1 F2]. auto.
    - intros d s r st o s1 E R IH [S1 S2] F C. apply spares_app in F as [F1 F2]. auto.
    - intros s st o1 s1 o s2 R IH O W IHw S F C. eapply hidden_trans; [apply IH; assumption|]. apply IHw; auto. rewrite (spares_runs c I _ _ _ _ R F). exact C.
    - intros s st s1 R IH S F C. auto.
    - intros s st r s1 R IH S F C. auto.
    - intros x d u s st E _ _ _ _. apply hidden_refl.
    - intros x d u s st o1 s1 v o s2 E R IH O E2 W IHw N S F C. pose proof F as F'. apply (spares_app c [x] (swrites s)) in F' as [F1 F2].
      eapply hidden_trans; [apply IH; assumption|]. eapply hidden_trans; [apply (hidden_wr s1 x v N)|]. apply IHw; auto.
      rewrite spares_wr by exact F1. rewrite (spares_runs c I _ _ _ _ R F2). exact C.
    - intros x d u s st s1 E R IH N S F C. apply (spares_app c [x] (swrites s)) in F as [F1 F2]. auto.
    - intros x d u s st r s1 E R IH N S F C. apply (spares_app c [x] (swrites s)) in F as [F1 F2]. auto.
  Qed.
End OutRange.

(** ** Two threads at the barriers *)
Section Barriers.
  Variables (bar : string) (i : string) (c : cond) (I : nat -> list Z -> option Z) (V : string -> Prop).
  Notation guardN := (guardN bar i c). Notation guardS := (guardS bar i c). Notation guardB := (guardB bar i c).
  (** the barriers an execution passes *)
  Definition is_pass (e : event) : bool := match e with Ev true x _ _ => String.eqb bar x | _ => false end.
  Definition passed (T : trace) : nat := List.length (filter is_pass T).
  Lemma passed_app T1 T2 : passed (T1 ++ T2) = (passed T1 + passed T2)%nat.
  Proof. unfold passed. rewrite filter_app, app_length. reflexivity. Qed.
  Lemma passed_rds l : passed (rds l) = 0%nat.
  Proof. unfold passed, rds. induction l as [|x l IH]; [reflexivity|]. exact IH. Qed.
  Lemma passed_none T : (forall e k, ~ In (Ev true bar e k) T) -> passed T = 0%nat.
  Proof.
    unfold passed. induction T as [|ev T IH]; intros N; [reflexivity|]. cbn [filter].
    destruct (is_pass ev) eqn:E; [|apply IH; intros e k H; apply (N e k); right; exact H].
    destruct ev as [[|] x e k]; [|discriminate]. apply String.eqb_eq in E. subst. destruct (N e k). left. reflexivity.
  Qed.

  (** [quiet]: it never leaves a loop or the body *)
  Definition quiet (n : node) : Prop := forall st o st', run I n st o st' -> o = ONorm.
  Definition outside (l : list string) : Prop := forall y, In y l -> ~ V y.
  Definition within (l : list string) : Prop := forall y, In y l -> V y.
  Definition steady (a : assigns) : Prop := forall y e, In (y, e) a -> V y -> within (atoms e).
  (** The control around the barriers depends on [V] only, and [V] depends on [V] only. *)
  Fixpoint alignedN (n : node) : Prop :=
    match n with
    | NBlock b => outside (map o_out b)
    | NSeq s | NWhile s => alignedS s
    | NIf b => alignedB b
    | NLoop _ x e d u s => within (atoms e) /\ within (catoms d) /\ within (atoms u) /\ alignedS s
    | NBreak | NContinue | NReturn _ => True
    end
  with alignedS (s : seq) : Prop :=
    match s with
    | SNil => True
    | SCons n a r => steady a /\ (if has_bar bar n then alignedN n else is_jump n \/ (quiet n /\ outside (nwrites n))) /\ alignedS r
    end
  with alignedB (b : brs) : Prop := match b with BNil => True | BCons d s r => within (catoms d) /\ alignedS s /\ alignedB r end.
  Definition alike (s t : store) : Prop := forall y, V y -> s y [] = t y [].

  Lemma alike_cev s t d : alike s t -> within (catoms d) -> cev (env_of s) d = cev (env_of t) d.
  Proof. intros A W. apply cev_agree. intros y Hy. apply A, W, Hy. Qed.
  Lemma alike_eval s t e : alike s t -> within (atoms e) -> eval (env_of s) e = eval (env_of t) e.
  Proof. intros A W. unfold eval. rewrite (ev_agree (env_of s) (env_of t)); [reflexivity|]. intros y Hy. apply A, W, Hy. Qed.
  Lemma alike_wr s t x v : alike s t -> alike (wr s x [] v) (wr t x [] v).
  Proof. intros A y Hy. unfold wr. destruct (String.eqb x y && idx_eqb [] [])%bool; [reflexivity|apply A, Hy]. Qed.
  Lemma alike_asg a : steady a -> forall s t s' t', alike s t -> exec_assigns s a = Some s' -> exec_assigns t a = Some t' -> alike s' t'.
  Proof.
    induction a as [|[x e] a IH]; intros S s t s' t' A E1 E2; cbn [exec_assigns] in *; [injection E1 as <-; injection E2 as <-; exact A|].
    destruct (eval (env_of s) e) as [v|] eqn:V1; [|discriminate]. destruct (eval (env_of t) e) as [w|] eqn:V2; [|discriminate].
    assert (A2 : alike (wr s x [] v) (wr t x [] w)).
    { intros y Hy. unfold wr. destruct (String.eqb x y) eqn:X; cbn [andb]; [|apply A, Hy]. apply String.eqb_eq in X. subst y.
      rewrite (alike_eval s t e A) in V1 by (apply (S x e); [left; reflexivity|exact Hy]). rewrite V1 in V2. injection V2 as <-. reflexivity. }
    eapply IH; [intros y e' H; apply S; right; exact H|exact A2|exact E1|exact E2].
  Qed.
  Lemma alike_out s t s' t' l : alike s t -> (forall y, ~ In y l -> s' y [] = s y []) -> (forall y, ~ In y l -> t' y [] = t y []) -> outside l -> alike s' t'.
  Proof. intros A H1 H2 O y Hy. rewrite H1, H2 by (intros K; exact (O y K Hy)). apply A, Hy. Qed.
  Lemma passed_block b : forall st st', exec_block I st b = Some st' -> passed (block_trace I st b) = List.length (filter (fun o => String.eqb bar (o_out o)) b).
  Proof.
    assert (Q : forall st l, passed (concat (map (operand_trace st) l)) = 0%nat).
    { intros st l. induction l as [|x l IH]; [reflexivity|]. cbn [map concat]. rewrite passed_app, IH. destruct x as [z|y sub]; [reflexivity|]. cbn [operand_trace]. rewrite passed_app, passed_rds.
      destruct (evals (env_of st) sub); reflexivity. }
    induction b as [|o b IH]; intros st st' E; [reflexivity|]. cbn [exec_block block_trace filter] in *. destruct (exec_op I st o) as [s1|] eqn:EO; [|discriminate].
    rewrite passed_app, (IH _ _ E). unfold op_trace. rewrite !passed_app, Q, passed_rds. unfold exec_op in EO. destruct (reads_in st (o_ins o)); [|discriminate].
    destruct (evals (env_of st) (o_sub o)) as [j|]; [|discriminate]. unfold passed. cbn [filter is_pass]. destruct (String.eqb bar (o_out o)); reflexivity.
  Qed.
  Lemma passed_asg a : passed (asg_trace a) = List.length (filter (fun p => String.eqb bar (fst p)) a).
  Proof.
    induction a as [|[x e] a IH]; [reflexivity|]. unfold asg_trace in *. cbn [map concat filter fst snd]. rewrite !passed_app, IH, passed_rds. unfold passed. cbn [filter is_pass].
    destruct (String.eqb bar x); reflexivity.
  Qed.
  Definition same (o1 : outcome) (s1 : store) (T1 : trace) (o2 : outcome) (s2 : store) (T2 : trace) : Prop := o1 = o2 /\ alike s1 s2 /\ passed T1 = passed T2.
  Lemma traced n st o st' T : runT I n st o st' T -> forall e k, In (Ev true bar e k) T -> In bar (nwrites n).
  Proof. intros R e k H. eapply (proj1 (trace_writes I)); eassumption. Qed.
  Lemma quiet_same n s o s' T t o2 t' T2 : alike s t -> quiet n -> outside (nwrites n) -> has_bar bar n = false ->
    runT I n s o s' T -> runT I n t o2 t' T2 -> same o s' T o2 t' T2.
  Proof.
    intros A Q O B R1 R2. pose proof (proj1 (trace_run I) _ _ _ _ _ R1) as S1. pose proof (proj1 (trace_run I) _ _ _ _ _ R2) as S2.
    assert (N : forall st o st' T, runT I n st o st' T -> passed T = 0%nat).
    { intros st o0 st' T0 R. apply passed_none. intros e k H. apply not_true_iff_false in B. apply B, mem_in. eapply traced; eassumption. }
    split; [rewrite (Q _ _ _ S1), (Q _ _ _ S2); reflexivity|]. split; [|rewrite (N _ _ _ _ R1), (N _ _ _ _ R2); reflexivity].
    eapply alike_out; [exact A| | |exact O]; intros y Hy; eapply run_writes; eassumption.
  Qed.
  Lemma jump_same n s o s' T t o2 t' T2 : alike s t -> is_jump n -> runT I n s o s' T -> runT I n t o2 t' T2 -> same o s' T o2 t' T2.
  Proof. intros A J R1 R2. destruct J; inversion R1; subst; inversion R2; subst; split; auto. Qed.
  Lemma aligned_sim :
    (forall n s o s' T, runT I n s o s' T -> alignedN n -> forall t o2 t' T2, alike s t -> runT I n t o2 t' T2 -> same o s' T o2 t' T2) /\
    (forall n s o s' T, runsT I n s o s' T -> alignedS n -> forall t o2 t' T2, alike s t -> runsT I n t o2 t' T2 -> same o s' T o2 t' T2) /\
    (forall n s o s' T, runbT I n s o s' T -> alignedB n -> forall t o2 t' T2, alike s t -> runbT I n t o2 t' T2 -> same o s' T o2 t' T2) /\
    (forall n s o s' T, runwT I n s o s' T -> alignedS n -> forall t o2 t' T2, alike s t -> runwT I n t o2 t' T2 -> same o s' T o2 t' T2) /\
    (forall x d u n s o s' T, runlT I x d u n s o s' T -> within (catoms d) -> within (atoms u) -> alignedS n -> forall t o2 t' T2, alike s t -> runlT I x d u n t o2 t' T2 -> same o s' T o2 t' T2).
  Proof.
    assert (CH : forall n s o s' T, runT I n s o s' T -> (alignedN n -> forall t o2 t' T2, alike s t -> runT I n t o2 t' T2 -> same o s' T o2 t' T2) ->
      (if has_bar bar n then alignedN n else is_jump n \/ (quiet n /\ outside (nwrites n))) -> forall t o2 t' T2, alike s t -> runT I n t o2 t' T2 -> same o s' T o2 t' T2).
    { intros n s o s' T R IH H t o2 t' T2 A R2. destruct (has_bar bar n) eqn:B; [exact (IH H t o2 t' T2 A R2)|]. destruct H as [J|[Q O]]; [eapply jump_same; eassumption|eapply quiet_same; eassumption]. }
    apply runT_mind; cbn [alignedN alignedS alignedB].
    - intros b s s' E O t o2 t' T2 A R2. inversion R2 as [? ? ? E2| | | | | | |]; subst. split; [reflexivity|]. split; [|rewrite (passed_block _ _ _ E), (passed_block _ _ _ E2); reflexivity].
      eapply alike_out; [exact A| | |exact O]; intros y Hy; apply (run_writes I (NBlock b)) with (2 := Hy) (o := ONorm); constructor; assumption.
    - intros n s o s' T _ IH H t o2 t' T2 A R2. inversion R2; subst. eapply IH; eassumption.
    - intros n s o s' T _ IH H t o2 t' T2 A R2. inversion R2; subst. eapply IH; eassumption.
    - intros n s o s' T _ IH H t o2 t' T2 A R2. inversion R2; subst. eapply IH; eassumption.
    - intros k x e d u n s v o s' T E _ IH (W1 & W2 & W3 & H) t o2 t' T2 A R2. inversion R2 as [| | | |? ? ? ? ? ? ? w ? ? T3 E2 R3| | |]; subst.
      rewrite (alike_eval _ _ _ A W1) in E. rewrite E in E2. injection E2 as <-. destruct (IH W2 W3 H _ _ _ _ (alike_wr _ _ x v A) R3) as (P1 & P2 & P3).
      split; [exact P1|]. split; [exact P2|]. rewrite !passed_app. f_equal. unfold passed in *. cbn [filter]. destruct (is_pass _); cbn [List.length]; congruence.
    - intros s _ t o2 t' T2 A R2. eapply jump_same; [exact A|constructor|constructor|exact R2].
    - intros s _ t o2 t' T2 A R2. eapply jump_same; [exact A|constructor|constructor|exact R2].
    - intros r s _ t o2 t' T2 A R2. eapply jump_same; [exact A|constructor|constructor|exact R2].
    - intros s _ t o2 t' T2 A R2. inversion R2; subst. split; auto.
    - intros n a r s s1 s2 o s' T1 T2 R1 IH1 E R IH2 (S & H & Hr) t o2 t' T3 A R2. inversion R2 as [|? ? ? ? t1 t2 ? ? U1 U2 Q1 E2 Q2|? ? ? ? ? ? U Q1 N]; subst.
      + destruct (CH _ _ _ _ _ R1 IH1 H _ _ _ _ A Q1) as (_ & P2 & P3). destruct (IH2 Hr _ _ _ _ (alike_asg a S _ _ _ _ P2 E E2) Q2) as (P4 & P5 & P6).
        split; [exact P4|]. split; [exact P5|]. rewrite !passed_app. congruence.
      + destruct (CH _ _ _ _ _ R1 IH1 H _ _ _ _ A Q1) as (P1 & _). destruct N. symmetry. exact P1.
    - intros n a r s o s' T R1 IH1 N (S & H & Hr) t o2 t' T3 A R2. inversion R2 as [|? ? ? ? t1 t2 ? ? U1 U2 Q1 E2 Q2|? ? ? ? ? ? U Q1 N2]; subst.
      + destruct (CH _ _ _ _ _ R1 IH1 H _ _ _ _ A Q1) as (P1 & _). contradiction.
      + eapply CH; eassumption.
    - intros s _ t o2 t' T2 A R2. inversion R2; subst. split; auto.
    - intros d n r s o s' T E R IH (W & H & Hr) t o2 t' T2 A R2. rewrite (alike_cev _ _ _ A W) in E. inversion R2 as [|? ? ? ? ? ? U E2 Q|? ? ? ? ? ? U E2 Q]; subst; [|congruence].
      destruct (IH H _ _ _ _ A Q) as (P1 & P2 & P3). split; [exact P1|]. split; [exact P2|]. rewrite !passed_app. congruence.
    - intros d n r s o s' T E R IH (W & H & Hr) t o2 t' T2 A R2. rewrite (alike_cev _ _ _ A W) in E. inversion R2 as [|? ? ? ? ? ? U E2 Q|? ? ? ? ? ? U E2 Q]; subst; [congruence|].
      destruct (IH Hr _ _ _ _ A Q) as (P1 & P2 & P3). split; [exact P1|]. split; [exact P2|]. rewrite !passed_app. congruence.
    - intros n s o1 s1 o s' T1 T2 R IH O W IHw H t o2 t' T3 A R2. inversion R2 as [? ? p1 t1 ? ? U1 U2 Q1 O2 Q2|? ? ? U Q1|? ? ? ? U Q1]; subst.
      + destruct (IH H _ _ _ _ A Q1) as (P1 & P2 & P3). destruct (IHw H _ _ _ _ P2 Q2) as (P4 & P5 & P6). split; [exact P4|]. split; [exact P5|]. rewrite !passed_app. congruence.
      + destruct (IH H _ _ _ _ A Q1) as (P1 & _). destruct O; congruence.
      + destruct (IH H _ _ _ _ A Q1) as (P1 & _). destruct O; congruence.
    - intros n s s1 T R IH H t o2 t' T3 A R2. inversion R2 as [? ? p1 t1 ? ? U1 U2 Q1 O2 Q2|? ? ? U Q1|? ? ? ? U Q1]; subst.
      + destruct (IH H _ _ _ _ A Q1) as (P1 & _). destruct O2; congruence.
      + destruct (IH H _ _ _ _ A Q1) as (P1 & P2 & P3). split; auto.
      + destruct (IH H _ _ _ _ A Q1) as (P1 & _). congruence.
    - intros n s r s1 T R IH H t o2 t' T3 A R2. inversion R2 as [? ? p1 t1 ? ? U1 U2 Q1 O2 Q2|? ? ? U Q1|? ? ? ? U Q1]; subst.
      + destruct (IH H _ _ _ _ A Q1) as (P1 & _). destruct O2; congruence.
      + destruct (IH H _ _ _ _ A Q1) as (P1 & _). congruence.
      + exact (IH H _ _ _ _ A Q1).
    - intros x d u n s E W1 W2 H t o2 t' T2 A R2. rewrite (alike_cev _ _ _ A W1) in E. inversion R2; subst; try congruence. split; auto.
    - intros x d u n s o1 s1 v o s' T1 T2 E R IH O E2 W IHw W1 W2 H t o2 t' T3 A R2. rewrite (alike_cev _ _ _ A W1) in E.
      inversion R2 as [? ? ? ? ? D|? ? ? ? ? p1 t1 w ? ? U1 U2 D Q1 O2 D2 Q2|? ? ? ? ? ? U D Q1|? ? ? ? ? ? ? U D Q1]; subst; [congruence| | |].
      + destruct (IH H _ _ _ _ A Q1) as (P1 & P2 & P3). rewrite (alike_eval _ _ _ P2 W2) in E2. rewrite E2 in D2. injection D2 as <-.
        destruct (IHw W1 W2 H _ _ _ _ (alike_wr _ _ x v P2) Q2) as (P4 & P5 & P6). split; [exact P4|]. split; [exact P5|].
        rewrite !passed_app, P3. do 3 f_equal. unfold passed in *. cbn [filter]. destruct (is_pass _); cbn [List.length]; congruence.
      + destruct (IH H _ _ _ _ A Q1) as (P1 & _). destruct O; congruence.
      + destruct (IH H _ _ _ _ A Q1) as (P1 & _). destruct O; congruence.
    - intros x d u n s s1 T E R IH W1 W2 H t o2 t' T3 A R2. rewrite (alike_cev _ _ _ A W1) in E.
      inversion R2 as [? ? ? ? ? D|? ? ? ? ? p1 t1 w ? ? U1 U2 D Q1 O2 D2 Q2|? ? ? ? ? ? U D Q1|? ? ? ? ? ? ? U D Q1]; subst; [congruence| | |].
      + destruct (IH H _ _ _ _ A Q1) as (P1 & _). destruct O2; congruence.
      + destruct (IH H _ _ _ _ A Q1) as (P1 & P2 & P3). split; [exact eq_refl|]. split; [exact P2|]. rewrite !passed_app. congruence.
      + destruct (IH H _ _ _ _ A Q1) as (P1 & _). congruence.
    - intros x d u n s r s1 T E R IH W1 W2 H t o2 t' T3 A R2. rewrite (alike_cev _ _ _ A W1) in E.
      inversion R2 as [? ? ? ? ? D|? ? ? ? ? p1 t1 w ? ? U1 U2 D Q1 O2 D2 Q2|? ? ? ? ? ? U D Q1|? ? ? ? ? ? ? U D Q1]; subst; [congruence| | |].
      + destruct (IH H _ _ _ _ A Q1) as (P1 & _). destruct O2; congruence.
      + destruct (IH H _ _ _ _ A Q1) as (P1 & _). congruence.
      + destruct (IH H _ _ _ _ A Q1) as (P1 & P2 & P3). split; [exact P1|]. split; [exact P2|]. rewrite !passed_app. congruence.
  Qed.

  (** What a child without a barrier takes along when it is moved under the test. *)
  Fixpoint liftN (n : node) : Prop :=
    match n with
    | NSeq s | NWhile s | NLoop _ _ _ _ _ s => liftS s
    | NIf b => liftB b
    | _ => True
    end
  with liftS (s : seq) : Prop :=
    match s with
    | SNil => True
    | SCons n a r => (if has_bar bar n then liftN n else uses_i i n = true -> is_jump n \/ (outside (map fst a) /\ ~ In bar (map fst a))) /\ liftS r
    end
  with liftB (b : brs) : Prop := match b with BNil => True | BCons _ s r => liftS s /\ liftB r end.
  Lemma has_bar_guard n n' : guardN n = Some n' -> has_bar bar n' = has_bar bar n.
  Proof.
    intros G. pose proof (proj1 (guard_writes bar i c) n n' G bar) as W. unfold has_bar. destruct (mem bar (nwrites n)) eqn:E.
    - apply mem_in. apply W. apply mem_in. exact E.
    - apply not_true_iff_false. intros K. apply not_true_iff_false in E. apply E. apply mem_in. apply W. apply mem_in. exact K.
  Qed.
  Lemma quiet_wrap n a : quiet n -> quiet (wrap c n a).
  Proof.
    intros Q st o st' R. inversion R as [| |? ? ? ? RB| | | | |]; subst. inversion RB as [|? ? ? ? ? ? E RS|? ? ? ? ? ? E RS]; subst; [|inversion RS; subst; reflexivity].
    inversion RS as [|? ? ? ? ? ? ? ? Q1 E1 Q2|? ? ? ? ? ? Q1 N]; subst; [inversion Q2; subst; reflexivity|]. destruct N. exact (Q _ _ _ Q1).
  Qed.
  Lemma aligned_guard :
    ((forall n, alignedN n -> liftN n -> forall n', guardN n = Some n' -> alignedN n') /\
    (forall s, alignedS s -> liftS s -> forall s', guardS s = Some s' -> alignedS s') /\
    (forall b, alignedB b -> liftB b -> forall b', guardB b = Some b' -> alignedB b'))%type.
  Proof.
    apply ir_ind3; cbn [alignedN alignedS alignedB liftN liftS liftB].
    - intros b H _ n' G. injection G as <-. exact H.
    - intros s IH H L n' G. apply gN_seq in G as (s' & G & ->). exact (IH H L s' G).
    - intros s IH H L n' G. apply gN_if in G as (s' & G & ->). exact (IH H L s' G).
    - intros s IH H L n' G. apply gN_while in G as (s' & G & ->). exact (IH H L s' G).
    - intros k x e d u s IH (H1 & H2 & H3 & H4) L n' G. apply gN_loop in G as (s' & G & ->). cbn [alignedN]. auto.
    - intros _ _ n' G. injection G as <-. exact Logic.I.
    - intros _ _ n' G. injection G as <-. exact Logic.I.
    - intros r _ _ n' G. injection G as <-. exact Logic.I.
    - intros _ _ s' G. injection G as <-. exact Logic.I.
    - intros n IHn a r IHr (S & H & Hr) (L & Lr) s' G. apply guard_cons in G as (r' & Gr & Ch). specialize (IHr Hr Lr r' Gr).
      inversion Ch as [U|n2 U B G|U B J|U B NJ]; subst; cbn [alignedS].
      + auto.
      + rewrite (has_bar_guard _ _ G), B. rewrite B in H, L. auto.
      + auto.
      + rewrite B in H, L. destruct H as [J|[Q O]]; [contradiction|]. destruct (L U) as [J|[O2 NB]]; [contradiction|].
        assert (B2 : has_bar bar (wrap c n a) = false).
        { apply not_true_iff_false. intros K. apply mem_in in K. cbn [wrap nwrites bwrites swrites] in K. rewrite !in_app_iff in K.
          apply not_true_iff_false in B. destruct K as [[K|[K|K]]|K]; [apply B, mem_in, K|contradiction|destruct K|destruct K]. }
        split; [intros y e []|]. split; [|exact IHr]. rewrite B2. right. split; [apply quiet_wrap; exact Q|].
        intros y K. cbn [wrap nwrites bwrites swrites] in K. rewrite !in_app_iff in K. destruct K as [[K|[K|K]]|K]; [exact (O y K)|exact (O2 y K)|destruct K|destruct K].
    - intros _ _ b' G. injection G as <-. exact Logic.I.
    - intros d s IHs r IHr (W & H & Hr) (L & Lr) b' G. apply guard_branch in G as (s' & r' & Gr & -> & K). cbn [alignedB].
      split; [exact W|]. split; [|exact (IHr Hr Lr r' Gr)]. destruct K as [[_ ->]|(_ & _ & Gs)]; [exact H|exact (IHs H L s' Gs)].
  Qed.
End Barriers.
