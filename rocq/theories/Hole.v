(** Replacing one block by another inside a program whose other parts do not read the containers [D]
    on which the two blocks may disagree. *)
From Coq Require Import List String ZArith Bool Lia.
From Verif Require Import Sym SymFacts IR IRFacts.
Import ListNotations.

(** [n'] is [n] with occurrences of the block [b] replaced by [b']; everything else is the same and reads
    no container of [D]. *)
Section Rel.
  Variables (D : string -> Prop) (b b' : list op).
  Inductive swN : node -> node -> Prop :=
  | sw_block : swN (NBlock b) (NBlock b')
  | sw_same n : avoids D (nreads n) -> swN n n
  | sw_seq s s' : swS s s' -> swN (NSeq s) (NSeq s')
  | sw_if x x' : swB x x' -> swN (NIf x) (NIf x')
  | sw_while s s' : swS s s' -> swN (NWhile s) (NWhile s')
  | sw_loop k i init c u s s' : avoids D (atoms init) -> avoids D (catoms c) -> avoids D (atoms u) -> swS s s' -> swN (NLoop k i init c u s) (NLoop k i init c u s')
  with swS : seq -> seq -> Prop :=
  | sw_nil : swS SNil SNil
  | sw_cons n n' a r r' : swN n n' -> avoids D (asg_reads a) -> swS r r' -> swS (SCons n a r) (SCons n' a r')
  with swB : brs -> brs -> Prop :=
  | sw_bnil : swB BNil BNil
  | sw_bcons c s s' r r' : avoids D (catoms c) -> swS s s' -> swB r r' -> swB (BCons c s r) (BCons c s' r').
  Lemma same_S s : avoids D (sreads s) -> swS s s.
  Proof.
    induction s as [|n a r IH]; cbn [sreads]; intros H; [constructor|]. apply avoids_app in H as [H1 H2]. apply avoids_app in H2 as [H2 H3].
    constructor; auto. constructor. exact H1.
  Qed.
  Lemma same_B s : avoids D (breads s) -> swB s s.
  Proof.
    induction s as [|c s0 r IH]; cbn [breads]; intros H; [constructor|]. apply avoids_app in H as [H1 H2]. apply avoids_app in H2 as [H2 H3].
    constructor; auto using same_S.
  Qed.
End Rel.
Scheme swN_ind' := Minimality for swN Sort Prop with swS_ind' := Minimality for swS Sort Prop with swB_ind' := Minimality for swB Sort Prop.
Combined Scheme sw_mind from swN_ind', swS_ind', swB_ind'.

Lemma sw_sym D b b' : (forall n n', swN D b b' n n' -> swN D b' b n' n) /\ (forall s s', swS D b b' s s' -> swS D b' b s' s) /\ (forall s s', swB D b b' s s' -> swB D b' b s' s).
Proof. apply sw_mind; intros; constructor; assumption. Qed.

Section Sim.
  Variables (D : string -> Prop) (b b' : list op) (I : nat -> list Z -> option Z).
  Hypothesis B : forall (s s' s1 : store), eqx D s s' -> exec_block I s b = Some s1 -> exists s1', exec_block I s' b' = Some s1' /\ eqx D s1 s1'.
  Lemma hole_sim :
    (forall n st o s1, run I n st o s1 -> forall n' st', swN D b b' n n' -> eqx D st st' -> exists s1', run I n' st' o s1' /\ eqx D s1 s1') /\
    (forall n st o s1, runs I n st o s1 -> forall n' st', swS D b b' n n' -> eqx D st st' -> exists s1', runs I n' st' o s1' /\ eqx D s1 s1') /\
    (forall n st o s1, runb I n st o s1 -> forall n' st', swB D b b' n n' -> eqx D st st' -> exists s1', runb I n' st' o s1' /\ eqx D s1 s1') /\
    (forall n st o s1, runw I n st o s1 -> forall n' st', swS D b b' n n' -> eqx D st st' -> exists s1', runw I n' st' o s1' /\ eqx D s1 s1') /\
    (forall i c u n st o s1, runl I i c u n st o s1 -> avoids D (catoms c) -> avoids D (atoms u) -> forall n' st', swS D b b' n n' -> eqx D st st' -> exists s1', runl I i c u n' st' o s1' /\ eqx D s1 s1').
  Proof.
    assert (SAME : forall n st o s1 st', run I n st o s1 -> avoids D (nreads n) -> eqx D st st' -> exists s1', run I n st' o s1' /\ eqx D s1 s1').
    { intros n st o s1 st' R A E. eapply run_frame; eauto. }
    apply run_mind.
    - intros bl st s1 E n' st' H Q. inversion H; subst.
      + destruct (B st st' s1 Q E) as (s1' & E' & Q'). exists s1'. split; [constructor; exact E'|exact Q'].
      + eapply SAME; eauto. constructor. exact E.
    - intros s st o s1 R IH n' st' H Q. inversion H; subst; [eapply SAME; eauto; constructor; exact R|].
      destruct (IH s' st') as (s1' & R' & Q'); auto. exists s1'. split; [constructor; exact R'|exact Q'].
    - intros s st o s1 R IH n' st' H Q. inversion H; subst; [eapply SAME; eauto; constructor; exact R|].
      destruct (IH x' st') as (s1' & R' & Q'); auto. exists s1'. split; [constructor; exact R'|exact Q'].
    - intros s st o s1 R IH n' st' H Q. inversion H; subst; [eapply SAME; eauto; constructor; exact R|].
      destruct (IH s' st') as (s1' & R' & Q'); auto. exists s1'. split; [constructor; exact R'|exact Q'].
    - intros k i init c u s st v o s1 E R IH n' st' H Q. inversion H; subst; [eapply SAME; eauto; econstructor; eauto|].
      destruct (IH ltac:(assumption) ltac:(assumption) s' (wr st' i [] v)) as (s1' & R' & Q'); auto; [apply eqx_wr; exact Q|]. exists s1'. split; [|exact Q'].
      econstructor; [|exact R']. rewrite <- E. symmetry. eapply eval_eqx; eauto.
    - intros st n' st' H Q. inversion H; subst. exists st'. split; [constructor|exact Q].
    - intros st n' st' H Q. inversion H; subst. exists st'. split; [constructor|exact Q].
    - intros r st n' st' H Q. inversion H; subst. exists st'. split; [constructor|exact Q].
    - intros st n' st' H Q. inversion H; subst. exists st'. split; [constructor|exact Q].
    - intros n a r st s1 s2 o s3 R IHn E R2 IHr n' st' H Q. inversion H as [|? m ? ? r' N A S']; subst.
      destruct (IHn m st' N Q) as (s1' & R' & Q1). destruct (exec_assigns_eqx D a s1 s1' s2 Q1 A E) as (s2' & E' & Q2).
      destruct (IHr r' s2' S' Q2) as (s3' & R3 & Q3). exists s3'. split; [econstructor; eauto|exact Q3].
    - intros n a r st o s1 R IHn NE n' st' H Q. inversion H as [|? m ? ? r' N A S']; subst.
      destruct (IHn m st' N Q) as (s1' & R' & Q1). exists s1'. split; [apply R_exit; auto|exact Q1].
    - intros st n' st' H Q. inversion H; subst. exists st'. split; [constructor|exact Q].
    - intros c s r st o s1 E R IH n' st' H Q. inversion H; subst. destruct (IH s' st') as (s1' & R' & Q'); auto. exists s1'. split; [|exact Q'].
      apply R_btrue; auto. rewrite <- E. symmetry. eapply cev_eqx; eauto.
    - intros c s r st o s1 E R IH n' st' H Q. inversion H; subst. destruct (IH r' st') as (s1' & R' & Q'); auto. exists s1'. split; [|exact Q'].
      apply R_bfalse; auto. rewrite <- E. symmetry. eapply cev_eqx; eauto.
    - intros s st o1 s1 o s2 R IH O W IHw n' st' H Q. destruct (IH n' st' H Q) as (s1' & R' & Q1). destruct (IHw n' s1' H Q1) as (s2' & W' & Q2).
      exists s2'. split; [eapply R_wnext; eauto|exact Q2].
    - intros s st s1 R IH n' st' H Q. destruct (IH n' st' H Q) as (s1' & R' & Q1). exists s1'. split; [apply R_wbreak; exact R'|exact Q1].
    - intros s st r s1 R IH n' st' H Q. destruct (IH n' st' H Q) as (s1' & R' & Q1). exists s1'. split; [apply R_wret; exact R'|exact Q1].
    - intros i c u s st E A1 A2 n' st' H Q. exists st'. split; [apply R_lend; rewrite <- E; symmetry; eapply cev_eqx; eauto|exact Q].
    - intros i c u s st o1 s1 v o s2 E R IH O EV L IHl A1 A2 n' st' H Q. destruct (IH n' st' H Q) as (s1' & R' & Q1).
      destruct (IHl A1 A2 n' (wr s1' i [] v) H) as (s2' & L' & Q2); [apply eqx_wr; exact Q1|]. exists s2'. split; [|exact Q2].
      eapply R_lnext; [|exact R'|exact O| |exact L'].
      + rewrite <- E. symmetry. eapply cev_eqx; eauto.
      + rewrite <- EV. symmetry. eapply eval_eqx; eauto.
    - intros i c u s st s1 E R IH A1 A2 n' st' H Q. destruct (IH n' st' H Q) as (s1' & R' & Q1). exists s1'. split; [|exact Q1].
      apply R_lbreak; [|exact R']. rewrite <- E. symmetry. eapply cev_eqx; eauto.
    - intros i c u s st r s1 E R IH A1 A2 n' st' H Q. destruct (IH n' st' H Q) as (s1' & R' & Q1). exists s1'. split; [|exact Q1].
      apply R_lret; [|exact R']. rewrite <- E. symmetry. eapply cev_eqx; eauto.
  Qed.
End Sim.
