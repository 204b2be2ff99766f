(** Refinement of programs and rewriting in context.

    A pass traverses the whole program and rewrites at any number of places;
    [rewrites RS RB] is "any number of local rewrites at any positions in any
    order", which covers every traversal order of the visitors
    (visitor/structured_sdfg_visitor.cpp:11-138 and the work lists of the passes). *)
From Verif Require Import Sym SymFacts.
From Verif Require Export IR IRFacts.
From Coq Require Import Relations.

(** [refines D s t]: whenever [s] terminates, [t] started in a store that
    agrees outside [D] terminates the same way, in a store that agrees
    outside [D]. *)
Definition refines (D : string -> Prop) (s t : seq) : Prop :=
  forall I st1 st2 o st1', eqx D st1 st2 -> runs I s st1 o st1' ->
    exists st2', runs I t st2 o st2' /\ eqx D st1' st2'.
Definition nrefines (D : string -> Prop) (s t : node) : Prop :=
  forall I st1 st2 o st1', eqx D st1 st2 -> run I s st1 o st1' ->
    exists st2', run I t st2 o st2' /\ eqx D st1' st2'.
Definition brefines (D : string -> Prop) (s t : brs) : Prop :=
  forall I st1 st2 o st1', eqx D st1 st2 -> runb I s st1 o st1' ->
    exists st2', runb I t st2 o st2' /\ eqx D st1' st2'.

Lemma refines_refl D s : avoids D (sreads s) -> refines D s s.
Proof. intros H I st1 st2 o st1' E R. eapply runs_frame; eauto. Qed.
Lemma refines_trans D s t u : refines D s t -> refines D t u -> refines D s u.
Proof.
  intros H1 H2 I st1 st2 o st1' E R. destruct (H1 I st1 st1 o st1' (eqx_refl _ _) R) as (m & Rm & Em).
  destruct (H2 I st1 st2 o m E Rm) as (q & Rq & Eq). exists q; split; auto. eapply eqx_trans; eauto.
Qed.

(** It suffices to compare from the same store. *)
Lemma refines_same (s t : seq) :
  (forall I st o st', runs I s st o st' -> exists st'', runs I t st o st'' /\ steq st' st'') -> refines none s t.
Proof.
  intros H I st1 st2 o st1' E R. destruct (H I st1 o st1' R) as (m & Rm & Em).
  destruct (runs_frame I t st1 o m none st2 Rm E (avoids_none _)) as (q & Rq & Eq).
  exists q; split; auto. eapply eqx_trans; eauto.
Qed.
Lemma brefines_same (s t : brs) :
  (forall I st o st', runb I s st o st' -> exists st'', runb I t st o st'' /\ steq st' st'') -> brefines none s t.
Proof.
  intros H I st1 st2 o st1' E R. destruct (H I st1 o st1' R) as (m & Rm & Em).
  destruct (runb_frame I t st1 o m none st2 Rm E (avoids_none _)) as (q & Rq & Eq).
  exists q; split; auto. eapply eqx_trans; eauto.
Qed.

Section Ctx.
  Variable D : string -> Prop.
  Variable RS : seq -> seq -> Prop.
  Variable RB : brs -> brs -> Prop.

  (** One local rewrite somewhere; everything outside the rewritten place
      reads nothing in [D]. *)
  Inductive nstep : node -> node -> Prop :=
  | ns_seq s s' : sstep s s' -> nstep (NSeq s) (NSeq s')
  | ns_if b b' : bstep b b' -> nstep (NIf b) (NIf b')
  | ns_while s s' : sstep s s' -> nstep (NWhile s) (NWhile s')
  | ns_loop k i init c u s s' : sstep s s' ->
      avoids D (atoms init) -> avoids D (catoms c) -> avoids D (atoms u) ->
      nstep (NLoop k i init c u s) (NLoop k i init c u s')
  with sstep : seq -> seq -> Prop :=
  | ss_base s s' : RS s s' -> sstep s s'
  | ss_node n n' a r : nstep n n' -> avoids D (asg_reads a) -> avoids D (sreads r) ->
      sstep (SCons n a r) (SCons n' a r)
  | ss_tail n a r r' : sstep r r' -> avoids D (nreads n) -> avoids D (asg_reads a) ->
      sstep (SCons n a r) (SCons n a r')
  with bstep : brs -> brs -> Prop :=
  | bs_base b b' : RB b b' -> bstep b b'
  | bs_seq c s s' r : sstep s s' -> avoids D (catoms c) -> avoids D (breads r) ->
      bstep (BCons c s r) (BCons c s' r)
  | bs_tail c s r r' : bstep r r' -> avoids D (catoms c) -> avoids D (sreads s) ->
      bstep (BCons c s r) (BCons c s r').

  Scheme nstep_ind' := Minimality for nstep Sort Prop
  with sstep_ind' := Minimality for sstep Sort Prop
  with bstep_ind' := Minimality for bstep Sort Prop.
  Combined Scheme step_mind from nstep_ind', sstep_ind', bstep_ind'.

  Lemma while_refines s s' : refines D s s' ->
    forall I st1 o st1', runw I s st1 o st1' -> forall st2, eqx D st1 st2 ->
      exists st2', runw I s' st2 o st2' /\ eqx D st1' st2'.
  Proof.
    intros H I st1 o st1' R. remember s as s0 eqn:Es in R.
    induction R; intros st2 E; subst.
    - destruct (H _ _ _ _ _ E H0) as (m & Rm & Em). destruct (IHR eq_refl _ Em) as (q & ? & ?).
      exists q; split; auto. eapply R_wnext; eauto.
    - destruct (H _ _ _ _ _ E H0) as (m & Rm & Em). exists m; split; auto. apply R_wbreak; auto.
    - destruct (H _ _ _ _ _ E H0) as (m & Rm & Em). exists m; split; auto. apply R_wret; auto.
  Qed.
  Lemma loop_refines i c u s s' : refines D s s' -> avoids D (catoms c) -> avoids D (atoms u) ->
    forall I st1 o st1', runl I i c u s st1 o st1' -> forall st2, eqx D st1 st2 ->
      exists st2', runl I i c u s' st2 o st2' /\ eqx D st1' st2'.
  Proof.
    intros H Hc Hu I st1 o st1' R.
    induction R; intros st2 E.
    - exists st2; split; auto. apply R_lend. rewrite <- (cev_eqx D st st2); auto.
    - destruct (H _ _ _ _ _ E H1) as (m & Rm & Em).
      destruct (IHR H Hc Hu (wr m i [] v)) as (q & ? & ?); auto using eqx_wr.
      exists q; split; auto. eapply R_lnext; eauto; [rewrite <- (cev_eqx D st st2)|rewrite <- (eval_eqx D st1 m)]; auto.
    - destruct (H _ _ _ _ _ E H1) as (m & Rm & Em). exists m; split; auto. apply R_lbreak; auto.
      rewrite <- (cev_eqx D st st2); auto.
    - destruct (H _ _ _ _ _ E H1) as (m & Rm & Em). exists m; split; auto. apply R_lret; auto.
      rewrite <- (cev_eqx D st st2); auto.
  Qed.

  Hypothesis HS : forall s s', RS s s' -> refines D s s'.
  Hypothesis HB : forall b b', RB b b' -> brefines D b b'.

  Ltac adv := repeat match goal with
    | H : refines D ?s _, R : runs ?I ?s ?a _ _, E : eqx D ?a ?b |- _ =>
        destruct (H _ _ _ _ _ E R) as (? & ? & ?); clear R
    | H : nrefines D ?s _, R : run ?I ?s ?a _ _, E : eqx D ?a ?b |- _ =>
        destruct (H _ _ _ _ _ E R) as (? & ? & ?); clear R
    | H : brefines D ?s _, R : runb ?I ?s ?a _ _, E : eqx D ?a ?b |- _ =>
        destruct (H _ _ _ _ _ E R) as (? & ? & ?); clear R
    | H : refines D ?s _, R : runw ?I ?s ?a _ _, E : eqx D ?a ?b |- _ =>
        destruct (while_refines _ _ H _ _ _ _ R _ E) as (? & ? & ?); clear R
    | H : refines D ?s _, R : runl ?I ?i ?c ?u ?s (wr ?a ?i [] ?v) _ _, E : eqx D ?a ?b,
      Hc : avoids D (catoms ?c), Hu : avoids D (atoms ?u) |- _ =>
        destruct (loop_refines _ _ _ _ _ H Hc Hu _ _ _ _ R _ (eqx_wr D a b i [] v E)) as (? & ? & ?); clear R
    | R : exec_assigns ?a ?l = Some _, E : eqx D ?a ?b, H : avoids D (asg_reads ?l) |- _ =>
        destruct (exec_assigns_eqx D l _ _ _ E H R) as (? & ? & ?); clear R
    | R : runs ?I ?s ?a _ _, E : eqx D ?a ?b, H : avoids D (sreads ?s) |- _ =>
        destruct (runs_frame I s _ _ _ D _ R E H) as (? & ? & ?); clear R
    | R : run ?I ?s ?a _ _, E : eqx D ?a ?b, H : avoids D (nreads ?s) |- _ =>
        destruct (run_frame I s _ _ _ D _ R E H) as (? & ? & ?); clear R
    | R : runb ?I ?s ?a _ _, E : eqx D ?a ?b, H : avoids D (breads ?s) |- _ =>
        destruct (runb_frame I s _ _ _ D _ R E H) as (? & ? & ?); clear R
    end.

  Lemma step_refines :
    (forall n n', nstep n n' -> nrefines D n n') /\
    (forall s s', sstep s s' -> refines D s s') /\
    (forall b b', bstep b b' -> brefines D b b').
  Proof.
    apply step_mind; intros; auto; intros I st1 st2 o st1' E R; inversion R; subst; clear R; adv.
    all: try (eexists; split; [|eassumption]; first
      [ solve [constructor; eauto]
      | solve [econstructor; [|eauto]; rewrite <- (eval_eqx D st1 st2); eauto]
      | solve [econstructor; eauto]
      | solve [apply R_exit; auto]
      | solve [apply R_btrue; [rewrite <- (cev_eqx D st1 st2)|]; auto]
      | solve [apply R_bfalse; [rewrite <- (cev_eqx D st1 st2)|]; auto] ]).
  Qed.
End Ctx.

Definition rewrites (RS : seq -> seq -> Prop) (RB : brs -> brs -> Prop) : seq -> seq -> Prop :=
  clos_refl_trans seq (sstep none RS RB).
Definition noB (b b' : brs) : Prop := False.
Definition noS (b b' : seq) : Prop := False.

(** Spec-level conclusion: same outcome and same final contents of every
    container, for every tasklet semantics and every initial store. *)
Definition preserved (p q : seq) : Prop :=
  forall I st o st', runs I p st o st' ->
    exists st'', runs I q st o st'' /\ forall x i, st'' x i = st' x i.

Lemma rewrites_preserved (RS : seq -> seq -> Prop) (RB : brs -> brs -> Prop) p q :
  (forall s s', RS s s' -> refines none s s') -> (forall b b', RB b b' -> brefines none b b') ->
  rewrites RS RB p q -> preserved p q.
Proof.
  intros HS HB H.
  assert (refines none p q) as R.
  { induction H as [s s' H|s|s t u _ IH1 _ IH2].
    - destruct (step_refines none RS RB HS HB) as (_ & G & _). auto.
    - apply refines_refl, avoids_none.
    - eapply refines_trans; eauto. }
  intros I st o st' Hr. destruct (R I st st o st' (eqx_refl _ _) Hr) as (q' & ? & E).
  exists q'; split; auto. intros x i. symmetry. apply E. intros [].
Qed.

(* ---------------------------------------------------------------- *)
(** Congruence (exact store equality up to extensionality). *)
Definition nref := nrefines none.
Definition sref := refines none.
Definition bref := brefines none.

Lemma nref_same n m : (forall I st o st', run I n st o st' -> exists st'', run I m st o st'' /\ steq st' st'') -> nref n m.
Proof.
  intros H I st1 st2 o st1' E R. destruct (H I st1 o st1' R) as (q & Rq & Eq).
  destruct (run_frame I m st1 o q none st2 Rq E (avoids_none _)) as (q' & Rq' & Eq').
  exists q'; split; auto. eapply eqx_trans; eauto.
Qed.
Lemma nref_refl n : nref n n.
Proof. intros I st1 st2 o st1' E R. eapply run_frame; eauto using avoids_none. Qed.
Lemma sref_refl n : sref n n.
Proof. apply refines_refl, avoids_none. Qed.
Lemma bref_refl n : bref n n.
Proof. intros I st1 st2 o st1' E R. eapply runb_frame; eauto using avoids_none. Qed.
Lemma nref_trans a b c : nref a b -> nref b c -> nref a c.
Proof.
  intros H1 H2 I st1 st2 o st1' E R. destruct (H1 I st1 st1 o st1' (eqx_refl _ _) R) as (m & Rm & Em).
  destruct (H2 I st1 st2 o m E Rm) as (q & Rq & Eq). exists q; split; auto. eapply eqx_trans; eauto.
Qed.
Lemma bref_trans a b c : bref a b -> bref b c -> bref a c.
Proof.
  intros H1 H2 I st1 st2 o st1' E R. destruct (H1 I st1 st1 o st1' (eqx_refl _ _) R) as (m & Rm & Em).
  destruct (H2 I st1 st2 o m E Rm) as (q & Rq & Eq). exists q; split; auto. eapply eqx_trans; eauto.
Qed.
Lemma sref_trans a b c : sref a b -> sref b c -> sref a c.
Proof. apply refines_trans. Qed.

Lemma cons_ref n n' a r r' : nref n n' -> sref r r' -> sref (SCons n a r) (SCons n' a r').
Proof.
  intros Hn Hr I st1 st2 o st1' E R. inversion R; subst.
  - match goal with H : run _ n _ _ _ |- _ => destruct (Hn _ _ _ _ _ E H) as (m & Rm & Em) end.
    match goal with H : exec_assigns _ a = _ |- _ => destruct (exec_assigns_eqx none a _ m _ Em (avoids_none _) H) as (m2 & E2 & Em2) end.
    match goal with H : runs _ r _ _ _ |- _ => destruct (Hr _ _ _ _ _ Em2 H) as (q & Rq & Eq) end.
    exists q; split; auto. econstructor; eauto.
  - match goal with H : run _ n _ _ _ |- _ => destruct (Hn _ _ _ _ _ E H) as (m & Rm & Em) end.
    exists m; split; auto. apply R_exit; auto.
Qed.
Lemma seq_ref s s' : sref s s' -> nref (NSeq s) (NSeq s').
Proof.
  intros H I st1 st2 o st1' E R. inversion R; subst.
  match goal with H' : runs _ s _ _ _ |- _ => destruct (H _ _ _ _ _ E H') as (m & Rm & Em) end.
  exists m; split; auto; constructor; auto.
Qed.
Lemma if_ref s s' : bref s s' -> nref (NIf s) (NIf s').
Proof.
  intros H I st1 st2 o st1' E R. inversion R; subst.
  match goal with H' : runb _ s _ _ _ |- _ => destruct (H _ _ _ _ _ E H') as (m & Rm & Em) end.
  exists m; split; auto; constructor; auto.
Qed.
Lemma while_ref s s' : sref s s' -> nref (NWhile s) (NWhile s').
Proof.
  intros H I st1 st2 o st1' E R. inversion R; subst.
  match goal with H' : runw _ s _ _ _ |- _ => destruct (while_refines none _ _ H _ _ _ _ H' _ E) as (m & Rm & Em) end.
  exists m; split; auto; constructor; auto.
Qed.
Lemma loop_ref k i init c u s s' : sref s s' -> nref (NLoop k i init c u s) (NLoop k i init c u s').
Proof.
  intros H I st1 st2 o st1' E R. inversion R; subst.
  match goal with H' : runl _ _ _ _ s (wr _ _ _ ?v) _ _ |- _ =>
    destruct (loop_refines none i c u _ _ H (avoids_none _) (avoids_none _) _ _ _ _ H' _ (eqx_wr _ _ _ i [] v E)) as (m & Rm & Em) end.
  exists m; split; auto. econstructor; eauto. rewrite <- (eval_eqx none st1 st2); auto using avoids_none.
Qed.
Lemma brs_ref c s s' r r' : sref s s' -> bref r r' -> bref (BCons c s r) (BCons c s' r').
Proof.
  intros Hs Hr I st1 st2 o st1' E R. inversion R; subst.
  - match goal with H' : runs _ s _ _ _ |- _ => destruct (Hs _ _ _ _ _ E H') as (m & Rm & Em) end.
    exists m; split; auto. apply R_btrue; auto. rewrite <- (cev_eqx none st1 st2); auto using avoids_none.
  - match goal with H' : runb _ r _ _ _ |- _ => destruct (Hr _ _ _ _ _ E H') as (m & Rm & Em) end.
    exists m; split; auto. apply R_bfalse; auto. rewrite <- (cev_eqx none st1 st2); auto using avoids_none.
Qed.
Lemma sapp_ref s s' t t' : sref s s' -> sref t t' -> sref (sapp s t) (sapp s' t').
Proof.
  intros Hs Ht I st1 st2 o st1' E R. apply runs_app in R as [(m & R1 & R2)|[R1 Ne]].
  - destruct (Hs _ _ _ _ _ E R1) as (q & Rq & Eq). destruct (Ht _ _ _ _ _ Eq R2) as (q2 & Rq2 & Eq2).
    exists q2; split; auto. apply runs_app; eauto.
  - destruct (Hs _ _ _ _ _ E R1) as (q & Rq & Eq). exists q; split; auto. apply runs_app; auto.
Qed.
(** a nested sequence without transition assignments can be spliced, both ways *)
Lemma splice_ref t r : sref (SCons (NSeq t) [] r) (sapp t r).
Proof.
  apply refines_same. intros I st o st' R. exists st'; split; [|apply eqx_refl]. apply runs_app. inversion R; subst.
  - left. match goal with H : run _ (NSeq t) _ _ _ |- _ => inversion H; subst end. simpl in *.
    match goal with H : Some ?a = Some ?b |- _ => assert (a = b) by congruence; subst end. eexists; split; eassumption.
  - right. match goal with H : run _ (NSeq t) _ _ _ |- _ => inversion H; subst end. auto.
Qed.
Lemma unsplice_ref t r : sref (sapp t r) (SCons (NSeq t) [] r).
Proof.
  apply refines_same. intros I st o st' R. exists st'; split; [|apply eqx_refl]. apply runs_app in R as [(m & R1 & R2)|[R1 Ne]].
  - eapply R_cons; [constructor; exact R1|reflexivity|exact R2].
  - apply R_exit; auto. constructor; auto.
Qed.
Lemma sref_preserved p q : sref p q -> preserved p q.
Proof.
  intros R I st o st' Hr. destruct (R I st st o st' (eqx_refl _ _) Hr) as (q' & ? & E).
  exists q'; split; auto. intros x i. symmetry. apply E. intros [].
Qed.
