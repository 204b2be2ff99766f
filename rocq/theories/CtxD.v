(** Rewriting one node somewhere in a program, where the variables in [D] may
    end up with different values because nothing outside reads them. *)
From Verif Require Import Sym SymFacts IR IRFacts IRRefine PassCFG PassInline PassCFGProofs2.

Section At.
  (** [RN D n n']: node [n] is replaced by [n'] *)
  Variable RN : (string -> Prop) -> node -> node -> Prop.

  Inductive nat_n : (string -> Prop) -> node -> node -> Prop :=
  | an_here D n n' : RN D n n' -> nat_n D n n'
  | an_seq D s s' : nat_s D s s' -> nat_n D (NSeq s) (NSeq s')
  | an_while D s s' : nat_s D s s' -> nat_n D (NWhile s) (NWhile s')
  | an_if D b b' : nat_b D b b' -> nat_n D (NIf b) (NIf b')
  | an_loop D k i init c u s s' : nat_s (minus D i) s s' -> nat_n D (NLoop k i init c u s) (NLoop k i init c u s')
  with nat_s : (string -> Prop) -> seq -> seq -> Prop :=
  | as_node D n n' a r : nat_n D n n' -> nat_s D (SCons n a r) (SCons n' a r)
  | as_tail D n a r r' : nat_s D r r' -> nat_s D (SCons n a r) (SCons n a r')
  with nat_b : (string -> Prop) -> brs -> brs -> Prop :=
  | ab_seq D c s s' r : nat_s D s s' -> nat_b D (BCons c s r) (BCons c s' r)
  | ab_tail D c s r r' : nat_b D r r' -> nat_b D (BCons c s r) (BCons c s r').

  Scheme nat_n_ind' := Minimality for nat_n Sort Prop
  with nat_s_ind' := Minimality for nat_s Sort Prop
  with nat_b_ind' := Minimality for nat_b Sort Prop.
  Combined Scheme nat_mind from nat_n_ind', nat_s_ind', nat_b_ind'.

  Hypothesis HR : forall D n n', RN D n n' -> nok0 D n -> nrefD D n n'.

  Lemma nrefD_self D n : nok0 D n -> nrefD D n n.
  Proof. intros. eapply nref_nrefD with (p := false) (im := false); auto using nref_refl. Qed.
  Lemma srefD_self D n : scoped D n -> srefD D n n.
  Proof. intros. eapply sref_srefD with (p := false) (im := false); auto using sref_refl. Qed.
  Lemma brefD_self D n : bok false false D n -> brefD D n n.
  Proof. intros. eapply bref_brefD with (p := false) (im := false); auto using bref_refl. Qed.

  Lemma nat_refines :
    (forall D n n', nat_n D n n' -> nok0 D n -> nrefD D n n') /\
    (forall D s s', nat_s D s s' -> scoped D s -> srefD D s s') /\
    (forall D b b', nat_b D b b' -> bok false false D b -> brefD D b b').
  Proof.
    apply nat_mind; cbn [nok sok bok]; intros; auto using seqD, whileD, ifD.
    - destruct H1 as (A1 & A2 & A3 & A4 & _). apply loopD; auto.
    - destruct H1 as (A1 & A2 & A3). apply consD; auto using srefD_self.
    - destruct H1 as (A1 & A2 & A3). apply consD; auto using nrefD_self.
    - destruct H1 as (A1 & A2 & A3). apply brsD; auto using brefD_self.
    - destruct H1 as (A1 & A2 & A3). apply brsD; auto using srefD_self.
  Qed.
End At.
