(** CommonAssignmentElimination and whole-program ConditionElimination. *)
From Verif Require Import Sym SymFacts SymFuns SymProofs1 SymProofs4 IR IRFacts IRRefine PassCFG PassCFGProofs PassInline.

Fixpoint bconds (b : brs) : list cond := match b with BNil => [] | BCons c _ r => c :: bconds r end.
(** the last transitions of all branches *)
Fixpoint last_asgs (b : brs) : list assigns :=
  match b with BNil => [] | BCons _ s r => match last_asg s with Some a => [a] | None => [] end ++ last_asgs r end.

(** When the insertion is harmless: the branches are exhaustive (the code's own
    IfElse::is_complete), and the inserted assignment [x := e] is stable: its
    right-hand side reads nothing assigned by the same transitions. *)
Definition cae_ok (b : brs) (a : assigns) : Prop :=
  common_asgs b a <> [] ->
  is_complete (bconds b) = Some true /\
  (forall l, In l (last_asgs b) -> NoDup (map fst l)) /\
  (forall x e, In (x, e) (common_asgs b a) ->
     forall y, In y (atoms e) -> ~ In y (map fst a) /\ forall l, In l (last_asgs b) -> ~ In y (map fst l)).
Fixpoint cae_all_s (s : seq) : Prop :=
  match s with SNil => True | SCons n a r => match n with NIf b => cae_ok b a | _ => True end /\ cae_all_n n /\ cae_all_s r end
with cae_all_n (n : node) : Prop :=
  match n with NSeq s | NWhile s | NLoop _ _ _ _ _ s => cae_all_s s | NIf b => cae_all_b b | _ => True end
with cae_all_b (b : brs) : Prop :=
  match b with BNil => True | BCons c s r => cae_all_s s /\ cae_all_b r end.

Lemma last_exec I s : forall st st' l, runs I s st ONorm st' -> last_asg s = Some l -> exists st0, exec_assigns st0 l = Some st'.
Proof.
  induction s as [|n a r IH]; intros st st' l R L; [discriminate|]. cbn [last_asg] in L.
  inversion R; subst; [|congruence]. destruct r.
  - injection L as ->. match goal with H : runs _ SNil _ _ _ |- _ => inversion H; subst end. eauto.
  - eapply IH; eauto.
Qed.
Lemma asg_other l : forall st st' x, exec_assigns st l = Some st' -> ~ In x (map fst l) -> st' x [] = st x [].
Proof. intros. eapply exec_assigns_writes; eauto. Qed.
Lemma eval_same st st' e : (forall y, In y (atoms e) -> st' y [] = st y []) -> eval (env_of st') e = eval (env_of st) e.
Proof. intros H. unfold eval. rewrite (ev_agree _ (env_of st)); auto. Qed.

Lemma asg_end l : forall st st' x e, exec_assigns st l = Some st' -> lookup_asg x l = Some e -> NoDup (map fst l) ->
  (forall y, In y (atoms e) -> ~ In y (map fst l)) -> eval (env_of st') e = Some (st' x []).
Proof.
  induction l as [|[z f] l IH]; intros st st' x e R L ND St; [discriminate|]. cbn [exec_assigns lookup_asg map fst] in *.
  inversion ND; subst. destruct (eval (env_of st) f) as [v|] eqn:Ev; [|discriminate].
  destruct (String.eqb_spec x z).
  - subst z. injection L as ->. rewrite (asg_other _ _ _ x R) by auto. rewrite wr_same. rewrite <- Ev. apply eval_same.
    intros y Hy. specialize (St y Hy). simpl in St. rewrite (asg_other _ _ _ y R) by tauto. apply wr_other. left. tauto.
  - eapply IH; eauto. intros y Hy. specialize (St y Hy). simpl in St. tauto.
Qed.

Lemma noop_assigns c : forall st, (forall x e, In (x, e) c -> eval (env_of st) e = Some (st x [])) ->
  exists st', exec_assigns st c = Some st' /\ steq st st'.
Proof.
  induction c as [|[x e] c IH]; intros st H; cbn [exec_assigns].
  - eexists; split; eauto using eqx_refl.
  - rewrite (H x e (or_introl eq_refl)). set (st1 := wr st x [] (st x [])).
    assert (steq st1 st) as E by apply wr_id.
    destruct (IH st1) as (st' & R & Q).
    { intros y f Hf. rewrite (eval_eqx none st1 st f E (avoids_none _)). rewrite (H y f) by (right; auto). f_equal. symmetry. apply E. intros []. }
    exists st'; split; auto. eapply eqx_trans; [apply eqx_sym, E|exact Q].
Qed.
Lemma exec_assigns_app a b st : exec_assigns st (a ++ b) = match exec_assigns st a with Some st' => exec_assigns st' b | None => None end.
Proof. revert st. induction a as [|[x e] a IH]; intros st; cbn [app exec_assigns]; auto. destruct (eval (env_of st) e); auto. Qed.

Lemma lookup_in l x e : In (x, e) l -> NoDup (map fst l) -> lookup_asg x l = Some e.
Proof.
  induction l as [|[y f] l IH]; intros H ND; [destruct H|]. cbn [lookup_asg]; inversion ND; subst. destruct H as [H|H].
  - injection H as -> ->. rewrite String.eqb_refl. auto.
  - destruct (String.eqb_spec x y); auto. subst. exfalso. apply H2. change y with (fst (y, e)). apply in_map; auto.
Qed.
Lemma runb_taken I b : forall st o st', runb I b st o st' -> (exists c, In c (bconds b) /\ cev (env_of st) c = Some true) \/
   (forall c, In c (bconds b) -> cev (env_of st) c = Some false).
Proof.
  induction b as [|c s r IH]; intros st o st' R; cbn [bconds]; [right; intros ? []|].
  inversion R; subst; [left; exists c; split; auto; left; auto|].
  match goal with H : runb _ r _ _ _ |- _ => destruct (IH _ _ _ H) as [(d & ? & ?)|Q] end.
  - left. exists d; split; auto. right; auto.
  - right. intros d [<-|]; auto.
Qed.
(** the last transition of the branch taken, or no branch was taken *)
Lemma runb_branch I b : forall st st', runb I b st ONorm st' ->
  (forall c, In c (bconds b) -> cev (env_of st) c = Some false) \/
  (exists s st1, runs I s st1 ONorm st' /\ forall x e, ends_with x e b = true ->
      exists l, last_asg s = Some l /\ lookup_asg x l = Some e /\ In l (last_asgs b)).
Proof.
  induction b as [|c s r IH]; intros st st' R; [left; intros ? []|]. inversion R; subst.
  - right. exists s, st. split; auto. intros x e H. cbn [ends_with last_asgs] in *. apply andb_prop in H as [H _].
    destruct (last_asg s) as [l|]; [|discriminate]. exists l. split; auto. destruct (lookup_asg x l) as [e'|]; [|discriminate].
    apply expr_eqb_eq in H. subst. split; auto. left; auto.
  - match goal with H : runb _ r _ _ _ |- _ => destruct (IH _ _ H) as [Q|(s' & st1 & R' & Q)] end.
    + left. intros d [<-|]; auto.
    + right. exists s', st1. split; auto. intros x e H. cbn [ends_with] in H. apply andb_prop in H as [_ H].
      destruct (Q x e H) as (l & ? & ? & ?). exists l. repeat split; auto. cbn [last_asgs]. apply in_app_iff; auto.
Qed.

Lemma common_ends b a x e : In (x, e) (common_asgs b a) -> (forall l, In l (last_asgs b) -> NoDup (map fst l)) ->
  ends_with x e b = true /\ lookup_asg x a = None.
Proof.
  unfold common_asgs. destruct b as [|c s [|c2 s2 r]]; simpl; try tauto. intros H ND.
  destruct (last_asg s) as [l|] eqn:L; [|destruct H]. apply filter_In in H as [H1 H2]. cbn [fst snd] in *.
  destruct (lookup_asg x a); [discriminate|]. split; auto. rewrite (lookup_in l x e H1) by (apply ND; left; auto).
  rewrite expr_eqb_refl. auto.
Qed.
Lemma lookup_none x a : lookup_asg x a = None -> ~ In x (map fst a).
Proof.
  induction a as [|[y f] a IH]; simpl; auto. destruct (String.eqb_spec x y); [discriminate|]. intros H [E|E]; [congruence|]. apply IH; auto.
Qed.

Lemma cae_step b a r : cae_ok b a -> sref (SCons (NIf b) a r) (SCons (NIf b) (a ++ common_asgs b a) r).
Proof.
  intros Ok. destruct (common_asgs b a) as [|xe rest] eqn:EC; [rewrite app_nil_r; apply sref_refl|].
  destruct Ok as (Cm & ND & St); [rewrite EC; discriminate|].
  apply refines_same. intros I st o st' R. inversion R; subst.
  - match goal with H : run _ (NIf b) _ _ _ |- _ => inversion H; subst end.
    match goal with H : runb _ b _ _ _ |- _ => rename H into RB end.
    match goal with H : exec_assigns st1 a = Some st2 |- _ => rename H into RA end.
    destruct (runb_branch _ _ _ _ RB) as [Q|(s & st0 & Rs & Q)].
    + exfalso. destruct (is_complete_sound _ (env_of st) Cm) as (c & Hc & Tc); [intros c Hc; rewrite Q; [discriminate|auto]|].
      rewrite Q in Tc; auto. discriminate.
    + assert (forall x e, In (x, e) (common_asgs b a) -> eval (env_of st2) e = Some (st2 x [])) as F.
      { intros x e Hx. destruct (common_ends b a x e Hx ND) as [He Hl]. destruct (Q x e He) as (l & L1 & L2 & L3).
        destruct (last_exec _ _ _ _ _ Rs L1) as (q & Eq).
        rewrite (asg_other _ _ _ x RA (lookup_none _ _ Hl)).
        rewrite <- (asg_end l q st1 x e Eq L2 (ND _ L3) (fun y Hy => proj2 (St x e Hx y Hy) l L3)).
        apply eval_same. intros y Hy. eapply asg_other; [exact RA|]. exact (proj1 (St x e Hx y Hy)). }
      destruct (noop_assigns _ _ F) as (st3 & R3 & E3). rewrite EC in R3.
      match goal with H : runs _ r st2 _ _ |- _ => destruct (runs_frame _ _ _ _ _ none st3 H E3 (avoids_none _)) as (q & Rq & Eq) end.
      exists q; split; auto. eapply R_cons; [constructor; exact RB| |exact Rq]. rewrite exec_assigns_app, RA. exact R3.
  - exists st'; split; [|apply eqx_refl]. apply R_exit; auto.
Qed.

Lemma cae_sound :
  (forall n, cae_all_n n -> nref n (cae_node n)) /\ (forall s, cae_all_s s -> sref s (cae_seq s)) /\ (forall b, cae_all_b b -> bref b (cae_brs b)).
Proof.
  apply ir_mind; cbn [cae_all_n cae_all_s cae_all_b cae_node cae_seq cae_brs]; intros; auto using nref_refl, sref_refl, bref_refl, seq_ref, if_ref, while_ref, loop_ref.
  - destruct H1 as (K & Hn & Hr). specialize (H Hn). specialize (H0 Hr). destruct n; try (apply cons_ref; auto; fail).
    eapply sref_trans; [apply cae_step; auto|]. apply cons_ref; auto.
  - destruct H1; apply brs_ref; auto.
Qed.

(* ---------------------------------------------------------------- *)
(** ConditionElimination over a whole program.  Side condition at each
    eliminated if: the loop has no assignments after it inside the branch, and
    its init cannot be undefined. *)
Definition ce_site (D : string -> Prop) (outside : list string) (n : node) (a : assigns) : Prop :=
  cond_elim outside n a <> None ->
  match n with
  | NIf (BCons _ (SCons (NLoop _ i init _ _ _) T SNil) BNil) => D i /\ T = [] /\ total_expr init = true
  | _ => False
  end.
Fixpoint ce_ok_s (D : string -> Prop) (outside : list string) (s : seq) : Prop :=
  match s with SNil => True | SCons n a r => ce_site D outside n a /\ ce_ok_n D outside n /\ ce_ok_s D outside r end
with ce_ok_n (D : string -> Prop) (outside : list string) (n : node) : Prop :=
  match n with
  | NSeq s | NWhile s => ce_ok_s D outside s
  | NLoop _ i _ _ _ s => ce_ok_s (minus D i) outside s
  | NIf b => ce_ok_b D outside b
  | _ => True
  end
with ce_ok_b (D : string -> Prop) (outside : list string) (b : brs) : Prop :=
  match b with BNil => True | BCons c s r => ce_ok_s D outside s /\ ce_ok_b D outside r end.

(** variables of [D] are read only inside the loop that sets them *)
Notation scoped D s := (sok false false D s).
Notation nok0 := (nok false false).

Lemma ce_step D outside n a x : cond_elim outside n a = Some x -> ce_site D outside n a -> nok0 D n ->
  exists c s1, n = NIf (BCons c s1 BNil) /\ nrefD D n (NSeq s1).
Proof.
  intros H S Ok. assert (cond_elim outside n a <> None) as Nn by congruence. specialize (S Nn). clear Nn. unfold cond_elim in H.
  destruct n as [| |bs| | | | |]; try discriminate.
  destruct bs as [|c s bs]; try discriminate. destruct s as [|n T r]; try discriminate.
  destruct n as [| | | |k i init lc u body| | |]; try discriminate.
  destruct r; try discriminate. destruct bs; try discriminate.
  destruct (existsb (String.eqb i) outside) eqn:Ex; try discriminate.
  destruct (cond_eqb (csubs lc i init) c) eqn:Ec; try discriminate.
  apply cond_eqb_eq in Ec. injection H as <-. destruct S as (Di & -> & Ti). do 2 eexists; split; [reflexivity|].
  intros I st1 st2 o st1' E R. destruct (proj1 (ok_frame false false I) _ _ _ _ R _ st2 Ok E) as (q & Rq & Eq).
  inversion Rq; subst. match goal with H : runb _ _ _ _ _ |- _ => inversion H; subst end.
  - exists q; split; auto. constructor; auto.
  - match goal with H : runb _ BNil _ _ _ |- _ => inversion H; subst end.
    destruct (total_ev (env_of q) init Ti) as [v Ev]. exists (wr q i [] v). split.
    + constructor. eapply R_cons; [eapply R_loop; [apply eval_ev; exact Ev|apply R_lend]|reflexivity|constructor].
      rewrite cev_wr. rewrite <- (cev_subs _ _ _ _ _ Ev). auto.
    + intros y j. unfold wr. destruct (String.eqb_spec i y) as [<-|]; simpl; [destruct j; auto|apply Eq].
Qed.
Lemma nrefD_trans D s t u : nrefD D s t -> nrefD D t u -> nrefD D s u.
Proof.
  intros H1 H2 I a b o a' E R. destruct (H1 I a a o a' (eqs_refl _ _) R) as (m & Rm & Em).
  destruct (H2 I a b o m E Rm) as (q & Rq & Eq). exists q; split; auto. eapply eqs_trans; eauto.
Qed.

(** Every branch of [b] is refined by its rewriting. *)
Fixpoint ce_each (D : string -> Prop) (outside : list string) (b : brs) : Prop :=
  match b with BNil => True | BCons _ s r => srefD D s (ce_seq outside s) /\ ce_each D outside r end.
Lemma ce_sound_strong outside :
  (forall n D, nok0 D n -> ce_ok_n D outside n ->
     nrefD D n (ce_node outside n) /\ (forall b, n = NIf b -> ce_each D outside b)) /\
  (forall s D, scoped D s -> ce_ok_s D outside s -> srefD D s (ce_seq outside s)) /\
  (forall b D, bok false false D b -> ce_ok_b D outside b -> brefD D b (ce_brs outside b) /\ ce_each D outside b).
Proof.
  apply ir_mind; cbn [nok sok bok ce_ok_n ce_ok_s ce_ok_b ce_node ce_brs ce_each]; intros;
    try (split; [|intros ? Q; discriminate Q]); auto using seqD, ifD, whileD;
    try (apply nref_nrefD with (p := false) (im := false); auto using nref_refl; fail).
  - destruct (H D) as [H2 H3]; auto. split; [apply ifD; auto|]. intros ? Q; injection Q as <-; auto.
  - destruct H0 as (A1 & A2 & A3 & A4 & _). apply loopD; auto.
  - apply sref_srefD with (p := false) (im := false); simpl; auto using sref_refl.
  - destruct H1 as (N & A & S). destruct H2 as (T & CN & CS). destruct (H D N CN) as [Hn Hb].
    assert (srefD D (SCons n a r) (SCons (ce_node outside n) a (ce_seq outside r))) as Keep by (apply consD; auto).
    cbn [ce_seq]. destruct n; auto. destruct bs as [|c s1 [|]]; auto.
    destruct (cond_elim outside (NIf (BCons c s1 BNil)) a) as [x|] eqn:EC; auto.
    destruct (ce_step D outside _ a x EC T N) as (c' & s' & Q & R). injection Q as <- <-.
    apply consD; auto. eapply nrefD_trans; [exact R|]. apply seqD.
    exact (proj1 (Hb _ eq_refl)).
  - split; auto. apply bref_brefD with (p := false) (im := false); simpl; auto using bref_refl.
  - destruct H1 as (A & B & C), H2. destruct (H0 D); auto. split; [apply brsD; auto|]. split; auto.
Qed.
Lemma ce_sound outside s D : scoped D s -> ce_ok_s D outside s -> srefD D s (ce_seq outside s).
Proof. apply (proj1 (proj2 (ce_sound_strong outside))). Qed.
