(** Symbol evolution: model of sdfg/src/passes/symbolic/symbol_evolution.cpp. *)
From Verif Require Import Sym SymFacts SymFuns SymProofs1 SymProofs4 Lin IR IRFacts IRRefine PassCFG PassInline LoopTile LoopIter While2For TypesProofs.

Definition memb (x : string) (l : list string) : bool := existsb (String.eqb x) l.
Lemma memb_in x l : memb x l = true <-> In x l.
Proof. unfold memb. rewrite existsb_exists. split; [intros (y & H & E); apply String.eqb_eq in E; subst; auto|intros H; exists x; split; auto using String.eqb_refl]. Qed.

(** scalar_evolution, symbol_evolution.cpp:30-109.  [e]: the update of the
    symbol, [e0]: its initial value, [moving]: the symbols written in the body.
    symbolic::eq after a subtraction is taken up to linear normal form. *)
Definition evolution (i : string) (u init : expr) (sym : string) (e e0 : expr) (moving : list string) : option expr :=
  if existsb (fun x => negb (String.eqb x sym) && memb x moving) (atoms e) then None
  else if negb (uses e sym) && expr_eqb e e0 then Some e
  else if expr_eqb e u && expr_eqb e0 init then Some (ESym i)
  else match stride i u with
       | None => None
       | Some st =>
           if uses e i && negb (uses e sym) then
             if st <=? 0 then None
             else if negb (expr_eqb (snorm (subs e i (ssub init (EInt st)))) (snorm e0)) then None
             else Some (subs e i (ssub (ESym i) (EInt st)))
           else match affine sym e with
                | Some (EInt 1, off) =>
                    match sym_div (ssub (ESym i) init) (EInt st) with
                    | Some it => Some (sadd (smul it off) e0)
                    | None => None
                    end
                | _ => None
                end
       end.

(** the assignment of [sym] in a transition of the loop body itself (lines 161-175) *)
Fixpoint find_upd (sym : string) (s : seq) : option expr :=
  match s with
  | SNil => None
  | SCons _ a r => match lookup_asg sym a with Some e => Some e | None => find_upd sym r end
  end.
(** lines 177-187 *)
Fixpoint used_after (sym : string) (s : seq) : bool :=
  match s with
  | SNil => false
  | SCons _ a r => match lookup_asg sym a with Some _ => memb sym (sreads r) | None => used_after sym r end
  end.
(** line 223; the symbol is written once *)
Definition drop_asg (sym : string) (a : assigns) : assigns := filter (fun xe => negb (String.eqb (fst xe) sym)) a.
Fixpoint drop_upd (sym : string) (s : seq) : seq :=
  match s with
  | SNil => SNil
  | SCons n a r => match lookup_asg sym a with Some _ => SCons n (drop_asg sym a) r | None => SCons n a (drop_upd sym r) end
  end.
(** eliminate_symbols for one candidate (lines 145-229), on the loop and the
    assignments of its transition.  [e0]: the assigned initial value (lines
    189-206), [scal]: integer scalars. *)
Definition evolve (scal : string -> bool) (sym : string) (e0 : expr) (n : node) (tr : assigns) : option (node * assigns) :=
  match n with
  | NLoop k i init c u body =>
      if negb (scal sym) || memb sym (map fst tr) || negb (Nat.eqb (count_occ string_dec (swrites body) sym) 1) || negb (memb sym (sreads body)) then None
      else match find_upd sym body with
           | None => None
           | Some e =>
               if used_after sym body then None
               else match evolution i u init sym e e0 (filter scal (swrites body)) with
                    | None => None
                    | Some v => Some (NLoop k i init c u (SCons (NBlock []) [(sym, v)] (drop_upd sym body)), tr ++ [(sym, e)])
                    end
           end
  | _ => None
  end.

(** run_pass (lines 236-271): one elimination somewhere in the program [P]; [dom]
    collects the assignments that every path to the loop has executed
    (dominates, line 197), the symbol is written twice in all (line 191). *)
Inductive evolves_n (scal : string -> bool) (P : seq) : assigns -> node -> node -> Prop :=
| en_seq dom s s' : evolves_s scal P dom s s' -> evolves_n scal P dom (NSeq s) (NSeq s')
| en_while dom s s' : evolves_s scal P dom s s' -> evolves_n scal P dom (NWhile s) (NWhile s')
| en_if dom b b' : evolves_b scal P dom b b' -> evolves_n scal P dom (NIf b) (NIf b')
| en_loop dom k i init c u s s' : evolves_s scal P dom s s' -> evolves_n scal P dom (NLoop k i init c u s) (NLoop k i init c u s')
with evolves_s (scal : string -> bool) (P : seq) : assigns -> seq -> seq -> Prop :=
| es_here dom sym e0 n tr n' tr' r : In (sym, e0) dom -> count_occ string_dec (swrites P) sym = 2%nat ->
    evolve scal sym e0 n tr = Some (n', tr') -> evolves_s scal P dom (SCons n tr r) (SCons n' tr' r)
| es_node dom n n' a r : evolves_n scal P dom n n' -> evolves_s scal P dom (SCons n a r) (SCons n' a r)
| es_tail dom n a r r' : evolves_s scal P (dom ++ a) r r' -> evolves_s scal P dom (SCons n a r) (SCons n a r')
with evolves_b (scal : string -> bool) (P : seq) : assigns -> brs -> brs -> Prop :=
| eb_seq dom c s s' r : evolves_s scal P dom s s' -> evolves_b scal P dom (BCons c s r) (BCons c s' r)
| eb_tail dom c s r r' : evolves_b scal P dom r r' -> evolves_b scal P dom (BCons c s r) (BCons c s r').
Definition evolves (scal : string -> bool) (P P' : seq) : Prop := evolves_s scal P [] P P'.

(* ---------------------------------------------------------------- *)
(** a continue that can skip the update *)
Fixpoint ncont (n : node) : bool :=
  match n with
  | NContinue => true
  | NSeq s => scont s
  | NIf bs => bcont bs
  | _ => false
  end
with scont (s : seq) : bool := match s with SNil => false | SCons n _ r => ncont n || scont r end
with bcont (b : brs) : bool := match b with BNil => false | BCons _ s r => scont s || bcont r end.
Lemma runw_cont I s a o a' : runw I s a o a' -> o <> OCont.
Proof. induction 1; auto; discriminate. Qed.
Lemma runl_cont I i c u s a o a' : runl I i c u s a o a' -> o <> OCont.
Proof. induction 1; auto; discriminate. Qed.
Lemma cont_out I :
  (forall n st o st', run I n st o st' -> ncont n = false -> o <> OCont) /\
  (forall s st o st', runs I s st o st' -> scont s = false -> o <> OCont) /\
  (forall b st o st', runb I b st o st' -> bcont b = false -> o <> OCont) /\
  (forall s st o st', runw I s st o st' -> True) /\
  (forall i c u s st o st', runl I i c u s st o st' -> True).
Proof.
  apply run_mind; cbn [ncont scont bcont]; intros; try discriminate; auto;
    repeat match goal with H : _ || _ = false |- _ => apply orb_false_iff in H as [? ?] end; eauto using runw_cont, runl_cont.
Qed.
Fixpoint skips (sym : string) (s : seq) : bool :=
  match s with
  | SNil => false
  | SCons n a r => ncont n || match lookup_asg sym a with Some _ => false | None => skips sym r end
  end.
(** an assignment after that of [sym] in the same transition reads [sym] *)
Fixpoint late_read (sym : string) (a : assigns) : bool :=
  match a with [] => false | (x, _) :: r => if String.eqb x sym then memb sym (asg_reads r) else late_read sym r end.
Fixpoint late (sym : string) (s : seq) : bool :=
  match s with SNil => false | SCons _ a r => late_read sym a || late sym r end.

Lemma count_app (l m : list string) x : count_occ string_dec (l ++ m) x = (count_occ string_dec l x + count_occ string_dec m x)%nat.
Proof. induction l as [|y l IH]; simpl; auto. destruct (string_dec y x); rewrite IH; auto. Qed.
Lemma count_none (l : list string) x : count_occ string_dec l x = 0%nat -> ~ In x l.
Proof. intros H Q. apply (count_occ_In string_dec) in Q. lia. Qed.
Lemma lookup_none sym a : lookup_asg sym a = None -> ~ In sym (map fst a).
Proof. induction a as [|[x e] a IH]; simpl; auto. destruct (String.eqb_spec x sym); [discriminate|]. intros H [Q|Q]; auto. apply IH; auto. Qed.
Lemma lookup_some sym a e : lookup_asg sym a = Some e -> In sym (map fst a).
Proof. induction a as [|[x d] a IH]; simpl; [discriminate|]. destruct (String.eqb_spec x sym); auto. Qed.
Lemma drop_none sym a : ~ In sym (map fst a) -> drop_asg sym a = a.
Proof.
  unfold drop_asg. induction a as [|[x e] a IH]; simpl; auto. intros H. destruct (String.eqb_spec x sym) as [->|]; [tauto|]. simpl. rewrite IH; auto.
Qed.

Section Body.
  Variables (I : nat -> list Z -> option Z) (sym : string) (e : expr).
  Let D := IRFacts.one sym.
  Lemma notD x : x <> sym -> ~ D x. Proof. intros N Q. apply N. exact Q. Qed.
  Lemma avoid_sym l : ~ In sym l -> avoids D l.
  Proof. intros N x Hx ->. auto. Qed.

  (** equal but for the value of the symbol *)
  Definition off1 (a b : store) : Prop := eqx D a b /\ forall j, j <> [] -> a sym j = b sym j.
  Lemma steq_off1 a b : steq a b -> off1 a b.
  Proof. intros E. split; [apply steq_eqx; exact E|]. intros j _. apply E. intros []. Qed.
  Lemma off1_wr a b x v : x <> sym -> off1 a b -> off1 (wr a x [] v) (wr b x [] v).
  Proof. intros N [E1 E2]. split; [apply eqx_wr; exact E1|]. intros j Nj. rewrite !IRFacts.wr_other by auto. auto. Qed.
  Lemma asg_sim al : lookup_asg sym al = Some e -> count_occ string_dec (map fst al) sym = 1%nat -> late_read sym al = false ->
    (forall x, In x (atoms e) -> x <> sym -> ~ In x (map fst al)) ->
    forall a b a', steq a b -> exec_assigns a al = Some a' ->
    exists b', exec_assigns b (drop_asg sym al) = Some b' /\ off1 a' b' /\ eval (env_of a) e = Some (a' sym []).
  Proof.
    induction al as [|[x d] al IH]; cbn [lookup_asg map fst late_read]; intros L C LR A a b a' E R; [discriminate|].
    cbn [exec_assigns] in R. destruct (eval (env_of a) d) as [v|] eqn:Ev; [|discriminate].
    destruct (String.eqb_spec x sym) as [->|N].
    - assert (d = e) by congruence. subst d. cbn [count_occ] in C. destruct (string_dec sym sym); [|tauto].
      assert (N: ~ In sym (map fst al)) by (apply count_none; lia).
      unfold drop_asg. cbn [filter fst]. rewrite String.eqb_refl. cbn [negb]. fold (drop_asg sym al). rewrite drop_none by exact N.
      destruct (exec_assigns_eqx D al (wr a sym [] v) b a') as (b' & Rb & Eb); auto.
      + apply eqx_wr_l; [reflexivity|]. apply steq_eqx. exact E.
      + apply avoid_sym. intros Q. apply memb_in in Q. congruence.
      + exists b'. split; auto. split.
        { split; auto. intros j Nj. rewrite (exec_assigns_writes al _ _ R), (exec_assigns_writes al _ _ Rb) by exact N. rewrite IRFacts.wr_other by auto. apply E. intros []. }
        rewrite Ev. f_equal. rewrite (exec_assigns_writes al _ _ R) by exact N. rewrite wr_same. reflexivity.
    - unfold drop_asg. cbn [filter fst]. destruct (String.eqb_spec x sym); [tauto|]. cbn [negb exec_assigns]. fold (drop_asg sym al).
      rewrite (eval_eqx none b a d) by auto using eqx_sym, avoids_none. rewrite Ev.
      cbn [count_occ] in C. destruct (string_dec x sym); [tauto|].
      destruct (IH L C LR) with (a := wr a x [] v) (b := wr b x [] v) (a' := a') as (b' & Rb & Eb & Vb); auto using eqx_wr.
      { intros y Hy Ny Q. apply (A y Hy Ny). right. exact Q. }
      exists b'. split; auto. split; auto. rewrite <- Vb. apply eval_eqx with (D := IRFacts.one x); [apply eqx_wr_r; [reflexivity|apply eqx_refl]|].
      intros y Hy ->. apply (A x Hy N). left. reflexivity.
  Qed.

  Lemma body_sim s : find_upd sym s = Some e -> count_occ string_dec (swrites s) sym = 1%nat -> used_after sym s = false -> skips sym s = false -> late sym s = false ->
    (forall x, In x (atoms e) -> x <> sym -> ~ In x (swrites s)) ->
    forall a o a' b, runs I s a o a' -> steq a b ->
    exists b', runs I (drop_upd sym s) b o b' /\ off1 a' b' /\ (o = ONorm \/ o = OCont -> eval (env_of a) e = Some (a' sym [])).
  Proof.
    induction s as [|n al r IH]; cbn [find_upd swrites used_after skips late drop_upd]; intros F C U S L A a o a' b R E; [discriminate|].
    rewrite !count_app in C. apply orb_false_iff in S as [S1 S2]. apply orb_false_iff in L as [L1 L2].
    destruct (lookup_asg sym al) as [d|] eqn:EL.
    - assert (d = e) by congruence. subst d.
      assert (C1: (count_occ string_dec (map fst al) sym > 0)%nat) by (apply count_occ_In; eapply lookup_some; eauto).
      assert (Nn: ~ In sym (nwrites n)) by (apply count_none; lia). assert (Nr: ~ In sym (swrites r)) by (apply count_none; lia).
      inversion R; subst.
      + match goal with H : run I n a ONorm st1 |- _ => pose proof H as Rn end.
        destruct (run_frame I n a ONorm st1 none b Rn E (avoids_none _)) as (b1 & Rb1 & E1).
        destruct (asg_sim al EL) with (a := st1) (b := b1) (a' := st2) as (b2 & Rb2 & E2 & V2); auto; [lia| |].
        { intros x Hx Nx Q. apply (A x Hx Nx). rewrite !in_app_iff. auto. }
        destruct (runs_frame I r st2 o a' D b2) as (b3 & Rb3 & E3); auto; [apply E2| |].
        { apply avoid_sym. intros Q. apply memb_in in Q. congruence. }
        exists b3. split; [eapply R_cons; eauto|]. split.
        { split; auto. intros j Nj. rewrite (runs_writes I r st2 o a' sym j), (runs_writes I r b2 o b3 sym j) by auto. apply E2. exact Nj. }
        intros _.
        rewrite (runs_writes I r st2 o a' sym []) by auto. rewrite <- V2. apply eval_eqx with (D := fun x => In x (nwrites n)).
        * intros x Hx j. symmetry. eapply run_writes; eauto.
        * intros x Hx Q. destruct (string_dec x sym) as [->|Nx]; [auto|]. apply (A x Hx Nx). rewrite !in_app_iff. auto.
      + destruct (run_frame I n a o a' none b) as (b1 & Rb1 & E1); auto using avoids_none.
        exists b1. split; [apply R_exit; auto|]. split; [apply steq_off1; auto|]. intros [->| ->]; [tauto|]. exfalso. eapply (proj1 (cont_out I)); eauto.
    - assert (N2: ~ In sym (map fst al)) by (apply lookup_none; auto).
      assert (C2: count_occ string_dec (map fst al) sym = 0%nat) by (apply count_occ_not_In; auto).
      inversion R; subst.
      + match goal with H : run I n a ONorm st1 |- _ => pose proof H as Rn end. match goal with H : exec_assigns st1 al = Some st2 |- _ => pose proof H as Ra end.
        destruct (run_frame I n a ONorm st1 none b Rn E (avoids_none _)) as (b1 & Rb1 & E1).
        destruct (exec_assigns_eqx none al st1 b1 st2 E1 (avoids_none _) Ra) as (b2 & Rb2 & E2).
        assert (Cr: (count_occ string_dec (nwrites n) sym = 0)%nat /\ count_occ string_dec (swrites r) sym = 1%nat).
        { assert (Q: forall s, find_upd sym s = Some e -> (count_occ string_dec (swrites s) sym > 0)%nat).
          { clear. induction s as [|n al r IH]; simpl; [discriminate|]. rewrite !count_app. destruct (lookup_asg sym al) eqn:E; intros H; [|specialize (IH H); lia].
            apply lookup_some in E. apply (count_occ_In string_dec) in E. lia. }
          specialize (Q r F). lia. }
        destruct (IH F (proj2 Cr) U S2 L2) with (a := st2) (o := o) (a' := a') (b := b2) as (b3 & Rb3 & E3 & V3); auto.
        { intros x Hx Nx Q. apply (A x Hx Nx). rewrite !in_app_iff. auto. }
        exists b3. split; [eapply R_cons; eauto|]. split; auto. intros O. rewrite <- (V3 O). apply eval_eqx with (D := fun x => In x (nwrites n) \/ In x (map fst al)).
        * intros x Hx j. rewrite (exec_assigns_writes al _ _ Ra) by tauto. symmetry. apply (run_writes I _ _ _ _ x j Rn). tauto.
        * intros x Hx Q. destruct (string_dec x sym) as [->|Nx]; [destruct Q as [Q|Q]; [exact (count_none _ _ (proj1 Cr) Q)|auto]|]. apply (A x Hx Nx). rewrite !in_app_iff. tauto.
      + destruct (run_frame I n a o a' none b) as (b1 & Rb1 & E1); auto using avoids_none.
        exists b1. split; [apply R_exit; auto|]. split; [apply steq_off1; auto|]. intros [->| ->]; [tauto|]. exfalso. eapply (proj1 (cont_out I)); eauto.
  Qed.
End Body.

Lemma drop_asg_in sym x a : In x (map fst (drop_asg sym a)) -> In x (map fst a) /\ x <> sym.
Proof.
  unfold drop_asg. rewrite !in_map_iff. intros ([y d] & <- & H). apply filter_In in H as [H1 H2]. simpl in *. apply negb_true_iff, String.eqb_neq in H2. split; auto. exists (y, d); auto.
Qed.
Lemma drop_upd_writes sym e s : find_upd sym s = Some e -> count_occ string_dec (swrites s) sym = 1%nat -> ~ In sym (swrites (drop_upd sym s)).
Proof.
  induction s as [|n al r IH]; cbn [find_upd swrites drop_upd]; intros F C; [discriminate|]. rewrite !count_app in C.
  destruct (lookup_asg sym al) eqn:EL; cbn [swrites]; rewrite !in_app_iff.
  - pose proof (lookup_some _ _ _ EL) as Q. apply (count_occ_In string_dec) in Q. intros [H|[H|H]].
    + apply (count_occ_In string_dec) in H. lia.
    + apply drop_asg_in in H. tauto.
    + apply (count_occ_In string_dec) in H. lia.
  - assert (Q: forall s, find_upd sym s = Some e -> (count_occ string_dec (swrites s) sym > 0)%nat).
    { clear. induction s as [|n al r IH]; simpl; [discriminate|]. rewrite !count_app. destruct (lookup_asg sym al) eqn:E; intros H; [|specialize (IH H); lia].
      apply lookup_some in E. apply (count_occ_In string_dec) in E. lia. }
    specialize (Q r F). intros [H|[H|H]].
    + apply (count_occ_In string_dec) in H. lia.
    + apply lookup_none in EL. auto.
    + apply IH in H; auto. lia.
Qed.

Section Loop.
  Variables (I : nat -> list Z -> option Z) (i : string) (c : cond) (u : expr) (body : seq) (sym : string) (e evo : expr) (J : store -> Prop).
  Let D := IRFacts.one sym.
  Let body' := SCons (NBlock []) [(sym, evo)] (drop_upd sym body).
  Hypothesis F : find_upd sym body = Some e.
  Hypothesis C : count_occ string_dec (swrites body) sym = 1%nat.
  Hypothesis U : used_after sym body = false.
  Hypothesis S : skips sym body = false.
  Hypothesis L : late sym body = false.
  Hypothesis A : forall x, In x (atoms e) -> x <> sym -> ~ In x (swrites body).
  Hypothesis Ns : sym <> i.
  Hypothesis Nc : ~ In sym (catoms c).
  Hypothesis Nu : ~ In sym (atoms u).
  Hypothesis J1 : forall a b, J a -> eqx D a b -> eval (env_of b) evo = Some (a sym []).
  Hypothesis J2 : forall a a1 v, J a -> (forall x j, ~ In x (swrites body) -> a1 x j = a x j) -> eval (env_of a) e = Some (a1 sym []) -> eval (env_of a1) u = Some v -> J (wr a1 i [] v).

  Lemma iter_sim a b o a' : J a -> off1 sym a b -> runs I body a o a' ->
    exists b', runs I body' b o b' /\ off1 sym a' b' /\ (o = ONorm \/ o = OCont -> eval (env_of a) e = Some (a' sym [])) /\ (o = ONorm \/ o = OCont -> b' sym [] = a sym []).
  Proof.
    intros H [E1 E2] R. assert (Ev: eval (env_of b) evo = Some (a sym [])).
    { apply J1; auto. }
    destruct (body_sim I sym e body F C U S L A a o a' (wr b sym [] (a sym [])) R) as (b' & Rb & Eb & V).
    { intros x _ j. destruct (string_dec x sym) as [->|Nx].
      - destruct j as [|z j]; [rewrite wr_same; reflexivity|]. rewrite IRFacts.wr_other by (right; discriminate). apply E2. discriminate.
      - rewrite IRFacts.wr_other by auto. apply E1. exact Nx. }
    exists b'. split; [|split; [exact Eb|split; [exact V|]]].
    - unfold body'. eapply R_cons; [constructor; reflexivity|cbn [exec_assigns]; rewrite Ev; reflexivity|exact Rb].
    - intros _. rewrite (runs_writes I _ _ _ _ sym [] Rb) by (eapply drop_upd_writes; eauto). apply wr_same.
  Qed.
  Lemma loop_sim a o a' : runl I i c u body a o a' -> J a -> forall b, off1 sym a b ->
    exists b', runl I i c u body' b o b' /\ off1 sym a' b' /\
      (o = ONorm -> sbrk body = false -> ~ In i (atoms e) -> cev (env_of a) c = Some true -> eval (env_of b') e = Some (a' sym [])).
  Proof.
    intros R. remember i as i0 eqn:Ei in R at 1. remember c as c0 eqn:Ec in R. remember u as u0 eqn:Eu in R. remember body as s0 eqn:Es in R. revert Ei Ec Eu Es.
    induction R as [i0 c0 u0 s0 st H|i0 c0 u0 s0 st o1 st1 v o0 st' H H0 H1 H2 R IH|i0 c0 u0 s0 st st' H H0|i0 c0 u0 s0 st r st' H H0]; intros Ei Ec Eu Es HJ b E; subst i0 c0 u0 s0;
      assert (Hc: cev (env_of b) c = cev (env_of st) c) by (symmetry; apply cev_eqx with (D := D); [apply E|apply avoid_sym; exact Nc]); rewrite H in Hc.
    - exists b. split; [apply R_lend; exact Hc|]. split; auto. intros _ _ _ Q. congruence.
    - destruct (iter_sim st b o1 st1 HJ E H0) as (b1 & Rb & Eb & V & W).
      assert (Ub: eval (env_of b1) u = Some v). { rewrite <- H2. symmetry. apply eval_eqx with (D := D); [apply Eb|apply avoid_sym; exact Nu]. }
      assert (HJ': J (wr st1 i [] v)). { eapply J2; eauto. intros x j Hx. apply (runs_writes I _ _ _ _ x j H0 Hx). }
      assert (E': off1 sym (wr st1 i [] v) (wr b1 i [] v)) by (apply off1_wr; auto).
      assert (Next: forall b', runl I i c u body' (wr b1 i [] v) o0 b' -> runl I i c u body' b o0 b') by (intros b' Rb'; eapply R_lnext; eauto).
      destruct (cev (env_of (wr st1 i [] v)) c) as [[]|] eqn:Hn; [| |exfalso; inversion R; congruence].
      + destruct (IH eq_refl eq_refl eq_refl eq_refl HJ' _ E') as (b' & Rb' & Eb' & V'). exists b'. repeat split; auto; apply Eb'.
      + assert (o0 = ONorm /\ st' = wr st1 i [] v) as [Eo Et] by (inversion R; subst; try congruence; auto). subst o0 st'.
        exists (wr b1 i [] v). split; [apply Next; apply R_lend; rewrite <- Hn; symmetry; apply cev_eqx with (D := D); [apply E'|apply avoid_sym; exact Nc]|]. split; auto.
        intros _ _ Ni _. rewrite (IRFacts.wr_other st1) by auto. rewrite <- (V H1).
        unfold eval. rewrite (ev_agree _ (env_of st)); auto. intros x Hx. unfold env_of. rewrite IRFacts.wr_other by (left; intros ->; auto).
        destruct (string_dec x sym) as [->|Nx]; [auto|]. transitivity (st1 x []); [symmetry; apply Eb; exact Nx|]. apply (runs_writes I _ _ _ _ x [] H0). auto.
    - destruct (iter_sim st b _ st' HJ E H0) as (b1 & Rb & Eb & _). exists b1. split; [apply R_lbreak; auto|]. split; auto.
      intros _ Q. exfalso. exact (proj1 (proj2 (brk_out I)) _ _ _ _ H0 Q eq_refl).
    - destruct (iter_sim st b _ st' HJ E H0) as (b1 & Rb & Eb & _). exists b1. split; [apply R_lret; auto|]. split; auto. discriminate.
  Qed.
End Loop.

(** The closed forms *)
Lemma stride_eval i u st t : stride i u = Some st -> eval t u = Some (t i + st).
Proof.
  unfold stride. destruct u as [| | | |[|a [|b [|]]]| | | | | | | | | |]; try discriminate. destruct a; try discriminate; destruct b; try discriminate.
  all: destruct (String.eqb_spec x i) as [->|]; [|discriminate]; intros [= ->]; unfold eval; cbn -[Z.add]; apply f_equal; lia.
Qed.

Section Closed.
  Variables (i : string) (u init : expr) (body : seq) (sym : string) (e e0 evo : expr) (moving : list string) (st : store) (v0 s0 : Z).
  Hypothesis EV : evolution i u init sym e e0 moving = Some evo.
  Hypothesis A : forall x, In x (atoms e) -> x <> sym -> ~ In x (swrites body).
  Hypothesis Ns : sym <> i.
  Hypothesis Wi : ~ In i (swrites body).
  Hypothesis Nu : ~ In sym (atoms u).
  Hypothesis Q1 : forall x, In x (atoms init) -> x <> i /\ x <> sym /\ ~ In x (swrites body).
  Hypothesis Q0 : forall x, In x (atoms e0) -> x <> i /\ x <> sym /\ ~ In x (swrites body).
  Hypothesis Two : In sym (atoms e) -> ~ In i (atoms e).
  Hypothesis St : stride i u <> Some 0.
  Hypothesis Def : forall x y, exists w, eval (upd (upd (env_of st) sym y) i x) e = Some w.
  Hypothesis V0 : eval (env_of st) init = Some v0.
  Hypothesis S0 : eval (env_of st) e0 = Some s0.
  (** the symbols nobody changes have their old values *)
  Let ag (a : store) : Prop := forall x, x <> i -> x <> sym -> ~ In x (swrites body) -> a x [] = st x [].
  Lemma ag_eval a d : ag a -> (forall x, In x (atoms d) -> x <> i /\ x <> sym /\ ~ In x (swrites body)) -> eval (env_of a) d = eval (env_of st) d.
  Proof. intros H Q. unfold eval. rewrite (ev_agree _ (env_of st)); auto. intros x Hx. destruct (Q x Hx) as (N1 & N2 & N3). apply H; auto. Qed.
  Lemma ag_e a : ag a -> ev (env_of a) e = ev (upd (upd (env_of st) sym (a sym [])) i (a i [])) e.
  Proof.
    intros H. apply ev_agree. intros x Hx. unfold upd, env_of. destruct (String.eqb_spec i x) as [<-|N1]; auto. destruct (String.eqb_spec sym x) as [<-|N2]; auto.
  Qed.
  Lemma closed : exists J : store -> Prop, J (wr (wr st sym [] s0) i [] v0) /\
    (forall a b, J a -> eqx (IRFacts.one sym) a b -> eval (env_of b) evo = Some (a sym [])) /\
    (forall a a1 v, J a -> (forall x j, ~ In x (swrites body) -> a1 x j = a x j) -> eval (env_of a) e = Some (a1 sym []) -> eval (env_of a1) u = Some v -> J (wr a1 i [] v)) /\
    (forall a b, J a -> steq a b -> J b).
  Proof.
    assert (AgI: ag (wr (wr st sym [] s0) i [] v0)) by (intros x N1 N2 _; rewrite !IRFacts.wr_other by auto; reflexivity).
    assert (AgS: forall a a1 v, ag a -> (forall x j, ~ In x (swrites body) -> a1 x j = a x j) -> ag (wr a1 i [] v)).
    { intros a a1 v H H1 x N1 N2 N3. rewrite IRFacts.wr_other by auto. rewrite H1 by auto. auto. }
    assert (AgE: forall a b, ag a -> eqx (IRFacts.one sym) a b -> ag b).
    { intros a b H H1 x N1 N2 N3. rewrite <- (H1 x) by exact N2. auto. }
    assert (Si: forall a b, eqx (IRFacts.one sym) a b -> b i [] = a i []) by (intros a b H; symmetry; apply H; intros Q; apply Ns; symmetry; exact Q).
    assert (T: forall (a b : store) x, steq a b -> b x [] = a x []) by (intros a b x H; symmetry; apply H; intros []).
    assert (Ii: wr (wr st sym [] s0) i [] v0 i [] = v0) by apply wr_same.
    assert (Is: wr (wr st sym [] s0) i [] v0 sym [] = s0) by (rewrite IRFacts.wr_other by auto; apply wr_same).
    assert (Ws: forall a v, wr a i [] v sym [] = a sym []) by (intros; rewrite IRFacts.wr_other by auto; reflexivity).
    assert (Wi2: forall a v, wr a i [] v i [] = v) by (intros; apply wr_same).
    assert (TA: forall a b, steq a b -> ag a -> ag b) by (intros a b H1 H2; apply (AgE a); auto using steq_eqx).
    unfold evolution in EV. destruct (existsb _ _); [discriminate|].
    destruct (negb (uses e sym) && expr_eqb e e0) eqn:P1.
    { (* constant *)
      apply andb_true_iff in P1 as [P1 P2]. apply expr_eqb_eq in P2. assert (evo = e) by congruence. subst evo.
      exists (fun a => ag a /\ a sym [] = s0). split; [auto|]. split; [|split].
      - intros a b [H ->] E. rewrite P2. rewrite (ag_eval b e0 (AgE _ _ H E) Q0). exact S0.
      - intros a a1 v [H H0] H1 He _. split; [eapply AgS; eauto|]. rewrite Ws. rewrite P2, (ag_eval a e0 H Q0), S0 in He. congruence.
      - intros a b [H H0] E. split; eauto. rewrite (T a b sym E). exact H0. }
    destruct (expr_eqb e u && expr_eqb e0 init) eqn:P2.
    { (* alias *)
      apply andb_true_iff in P2 as [P2 P3]. apply expr_eqb_eq in P2. apply expr_eqb_eq in P3. assert (Ev: evo = ESym i) by congruence. rewrite Ev.
      assert (s0 = v0) by congruence.
      exists (fun a => ag a /\ a sym [] = a i []). split; [split; auto; congruence|]. split; [|split].
      - intros a b [H1 ->] E. rewrite <- (Si a b E). reflexivity.
      - intros a a1 v [H1 H0] H2 He Hu. split; [eapply AgS; eauto|]. rewrite Ws, Wi2. rewrite P2 in He.
        assert (eval (env_of a1) u = eval (env_of a) u).
        { unfold eval. rewrite (ev_agree _ (env_of a)); auto. intros x Hx. apply H2. rewrite <- P2 in Hx. apply A; auto. intros ->. apply Nu. rewrite <- P2. exact Hx. }
        congruence.
      - intros a b [H1 H0] E. split; eauto. rewrite !(T a b) by auto. exact H0. }
    destruct (stride i u) as [k|] eqn:Ek; [|discriminate].
    assert (Uk: forall a v, eval (env_of a) u = Some v -> v = a i [] + k) by (intros a v Hv; rewrite (stride_eval i u k _ Ek) in Hv; unfold env_of in Hv; congruence).
    destruct (uses e i && negb (uses e sym)) eqn:P3.
    { (* function of the previous index *)
      apply andb_true_iff in P3 as [_ P3]. apply negb_true_iff in P3. assert (Nse: ~ In sym (atoms e)) by (intros Q; apply uses_atoms in Q; congruence).
      destruct (k <=? 0); [discriminate|]. destruct (negb (expr_eqb _ _)) eqn:P4; [discriminate|]. apply negb_false_iff, expr_eqb_eq in P4.
      match type of EV with Some ?z = _ => assert (E : evo = z) by congruence end.
      assert (B: forall a w, ag a -> ev (upd (env_of a) i w) e = ev (upd (env_of st) i w) e).
      { intros a w H. apply ev_agree. intros x Hx. unfold upd. destruct (String.eqb_spec i x) as [|Nx]; auto. assert (x <> sym) by (intros ->; auto). apply H; auto. }
      assert (Bs: forall a, ev (env_of a) (subs e i (ssub (ESym i) (EInt k))) = ev (upd (env_of a) i (a i [] - k)) e).
      { intros a. apply ev_subs. apply eval_ev. apply eval_ssub; reflexivity. }
      assert (G: eval (upd (env_of st) i (v0 - k)) e = Some s0).
      { assert (X: ev (env_of st) (subs e i (ssub init (EInt k))) = ev (upd (env_of st) i (v0 - k)) e) by (apply ev_subs; apply eval_ev; apply eval_ssub; [exact V0|reflexivity]).
        pose proof S0 as S1. apply eval_ev in S1. pose proof (ev_snorm (env_of st) e0) as N0. rewrite S1 in N0. specialize (N0 ltac:(discriminate)).
        rewrite <- P4 in N0. unfold eval. rewrite <- X. destruct (Def (v0 - k) (st sym [])) as (w & W). apply eval_ev in W.
        assert (ev (upd (env_of st) i (v0 - k)) e = Fin w) as Y.
        { rewrite <- W. apply ev_agree. intros x _. unfold upd, env_of. destruct (String.eqb i x); auto. destruct (String.eqb_spec sym x) as [<-|]; auto. }
        rewrite <- X in Y. rewrite ev_snorm in N0 by (rewrite Y; discriminate). rewrite N0. reflexivity. }
      exists (fun a => ag a /\ eval (upd (env_of st) i (a i [] - k)) e = Some (a sym [])). split; [|split; [|split]].
      - split; auto. rewrite Ii, Is. exact G.
      - intros a b [H H0] Q. rewrite <- H0, E. unfold eval. rewrite Bs. rewrite B by eauto. rewrite (Si a b Q). reflexivity.
      - intros a a1 v [H H0] H1 He Hu. split; [eapply AgS; eauto|]. rewrite Ws, Wi2, <- He. apply Uk in Hu.
        rewrite (H1 i [] Wi) in Hu. replace (v - k) with (a i []) by lia. unfold eval. rewrite <- (B a) by auto. rewrite (ev_agree _ (env_of a)); auto.
        intros x _. unfold upd, env_of. destruct (String.eqb_spec i x) as [<-|]; auto.
      - intros a b [H H0] Q. split; eauto. rewrite !(T a b) by auto. exact H0. }
    (* affine *)
    destruct (affine sym e) as [[mu off]|] eqn:EA; [|discriminate]. destruct mu as [z| | | | | | | | | | | | | |]; try discriminate. destruct z as [|[| |]|]; try discriminate.
    destruct (sym_div (ssub (ESym i) init) (EInt k)) as [it|] eqn:Ed; [|discriminate]. match type of EV with Some ?z = _ => assert (E : evo = z) by congruence end.
    assert (Ni: ~ In i (atoms e)).
    { intros Q. apply andb_false_iff in P3 as [P3|P3]; [apply uses_atoms in Q; congruence|]. apply negb_false_iff, uses_atoms in P3. exact (Two P3 Q). }
    destruct (Def v0 s0) as (w & W). destruct (affine_recompose_value sym e (EInt 1) off _ w EA W) as (cv & kv & Hc & Hk & Ew & Inv).
    assert (Cv: cv = 1) by (unfold eval in Hc; cbn in Hc; congruence). subst cv.
    assert (K0: k <> 0) by congruence.
    (* the offset has one value *)
    assert (Ko: forall a, ag a -> eval (env_of a) off = Some kv /\ eval (env_of a) e = Some (a sym [] + kv)).
    { intros a H. destruct (Def (a i []) (a sym [])) as (wa & Wa). assert (Wa': eval (env_of a) e = Some wa) by (unfold eval; rewrite (ag_e a H); exact Wa).
      destruct (affine_recompose_value sym e (EInt 1) off _ wa EA Wa') as (ca & ka & Hca & Hka & Ewa & _).
      assert (ca = 1) by (unfold eval in Hca; cbn in Hca; congruence). subst ca.
      assert (wa = a sym [] + kv).
      { assert (X: eval (upd (upd (env_of st) sym (a sym [])) i v0) e = Some wa).
        { rewrite <- Wa. unfold eval. rewrite (ev_agree _ (upd (upd (env_of st) sym (a sym [])) i (a i []))); auto. intros x Hx. unfold upd. destruct (String.eqb_spec i x) as [<-|]; auto. tauto. }
        destruct (affine_recompose_value sym e (EInt 1) off _ wa EA X) as (cx & kx & Hcx & Hkx & Ex & Ix). assert (cx = 1) by (unfold eval in Hcx; cbn in Hcx; congruence). subst cx.
        assert (kx = kv).
        { destruct (Inv 0) as [_ I1]. destruct (Ix 0) as [_ I2].
          assert (Z: eval (upd (upd (upd (env_of st) sym s0) i v0) sym 0) off = eval (upd (upd (upd (env_of st) sym (a sym [])) i v0) sym 0) off).
          { unfold eval. rewrite (ev_agree _ (upd (upd (upd (env_of st) sym (a sym [])) i v0) sym 0)); auto. intros x _. unfold upd. destruct (String.eqb sym x); auto. }
          rewrite Z, I2 in I1. congruence. }
        subst kx. rewrite Ex. unfold upd. destruct (String.eqb_spec i sym); [congruence|]. rewrite String.eqb_refl. lia. }
      unfold env_of in Ewa. assert (Ek2: ka = kv) by lia. split; congruence. }
    exists (fun a => ag a /\ exists n, a i [] = v0 + n * k /\ a sym [] = s0 + n * kv). split; [|split; [|split]].
    - split; auto. exists 0. rewrite Ii, Is. lia.
    - intros a b [H (n & N1 & N2)] Q. pose proof (AgE _ _ H Q) as Hb. rewrite E.
      assert (X: eval (env_of b) it = Some n).
      { unfold eval. rewrite (sym_div_ev (env_of b) (ssub (ESym i) init) (EInt k) it (n * k) k Ed); auto.
        - rewrite Z.quot_mul by auto. reflexivity.
        - apply eval_ev. replace (n * k) with (b i [] - v0) by (rewrite (Si a b Q); lia). apply eval_ssub; [reflexivity|]. rewrite (ag_eval b init Hb Q1). exact V0. }
      replace (a sym []) with (n * kv + s0) by lia. apply eval_sadd; [apply eval_smul; [exact X|apply Ko; exact Hb]|]. rewrite (ag_eval b e0 Hb Q0). exact S0.
    - intros a a1 v [H (n & N1 & N2)] H1 He Hu. split; [eapply AgS; eauto|]. exists (n + 1). rewrite Ws, Wi2. apply Uk in Hu. rewrite (H1 i [] Wi) in Hu.
      rewrite (proj2 (Ko a H)) in He. split; [lia|]. assert (a1 sym [] = a sym [] + kv) by congruence. lia.
    - intros a b [H H0] Q. split; eauto. rewrite !(T a b) by auto. exact H0.
  Qed.
End Closed.
