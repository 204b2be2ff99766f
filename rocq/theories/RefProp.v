(** Propagation of pointer assignments into the accesses that use them, and removal of
    pointer assignments nobody uses, on the functions of Alloc.v.

    Modelled: sdfg/src/passes/dataflow/reference_propagation.cpp:61-307 (run_pass) with
    the reaching moves of sdfg/src/analysis/reference_analysis.cpp:47-330 and the uses
    between move and user of sdfg/src/analysis/users.cpp:643-676;
    sdfg/src/passes/dataflow/dead_reference_elimination.cpp:16-60.
    Simplified: one dimension, one access per statement; the type comparisons
    (reference_propagation.cpp:20-58, 145-189), which only forbid replacements, and the
    clean-up of access nodes (285-302) are left out. A move dominates exactly the users
    in the later statements of its own sequence. *)
From Verif Require Import Sym SymFacts SymFuns SymProofs1 Alloc AllocProofs AllocSim.

(** A write to pointer container z: pointer assignment or allocation. *)
Definition views_into (z : string) (s : stm) : bool := match s with SView w _ _ => String.eqb z w | _ => false end.
Definition allocs_into (z : string) (s : stm) : bool := match s with SAlloc w _ _ => String.eqb z w | _ => false end.

(** The statements at which the code gives up the equation y = x + e: another move of y
    (reference_analysis.cpp:66-86: closes the definition) and a move of x
    (reference_propagation.cpp:120-138). *)
Definition code_kill (y x : string) (e : expr) (s : stm) : bool := views_into y s || views_into x s.
(** What changes y = x + e: any assignment to the two pointers or to a scalar of e. *)
Definition full_kill (y x : string) (e : expr) (s : stm) : bool :=
  views_into y s || views_into x s || allocs_into y s || allocs_into x s || existsb (fun z => sets z s) (atoms e).

Section Propagation.
  Variable kill : string -> string -> expr -> stm -> bool.
  Section Move.
    Variables (y x : string) (e : expr).
    (** index of the access after the replacement (reference_propagation.cpp:143-149
        without, 193-281 with arithmetic) *)
    Definition moved (k : expr) : expr := if expr_eqb e (EInt 0) then k else sadd e k.
    (** The replacement of one user (reference_propagation.cpp:143-281). Release and
        allocation have an empty subset: only the case without arithmetic takes them.
        An allocation into y is a use of the open definition like any other
        (reference_analysis.cpp:88-122), unless it ends the equation. *)
    Inductive replaced : stm -> stm -> Prop :=
    | W_load d k : replaced (SLoad d y k) (SLoad d x (moved k))
    | W_store k v : replaced (SStore y k v) (SStore x (moved k) v)
    | W_view z k : replaced (SView z y k) (SView z x (moved k))
    | W_free : e = EInt 0 -> replaced (SFree y) (SFree x)
    | W_alloc k n : e = EInt 0 -> kill y x e (SAlloc y k n) = false -> replaced (SAlloc y k n) (SAlloc x k n).
    Definition leaf (s : stm) : bool := match s with SIf _ _ _ | SWhile _ _ | SReturn _ => false | _ => true end.
    (** [flow b s s' b']: the state before s (true: only the move reaches it and the
        equation was not given up on any path), a rewriting of s, the state after s. A
        user may be replaced where the state is true. Branches meet (reference_analysis.cpp:131-205),
        loops add the end of the body to their start (207-303), nothing reaches the
        statements after a return (305-317). *)
    Inductive flow : bool -> stm -> stm -> bool -> Prop :=
    | F_keep b s : leaf s = true -> flow b s s (b && negb (kill y x e s))
    | F_use s s' : replaced s s' -> flow true s s' (negb (kill y x e s))
    | F_if b c p q p' q' b1 b2 : flows b p p' b1 -> flows b q q' b2 -> flow b (SIf c p q) (SIf c p' q') (b1 && b2)
    | F_while b h c p p' b1 : (h = true -> b = true /\ b1 = true) -> flows h p p' b1 -> flow b (SWhile c p) (SWhile c p') h
    | F_return b r : flow b (SReturn r) (SReturn r) true
    with flows : bool -> list stm -> list stm -> bool -> Prop :=
    | F_nil b : flows b [] [] b
    | F_cons b s s' b1 l l' b2 : flow b s s' b1 -> flows b1 l l' b2 -> flows b (s :: l) (s' :: l') b2.
  End Move.
  (** One move [y = x + e] anywhere in the program and users it dominates. *)
  Inductive refprop (side : string -> string -> Prop) : list stm -> list stm -> Prop :=
  | R_here y x e l l' b : side y x -> flows y x e true l l' b -> refprop side (SView y x e :: l) (SView y x e :: l')
  | R_next s l l' : refprop side l l' -> refprop side (s :: l) (s :: l')
  | R_then c p p' q l : refprop side p p' -> refprop side (SIf c p q :: l) (SIf c p' q :: l)
  | R_else c p q q' l : refprop side q q' -> refprop side (SIf c p q :: l) (SIf c p q' :: l)
  | R_body c p p' l : refprop side p p' -> refprop side (SWhile c p :: l) (SWhile c p' :: l).
End Propagation.

(** What the pass may do: its criteria only. *)
Definition propagates : list stm -> list stm -> Prop := refprop code_kill (fun _ _ => True).
(** The same with the missing criteria: the two containers differ, and neither they nor
    the scalars of the offset are assigned between the move and the user. *)
Definition propagates_checked : list stm -> list stm -> Prop := refprop full_kill (fun y x => y <> x).

Scheme flow_mind := Minimality for flow Sort Prop
  with flows_mind := Minimality for flows Sort Prop.
Combined Scheme flow_both from flow_mind, flows_mind.

(** The checked rewriting is one of those the pass may do. *)
Lemma replaced_mono y x e s s' : replaced full_kill y x e s s' -> replaced code_kill y x e s s'.
Proof. intros W. destruct W; try (constructor; assumption). constructor; [assumption|reflexivity]. Qed.
Lemma kill_mono y x e s : code_kill y x e s = true -> full_kill y x e s = true.
Proof. unfold code_kill, full_kill. intros K. rewrite K. reflexivity. Qed.
Definition le_b (a b : bool) : Prop := a = true -> b = true.
Lemma flow_mono y x e :
  (forall b s s' b1, flow full_kill y x e b s s' b1 -> forall c, le_b b c -> exists c1, le_b b1 c1 /\ flow code_kill y x e c s s' c1) /\
  (forall b l l' b1, flows full_kill y x e b l l' b1 -> forall c, le_b b c -> exists c1, le_b b1 c1 /\ flows code_kill y x e c l l' c1).
Proof.
  assert (KM : forall s b c, le_b b c -> le_b (b && negb (full_kill y x e s)) (c && negb (code_kill y x e s))).
  { intros s b c L H. apply andb_true_iff in H as [A B]. rewrite (L A). simpl. apply negb_true_iff in B. apply negb_true_iff.
    destruct (code_kill y x e s) eqn:K; [|reflexivity]. rewrite (kill_mono _ _ _ _ K) in B. exact B. }
  apply flow_both.
  - intros b s Hl c L. eexists. split; [|apply F_keep; exact Hl]. apply KM, L.
  - intros s s' W c L. rewrite (L eq_refl). eexists. split; [|apply F_use, replaced_mono, W]. apply (KM s true true). intros K; exact K.
  - intros b c p q p' q' b1 b2 _ IH1 _ IH2 d L. destruct (IH1 d L) as (d1 & L1 & R1). destruct (IH2 d L) as (d2 & L2 & R2).
    exists (d1 && d2). split; [|apply F_if; assumption]. intros H. apply andb_true_iff in H as [A B]. rewrite (L1 A), (L2 B). reflexivity.
  - intros b h c p p' b1 Hh _ IH d L. destruct (IH h (fun K => K)) as (d1 & L1 & R1). exists h. split; [intros K; exact K|].
    apply F_while with d1; [|exact R1]. intros K. destruct (Hh K) as [A B]. split; [apply L, A|apply L1, B].
  - intros b r c L. exists true. split; [intros _; reflexivity|constructor].
  - intros b c L. exists c. split; [exact L|constructor].
  - intros b s s' b1 l l' b2 _ IH1 _ IH2 c L. destruct (IH1 c L) as (c1 & L1 & R1). destruct (IH2 c1 L1) as (c2 & L2 & R2).
    exists c2. split; [exact L2|]. econstructor; eassumption.
Qed.
Lemma checked_propagates l l' : propagates_checked l l' -> propagates l l'.
Proof.
  intros R. induction R as [y x e l l' b _ F|s l l' _ IH|c p p' q l _ IH|c p q q' l _ IH|c p p' l _ IH]; try (constructor; exact IH).
  destruct (proj2 (flow_mono y x e) _ _ _ _ F true (fun K => K)) as (c1 & _ & F'). eapply R_here; [exact I|exact F'].
Qed.

(** The equation y = x + e in a machine. *)
Definition linked (y x : string) (e : expr) (m : machine) : Prop :=
  exists b k j, ptr m x = Some (b, k) /\ eval (data m) e = Some j /\ ptr m y = Some (b, k + j).

Section Sound.
  Variables (y x : string) (e : expr).
  Lemma moved_eval m j k i : eval (data m) e = Some j -> eval (data m) k = Some i -> eval (data m) (moved e k) = Some (j + i).
  Proof.
    intros Ej Ei. unfold moved. destruct (expr_eqb e (EInt 0)) eqn:E.
    - apply expr_eqb_eq in E. rewrite E in Ej. cbn in Ej. injection Ej as <-. rewrite Ei. f_equal; lia.
    - apply eval_ev in Ej, Ei. apply eval_ev. rewrite ev_sadd, Ej, Ei. reflexivity.
  Qed.
  Lemma moved_eval_inv m j k i : eval (data m) e = Some j -> eval (data m) (moved e k) = Some i -> exists i', eval (data m) k = Some i' /\ i = j + i'.
  Proof.
    intros Ej. unfold moved. destruct (expr_eqb e (EInt 0)) eqn:E.
    - apply expr_eqb_eq in E. rewrite E in Ej. cbn in Ej. injection Ej as <-. intros Ei. exists i. split; [exact Ei|lia].
    - intros Ei. apply eval_ev in Ej, Ei. rewrite ev_sadd, Ej in Ei. destruct (ev (data m) k) as [i'| | |] eqn:Ek; try discriminate.
      exists i'. split; [apply eval_ev; exact Ek|]. injection Ei as <-. reflexivity.
  Qed.
  Lemma moved_cell m k b i B : linked y x e m -> at_cell m y k b i B <-> at_cell m x (moved e k) b i B.
  Proof.
    intros (b0 & k0 & j0 & Px & Ej & Py). split; intros (k1 & j1 & A & Hb & Ek & Ei & Hi).
    - rewrite Py in A. injection A as <- <-. exists k0, (j0 + j1). split; [exact Px|]. split; [exact Hb|].
      split; [apply moved_eval; assumption|]. split; [lia|exact Hi].
    - rewrite Px in A. injection A as <- <-. destruct (moved_eval_inv _ _ _ _ Ej Ek) as (i' & Ek' & ->).
      exists (k0 + j0), i'. split; [exact Py|]. split; [exact Hb|]. split; [exact Ek'|]. split; [lia|exact Hi].
  Qed.
  Lemma replaced_run m s s' o m1 : linked y x e m -> replaced full_kill y x e s s' -> run s m o m1 <-> run s' m o m1.
  Proof.
    intros L W. pose proof L as (b0 & k0 & j0 & Px & Ej & Py). destruct W as [d k|k v|z k|E0|k n E0 K].
    - split; intros R; inversion R as [|? ? ? ? b i B v Ha Ec| | | | | | | | | |]; subst;
        (eapply X_load; [apply (moved_cell _ _ _ _ _ L); exact Ha|exact Ec]).
    - split; intros R; inversion R as [| |? ? ? ? b i B z Ha Ev| | | | | | | | |]; subst;
        (eapply X_store; [apply (moved_cell _ _ _ _ _ L); exact Ha|exact Ev]).
    - split; intros R; inversion R as [| | |? ? ? ? b k1 j1 Ep Ek| | | | | | | |]; subst.
      + rewrite Py in Ep. injection Ep as <- <-. replace (k0 + j0 + j1) with (k0 + (j0 + j1)) by lia.
        apply X_view; [exact Px|apply moved_eval; assumption].
      + rewrite Px in Ep. injection Ep as <- <-. destruct (moved_eval_inv _ _ _ _ Ej Ek) as (i' & Ek' & ->).
        replace (k0 + (j0 + i')) with (k0 + j0 + i') by lia. apply X_view; assumption.
    - rewrite E0 in Ej. cbn in Ej. injection Ej as <-. rewrite Z.add_0_r in Py.
      split; intros R; inversion R as [| | | | |? ? ? Q| | | | | |]; subst; constructor; destruct Q as [b n f Ep Eh]; apply Released with n f; congruence.
    - unfold full_kill in K. cbn in K. rewrite String.eqb_refl in K. discriminate.
  Qed.
  Lemma linked_leaf s m m1 : leaf s = true -> full_kill y x e s = false -> run s m Next m1 -> linked y x e m -> linked y x e m1.
  Proof.
    intros Hl K R (b0 & k0 & j0 & Px & Ej & Py). unfold full_kill in K.
    apply orb_false_elim in K as [K K5]. apply orb_false_elim in K as [K K4]. apply orb_false_elim in K as [K K3]. apply orb_false_elim in K as [K1 K2].
    exists b0, k0, j0.
    assert (D : forall z v, (forall w, In w (atoms e) -> w <> z) -> eval (upd (data m) z v) e = Some j0).
    { intros z v N. apply eval_ev. apply eval_ev in Ej. rewrite <- Ej. apply ev_agree. intros w Hw. rewrite upd_other; [reflexivity|].
      intros E. apply (N w Hw). auto. }
    assert (N5 : forall z, sets z s = true -> forall w, In w (atoms e) -> w <> z).
    { intros z Hz w Hw ->. rewrite <- not_true_iff_false in K5. apply K5. apply existsb_exists. exists z. auto. }
    inversion R as [z e0 ? v Ev|z u e0 ? b i B v Ha Ec|u e0 v ? b i B z Ha Ev|z u e0 ? b k1 j1 Ep Ek|u k n ? z Ez Hz|u ? ? Q|? ? ? ? ? ? ? ? ?|? ? ? ?|? ? ? ? ? ? ? ? ?| | |];
      subst; try discriminate Hl; cbn [data ptr set_data set_ptr set_heap alloc].
    - split; [exact Px|]. split; [|exact Py]. apply D, N5. cbn. apply String.eqb_refl.
    - split; [exact Px|]. split; [|exact Py]. apply D, N5. cbn. apply String.eqb_refl.
    - auto.
    - cbn in K1, K2. apply String.eqb_neq in K1, K2. rewrite !upd_other by auto. auto.
    - cbn in K3, K4. apply String.eqb_neq in K3, K4. rewrite !upd_other by auto. auto.
    - destruct Q. cbn. auto.
  Qed.
  Lemma replaced_leaf s s' : replaced full_kill y x e s s' -> leaf s = true.
  Proof. intros W. destruct W; reflexivity. Qed.

  Definition same_run (R R' : machine -> outcome -> machine -> Prop) (b b1 : bool) : Prop :=
    forall m, (b = true -> linked y x e m) ->
      (forall o m1, R m o m1 <-> R' m o m1) /\ (forall m1, R m Next m1 -> b1 = true -> linked y x e m1).
  Theorem flow_sound :
    (forall b s s' b1, flow full_kill y x e b s s' b1 -> same_run (run s) (run s') b b1) /\
    (forall b l l' b1, flows full_kill y x e b l l' b1 -> same_run (runs l) (runs l') b b1).
  Proof.
    apply flow_both.
    - intros b s Hl m L. split; [reflexivity|]. intros m1 R K. apply andb_true_iff in K as [A B]. apply negb_true_iff in B.
      eapply linked_leaf; eauto.
    - intros s s' W m L. specialize (L eq_refl). split; [intros o m1; apply replaced_run; assumption|]. intros m1 R K. apply negb_true_iff in K.
      eapply linked_leaf; eauto using replaced_leaf.
    - intros b c p q p' q' b1 b2 _ IH1 _ IH2 m L. destruct (IH1 m L) as [A1 B1]. destruct (IH2 m L) as [A2 B2]. split.
      + intros o m1. split; intros R; inversion R as [| | | | | |? ? ? ? t ? ? Ec R1| | | | |]; subst; apply X_if with t; auto; destruct t; first [apply A1; exact R1|apply A2; exact R1].
      + intros m1 R K. apply andb_true_iff in K as [K1 K2]. inversion R as [| | | | | |? ? ? ? t ? ? Ec R1| | | | |]; subst. destruct t; auto.
    - intros b h c p p' b1 Hh _ IH m L.
      assert (L' : h = true -> linked y x e m) by (intros K; apply L, Hh, K). clear L.
      assert (Inv : forall s0 n o n1, run s0 n o n1 -> s0 = SWhile c p -> (h = true -> linked y x e n) ->
                run (SWhile c p') n o n1 /\ (o = Next -> h = true -> linked y x e n1)).
      { intros s0 n o n1 R. induction R as [| | | | | | |c0 p0 n Ec|c0 p0 n n1 o n2 Ec R1 R2 IH2|c0 p0 n v n1 Ec R1| |]; intros E Ln; try discriminate E; injection E as -> ->.
        - split; [apply X_stop; exact Ec|auto].
        - destruct (IH n Ln) as [A B]. assert (L1 : h = true -> linked y x e n1) by (intros K; apply (B n1 R1), Hh, K).
          destruct (IH2 eq_refl L1) as [C D]. split; [|exact D]. eapply X_again; [exact Ec|apply A; exact R1|exact C].
        - destruct (IH n Ln) as [A B]. split; [|discriminate]. apply X_leave; [exact Ec|apply A; exact R1]. }
      assert (Inv' : forall s0 n o n1, run s0 n o n1 -> s0 = SWhile c p' -> (h = true -> linked y x e n) -> run (SWhile c p) n o n1).
      { intros s0 n o n1 R. induction R as [| | | | | | |c0 p0 n Ec|c0 p0 n n1 o n2 Ec R1 R2 IH2|c0 p0 n v n1 Ec R1| |]; intros E Ln; try discriminate E; injection E as -> ->.
        - apply X_stop; exact Ec.
        - destruct (IH n Ln) as [A B]. apply A in R1. assert (L1 : h = true -> linked y x e n1) by (intros K; apply (B n1 R1), Hh, K).
          eapply X_again; [exact Ec|exact R1|apply IH2; auto].
        - destruct (IH n Ln) as [A B]. apply X_leave; [exact Ec|apply A; exact R1]. }
      split.
      + intros o m1. split; intros R; [exact (proj1 (Inv _ _ _ _ R eq_refl L'))|exact (Inv' _ _ _ _ R eq_refl L')].
      + intros m1 R K. exact (proj2 (Inv _ _ _ _ R eq_refl L') eq_refl K).
    - intros b r m L. split; [reflexivity|]. intros m1 R. inversion R.
    - intros b m L. split; [reflexivity|]. intros m1 R K. inversion R; subst. auto.
    - intros b s s' b1 l l' b2 _ IH1 _ IH2 m L. destruct (IH1 m L) as [A B]. split.
      + intros o m1. split; intros R; inversion R as [|? ? ? m2 ? ? R1 R2|? ? ? v ? R1]; subst.
        * assert (L1 : b1 = true -> linked y x e m2) by (intros K; exact (B m2 R1 K)). destruct (IH2 m2 L1) as [A2 _].
          eapply X_cons; [apply A; exact R1|apply A2; exact R2].
        * apply X_exit, A, R1.
        * apply A in R1. assert (L1 : b1 = true -> linked y x e m2) by (intros K; exact (B m2 R1 K)). destruct (IH2 m2 L1) as [A2 _].
          eapply X_cons; [exact R1|apply A2; exact R2].
        * apply X_exit, A, R1.
      + intros m1 R K. inversion R as [|? ? ? m2 ? ? R1 R2|]; subst. destruct (IH2 m2 (fun K1 => B m2 R1 K1)) as [_ B2]. auto.
  Qed.
  Lemma linked_view m m1 : y <> x -> run (SView y x e) m Next m1 -> linked y x e m1.
  Proof.
    intros N R. inversion R as [| | |? ? ? ? b k j Ep Ej| | | | | | | |]; subst. exists b, k, j. cbn. rewrite upd_same, upd_other by auto. auto.
  Qed.
End Sound.

Lemma while_iff c p p' : (forall m o m1, runs p m o m1 <-> runs p' m o m1) -> forall m o m1, run (SWhile c p) m o m1 <-> run (SWhile c p') m o m1.
Proof.
  assert (One : forall p p', (forall m o m1, runs p m o m1 <-> runs p' m o m1) -> forall s m o m1, run s m o m1 -> s = SWhile c p -> run (SWhile c p') m o m1).
  { clear p p'. intros p p' Hp s m o m1 R.
    induction R as [| | | | | | |c0 p0 n Ec|c0 p0 n n1 o n2 Ec R1 R2 IH2|c0 p0 n v n1 Ec R1| |]; intros E; try discriminate E; injection E as -> ->.
    - apply X_stop; exact Ec.
    - eapply X_again; [exact Ec|apply Hp; exact R1|auto].
    - apply X_leave; [exact Ec|apply Hp; exact R1]. }
  intros Hp m o m1. split; intros R; [apply (One p p') with (1 := Hp) (2 := R); reflexivity|].
  apply (One p' p) with (2 := R); [|reflexivity]. intros m0 o0 m2. symmetry. apply Hp.
Qed.
Lemma cons_iff s s' l l' : (forall m o m1, run s m o m1 <-> run s' m o m1) -> (forall m o m1, runs l m o m1 <-> runs l' m o m1) ->
  forall m o m1, runs (s :: l) m o m1 <-> runs (s' :: l') m o m1.
Proof.
  intros Hs Hl m o m1. split; intros R; inversion R as [|? ? ? m2 ? ? R1 R2|? ? ? v ? R1]; subst.
  - eapply X_cons; [apply Hs; exact R1|apply Hl; exact R2].
  - apply X_exit, Hs, R1.
  - eapply X_cons; [apply Hs; exact R1|apply Hl; exact R2].
  - apply X_exit, Hs, R1.
Qed.
Theorem propagates_sound l l' : propagates_checked l l' -> forall m o m1, runs l m o m1 <-> runs l' m o m1.
Proof.
  intros R. induction R as [y x e l l' b N F|s l l' _ IH|c p p' q l _ IH|c p q q' l _ IH|c p p' l _ IH].
  - intros m o m1.
    assert (K : forall m2, run (SView y x e) m Next m2 -> forall o m1, runs l m2 o m1 <-> runs l' m2 o m1).
    { intros m2 R1. apply (proj2 (flow_sound y x e) _ _ _ _ F). intros _. exact (linked_view y x e m m2 N R1). }
    split; intros R; inversion R as [|? ? ? m2 ? ? R1 R2|? ? ? v ? R1]; subst; try (inversion R1; fail).
    + eapply X_cons; [exact R1|apply (K m2 R1); exact R2].
    + eapply X_cons; [exact R1|apply (K m2 R1); exact R2].
  - apply cons_iff; [reflexivity|exact IH].
  - apply cons_iff; [|reflexivity]. intros m o m1. split; intros R; inversion R as [| | | | | |? ? ? ? t ? ? Ec R1| | | | |]; subst; apply X_if with t; auto; destruct t; auto; apply IH; exact R1.
  - apply cons_iff; [|reflexivity]. intros m o m1. split; intros R; inversion R as [| | | | | |? ? ? ? t ? ? Ec R1| | | | |]; subst; apply X_if with t; auto; destruct t; auto; apply IH; exact R1.
  - apply cons_iff; [|reflexivity]. apply while_iff. exact IH.
Qed.

(** * Dead references *)
(** Uses of y other than as the target of a pointer assignment: reads, writes, views
    (dead_reference_elimination.cpp:37-43). *)
Fixpoint needs (y : string) (s : stm) : bool :=
  match s with
  | SSet _ _ | SReturn _ => false
  | SLoad _ z _ | SStore z _ _ | SAlloc z _ _ | SFree z => String.eqb y z
  | SView _ z _ => String.eqb y z
  | SIf _ p q => existsb (needs y) p || existsb (needs y) q
  | SWhile _ p => existsb (needs y) p
  end.
(** The assignments to y are removed (45-52). *)
Fixpoint erase (y : string) (s : stm) : list stm :=
  match s with
  | SView z _ _ => if String.eqb y z then [] else [s]
  | SIf c p q => [SIf c (flat_map (erase y) p) (flat_map (erase y) q)]
  | SWhile c p => [SWhile c (flat_map (erase y) p)]
  | _ => [s]
  end.
(** The criteria of the pass (25-43) and the function afterwards: the container is gone
    (54-58). *)
Definition dead_ref (F : func) (y : string) : bool :=
  negb (existsb (String.eqb y) (f_args F)) && negb (existsb (needs y) (f_root F)) &&
  forallb (fun p => if String.eqb y (fst p) then negb (st_alloc (snd p)) && negb (st_free (snd p)) else true) (f_types F).
Definition drop_ref (F : func) (y : string) : func :=
  Fun (f_args F) (filter (fun p => negb (String.eqb y (fst p))) (f_types F)) (flat_map (erase y) (f_root F)).

Section Dead.
  Variable y : string.
  Let R := rel (only y) none.
  Lemma rel_drop m m' q : R m m' -> R (set_ptr m y q) m'.
  Proof.
    intros [d p c h n l]. constructor; cbn; auto.
    intros z Hz. rewrite upd_other; [apply p, Hz|exact Hz].
  Qed.
  Lemma one s m o m1 : run s m o m1 -> runs [s] m o m1.
  Proof. intros H. destruct o; [eapply X_cons; [exact H|constructor]|apply X_exit; exact H]. Qed.
  Lemma one_inv s m o m1 : runs [s] m o m1 -> run s m o m1.
  Proof. intros H. inversion H as [|? ? ? m2 ? ? R1 R2|]; subst; [inversion R2; subst; exact R1|assumption]. Qed.
  Theorem erase_sim :
    (forall s m o m1, run s m o m1 -> needs y s = false -> forall m', R m m' -> exists m1', runs (erase y s) m' o m1' /\ R m1 m1') /\
    (forall l m o m1, runs l m o m1 -> existsb (needs y) l = false -> forall m', R m m' -> exists m1', runs (flat_map (erase y) l) m' o m1' /\ R m1 m1').
  Proof.
    assert (NX : forall z, String.eqb y z = false -> ~ only y z) by (intros z H; apply String.eqb_neq in H; exact H).
    apply run_both.
    - intros z e m v Ev _ m' L. exists (set_data m' z v). split; [apply one; constructor; rewrite <- (rl_data _ _ _ _ L); exact Ev|apply rel_set_data; exact L].
    - intros z x e m b i B v Ha Ec Q m' L. cbn in Q. destruct (rel_at _ _ _ _ _ _ _ _ _ L (NX _ Q) Ha) as [_ Ha'].
      exists (set_data m' z v). split; [apply one; eapply X_load; eassumption|apply rel_set_data; exact L].
    - intros x e v m b i B z Ha Ev Q m' L. cbn in Q. destruct (rel_at _ _ _ _ _ _ _ _ _ L (NX _ Q) Ha) as [Nb Ha'].
      eexists. split; [apply one; eapply X_store; [exact Ha'|rewrite <- (rl_data _ _ _ _ L); exact Ev]|apply rel_set_heap; [exact L|exact Nb]].
    - intros z x e m b k j Ep Ej Q m' L. cbn in Q. cbn [erase]. destruct (String.eqb_spec y z) as [E|E].
      + exists m'. split; [constructor|]. rewrite <- E. apply rel_drop, L.
      + eexists. split; [apply one; eapply X_view; [rewrite <- (rl_ptr _ _ _ _ L x (NX _ Q)); exact Ep|rewrite <- (rl_data _ _ _ _ L); exact Ej]|apply rel_set_ptr; exact L].
    - intros x k n m z Ez Hz Q m' L. cbn in Q. exists (alloc m' x k z).
      split; [apply one; constructor; [rewrite <- (rl_data _ _ _ _ L); exact Ez|exact Hz]|apply rel_alloc; [exact L|apply NX, Q]].
    - intros x m m1 Hr Q m' L. cbn in Q. destruct (rel_released _ _ _ _ _ _ L (NX _ Q) Hr) as (m1' & A & B & _).
      exists m1'. split; [apply one; constructor; exact A|exact B].
    - intros c p q m t o m1 Ec _ IH Q m' L. cbn in Q. apply orb_false_elim in Q as [Q1 Q2].
      assert (Q3 : existsb (needs y) (if t then p else q) = false) by (destruct t; assumption).
      destruct (IH Q3 m' L) as (m1' & A & B). exists m1'. split; [|exact B]. apply one. apply X_if with t; [rewrite <- (rl_data _ _ _ _ L); exact Ec|]. destruct t; exact A.
    - intros c p m Ec _ m' L. exists m'. split; [|exact L]. apply one, X_stop. rewrite <- (rl_data _ _ _ _ L). exact Ec.
    - intros c p m m1 o m2 Ec _ IH1 _ IH2 Q m' L. destruct (IH1 Q m' L) as (m1' & A & B). destruct (IH2 Q m1' B) as (m2' & A2 & B2).
      exists m2'. split; [|exact B2]. apply one. apply one_inv in A2. eapply X_again; [rewrite <- (rl_data _ _ _ _ L); exact Ec|exact A|exact A2].
    - intros c p m v m1 Ec _ IH Q m' L. destruct (IH Q m' L) as (m1' & A & B). exists m1'. split; [|exact B]. apply one, X_leave; [rewrite <- (rl_data _ _ _ _ L); exact Ec|exact A].
    - intros m _ m' L. exists m'. split; [|exact L]. apply one. constructor.
    - intros e m v Ev _ m' L. exists m'. split; [|exact L]. apply one. constructor. rewrite <- (rl_data _ _ _ _ L). exact Ev.
    - intros m _ m' L. exists m'. split; [constructor|exact L].
    - intros a p m m1 o m2 _ IH1 _ IH2 Q m' L. cbn in Q. apply orb_false_elim in Q as [Q1 Q2].
      destruct (IH1 Q1 m' L) as (m1' & A & B). destruct (IH2 Q2 m1' B) as (m2' & A2 & B2).
      exists m2'. split; [|exact B2]. cbn [flat_map]. apply runs_app. left. exists m1'. split; [exact A|exact A2].
    - intros a p m v m1 _ IH Q m' L. cbn in Q. apply orb_false_elim in Q as [Q1 Q2].
      destruct (IH Q1 m' L) as (m1' & A & B). exists m1'. split; [|exact B]. cbn [flat_map]. apply runs_app. right. exists v. split; [reflexivity|exact A].
  Qed.

  Definition kept_types (l : list (string * storage)) := filter (fun p : string * storage => negb (String.eqb y (fst p))) l.
  Definition unmanaged (l : list (string * storage)) : bool :=
    forallb (fun p : string * storage => if String.eqb y (fst p) then negb (st_alloc (snd p)) && negb (st_free (snd p)) else true) l.
  Lemma kept_out l z : only y z -> ~ In z (map fst (kept_types l)).
  Proof.
    intros <- K. apply in_map_iff in K as ([z t] & E & K). apply filter_In in K as [_ K]. cbn in *. rewrite E, String.eqb_refl in K. discriminate.
  Qed.
  Lemma entry_kept l : unmanaged l = true -> forall m m1, entry l m m1 -> entry (kept_types l) m m1.
  Proof.
    induction l as [|[z t] l IH]; intros U m m1 E; [exact E|]. cbn in U. apply andb_true_iff in U as [U1 U2]. cbn. destruct (String.eqb y z) eqn:Ez; cbn.
    - apply andb_true_iff in U1 as [U1 _]. apply negb_true_iff in U1. inversion E; subst; [auto|congruence].
    - inversion E; subst; [apply E_skip; auto|eapply E_alloc; eauto].
  Qed.
  Lemma exits_kept l : unmanaged l = true -> forall m m1, exits l m m1 -> exits (kept_types l) m m1.
  Proof.
    induction l as [|[z t] l IH]; intros U m m1 E; [exact E|]. cbn in U. apply andb_true_iff in U as [U1 U2]. cbn. destruct (String.eqb y z) eqn:Ez; cbn.
    - apply andb_true_iff in U1 as [_ U1]. apply negb_true_iff in U1. inversion E; subst; [auto|congruence].
    - inversion E; subst; [apply Q_skip; auto|eapply Q_free; eauto].
  Qed.
  Theorem drop_ref_sim F m o mf : dead_ref F y = true -> call F m o mf -> exists mf', call (drop_ref F y) m o mf' /\ R mf mf'.
  Proof.
    intros D C. unfold dead_ref in D. apply andb_true_iff in D as [D U]. apply andb_true_iff in D as [_ D]. apply negb_true_iff in D.
    destruct C as [m1 m2 m3 E B Q].
    apply (entry_kept _ U) in E. apply (exits_kept _ U) in Q.
    assert (L1 : R m1 m1) by (constructor; auto; intros b []).
    destruct (proj2 erase_sim _ _ _ _ B D m1 L1) as (m2' & B' & L2).
    destruct (exits_rel (only y) none _ (kept_out (f_types F)) _ _ _ Q L2) as (m3' & Q' & L3 & _).
    exists (drop_stack m3'). split; [econstructor; eassumption|].
    destruct L3 as [d p c h n l]. constructor; cbn; auto; try (intros c0 K; elim K; fail).
    intros c0 Hb. rewrite (h c0 Hb). reflexivity.
  Qed.
End Dead.
