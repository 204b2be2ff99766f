(** C70: local storage for an output of a loop. *)
From Coq Require Import ZArith List Bool String Lia.
From Verif Require Import Sym SymFacts SymFuns SymProofs1 IR IRFacts PassCFGProps LoopTile LoopIter LoopProps GraphProps While2ForProofs PassInline MapFusionProps SerialProofs OutLocal.
Import ListNotations.
Local Open Scope string_scope.
Local Open Scope list_scope.
Local Open Scope Z_scope.

(** [groups] lists the uses of [A] in the loop body; an access node that is the only use
    has one memlet (the code does not compare several). *)
Definition lists_uses (groups : list (list (list expr))) (A : string) (body : seq) : Prop :=
  (forall s, In s (concat groups) <-> In s (usesS A body)) /\ (forall g, groups = [g] -> List.length g = 1%nat).

Lemma sub_eqb_eq a b : sub_eqb a b = true -> a = b.
Proof.
  unfold sub_eqb. intros H. apply andb_true_iff in H as [H1 H2]. apply Nat.eqb_eq in H1. revert b H1 H2.
  induction a as [|x a IH]; intros [|y b] H1 H2; try discriminate; auto. cbn in H2. apply andb_true_iff in H2 as [H2 H3]. apply expr_eqb_eq in H2. f_equal; auto.
Qed.
Lemma not_existsb l m : existsb (fun x => existsb (String.eqb x) m) l = false -> forall x : string, In x l -> ~ In x m.
Proof.
  intros H x Hx Q. assert (existsb (fun x => existsb (String.eqb x) m) l = true); [|congruence].
  apply existsb_exists. exists x. split; auto. apply existsb_exists. exists x. split; auto. apply String.eqb_refl.
Qed.
(** what acceptance says *)
Lemma accepted groups A i init c body sub arr : can_be_applied groups i init c body = Some (sub, arr) -> lists_uses groups A body ->
  In sub (usesS A body) /\ (forall s, In s (usesS A body) -> s = sub) /\ (forall x, In x (concat (map atoms sub)) -> ~ In x (swrites body)) /\
  (arr = true <-> In i (concat (map atoms sub))) /\ (arr = true -> iteration_count i init c <> None).
Proof.
  intros H [U1 U2]. unfold can_be_applied in H. destruct groups as [|[|sub0 more] others]; try discriminate.
  destruct (_ && _) eqn:C in H; [|discriminate]. apply andb_true_iff in C as [C1 C2]. apply negb_true_iff in C2. pose proof (not_existsb _ _ C2) as NW. clear C2.
  assert (SB: sub = sub0) by (destruct (existsb _ _); [destruct (iteration_count i init c)|]; congruence). subst sub0.
  assert (ALL: forall g s, In g ((sub :: more) :: others) -> In s g -> s = sub).
  { intros g s Hg Hs. destruct others as [|g2 others].
    - destruct Hg as [<-|[]]. specialize (U2 _ eq_refl). destruct more; [|discriminate]. destruct Hs as [<-|[]]. reflexivity.
    - rewrite forallb_forall in C1. specialize (C1 g Hg). apply andb_true_iff in C1 as [_ C1]. rewrite forallb_forall in C1. symmetry. apply sub_eqb_eq, C1, Hs. }
  assert (MORE: forall x, In x (concat (map atoms (concat (sub :: more)))) <-> In x (concat (map atoms sub))).
  { intros x. split; intros Hx.
    - apply in_concat in Hx as (l & Hl & Hx). apply in_map_iff in Hl as (e & <- & He). apply in_concat in He as (s & Hs & He).
      rewrite (ALL (sub :: more) s) in He; [|left; reflexivity|exact Hs]. apply in_concat. exists (atoms e). split; [apply in_map; exact He|exact Hx].
    - cbn [concat]. rewrite map_app, concat_app. apply in_or_app. left. exact Hx. }
  split; [apply U1; cbn; auto|]. split.
  { intros s Hs. apply U1 in Hs. apply in_concat in Hs as (g & Hg & Hs). exact (ALL g s Hg Hs). }
  split; [intros x Hx; apply NW, MORE, Hx|].
  destruct (existsb (String.eqb i) (concat (map atoms (concat (sub :: more))))) eqn:EI.
  - assert (Hi: In i (concat (map atoms sub))) by (apply existsb_exists in EI as (y & Hy & Q); apply String.eqb_eq in Q; subst y; apply MORE; exact Hy).
    destruct (iteration_count i init c) eqn:IC; [|discriminate]. injection H as <-. split; [tauto|intros _; discriminate].
  - injection H as <-. split; [|discriminate]. split; [discriminate|]. intros Hi. apply MORE in Hi.
    assert (existsb (String.eqb i) (concat (map atoms (concat (sub :: more)))) = true); [|congruence]. apply existsb_exists. exists i. split; [exact Hi|apply String.eqb_refl].
Qed.

(** The loop with the copies around it computes what the loop did: every execution of
    the loop, its transition and the rest of the sequence has a counterpart that ends
    the same way with the same memory except the new container. [I cpy]: the assign
    tasklet. *)
Theorem C70_scalar_partial : forall I cpy A L groups sub k i init c u body a r st o st',
  can_be_applied groups i init c body = Some (sub, false) -> lists_uses groups A body ->
  (forall v, I cpy [v] = Some v) ->
  (* the new name is new; a container used as a symbol in the loop header is a scalar *)
  A <> L -> ~ In L (snames (SCons (NLoop k i init c u body) a r)) -> (In A (i :: atoms init ++ catoms c ++ atoms u) -> sub = []) ->
  (* not checked by the code *)
  noretS body = true -> (exists j, evals (env_of st) sub = Some j) ->
  ~ In A (asg_names a) -> (forall x, In x (map fst a) -> ~ In x (concat (map atoms sub))) ->
  runs I (SCons (NLoop k i init c u body) a r) st o st' ->
  exists st'', runs I (local_scalar cpy A L sub (NLoop k i init c u body) a r) st o st'' /\ forall x j, x <> L -> st'' x j = st' x j.
Proof.
  intros I cpy A L groups sub k i init c u body a r st o st' ACC LU CP AL NL HD NR (j0 & EJ) NA WA R.
  destruct (accepted _ A _ _ _ _ _ _ ACC LU) as (IN & ALL & NW & AI & _).
  assert (NI: ~ In i (concat (map atoms sub))) by (intros Q; apply AI in Q; discriminate).
  cbn [snames] in NL. rewrite !in_app_iff in NL. set (p := NLoop k i init c u body) in *.
  assert (Lsub: ~ In L (concat (map atoms sub))).
  { intros Q. destruct (proj1 (proj2 (uses_in A L sub Q)) body IN) as [Q1 _]. apply NL. left. cbn [p nnames]. right. rewrite !in_app_iff. auto. }
  assert (Asub: ~ In A (concat (map atoms sub))).
  { intros Q. destruct (proj1 (proj2 (uses_in A A sub Q)) body IN) as [_ Q1]. specialize (ALL [] (Q1 eq_refl)). rewrite <- ALL in Q. destruct Q. }
  set (D := fun x => x = L). set (K := fun (w j : list Z) => w = [] /\ j = j0). set (t := wr st L [] (st A j0)).
  assert (H0: held A L D K st t).
  { split; [intros w j [-> ->]; unfold t; apply wr_same|]. intros x j Hx _. unfold t. apply wr_other. left. intros ->. apply Hx. reflexivity. }
  assert (HR: here sub [] [] j0 st) by (split; [exact EJ|reflexivity]).
  inversion R as [|n a0 r0 s0 s1 s2 o0 s3 R1 EA R2|n a0 r0 s0 o0 s3 R1 NO]; subst.
  2:{ exfalso. destruct (loop_exit _ _ _ _ _ _ _ _ _ _ R1) as [->|(q & ->)]; [auto|]. eapply (proj1 (noret_run I)); [exact R1|exact NR|reflexivity]. }
  assert (KF: forall w j j', K w j -> K w j' -> j = j') by (intros w j j' [_ X] [_ Y]; congruence).
  assert (KI: forall w w' j, K w j -> K w' j -> w = w') by (intros w w' j [X _] [Y _]; congruence).
  assert (LS: ~ In A (concat (map atoms (@nil expr))) /\ avoids D (concat (map atoms (@nil expr)))) by (split; [intros []|intros x []]).
  destruct (proj1 (held_sim I A L sub [] D K [] j0 KF KI (conj eq_refl eq_refl) eq_refl (fun _ => eq_refl) LS)
    p st ONorm s1 R1 t) as (t1 & R1' & H1 & HR1).
  - intros x Hx ->. apply NL. left. exact Hx.
  - intros s Hs. cbn [p usesN] in Hs. apply in_app_or in Hs as [Hs|Hs]; [|apply ALL; exact Hs]. apply sym_use_in in Hs as [-> Hs]. symmetry. apply HD. exact Hs.
  - intros x Hx. split; [|intros []]. intros Q. cbn [p nwrites] in Hx. destruct Hx as [<-|Hx]; [auto|exact (NW x Q Hx)].
  - exact H0.
  - exact HR.
  - destruct (held_trans A L D K a s1 t1 s2) as (t2 & EA' & H2 & TD & _); auto; [reflexivity|intros x Hx ->; apply NL; right; left; exact Hx|].
    assert (HR2: evals (env_of s2) sub = Some j0).
    { rewrite <- (proj1 HR1). apply evs_agree. intros x Hx. apply (exec_assigns_writes a _ _ EA). intros Q. exact (WA x Q Hx). }
    assert (ET: evals (env_of t2) sub = Some j0).
    { rewrite <- HR2. apply evs_agree. intros x Hx. unfold env_of. apply (proj2 H2); [intros ->; auto|left; intros ->; auto]. }
    set (t3 := wr t2 A j0 (t2 L [])).
    assert (E3: eqx D s2 t3).
    { intros x Hx j. unfold t3, wr. destruct (String.eqb A x && idx_eqb j0 j) eqn:E.
      - apply andb_true_iff in E as [E1 E2]. apply String.eqb_eq in E1. apply idx_eqb_eq in E2. subst. symmetry. apply (proj1 H2). split; reflexivity.
      - symmetry. apply (proj2 H2); auto. destruct (String.eqb_spec A x) as [<-|N]; [|left; congruence]. right. intros w [_ ->]. assert (idx_eqb j0 j0 = true) by (apply idx_eqb_eq; reflexivity). cbn in E. congruence. }
    destruct (runs_frame I r s2 o st' D t3 R2 E3) as (st'' & R3 & E4).
    { intros x Hx ->. apply NL. right. right. apply (proj1 (proj2 names_reads)). exact Hx. }
    exists st''. split; [|intros x j Hx; symmetry; apply E4; exact Hx].
    unfold local_scalar. eapply R_cons; [|reflexivity|].
    + apply R_block. cbn [exec_block]. unfold exec_op. cbn [copy_op o_ins o_sub o_code o_out reads_in read_in evals]. rewrite EJ, CP. reflexivity.
    + eapply R_cons; [exact R1'|exact EA'|]. eapply R_cons; [|reflexivity|exact R3].
      apply R_block. cbn [exec_block]. unfold exec_op. cbn [copy_op o_ins o_sub o_code o_out reads_in read_in evals]. rewrite ET, CP. reflexivity.
Qed.

(* ================================================================= *)
(** ** The array *)
Lemma held_iter I (A L : string) (sub : list expr) (i : string) (body : seq) (D : string -> Prop) (K : list Z -> list Z -> Prop) (e : env) (vs : list Z) : D L -> ~ D i -> i <> A ->
  (forall w j j', K w j -> K w j' -> j = j') -> (forall w w' j, K w j -> K w' j -> w = w') -> (forall v, In v vs -> exists j, elem i sub e v j /\ K [v] j) ->
  avoids D (snames body) -> sub <> [] -> (forall s, In s (usesS A body) -> s = sub) -> (forall x, In x (concat (map atoms sub)) -> ~ In x (swrites body)) -> ~ In i (swrites body) ->
  forall l a b t, (forall v, In v l -> In v vs) -> iterL (raw I i body) l a b -> held A L D K a t -> (forall x, In x (concat (map atoms sub)) -> x <> i -> e x = env_of a x) ->
  exists t', iterL (raw I i (ols_seq A L [ESym i] body)) l t t' /\ held A L D K b t' /\ (forall x, In x (concat (map atoms sub)) -> x <> i -> e x = env_of b x).
Proof.
  intros DL Di iA KF KI EX NB SN ALL NW Ni. induction l as [|w l IH]; intros a b t LV R H AG.
  - exists t. split; [apply eqx_refl|]. cbn [iterL] in R. split; [|intros x Hx N; rewrite AG by auto; apply (R x); auto].
    destruct H as [H1 H2]. split; [intros v j Hv; rewrite <- (R A (fun X => X)); auto|intros x j Hx Q; rewrite <- (R x (fun X => X)); auto].
  - destruct R as (m & (o & Ho & R) & RL). destruct (EX w (LV w (or_introl eq_refl))) as (j & Ej & Kj).
    assert (HW: held A L D K (wr a i [] w) (wr t i [] w)).
    { destruct H as [H1 H2]. split; [intros v k Hv; rewrite !wr_other; auto; left; intros ->; auto|]. intros x k Hx Q. unfold wr. destruct (String.eqb i x && idx_eqb [] k); auto. }
    assert (EA: forall x, env_of (wr a i [] w) x = upd (env_of a) i w x) by (intros x; apply env_wr_scalar).
    assert (HH: here sub [ESym i] [w] j (wr a i [] w)).
    { split; [|cbn [evals]; unfold eval; cbn [ev]; rewrite EA; unfold upd; rewrite String.eqb_refl; reflexivity].
      assert (Q: elem i sub (env_of a) w j) by (eapply elem_agree; eauto). unfold elem in Q. rewrite <- Q. apply evs_agree. intros x _. apply EA. }
    assert (LS: ~ In A (concat (map atoms [ESym i])) /\ avoids D (concat (map atoms [ESym i]))) by (cbn; split; [intros [Q|[]]; auto|intros x [<-|[]]; exact Di]).
    destruct (proj1 (proj2 (held_sim I A L sub [ESym i] D K [w] j KF KI Kj DL (fun Q => False_ind _ (SN Q)) LS)) body _ _ _ R (wr t i [] w)) as (t1 & R1 & H1 & _); auto.
    { intros x Hx. split; [intros Q; exact (NW x Q Hx)|]. cbn. intros [<-|[]]. auto. }
    destruct (IH m b t1) as (t' & Lt & Ht & Ag); auto.
    { intros v Hv. apply LV. right. exact Hv. }
    { intros x Hx N. rewrite AG by auto. unfold env_of. rewrite (runs_writes I _ _ _ _ x [] R (NW x Hx)). symmetry. apply wr_other. auto. }
    exists t'. split; [exists t1; split; [exists o; auto|exact Lt]|auto].
Qed.
Lemma subs_same e x r : ~ In x (atoms e) -> subs e x r = e.
Proof. intros H. apply subs_unused. destruct (uses e x) eqn:E; auto. apply uses_atoms in E. contradiction. Qed.
Lemma csubs_same c x r : ~ In x (catoms c) -> csubs c x r = c.
Proof. intros H. apply csubs_unused. destruct (cuses c x) eqn:E; auto. apply cuses_catoms in E. contradiction. Qed.
(** The loop with the local array: the index of each iteration's element can be
    computed, and different iterations use different elements. *)
Theorem C70_array_partial : forall I cpy A L z groups sub k i init c u body a r st o st',
  can_be_applied groups i init c body = Some (sub, true) -> lists_uses groups A body -> (forall v, I cpy [v] = Some v) ->
  (* the new names are new; the container is not a symbol of the header *)
  A <> L -> A <> z -> L <> z -> ~ In L (snames (SCons (NLoop k i init c u body) a r)) -> ~ In z (snames (SCons (NLoop k i init c u body) a r)) ->
  ~ In A (i :: atoms init ++ catoms c ++ atoms u) ->
  (* not checked by the code *)
  noretS body = true -> sbrk body = false -> stable i c u body -> (forall x, In x (atoms init) -> ~ In x (i :: swrites body)) ->
  ~ In A (asg_names a) -> (forall x, In x (map fst a) -> ~ In x (atoms init ++ catoms c ++ atoms u ++ concat (map atoms sub))) ->
  (forall v vs e, eval (env_of st) init = Some v -> trip (env_of st) i c u v vs e ->
     (forall w, In w vs -> exists j, evals (upd (env_of st) i w) sub = Some j) /\
     (forall w w' j, In w vs -> In w' vs -> evals (upd (env_of st) i w) sub = Some j -> evals (upd (env_of st) i w') sub = Some j -> w = w')) ->
  runs I (SCons (NLoop k i init c u body) a r) st o st' ->
  exists st'', runs I (local_array cpy A L z sub k i init c u body a r) st o st'' /\ forall x j, x <> L -> x <> z -> st'' x j = st' x j.
Proof.
  intros I cpy A L z groups sub k i init c u body a r st o st' ACC LU CP AL Az Lz NL Nz NAH NR NB ST NI NA WA EL R.
  destruct (accepted _ A _ _ _ _ _ _ ACC LU) as (IN & ALL & NW & AI & _). pose proof (proj1 AI eq_refl) as Hi.
  assert (SN: sub <> []) by (intros ->; destruct Hi).
  cbn [snames nnames In] in NL, Nz. rewrite in_app_iff in NL, Nz. cbn [In] in NL, Nz, NAH. do 4 (rewrite in_app_iff in NL). do 4 (rewrite in_app_iff in Nz). do 2 (rewrite in_app_iff in NAH).
  assert (Lsub: ~ In L (concat (map atoms sub))) by (intros Q; destruct (proj1 (proj2 (uses_in A L sub Q)) body IN) as [Q1 _]; apply NL; auto 9).
  assert (zsub: ~ In z (concat (map atoms sub))) by (intros Q; destruct (proj1 (proj2 (uses_in A z sub Q)) body IN) as [Q1 _]; apply Nz; auto 9).
  assert (Asub: ~ In A (concat (map atoms sub))).
  { intros Q. destruct (proj1 (proj2 (uses_in A A sub Q)) body IN) as [_ Q1]. specialize (ALL [] (Q1 eq_refl)). congruence. }
  inversion R as [|n a0 r0 s0 s1 s2 o0 s3 R1 EA R2|n a0 r0 s0 o0 s3 R1 NO]; subst.
  2:{ exfalso. destruct (loop_exit _ _ _ _ _ _ _ _ _ _ R1) as [->|(q & ->)]; [auto|]. eapply (proj1 (noret_run I)); [exact R1|exact NR|reflexivity]. }
  inversion R1 as [| | | |k0 i0 init0 c0 u0 b0 st0 v o0 st0' EV RL| | |]. subst.
  destruct (loop_iter I i c u body ST NB st v s1 RL) as (vs & b & TR & IT & E1).
  destruct (EL v vs _ EV TR) as [EX INJ].
  set (D := fun x => x = L \/ x = z). set (K := fun (w j : list Z) => exists w1, w = [w1] /\ In w1 vs /\ elem i sub (env_of st) w1 j).
  (* copies in *)
  destruct (fill I cpy A L z i sub CP AL Az Lz Lsub zsub Asub (env_of st) vs EX st (fun _ _ _ => eq_refl)) as (t0 & I0 & F1 & F2 & F3).
  assert (TZ: trip (env_of st) z (csubs c i (ESym z)) (subs u i (ESym z)) v vs (s1 i [])).
  { eapply trip_rename; [|intros; reflexivity|exact TR]. right. rewrite in_app_iff. intros [Q|Q]; apply Nz; auto 9. }
  assert (CU: forall x, In x (catoms (csubs c i (ESym z)) ++ atoms (subs u i (ESym z))) -> x = z \/ (x <> i /\ In x (catoms c ++ atoms u))).
  { intros x Hx. apply in_app_or in Hx as [Hx|Hx]; [apply catoms_subs in Hx|apply atoms_subs in Hx]; (destruct Hx as [[Hx Q]|[Hx|[]]]; [right; split; [auto|apply in_or_app; auto]|auto]). }
  assert (HN: forall x, In x (catoms c ++ atoms u) -> x <> A /\ x <> L /\ x <> z).
  { intros x Hx. apply in_app_or in Hx as [Hx|Hx]; repeat split; intros ->; first [solve [apply NAH; auto 9]|solve [apply NL; auto 9]|apply Nz; auto 9]. }
  assert (SZ: forall y l, y <> z -> swrites l = [y] -> (forall x, In x (catoms c ++ atoms u) -> x <> y) -> stable z (csubs c i (ESym z)) (subs u i (ESym z)) l).
  { intros y l Ny El Q. unfold stable. rewrite El. split; [intros [X|[]]; auto|]. intros x Hx [<-|[]]. destruct (CU y Hx) as [->|[_ X]]; [auto|exact (Q y X eq_refl)]. }
  destruct (iter_loop I z _ _ (cin cpy A L z i sub) (SZ L (cin cpy A L z i sub) Lz eq_refl (fun x Hx => proj1 (proj2 (HN x Hx)))) vs st t0 v _ TZ I0) as (q0 & RL0 & E0).
  assert (Q0: forall x j, x <> z -> q0 x j = t0 x j) by (intros x j N; rewrite (E0 x (fun X => X)); apply wr_other; auto).
  assert (KF: forall w j j', K w j -> K w j' -> j = j') by (intros w j j' (w1 & -> & _ & X) (w2 & Q & _ & Y); injection Q as <-; unfold elem in *; congruence).
  assert (KI: forall w w' j, K w j -> K w' j -> w = w') by (intros w w' j (w1 & -> & H1 & X) (w2 & -> & H2 & Y); f_equal; eapply INJ; eauto).
  assert (H0: held A L D K st q0).
  { split; [intros w j (w1 & -> & Hw & Ew); rewrite Q0 by auto; apply F1; auto|]. intros x j Hx _. unfold D in Hx. rewrite Q0 by auto. apply F3; auto. }
  (* the loop *)
  assert (iA: i <> A) by (intros ->; apply NAH; auto). assert (iL: i <> L) by (intros ->; apply NL; auto). assert (iz: i <> z) by (intros ->; apply Nz; auto).
  destruct (held_iter I A L sub i body D K (env_of st) vs) with (l := vs) (a := st) (b := b) (t := q0) as (t1 & IT1 & H1 & AG1); auto.
  { left. reflexivity. } { intros [X|X]; auto. }
  { intros w Hw. destruct (EX w Hw) as (j & Ej). exists j. split; [exact Ej|]. exists w. auto. }
  { intros x Hx [-> | ->]; [apply NL|apply Nz]; auto 9. }
  assert (STO: stable i c u (ols_seq A L [ESym i] body)).
  { split; [intros X; apply (proj1 (proj2 (ols_writes A L [ESym i] i))) in X as [X|X]; [auto|exact (proj1 ST X)]|].
    intros x Hx X. apply (proj1 (proj2 (ols_writes A L [ESym i] x))) in X as [X|X]; [exact (proj1 (proj2 (HN x Hx)) X)|exact (proj2 ST x Hx X)]. }
  assert (TQ: trip (env_of q0) i c u v vs (s1 i [])).
  { eapply trip_agree; [|exact TR]. intros x Hx _. destruct (HN x Hx) as (_ & X & Y). unfold env_of. rewrite Q0 by auto. symmetry. apply F3; auto. }
  destruct (iter_loop I i c u _ STO vs q0 t1 v _ TQ IT1) as (q1 & RL1 & E1').
  assert (HS: held A L D K s1 q1).
  { destruct H1 as [X Y]. split.
    - intros w j Hw. rewrite (E1' L (fun Q => Q)), (E1 A (fun Q => Q)). rewrite !wr_other by auto. auto.
    - intros x j Hx Q. rewrite (E1' x (fun Q => Q)), (E1 x (fun Q => Q)). unfold wr. destruct (String.eqb i x && idx_eqb [] j); auto. }
  (* the transition *)
  destruct (held_trans A L D K a s1 q1 s2) as (t2 & EA' & H2 & TD & TW); auto; [left; reflexivity|intros [X|X]; auto|intros x Hx [-> | ->]; [apply NL|apply Nz]; auto 9|].
  assert (KEEP: forall x, In x (atoms init ++ catoms c ++ atoms u) -> x <> i -> env_of st x = env_of t2 x).
  { intros x Hx Nx. unfold env_of. assert (WX: ~ In x (swrites body)) by (apply in_app_or in Hx as [Hx|Hx]; [intros X; exact (NI x Hx (or_intror X))|exact (proj2 ST x Hx)]).
    assert (AX: ~ In x (map fst a)) by (intros X; apply (WA x X); rewrite !in_app_iff in *; tauto).
    assert (NX: x <> A /\ x <> L /\ x <> z) by (apply in_app_or in Hx as [Hx|Hx]; [repeat split; intros ->; first [solve [apply NAH; auto 9]|solve [apply NL; auto 9]|apply Nz; auto 9]|apply HN; exact Hx]).
    destruct NX as (X1 & X2 & X3). rewrite (proj2 H2) by (unfold D; auto; intros [?|?]; auto). rewrite (exec_assigns_writes a _ _ EA x AX).
    symmetry. apply (run_writes I _ _ _ _ x [] R1). cbn [nwrites]. intros [X|X]; auto. }
  assert (EI: eval (env_of t2) init = Some v).
  { rewrite <- EV. unfold eval. rewrite (ev_agree (env_of t2) (env_of st)); [reflexivity|]. intros x Hx. symmetry. apply KEEP; [apply in_or_app; auto|]. intros ->. exact (NI i Hx (or_introl eq_refl)). }
  assert (TZ2: trip (env_of t2) z (csubs c i (ESym z)) (subs u i (ESym z)) v vs (s1 i [])).
  { eapply trip_agree; [|exact TZ]. intros x Hx Nx. destruct (CU x Hx) as [->|[N X]]; [congruence|]. apply KEEP; [apply in_or_app; auto|exact N]. }
  destruct (spill I cpy A L z i sub CP AL Az Lz Lsub zsub Asub (env_of st) vs EX INJ t2) as (t3 & I3 & B1 & B2 & B3).
  { intros x Hx Nx. rewrite AG1 by auto. unfold env_of. assert (AX: ~ In x (map fst a)) by (intros X; apply (WA x X); rewrite !in_app_iff; auto).
    rewrite (TW x [] AX), (E1' x (fun Q => Q)), wr_other by auto. symmetry. apply (proj2 H1); [intros [-> | ->]; auto|left; intros ->; auto]. }
  destruct (iter_loop I z _ _ (cout cpy A L z i sub) (SZ A (cout cpy A L z i sub) Az eq_refl (fun x Hx => proj1 (HN x Hx))) vs t2 t3 v _ TZ2 I3) as (q3 & RL3 & E3).
  assert (Q3: forall x j, x <> z -> q3 x j = t3 x j) by (intros x j N; rewrite (E3 x (fun X => X)); apply wr_other; auto).
  assert (EQ: eqx D s2 q3).
  { intros x Hx j. assert (xL: x <> L) by (intros ->; apply Hx; left; reflexivity). assert (xz: x <> z) by (intros ->; apply Hx; right; reflexivity). rewrite Q3 by auto.
    destruct (String.eqb_spec x A) as [->|N]; [|rewrite B3 by auto; symmetry; apply (proj2 H2); auto].
    assert (DEC: forall w, {elem i sub (env_of st) w j} + {~ elem i sub (env_of st) w j}).
    { intros w. unfold elem. destruct (evals (upd (env_of st) i w) sub) as [l|]; [|right; discriminate]. destruct (list_eq_dec Z.eq_dec l j) as [->|X]; [left; reflexivity|right; congruence]. }
    destruct (Exists_dec (fun w => elem i sub (env_of st) w j) vs DEC) as [X|X].
    - apply Exists_exists in X as (w & Hw & Ew). rewrite (B1 w j Hw Ew). symmetry. apply (proj1 H2). exists w. auto.
    - assert (Y: forall w, In w vs -> ~ elem i sub (env_of st) w j) by (intros w Hw Ew; apply X; apply Exists_exists; exists w; auto).
      rewrite (B2 j Y). symmetry. apply (proj2 H2); [intros [?|?]; auto|]. right. intros w (w1 & _ & Hw & Ew). exact (Y w1 Hw Ew). }
  destruct (runs_frame I r s2 o st' D q3 R2 EQ) as (st'' & R3 & E4).
  { intros x Hx Q. apply (proj1 (proj2 names_reads)) in Hx. destruct Q as [-> | ->]; [apply NL|apply Nz]; auto 9. }
  exists st''. split; [|intros x j X Y; symmetry; apply E4; intros [?|?]; auto].
  unfold local_array, copy_loop. eapply R_cons; [|reflexivity|].
  - eapply R_loop; [exact EV|exact RL0].
  - eapply R_cons; [|exact EA'|].
    + cbn [ols_node rename]. destruct (String.eqb_spec A i) as [X|_]; [congruence|]. unfold oE.
      rewrite (subs_same init), (csubs_same c), (subs_same u) by (intros X; apply NAH; auto 9).
      eapply R_loop; [|exact RL1]. rewrite <- EV. unfold eval. rewrite (ev_agree (env_of q0) (env_of st)); [reflexivity|].
      intros x Hx. unfold env_of. assert (X: x <> L /\ x <> z) by (split; intros ->; [apply NL|apply Nz]; auto 9). destruct X. rewrite Q0 by auto. apply F3; auto.
    + eapply R_cons; [eapply R_loop; [exact EI|exact RL3]|reflexivity|exact R3].
Qed.

(** The size of the local array: for a loop [i < b] that counts up, iterations lie
    between the first index [v] and [v + n]. The array is indexed with [i] itself, so
    they fit if the loop starts at 0. *)
Theorem C70_array_size_partial : forall i init b u n s v vs e,
  iteration_count i init (CLt (ESym i) b) = Some n -> ~ In i (atoms b) -> (forall w w', eval (upd s i w) u = Some w' -> w < w') ->
  eval s init = Some v -> trip s i (CLt (ESym i) b) u v vs e -> (forall w, In w vs -> v <= w < v + n) /\ (v = 0 -> forall w, In w vs -> 0 <= w < n).
Proof.
  intros i init b u n s v vs e IC NB UP EV TR. assert (Q: forall w, In w vs -> v <= w < v + n); [|split; [exact Q|intros -> w Hw; apply Q in Hw; lia]].
  unfold iteration_count, count1 in IC. assert (EI: expr_eqb (ESym i) (ESym i) = true) by (cbn; apply String.eqb_refl). rewrite !EI in IC.
  destruct (ssub b init) as [z| | | | | | | | | | | | | |] eqn:ES; try discriminate. injection IC as ->.
  assert (EB: forall w, ev (upd s i w) b = ev s b) by (intros w; apply ev_agree; intros x Hx; unfold upd; destruct (String.eqb_spec i x); [congruence|reflexivity]).
  pose proof (ev_ssub s b init) as E. rewrite ES in E. cbn [ev] in E. apply eval_ev in EV. rewrite EV in E. cbn [xmul] in E.
  assert (EBv: ev s b = Fin (v + n)) by (destruct (ev s b) as [q| | |]; cbn [xadd] in E; try discriminate; assert (EE: n = q + -1 * v) by congruence; rewrite EE; f_equal; ring).
  pose proof (trip_incr _ _ _ _ _ _ _ UP TR) as (T1 & _). intros w Hw. split; [apply T1; exact Hw|].
  clear - TR Hw EB EBv. revert Hw. assert (C: forall w', cev (upd s i w') (CLt (ESym i) b) = Some true -> w' < v + n).
  { intros w' C. cbn [cev] in C. rewrite EB, EBv in C. cbn [ev] in C. unfold upd in C. rewrite String.eqb_refl in C. cbn in C. injection C as C. apply negb_true_iff, Z.leb_gt in C. exact C. }
  clear EBv. revert C. generalize (v + n) as m. intros m C. induction TR as [v1 H|v1 v' vs e H1 H2 H3 IH]; intros Hw; [destruct Hw|]. destruct Hw as [<-|Hw]; auto.
Qed.

(* ================================================================= *)
(** ** The hypotheses are met *)
Definition one_op (code : nat) (x : string) (sx : list expr) (y : string) (sy : list expr) : node := NBlock [{| o_code := code; o_ins := [ORead x sx]; o_out := y; o_sub := sy |}].
(** opcode 0 copies, opcode 1 adds one *)
Definition I1 (c : nat) (l : list Z) : option Z := match c, l with 0%nat, [v] => Some v | 1%nat, [v] => Some (v + 1) | _, _ => None end.
Definition up_to (n : expr) : cond := CLt (ESym "i") n.
Definition inc : expr := EAdd [EInt 1; ESym "i"].
(** for (i = 0; i < N; i++) A[k] = A[k] + 1 *)
Definition c70_body (s : list expr) : seq := SCons (one_op 1 "A" s "A" s) [] SNil.
Definition c70_st (n : Z) : store := fun x j => if String.eqb x "N" then n else if String.eqb x "k" then 5 else match j with [q] => 10 + q | _ => 0 end.
Example C70_scalar_hypotheses : let body := c70_body [ESym "k"] in let groups := [[[ESym "k"]]; [[ESym "k"]]] in
  can_be_applied groups "i" (EInt 0) (up_to (ESym "N")) body = Some ([ESym "k"], false) /\ lists_uses groups "A" body /\
  noretS body = true /\ ~ In "L" (snames (SCons (NLoop KFor "i" (EInt 0) (up_to (ESym "N")) inc body) [] SNil)) /\
  match xseq I1 60 (SCons (NLoop KFor "i" (EInt 0) (up_to (ESym "N")) inc body) [] SNil) (c70_st 3), xseq I1 60 (local_scalar 0 "A" "L" [ESym "k"] (NLoop KFor "i" (EInt 0) (up_to (ESym "N")) inc body) [] SNil) (c70_st 3) with
  | Some (ONorm, s), Some (ONorm, t) => s "A" [5] = 18 /\ t "A" [5] = 18
  | _, _ => False
  end.
Proof.
  split; [vm_compute; reflexivity|]. split; [split; [intros s; cbn; tauto|intros g Q; discriminate Q]|]. split; [reflexivity|]. split; [cbn; intuition discriminate|vm_compute; split; reflexivity].
Qed.
Example C70_array_hypotheses : let body := c70_body [ESym "i"] in let groups := [[[ESym "i"]]; [[ESym "i"]]] in let c := up_to (EInt 3) in
  can_be_applied groups "i" (EInt 0) c body = Some ([ESym "i"], true) /\ lists_uses groups "A" body /\ stable "i" c inc body /\ sbrk body = false /\
  (forall v vs e, eval (env_of (c70_st 3)) (EInt 0) = Some v -> trip (env_of (c70_st 3)) "i" c inc v vs e ->
     (forall w, In w vs -> exists j, evals (upd (env_of (c70_st 3)) "i" w) [ESym "i"] = Some j) /\
     (forall w w' j, In w vs -> In w' vs -> evals (upd (env_of (c70_st 3)) "i" w) [ESym "i"] = Some j -> evals (upd (env_of (c70_st 3)) "i" w') [ESym "i"] = Some j -> w = w')) /\
  match xseq I1 60 (local_array 0 "A" "L" "z" [ESym "i"] KFor "i" (EInt 0) c inc body [] SNil) (c70_st 3) with Some (ONorm, t) => t "A" [2] = 13 | _ => False end.
Proof.
  split; [vm_compute; reflexivity|]. split; [split; [intros s; cbn; tauto|intros g Q; discriminate Q]|].
  split; [split; [cbn; intuition discriminate|intros x Hx; cbn in *; intuition (subst; discriminate)]|]. split; [reflexivity|]. split; [|vm_compute; reflexivity].
  intros v vs e _ _. split; [intros w _; exists [w]; reflexivity|]. intros w w' j _ _ E1 E2. cbn in E1, E2. congruence.
Qed.

(* ================================================================= *)
(** ** What the code does not check *)
Definition differs (I : nat -> list Z -> option Z) (p q : seq) (st : store) (x : string) : Prop :=
  exists o s1 s2 j, runs I p st o s1 /\ runs I q st o s2 /\ s1 x j <> s2 x j.
Definition differI (I : nat -> list Z -> option Z) (p q : seq) (st : store) (x : string) (j : list Z) : bool :=
  match xseq I 60 p st, xseq I 60 q st with
  | Some (ONorm, s1), Some (ONorm, s2) => negb (s1 x j =? s2 x j)
  | Some (ORet _, s1), Some (ORet _, s2) => negb (s1 x j =? s2 x j)
  | _, _ => false
  end.
Lemma differ_ok I p q st x j : differI I p q st x j = true -> (forall o s1, runs I p st o s1 -> forall o' s2, runs I q st o' s2 -> o = o') -> differs I p q st x.
Proof.
  unfold differI. intros H O. destruct (xseq I 60 p st) as [[o1 s1]|] eqn:E1; [|discriminate]. destruct (xseq I 60 q st) as [[o2 s2]|] eqn:E2; [|destruct o1; discriminate].
  apply xseq_runs in E1, E2. pose proof (O _ _ E1 _ _ E2) as <-. exists o1, s1, s2, j. split; [exact E1|]. split; [exact E2|].
  destruct o1; try discriminate; apply negb_true_iff, Z.eqb_neq in H; exact H.
Qed.
Lemma same_out I p q st r r' o : xseq I 60 p st = Some (o, r) -> xseq I 60 q st = Some (o, r') -> forall o1 s1, runs I p st o1 s1 -> forall o2 s2, runs I q st o2 s2 -> o1 = o2.
Proof. intros H1 H2 o1 s1 R1 o2 s2 R2. apply xseq_runs in H1, H2. destruct (runs_det _ _ _ _ _ _ _ H1 R1) as [-> _]. destruct (runs_det _ _ _ _ _ _ _ H2 R2) as [-> _]. reflexivity. Qed.
Ltac differ_by I p q st x j := apply (differ_ok I p q st x j); [vm_compute; reflexivity|eapply (same_out I p q st); vm_compute; reflexivity].

(** One access node with two memlets: the indices are not compared.
    for (..) { B[0] = A[0]; C[0] = A[1] }, both reads from one node *)
Theorem C70_one_node_refuted : exists A L groups sub i init c u body st x,
  can_be_applied groups i init c body = Some (sub, false) /\ (forall s, In s (concat groups) <-> In s (usesS A body)) /\ x <> L /\
  differs I1 (SCons (NLoop KFor i init c u body) [] SNil) (local_scalar 0 A L sub (NLoop KFor i init c u body) [] SNil) st x.
Proof.
  pose (body := SCons (NBlock [{| o_code := 0%nat; o_ins := [ORead "A" [EInt 0]]; o_out := "B"; o_sub := [EInt 0] |}; {| o_code := 0%nat; o_ins := [ORead "A" [EInt 1]]; o_out := "C"; o_sub := [EInt 0] |}]) [] SNil).
  exists "A", "L", [[[EInt 0]; [EInt 1]]], [EInt 0], "i", (EInt 0), (up_to (EInt 1)), inc, body, (c70_st 3), "C".
  split; [vm_compute; reflexivity|]. split; [intros s; cbn; tauto|]. split; [discriminate|].
  differ_by I1 (SCons (NLoop KFor "i" (EInt 0) (up_to (EInt 1)) inc body) [] SNil) (local_scalar 0 "A" "L" [EInt 0] (NLoop KFor "i" (EInt 0) (up_to (EInt 1)) inc body) [] SNil) (c70_st 3) "C" [0].
Qed.
(** The copy back comes after the transition of the loop: { for (..) s = s + 1 ; y := s } *)
Theorem C70_transition_refuted : exists A L groups sub i init c u body a st x,
  can_be_applied groups i init c body = Some (sub, false) /\ lists_uses groups A body /\ x <> L /\
  differs I1 (SCons (NLoop KFor i init c u body) a SNil) (local_scalar 0 A L sub (NLoop KFor i init c u body) a SNil) st x.
Proof.
  exists "A", "L", [[[]]; [[]]], [], "i", (EInt 0), (up_to (EInt 2)), inc, (c70_body []), [("y", ESym "A")], (c70_st 3), "y".
  split; [vm_compute; reflexivity|]. split; [split; [intros s; cbn; tauto|intros g Q; discriminate Q]|]. split; [discriminate|].
  differ_by I1 (SCons (NLoop KFor "i" (EInt 0) (up_to (EInt 2)) inc (c70_body [])) [("y", ESym "A")] SNil) (local_scalar 0 "A" "L" [] (NLoop KFor "i" (EInt 0) (up_to (EInt 2)) inc (c70_body [])) [("y", ESym "A")] SNil) (c70_st 3) "y" (@nil Z).
Qed.
(** ... and stores to another element: { for (..) A[k] = A[k] + 1 ; k := k + 1 } *)
Theorem C70_index_moved_refuted : exists A L groups sub i init c u body a st x,
  can_be_applied groups i init c body = Some (sub, false) /\ lists_uses groups A body /\ x <> L /\
  differs I1 (SCons (NLoop KFor i init c u body) a SNil) (local_scalar 0 A L sub (NLoop KFor i init c u body) a SNil) st x.
Proof.
  exists "A", "L", [[[ESym "k"]]; [[ESym "k"]]], [ESym "k"], "i", (EInt 0), (up_to (EInt 2)), inc, (c70_body [ESym "k"]), [("k", EAdd [EInt 1; ESym "k"])], (c70_st 3), "A".
  split; [vm_compute; reflexivity|]. split; [split; [intros s; cbn; tauto|intros g Q; discriminate Q]|]. split; [discriminate|].
  differ_by I1 (SCons (NLoop KFor "i" (EInt 0) (up_to (EInt 2)) inc (c70_body [ESym "k"])) [("k", EAdd [EInt 1; ESym "k"])] SNil) (local_scalar 0 "A" "L" [ESym "k"] (NLoop KFor "i" (EInt 0) (up_to (EInt 2)) inc (c70_body [ESym "k"])) [("k", EAdd [EInt 1; ESym "k"])] SNil) (c70_st 3) "A" [5].
Qed.
(** A return inside the loop loses the value. *)
Theorem C70_return_refuted : exists A L groups sub i init c u body st x,
  can_be_applied groups i init c body = Some (sub, false) /\ lists_uses groups A body /\ x <> L /\
  differs I1 (SCons (NLoop KFor i init c u body) [] SNil) (local_scalar 0 A L sub (NLoop KFor i init c u body) [] SNil) st x.
Proof.
  pose (body := SCons (one_op 1 "A" [ESym "k"] "A" [ESym "k"]) [] (SCons (NReturn "N") [] SNil)).
  exists "A", "L", [[[ESym "k"]]; [[ESym "k"]]], [ESym "k"], "i", (EInt 0), (up_to (EInt 2)), inc, body, (c70_st 3), "A".
  split; [vm_compute; reflexivity|]. split; [split; [intros s; cbn; tauto|intros g Q; discriminate Q]|]. split; [discriminate|].
  differ_by I1 (SCons (NLoop KFor "i" (EInt 0) (up_to (EInt 2)) inc body) [] SNil) (local_scalar 0 "A" "L" [ESym "k"] (NLoop KFor "i" (EInt 0) (up_to (EInt 2)) inc body) [] SNil) (c70_st 3) "A" [5].
Qed.
(** Iterations that share an element: for (i = 0; i < 2; i++) A[i / 2] = A[i / 2] + 1 *)
Theorem C70_shared_element_refuted : exists A L z groups sub i init c u body st x,
  can_be_applied groups i init c body = Some (sub, true) /\ lists_uses groups A body /\ x <> L /\ x <> z /\
  differs I1 (SCons (NLoop KFor i init c u body) [] SNil) (local_array 0 A L z sub KFor i init c u body [] SNil) st x.
Proof.
  pose (s := [EIdiv (ESym "i") (EInt 2)]).
  exists "A", "L", "z", [[s]; [s]], s, "i", (EInt 0), (up_to (EInt 2)), inc, (c70_body s), (c70_st 3), "A".
  split; [vm_compute; reflexivity|]. split; [split; [intros t; cbn; tauto|intros g Q; discriminate Q]|]. split; [discriminate|]. split; [discriminate|].
  differ_by I1 (SCons (NLoop KFor "i" (EInt 0) (up_to (EInt 2)) inc (c70_body s)) [] SNil) (local_array 0 "A" "L" "z" s KFor "i" (EInt 0) (up_to (EInt 2)) inc (c70_body s) [] SNil) (c70_st 3) "A" [0].
Qed.
(** The local array has one element for each iteration but is indexed with the loop
    variable: for (i = 4; i < 8; i++) A[i] = A[i] + 1 uses elements 4 to 7 of an array
    of 4. *)
Theorem C70_array_offset_refuted : exists groups sub i init c u body n v vs e w,
  can_be_applied groups i init c body = Some (sub, true) /\ lists_uses groups "A" body /\ iteration_count i init c = Some n /\
  eval (env_of (c70_st 3)) init = Some v /\ trip (env_of (c70_st 3)) i c u v vs e /\ In w vs /\ ~ (0 <= w < n).
Proof.
  exists [[[ESym "i"]]; [[ESym "i"]]], [ESym "i"], "i", (EInt 4), (up_to (EInt 8)), inc, (c70_body [ESym "i"]), 4, 4, [4; 5; 6; 7], 8, 4.
  split; [vm_compute; reflexivity|]. split; [split; [intros t; cbn; tauto|intros g Q; discriminate Q]|]. split; [vm_compute; reflexivity|]. split; [reflexivity|].
  split; [repeat (eapply T_next; [reflexivity|reflexivity|]); apply T_end; reflexivity|]. split; [cbn; auto|lia].
Qed.
(** A loop that counts down gets an array of negative size: for (i = 10; 5 < i; i--) *)
Theorem C70_count_down_refuted : exists groups sub i init c body n,
  can_be_applied groups i init c body = Some (sub, true) /\ lists_uses groups "A" body /\ iteration_count i init c = Some n /\ n < 0 /\
  cev (upd (fun _ => 0) i 10) c = Some true /\ init = EInt 10.
Proof.
  exists [[[ESym "i"]]; [[ESym "i"]]], [ESym "i"], "i", (EInt 10), (CLt (EInt 5) (ESym "i")), (c70_body [ESym "i"]), (-5).
  split; [vm_compute; reflexivity|]. split; [split; [intros t; cbn; tauto|intros g Q; discriminate Q]|]. split; [vm_compute; reflexivity|]. split; [lia|]. split; reflexivity.
Qed.
(** A loop without iterations whose index cannot be computed: for (i = 0; i < N; i++)
    A[8 / N] = .. with N = 0 *)
Theorem C70_no_iteration_refuted : exists A L groups sub i init c u body st,
  can_be_applied groups i init c body = Some (sub, false) /\ lists_uses groups A body /\
  (exists s, runs I1 (SCons (NLoop KFor i init c u body) [] SNil) st ONorm s) /\
  ~ exists o s, runs I1 (local_scalar 0 A L sub (NLoop KFor i init c u body) [] SNil) st o s.
Proof.
  pose (s := [EIdiv (EInt 8) (ESym "N")]).
  exists "A", "L", [[s]; [s]], s, "i", (EInt 0), (up_to (ESym "N")), inc, (c70_body s), (c70_st 0).
  split; [vm_compute; reflexivity|]. split; [split; [intros t; cbn; tauto|intros g Q; discriminate Q]|]. split.
  - eexists. eapply R_cons; [eapply R_loop; [reflexivity|]; apply R_lend; reflexivity|reflexivity|apply R_nil].
  - intros (o & s' & R). inversion R as [|n a0 r0 s0 s1 s2 o0 s3 R1 EA R2|n a0 r0 s0 o0 s3 R1 NO]; subst.
    + inversion R1 as [b0 st0 st1 EB| | | | | | |]; subst. vm_compute in EB. discriminate.
    + inversion R1 as [b0 st0 st1 EB| | | | | | |]; subst. congruence.
Qed.
