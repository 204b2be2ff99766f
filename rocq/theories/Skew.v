(** Loop skewing: model of sdfg/src/transformations/loop_skewing.cpp. *)
From Verif Require Import Sym SymFacts SymFuns SymProofs1 IR IRFacts IRRefine PassCFG PassInline Subst TypesProofs.

(** the offset f * (i - init) (loop_skewing.cpp:83-84) *)
Definition skew_offset (f : Z) (i : string) (init : expr) : expr := smul (EInt f) (ssub (ESym i) init).
(** LoopSkewing::can_be_applied and ::apply (loop_skewing.cpp:40-104), on the outer
    loop node.  [None]: not applicable. *)
Definition skew (f : Z) (n : node) : option node :=
  match n with
  | NLoop k i init c u (SCons (NLoop KMap j init2 c2 u2 body) [] SNil) =>
      if (f =? 0) || uses init2 i || cuses c2 i || uses u2 i then None
      else
        let off := skew_offset f i init in
        let e := ssub (ESym j) off in
        Some (NLoop k i init c u (SCons (NLoop KMap j (sadd init2 off) (csubs c2 j e) u2 (repl_seq j e body)) [] SNil))
  | _ => None
  end.

Lemma split_ints_in l : forall x, In x (snd (split_ints l)) -> In x l.
Proof.
  induction l as [|e l IH]; simpl; intros x H; [elim H|]. destruct (split_ints l) as [zs r]. destruct e; simpl in *; intuition.
Qed.
Lemma atoms_list (l : list expr) (g : expr -> list expr) r x :
  (forall e, concat (map atoms (g e)) = atoms e) -> (forall y, In y r -> In y (concat (map g l))) ->
  In x (concat (map atoms r)) -> exists e, In e l /\ In x (atoms e).
Proof.
  intros G H Hx. apply in_concat in Hx as (q & Hq & Hx). apply in_map_iff in Hq as (y & <- & Hy). apply H in Hy.
  apply in_concat in Hy as (q & Hq & Hy). apply in_map_iff in Hq as (e & <- & He). exists e. split; auto. rewrite <- G. apply in_concat. exists (atoms y). split; [apply in_map; exact Hy|exact Hx].
Qed.
Lemma atoms_sadd a b x : In x (atoms (sadd a b)) -> In x (atoms a) \/ In x (atoms b).
Proof.
  intros H. assert (exists e, In e [a; b] /\ In x (atoms e)) as (e & [<-|[<-|[]]] & He); auto.
  apply (atoms_list [a; b] add_args (snd (split_ints (concat (map add_args [a; b]))))).
  - intros []; simpl; rewrite ?app_nil_r; reflexivity.
  - apply split_ints_in.
  - unfold sadd, sadd_list in H. destruct (split_ints _) as [zs r]. simpl. destruct r as [|e1 [|e2 r]]; [elim H| |]; destruct (_ =? _); simpl in *; rewrite ?app_nil_r in *; auto.
Qed.
Lemma atoms_smul a b x : In x (atoms (smul a b)) -> In x (atoms a) \/ In x (atoms b).
Proof.
  intros H. assert (exists e, In e [a; b] /\ In x (atoms e)) as (e & [<-|[<-|[]]] & He); auto.
  apply (atoms_list [a; b] mul_args (snd (split_ints (concat (map mul_args [a; b]))))).
  - intros []; simpl; rewrite ?app_nil_r; reflexivity.
  - apply split_ints_in.
  - unfold smul, smul_list in H. destruct (split_ints _) as [zs r]. simpl. destruct r as [|e1 [|e2 r]]; [elim H| |]; destruct (_ =? 1); simpl in *; rewrite ?app_nil_r; auto;
      destruct (_ && _); simpl in *; rewrite ?app_nil_r in *; auto; elim H.
Qed.
Lemma atoms_ssub a b x : In x (atoms (ssub a b)) -> In x (atoms a) \/ In x (atoms b).
Proof. intros H. apply atoms_sadd in H as [H|H]; auto. apply atoms_smul in H as [[]|H]; auto. Qed.

Section Inner.
  Variables (I : nat -> list Z -> option Z) (j : string) (off : expr) (u : expr) (body : seq).
  Let e := ssub (ESym j) off.
  Hypothesis Hj : ~ In j (atoms off).
  Hypothesis K : forall x, In x (swrites body) -> x <> j /\ ~ In x (atoms off).
  Hypothesis D : ~ In j (sdata body).
  (** the update commutes with shifting the loop variable *)
  Hypothesis U : forall s v w d, eval (upd s j v) u = Some w -> eval (upd s j (v + d)) u = Some (w + d).

  Lemma e_keeps : keeps j e (swrites body).
  Proof. intros x Hx. destruct (K x Hx) as [A1 A2]. split; auto. intros Q. apply atoms_ssub in Q as [[Q|[]]|Q]; auto. Qed.
  Lemma e_val b d : eval (env_of b) off = Some d -> eval (env_of b) e = Some (b j [] - d).
  Proof. intros H. apply eval_ssub; [reflexivity|exact H]. Qed.
  Definition shifted (d : Z) (a b : store) : Prop :=
    (forall x k, x <> j -> b x k = a x k) /\ eval (env_of b) off = Some d /\ b j [] = a j [] + d.
  Lemma shifted_sv d a b : shifted d a b -> same_value j e a b.
  Proof. intros (A & B & C). split; auto. rewrite (e_val b d B). f_equal. lia. Qed.
  Lemma off_keep (a b : store) d : (forall x, In x (atoms off) -> b x [] = a x []) -> eval (env_of a) off = Some d -> eval (env_of b) off = Some d.
  Proof. intros H <-. unfold eval. rewrite (ev_agree _ (env_of a)); auto. Qed.
  Lemma shifted_body d a b o a' : shifted d a b -> runs I body a o a' -> exists b', runs I (repl_seq j e body) b o b' /\ shifted d a' b'.
  Proof.
    intros S R. destruct (proj1 (proj2 (subst_sim I j e)) _ _ _ _ R b e_keeps D (shifted_sv d a b S)) as (b' & Rb & V1 & V2).
    exists b'. split; auto. destruct S as (A & B & C).
    assert (O': eval (env_of b') off = Some d).
    { apply (off_keep b); auto. intros x Hx. assert (x <> j) by (intros ->; auto). rewrite V1, A by auto.
      apply (runs_writes I _ _ _ _ x [] R). intros Q. apply (K x Q). exact Hx. }
    split; auto. split; auto. rewrite (e_val b' d O') in V2. injection V2. lia.
  Qed.
  Lemma shifted_wr d a b v : shifted d a b -> shifted d (wr a j [] v) (wr b j [] (v + d)).
  Proof.
    intros (A & B & C). split; [|split].
    - intros x k N. rewrite !IRFacts.wr_other; auto.
    - apply (off_keep b); auto. intros x Hx. rewrite IRFacts.wr_other; auto. left. intros ->. auto.
    - rewrite !wr_same. reflexivity.
  Qed.
  Lemma shifted_u d a b v : shifted d a b -> eval (env_of a) u = Some v -> eval (env_of b) u = Some (v + d).
  Proof.
    intros (A & B & C) H. transitivity (eval (upd (env_of a) j (a j [] + d)) u).
    - unfold eval. rewrite (ev_agree _ (upd (env_of a) j (a j [] + d))); auto. intros x _. unfold upd, env_of. destruct (String.eqb_spec j x) as [<-|]; auto.
    - apply U. rewrite <- H. unfold eval. rewrite (ev_agree _ (env_of a)); auto. intros x _. unfold upd, env_of. destruct (String.eqb_spec j x) as [<-|]; auto.
  Qed.
  (** for any new condition with the value of the old one *)
  Lemma shifted_loop_gen d c c' a o a' : runl I j c u body a o a' -> (forall x y q, shifted d x y -> cev (env_of x) c = Some q -> cev (env_of y) c' = Some q) ->
    forall b, shifted d a b -> exists b', runl I j c' u (repl_seq j e body) b o b' /\ shifted d a' b'.
  Proof.
    intros R C. remember j as j0 eqn:Ej in R at 1. remember u as u0 eqn:Eu in R. remember body as s0 eqn:Es in R. revert Ej Eu Es C.
    induction R as [i0 c0 u0 s0 st H|i0 c0 u0 s0 st o1 st1 v o0 st' H H0 H1 H2 R IH|i0 c0 u0 s0 st st' H H0|i0 c0 u0 s0 st r st' H H0]; intros Ej Eu Es C b S; subst i0 u0 s0;
      pose proof (C st b _ S H) as Hc.
    - exists b. split; auto. apply R_lend. exact Hc.
    - destruct (shifted_body d st b o1 st1 S H0) as (b1 & R1 & S1).
      destruct (IH eq_refl eq_refl eq_refl C (wr b1 j [] (v + d)) (shifted_wr _ _ _ _ S1)) as (b2 & R2 & S2).
      exists b2. split; auto. eapply R_lnext; eauto. eapply shifted_u; eauto.
    - destruct (shifted_body d st b _ st' S H0) as (b1 & R1 & S1). exists b1. split; auto. apply R_lbreak; auto.
    - destruct (shifted_body d st b _ st' S H0) as (b1 & R1 & S1). exists b1. split; auto. apply R_lret; auto.
  Qed.
  Lemma shifted_loop d c a o a' : runl I j c u body a o a' -> forall b, shifted d a b -> exists b', runl I j (csubs c j e) u (repl_seq j e body) b o b' /\ shifted d a' b'.
  Proof.
    intros R. eapply shifted_loop_gen; [exact R|]. intros x y q S H. rewrite (sv_cev j e x y c); [exact H|]. apply (shifted_sv d). exact S.
  Qed.
End Inner.

Section Outer.
  Variables (I : nat -> list Z -> option Z) (f : Z) (k : kind) (i : string) (init : expr) (c : cond) (u : expr) (j : string) (init2 : expr) (c2 : cond) (u2 : expr) (body : seq).
  Hypothesis Nij : i <> j.
  Hypothesis Hinit : forall x, In x (atoms init) -> x <> i /\ x <> j /\ ~ In x (swrites body).
  Hypothesis Hc : ~ In j (catoms c).
  Hypothesis Hu : ~ In j (atoms u).
  Hypothesis Hi2 : ~ In j (atoms init2).
  Hypothesis Wb : ~ In i (swrites body) /\ ~ In j (swrites body).
  Hypothesis D : ~ In j (sdata body).
  Hypothesis U : forall s v w d, eval (upd s j v) u2 = Some w -> eval (upd s j (v + d)) u2 = Some (w + d).
  Let off := skew_offset f i init.
  Let e := ssub (ESym j) off.
  Let inner := SCons (NLoop KMap j init2 c2 u2 body) [] SNil.
  Let inner' := SCons (NLoop KMap j (sadd init2 off) (csubs c2 j e) u2 (repl_seq j e body)) [] SNil.

  Definition same_but_j (a b : store) : Prop := forall x q, x <> j -> b x q = a x q.
  Lemma off_atoms x : In x (atoms off) -> x = i \/ In x (atoms init).
  Proof. intros H. apply atoms_smul in H as [[]|H]. apply atoms_ssub in H as [[<-|[]]|H]; auto. Qed.
  Lemma sb_eval a b d : same_but_j a b -> ~ In j (atoms d) -> eval (env_of b) d = eval (env_of a) d.
  Proof. intros S N. unfold eval. rewrite (ev_agree _ (env_of a)); auto. intros x Hx. apply S. intros ->. auto. Qed.
  Lemma sb_cev a b d : same_but_j a b -> ~ In j (catoms d) -> cev (env_of b) d = cev (env_of a) d.
  Proof. intros S N. apply cev_agree. intros x Hx. apply S. intros ->. auto. Qed.
  Lemma init_nj : ~ In j (atoms init). Proof. intros H. apply Hinit in H. tauto. Qed.

  Lemma inner_sim w a o a' : eval (env_of a) init = Some w -> runs I inner a o a' -> forall b, same_but_j a b ->
    exists b', runs I inner' b o b' /\ same_but_j a' b' /\ eval (env_of a') init = Some w.
  Proof.
    intros Hw R b S. set (d := f * (a i [] - w)).
    assert (Od: eval (env_of b) off = Some d).
    { unfold off, skew_offset. apply eval_smul; [reflexivity|]. apply eval_ssub; [|rewrite (sb_eval a b) by auto using init_nj; exact Hw]. unfold eval. cbn. unfold env_of. rewrite S by auto. reflexivity. }
    assert (Nj: ~ In j (atoms off)) by (intros H; apply off_atoms in H as [H|H]; [auto|exact (init_nj H)]).
    assert (K: forall x, In x (swrites body) -> x <> j /\ ~ In x (atoms off)).
    { intros x Hx. split; [intros ->; tauto|]. intros H. apply off_atoms in H as [->|H]; [tauto|]. apply Hinit in H. tauto. }
    assert (G: forall o1 a1, run I (NLoop KMap j init2 c2 u2 body) a o1 a1 ->
      exists b1, run I (NLoop KMap j (sadd init2 off) (csubs c2 j e) u2 (repl_seq j e body)) b o1 b1 /\ same_but_j a1 b1 /\ eval (env_of a1) init = Some w).
    { intros o1 a1 R1. assert (F: eval (env_of a1) init = Some w).
      { rewrite <- Hw. unfold eval. rewrite (ev_agree _ (env_of a)); auto. intros x Hx. apply (run_writes I _ _ _ _ x [] R1). simpl. destruct (Hinit x Hx) as (A1 & A2 & A3). intuition. }
      inversion R1; subst. assert (RL : runl I j c2 u2 body (wr a j [] v) o1 a1) by assumption.
      assert (Ev: eval (env_of a) init2 = Some v) by assumption.
      destruct (shifted_loop I j off u2 body Nj K D U d c2 _ _ _ RL (wr b j [] (v + d))) as (b1 & Rb & (B1 & _)).
      { split; [|split].
        - intros x q N. rewrite !IRFacts.wr_other; auto.
        - apply (off_keep off b); auto. intros x Hx. rewrite IRFacts.wr_other; auto. left. intros ->. auto.
        - rewrite !wr_same. reflexivity. }
      exists b1. split; [|split; [exact B1|exact F]]. econstructor; [|exact Rb]. apply eval_sadd; auto. rewrite (sb_eval a b); auto. }
    inversion R; subst.
    - match goal with H : runs _ SNil _ _ _ |- _ => inversion H; subst end. match goal with H : exec_assigns _ _ = _ |- _ => injection H as <- end.
      destruct (G ONorm st1) as (b1 & Rb & S1 & W1); auto. exists b1. split; auto. eapply R_cons; [exact Rb|reflexivity|apply R_nil].
    - destruct (G o a') as (b1 & Rb & S1 & W1); auto. exists b1. split; auto. apply R_exit; auto.
  Qed.
  Lemma outer_sim w o a a' : runl I i c u inner a o a' -> eval (env_of a) init = Some w -> forall b, same_but_j a b ->
    exists b', runl I i c u inner' b o b' /\ same_but_j a' b'.
  Proof.
    intros R. remember i as i0 eqn:Ei in R at 1. remember c as c0 eqn:Ec in R. remember u as u0 eqn:Eu in R. remember inner as s0 eqn:Es in R. revert Ei Ec Eu Es.
    induction R as [i0 c0 u0 s0 st H|i0 c0 u0 s0 st o1 st1 v o0 st' H H0 H1 H2 R IH|i0 c0 u0 s0 st st' H H0|i0 c0 u0 s0 st r st' H H0]; intros Ei Ec Eu Es W b S; subst i0 c0 u0 s0;
      pose proof (sb_cev st b c S Hc) as Q; rewrite H in Q.
    - exists b. split; auto. apply R_lend. exact Q.
    - destruct (inner_sim w _ _ _ W H0 b S) as (b1 & R1 & S1 & W1).
      destruct (IH eq_refl eq_refl eq_refl eq_refl) with (b := wr b1 i [] v) as (b2 & R2 & S2).
      + rewrite <- W1. unfold eval. rewrite (ev_agree _ (env_of st1)); auto. intros x Hx. unfold env_of. rewrite IRFacts.wr_other; auto. left. apply Hinit in Hx. intuition.
      + intros x q N. unfold wr. destruct (_ && _); auto.
      + exists b2. split; auto. eapply R_lnext; eauto. rewrite (sb_eval st1 b1); auto.
    - destruct (inner_sim w _ _ _ W H0 b S) as (b1 & R1 & S1 & _). exists b1. split; auto. apply R_lbreak; auto.
    - destruct (inner_sim w _ _ _ W H0 b S) as (b1 & R1 & S1 & _). exists b1. split; auto. apply R_lret; auto.
  Qed.
  Lemma skew_run a o a' : run I (NLoop k i init c u inner) a o a' ->
    exists b', run I (NLoop k i init c u inner') a o b' /\ same_but_j a' b'.
  Proof.
    intros R. inversion R; subst. assert (RL : runl I i c u inner (wr a i [] v) o a') by assumption. assert (Ev : eval (env_of a) init = Some v) by assumption.
    destruct (outer_sim v _ _ _ RL) with (b := wr a i [] v) as (b' & R' & S'); [|intros x q _; reflexivity|].
    - rewrite <- Ev. unfold eval. rewrite (ev_agree _ (env_of a)); auto. intros x Hx. unfold env_of. rewrite IRFacts.wr_other; auto. left. apply Hinit in Hx. intuition.
    - exists b'. split; auto. econstructor; eauto.
  Qed.
End Outer.
