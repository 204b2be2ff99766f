(** Running the operations of a block in different orders. *)
From Coq Require Import List String ZArith Bool Arith Lia Permutation.
From Verif Require Import Sym SymFacts IR IRFacts DataFlow DataFlowProofs.
Import ListNotations.
Local Open Scope nat_scope.

(** containers and symbols an operation reads *)
Definition op_uses (o : op) : list string := concat (map opnames (o_ins o)) ++ concat (map atoms (o_sub o)).
Definition conflict (a b : op) : Prop := o_out a = o_out b \/ In (o_out a) (op_uses b) \/ In (o_out b) (op_uses a).
Definition same_result (a b : option store) : Prop :=
  match a, b with Some s, Some s' => forall x i, s x i = s' x i | None, None => True | _, _ => False end.

Lemma same_refl a : same_result a a.
Proof. destruct a; simpl; auto. Qed.
Lemma same_sym a b : same_result a b -> same_result b a.
Proof. destruct a, b; simpl; auto. Qed.
Lemma same_trans a b c : same_result a b -> same_result b c -> same_result a c.
Proof. destruct a, b, c; simpl; auto; try contradiction. intros H1 H2 x i. rewrite H1. auto. Qed.

Section E.
Variable I : nat -> list Z -> option Z.
Lemma op_agree a b o : (forall x, In x (op_uses o) -> forall i, a x i = b x i) ->
  reads_in a (o_ins o) = reads_in b (o_ins o) /\ evals (env_of a) (o_sub o) = evals (env_of b) (o_sub o).
Proof.
  intros H. unfold op_uses in H.
  assert (EV : forall l, (forall x, In x (concat (map atoms l)) -> forall i, a x i = b x i) -> evals (env_of a) l = evals (env_of b) l).
  { intros l Hl. apply evals_eqx with (D := fun x => ~ In x (concat (map atoms l))).
    - intros x Hx i. apply Hl. destruct (in_dec String.string_dec x (concat (map atoms l))); [auto|contradiction].
    - intros x Hx Hn. contradiction. }
  split.
  - assert (H' : forall x, In x (concat (map opnames (o_ins o))) -> forall i, a x i = b x i) by (intros x Hx; apply H, in_or_app; auto).
    clear H. induction (o_ins o) as [|p l IH]; simpl; auto.
    simpl in H'. rewrite IH by (intros x Hx; apply H', in_or_app; auto).
    assert (E : read_in a p = read_in b p); [|rewrite E; reflexivity].
    destruct p as [z|y sub]; simpl; auto. simpl in H'.
    rewrite (EV sub) by (intros x Hx; apply H'; right; apply in_or_app; auto).
    destruct (evals (env_of b) sub); auto. f_equal. apply H'. left; auto.
  - apply EV. intros x Hx. apply H, in_or_app; auto.
Qed.
Lemma exec_op_same a b o : (forall x i, a x i = b x i) -> same_result (exec_op I a o) (exec_op I b o).
Proof.
  intros H. destruct (op_agree a b o) as [E1 E2]; [auto|]. unfold exec_op. rewrite E1, E2.
  destruct (reads_in b (o_ins o)); simpl; auto. destruct (evals (env_of b) (o_sub o)); simpl; auto.
  destruct (I (o_code o) l); simpl; auto. intros x i. unfold wr. destruct (String.eqb _ _ && _)%bool; auto.
Qed.
Lemma exec_same bl : forall a b, (forall x i, a x i = b x i) -> same_result (exec_block I a bl) (exec_block I b bl).
Proof.
  induction bl as [|o bl IH]; intros a b H; simpl; auto.
  pose proof (exec_op_same a b o H) as E. destruct (exec_op I a o), (exec_op I b o); simpl in E; try contradiction; simpl; auto.
Qed.
Lemma exec_app a bl bl' : exec_block I a (bl ++ bl') = match exec_block I a bl with Some s => exec_block I s bl' | None => None end.
Proof. revert a; induction bl as [|o bl IH]; intros a; simpl; auto. destruct (exec_op I a o); auto. Qed.
Lemma exec_app_same a bl bl1 bl2 : (forall s, same_result (exec_block I s bl1) (exec_block I s bl2)) ->
  same_result (exec_block I a (bl ++ bl1)) (exec_block I a (bl ++ bl2)).
Proof. intros H. rewrite !exec_app. destruct (exec_block I a bl); simpl; auto. Qed.

Lemma swap o p s bl : ~ conflict o p -> same_result (exec_block I s (o :: p :: bl)) (exec_block I s (p :: o :: bl)).
Proof.
  intros NC. unfold conflict in NC.
  assert (F : forall q r v i, ~ In (o_out q) (op_uses r) ->
    reads_in (wr s (o_out q) i v) (o_ins r) = reads_in s (o_ins r) /\
    evals (env_of (wr s (o_out q) i v)) (o_sub r) = evals (env_of s) (o_sub r)).
  { intros q r v i Hn. apply op_agree. intros x Hx j. apply wr_other. left. intros E. subst x. contradiction. }
  set (comp := fun s r => match reads_in s (o_ins r), evals (env_of s) (o_sub r) with
              | Some vs, Some i => match I (o_code r) vs with Some v => Some (i, v) | None => None end | _, _ => None end).
  assert (EC : forall s r, exec_op I s r = match comp s r with Some (i, v) => Some (wr s (o_out r) i v) | None => None end).
  { intros s0 r. unfold exec_op, comp. destruct (reads_in s0 (o_ins r)); auto. destruct (evals (env_of s0) (o_sub r)); auto.
    destruct (I (o_code r) l); auto. }
  assert (FC : forall q r v i, ~ In (o_out q) (op_uses r) -> comp (wr s (o_out q) i v) r = comp s r).
  { intros q r v i H. unfold comp. destruct (F q r v i H) as [-> ->]. reflexivity. }
  cbn [exec_block]. rewrite !EC.
  destruct (comp s o) as [[i v]|] eqn:Co; destruct (comp s p) as [[i' v']|] eqn:Cp; try rewrite !EC;
    try (rewrite (FC o p) by tauto); try (rewrite (FC p o) by tauto); rewrite ?Co, ?Cp; simpl; auto.
  apply exec_same. intros x j. unfold wr.
  destruct (String.eqb_spec (o_out p) x); destruct (String.eqb_spec (o_out o) x); simpl; auto.
  exfalso. apply NC. left. congruence.
Qed.
Lemma bubble o bl : (forall p, In p bl -> ~ conflict o p) -> forall s r, same_result (exec_block I s (o :: bl ++ r)) (exec_block I s (bl ++ o :: r)).
Proof.
  induction bl as [|p bl IH]; intros H s r; [apply same_refl|]. simpl app.
  eapply same_trans; [apply swap; apply H; left; auto|].
  apply (exec_app_same s [p] (o :: bl ++ r) (bl ++ o :: r)). intros s'. apply IH. intros q Hq. apply H. right; auto.
Qed.

(** Two orders that agree on every conflicting pair give the same result. *)
Lemma reorder (f : nat -> option op) : forall l1 l2, NoDup l1 -> Permutation l1 l2 ->
  (forall t u a b, f t = Some a -> f u = Some b -> conflict a b -> before l1 t u -> before l2 t u) ->
  forall s, same_result (exec_block I s (flat_map (fun x => match f x with Some o => [o] | None => [] end) l1))
                        (exec_block I s (flat_map (fun x => match f x with Some o => [o] | None => [] end) l2)).
Proof.
  set (F := fun x => match f x with Some o => [o] | None => [] end).
  induction l1 as [|x l1 IH]; intros l2 N P HB s.
  - apply Permutation_nil in P. subst. apply same_refl.
  - inversion N as [|? ? Hx N']; subst.
    assert (Hin : In x l2) by (apply (Permutation_in _ P); left; auto). apply in_split in Hin. destruct Hin as (a & b & ->).
    apply Permutation_cons_app_inv in P.
    assert (N2 : NoDup (a ++ x :: b)).
    { eapply Permutation_NoDup; [|exact N]. apply Permutation_cons_app; auto. }
    assert (HA : forall y, In y a -> forall o p, f x = Some o -> f y = Some p -> ~ conflict o p).
    { intros y Hy o p Ho Hp C.
      assert (B1 : before (x :: l1) x y) by (apply before_hd; apply (Permutation_in _ (Permutation_sym P)); apply in_or_app; auto).
      pose proof (HB x y o p Ho Hp C B1) as (k1 & k2 & k3 & E).
      assert (B2 : before (a ++ x :: b) y x) by (apply before_app; [auto|left; auto]).
      assert (forall (l : list nat) u v, NoDup l -> before l u v -> before l v u -> False) as AS.
      { clear. intros l u v N (p1 & p2 & p3 & E1) (q1 & q2 & q3 & E2).
        revert p1 q1 E1 E2. induction l as [|h l IH]; intros p1 q1 E1 E2; [destruct p1; discriminate|].
        inversion N as [|? ? Hn N']; subst.
        destruct p1 as [|h1 p1], q1 as [|h2 q1]; simpl in E1, E2; injection E1 as A1 A2; injection E2 as B1 B2.
        - subst u v. subst l. apply Hn. rewrite B2. rewrite in_app_iff. simpl. auto.
        - subst u. apply Hn. rewrite B2. rewrite in_app_iff. right. simpl. right. rewrite in_app_iff. simpl. auto.
        - subst v. apply Hn. rewrite A2. rewrite in_app_iff. right. simpl. right. rewrite in_app_iff. simpl. auto.
        - eapply IH; eauto. }
      eapply AS; [exact N2| |exact B2]. exists k1, k2, k3. exact E. }
    rewrite flat_map_app. cbn [flat_map].
    eapply same_trans with (b := exec_block I s (F x ++ flat_map F (a ++ b))).
    + apply exec_app_same. intros s'. apply IH; auto.
      intros t u p q Ht Hu C B. assert (B' : before (a ++ x :: b) t u) by (eapply HB; eauto; apply before_cons; auto).
      destruct (before_In _ _ _ B) as [It Iu].
      destruct B' as (k1 & k2 & k3 & E). assert (Hi : ~ In x (a ++ b)) by (apply NoDup_remove_2; auto). clear -E It Iu Hx Hi.
      assert (Htx : t <> x) by (intros ->; contradiction). assert (Hux : u <> x) by (intros ->; contradiction).
      assert (R : forall l, before l t u -> before (filter (fun y => negb (Nat.eqb y x)) l) t u).
      { intros l (p1 & p2 & p3 & ->). rewrite filter_app. simpl. rewrite filter_app. simpl.
        destruct (Nat.eqb_spec t x); [congruence|]. destruct (Nat.eqb_spec u x); [congruence|]. simpl.
        eexists _, _, _. reflexivity. }
      assert (B' : before (a ++ x :: b) t u) by (exists k1, k2, k3; exact E). apply R in B'.
      rewrite filter_app in B'. simpl in B'. rewrite Nat.eqb_refl in B'. simpl in B'. rewrite <- filter_app in B'.
      destruct B' as (m1 & m2 & m3 & Em).
      (* x does not occur in a ++ b *)
      assert (Z : forall l : list nat, ~ In x l -> filter (fun y => negb (Nat.eqb y x)) l = l).
      { induction l as [|h l IHl]; simpl; intros H; auto. destruct (Nat.eqb_spec h x) as [->|]; simpl; [tauto|]. rewrite IHl; tauto. }
      rewrite Z in Em by auto. exists m1, m2, m3. exact Em.
    + unfold F at 1. destruct (f x) as [o|] eqn:Fx.
      * rewrite flat_map_app. simpl app. replace (F x) with [o] by (unfold F; rewrite Fx; reflexivity). simpl app. apply bubble.
        intros p Hp. apply in_flat_map in Hp. destruct Hp as (y & Hy & Hp). unfold F in Hp. destruct (f y) as [q|] eqn:Fy; [|contradiction].
        destruct Hp as [<-|[]]. eapply HA; eauto.
      * replace (F x) with (@nil op) by (unfold F; rewrite Fx; reflexivity). simpl. rewrite flat_map_app. apply same_refl.
Qed.
End E.
