(** Proofs about BlockFusion. *)
From Coq Require Import List String ZArith Bool Arith Lia Permutation Relations.
From Verif Require Import Sym SymFacts IR IRFacts DataFlow DataFlowProofs DataFlowExec DataFlowProps BlockFusion.
Import ListNotations.
Local Open Scope nat_scope.

(* ---------- generic ---------- *)
Lemma find_ext {A} (p q : A -> bool) l : (forall x, In x l -> p x = q x) -> find p l = find q l.
Proof.
  induction l as [|a l IH]; simpl; intros H; auto. rewrite (H a) by auto. destruct (q a); auto.
Qed.
Lemma find_app {A} (p : A -> bool) l m : find p (l ++ m) = match find p l with Some x => Some x | None => find p m end.
Proof. induction l as [|a l IH]; simpl; auto. destruct (p a); auto. Qed.
Lemma find_map {A B} (f : A -> B) (p : B -> bool) l : find p (map f l) = option_map f (find (fun x => p (f x)) l).
Proof. induction l as [|a l IH]; simpl; auto. destruct (p (f a)); auto. Qed.
Lemma filter_map_comm {A B} (f : A -> B) (p : B -> bool) l : filter p (map f l) = map f (filter (fun x => p (f x)) l).
Proof. induction l as [|a l IH]; simpl; auto. destruct (p (f a)); simpl; rewrite IH; auto. Qed.
Lemma filter_nil {A} (p : A -> bool) l : (forall x, In x l -> p x = false) -> filter p l = [].
Proof. induction l as [|a l IH]; simpl; intros H; auto. rewrite (H a) by auto. apply IH; auto. Qed.
Lemma kind_of_In g x k : kind_of g x = Some k -> In (Vt x k) (g_nodes g).
Proof.
  unfold kind_of. destruct (find _ _) as [v|] eqn:F; [|discriminate]. intros E. injection E as <-.
  apply find_some in F. destruct F as [F1 F2]. apply Nat.eqb_eq in F2. destruct v; simpl in *; subst; auto.
Qed.
Lemma kind_of_ids g x k : kind_of g x = Some k -> In x (ids g).
Proof. intros H. apply kind_of_In in H. apply (in_map v_id) in H. exact H. Qed.
Lemma kind_of_Some g x : In x (ids g) -> exists k, kind_of g x = Some k.
Proof.
  intros H. unfold kind_of. apply in_map_iff in H. destruct H as (v & <- & Hv).
  destruct (find _ _) as [w|] eqn:F; [simpl; eauto|]. apply (find_none _ _ F) in Hv. rewrite Nat.eqb_refl in Hv. discriminate.
Qed.
Lemma kind_of_unique g x k : wf g -> In (Vt x k) (g_nodes g) -> kind_of g x = Some k.
Proof.
  intros W H. destruct (kind_of_Some g x) as [k' E]; [apply (in_map v_id) in H; exact H|].
  rewrite E. apply kind_of_In in E. f_equal. pose proof (wf_ids _ W) as N. unfold ids in N.
  clear -N H E. induction (g_nodes g) as [|a l IH]; [contradiction|]. simpl in N. inversion N as [|? ? Hn N']; subst.
  destruct H as [->|H], E as [E|E].
  - congruence.
  - exfalso. apply Hn. apply (in_map v_id) in E. exact E.
  - subst a. exfalso. apply Hn. apply (in_map v_id) in H. exact H.
  - auto.
Qed.

Definition data_at (g : dfg) (x : nat) : option string := match kind_of g x with Some k => any_data k | None => None end.
Lemma last_access_spec g d l : forall acc x, last_access g d l acc = Some x ->
  (exists a b, l = a ++ x :: b /\ data_at g x = Some d /\ forall z, In z b -> data_at g z <> Some d) \/
  (acc = Some x /\ forall z, In z l -> data_at g z <> Some d).
Proof.
  induction l as [|y l IH]; intros acc x H; simpl in H; [right; split; auto; intros z []|].
  apply IH in H. destruct H as [(a & b & -> & D & H)|[H N]]; [left; exists (y :: a), b; auto|].
  unfold data_at. destruct (kind_of g y) as [[e|e z|c i o|c i o]|] eqn:K; simpl in H.
  1,2: destruct (String.eqb_spec e d) as [->|Hne].
  1,3: injection H as <-; left; exists [], l; rewrite K; split; [reflexivity|split; [reflexivity|exact N]].
  all: right; split; auto; intros w [<-|Hw]; [rewrite K; simpl; congruence|apply (N w Hw)].
Qed.
Lemma last_access_total g d l : forall acc x, In x l -> data_at g x = Some d -> exists y, last_access g d l acc = Some y.
Proof.
  assert (T : forall l a, exists y, last_access g d l (Some a) = Some y).
  { clear. induction l as [|y l IH]; intros a; simpl; [eauto|].
    destruct (kind_of g y) as [[e|e z|c i o|c i o]|]; auto; destruct (String.eqb e d); auto. }
  induction l as [|y l IH]; intros acc x H D; [contradiction|]. simpl. destruct H as [->|H].
  - unfold data_at in D. destruct (kind_of g x) as [[e|e z|c i o|c i o]|]; simpl in D; try discriminate;
      injection D as ->; rewrite String.eqb_refl; apply T.
  - eapply IH; eauto.
Qed.

Section F.
Variables (fresh : nat -> nat) (g1 g2 : dfg) (l1 l2 : list nat).
Hypothesis W1 : wf g1. Hypothesis W2 : wf g2.
Hypothesis L1 : linear g1 l1. Hypothesis L2 : linear g2 l2.
Hypothesis FI : forall x y, In x (ids g2) -> In y (ids g2) -> fresh x = fresh y -> x = y.
Hypothesis FF : forall x, In x (ids g2) -> ~ In (fresh x) (ids g1).
(** the same text denotes the same container or constant in both blocks *)
Hypothesis LIT : forall x y k k', kind_of g1 x = Some k -> kind_of g2 y = Some k' -> any_data k <> None -> any_data k = any_data k' -> k = k'.
Let g := fused fresh g1 l1 g2.
Let cn := connector g1 l1 g2.
Let mv := moved fresh g1 l1 g2.

Lemma cn_Some y x : cn y = Some x -> In x (ids g1) /\ indeg g2 y = 0 /\ kind_of g1 x = kind_of g2 y /\ data_at g2 y <> None.
Proof.
  unfold cn, connector. destruct (Nat.eqb_spec (indeg g2 y) 0) as [H0|]; [|discriminate].
  unfold data_at. destruct (kind_of g2 y) as [k|] eqn:K; [|discriminate]. destruct (any_data k) as [d|] eqn:Dk; [|discriminate].
  intros H. apply last_access_spec in H. destruct H as [(a & b & E & D & _)|[H _]]; [|discriminate].
  split; [apply (Permutation_in _ (proj1 L1)); rewrite E; apply in_or_app; right; left; auto|]. split; auto.
  split; [|congruence]. unfold data_at in D. destruct (kind_of g1 x) as [k'|] eqn:K'; [|discriminate].
  f_equal. eapply LIT; eauto; congruence.
Qed.
Lemma cn_dst x y : edge g2 x y -> cn y = None.
Proof.
  intros E. destruct (cn y) as [z|] eqn:C; auto. apply cn_Some in C. destruct C as (_ & H & _).
  destruct E as (e & He & _ & <-). unfold indeg in H.
  assert (Hi : In e (in_edges g2 (m_dst e))) by (apply in_edges_In; auto). destruct (in_edges g2 (m_dst e)); [contradiction|discriminate].
Qed.
Lemma mv_None y : cn y = None -> mv y = fresh y.
Proof. intros H. unfold mv, moved. fold cn. fold (cn y). rewrite H. auto. Qed.
Lemma mv_Some y x : cn y = Some x -> mv y = x.
Proof. intros H. unfold mv, moved. fold (cn y). rewrite H. auto. Qed.
Lemma mv_g1 y : In y (ids g2) -> In (mv y) (ids g1) -> cn y = Some (mv y).
Proof.
  intros Hy H. destruct (cn y) as [x|] eqn:C; [rewrite (mv_Some _ _ C); auto|]. rewrite (mv_None _ C) in H. exfalso. eapply FF; eauto.
Qed.
Lemma mv_fresh y z : In y (ids g2) -> In z (ids g2) -> mv y = fresh z -> y = z /\ cn z = None.
Proof.
  intros Hy Hz H. destruct (cn y) as [x|] eqn:C.
  - rewrite (mv_Some _ _ C) in H. apply cn_Some in C. destruct C as [C _]. exfalso. apply (FF z Hz). rewrite <- H. auto.
  - rewrite (mv_None _ C) in H. apply FI in H; auto. subst. auto.
Qed.
Lemma ids_fused : ids g = ids g1 ++ map fresh (filter (fun y => match cn y with Some _ => false | None => true end) (ids g2)).
Proof.
  unfold ids, g, fused; simpl. rewrite map_app. f_equal.
  assert (H : forall l, map v_id (flat_map (fun v => match cn (v_id v) with Some _ => [] | None => [Vt (fresh (v_id v)) (v_kind v)] end) l) =
     map fresh (filter (fun y => match cn y with Some _ => false | None => true end) (map v_id l))); [|apply H].
  induction l as [|v l IH]; simpl; auto. destruct (cn (v_id v)); simpl; rewrite IH; auto.
Qed.
Lemma kind_g1 x : In x (ids g1) -> kind_of g x = kind_of g1 x.
Proof.
  intros H. destruct (kind_of_Some g1 x H) as [k K]. rewrite K. unfold kind_of, g, fused in *; simpl. rewrite find_app.
  destruct (find _ (g_nodes g1)); [auto|discriminate].
Qed.
Lemma kind_g2 y : In y (ids g2) -> cn y = None -> kind_of g (fresh y) = kind_of g2 y.
Proof.
  intros H C. unfold kind_of, g, fused; simpl. rewrite find_app.
  destruct (find _ (g_nodes g1)) as [v|] eqn:F.
  { exfalso. apply find_some in F. destruct F as [F1 F2]. apply Nat.eqb_eq in F2. apply (FF y H). rewrite <- F2. apply in_map; auto. }
  clear F. assert (IN : forall v, In v (g_nodes g2) -> In (v_id v) (ids g2)) by (intros v Hv; apply in_map; auto).
  induction (g_nodes g2) as [|v l IH]; simpl; auto. assert (Hv : In (v_id v) (ids g2)) by (apply IN; left; auto).
  fold (cn (v_id v)). destruct (Nat.eqb_spec (v_id v) y) as [E|E].
  - rewrite E, C. simpl. rewrite Nat.eqb_refl. reflexivity.
  - destruct (cn (v_id v)) eqn:Cv; simpl; [apply IH; intros w Hw; apply IN; right; auto|].
    destruct (Nat.eqb_spec (fresh (v_id v)) (fresh y)) as [E'|E']; [apply FI in E'; auto; contradiction|].
    apply IH. intros w Hw; apply IN; right; auto.
Qed.
Lemma kind_mv y : In y (ids g2) -> kind_of g (mv y) = kind_of g2 y.
Proof.
  intros H. destruct (cn y) as [x|] eqn:C.
  - rewrite (mv_Some _ _ C). destruct (cn_Some _ _ C) as (Hx & _ & K & _). rewrite kind_g1; auto.
  - rewrite (mv_None _ C). apply kind_g2; auto.
Qed.
Lemma edge_fused x y : edge g x y <-> edge g1 x y \/ exists a b, edge g2 a b /\ x = mv a /\ y = mv b.
Proof.
  unfold edge at 1, g, fused; simpl. split.
  - intros (e & He & <- & <-). apply in_app_or in He. destruct He as [He|He]; [left; exists e; auto|].
    apply in_map_iff in He. destruct He as (e' & <- & He'). right. exists (m_src e'), (m_dst e'). split; [exists e'; auto|auto].
  - intros [(e & He & <- & <-)|(a & b & (e & He & <- & <-) & -> & ->)].
    + exists e. split; [apply in_or_app; auto|auto].
    + exists (moved_edge fresh g1 l1 g2 e). split; [apply in_or_app; right; apply in_map; auto|auto].
Qed.
Lemma in_edges_g1 x : In x (ids g1) -> in_edges g x = in_edges g1 x.
Proof.
  intros H. unfold in_edges, g, fused; simpl. rewrite filter_app.
  rewrite (filter_nil _ (map _ _)); [apply app_nil_r|]. intros e He. apply in_map_iff in He. destruct He as (e' & <- & He').
  apply Nat.eqb_neq. simpl. fold mv. fold (mv (m_dst e')). intros E.
  destruct (wf_ends _ W2 _ He') as [_ Hd]. assert (Ed : edge g2 (m_src e') (m_dst e')) by (exists e'; auto).
  apply cn_dst in Ed. rewrite (mv_None _ Ed) in E. apply (FF _ Hd). rewrite E. auto.
Qed.
Lemma out_edges_g1 x k : kind_of g1 x = Some k -> any_data k = None -> out_edges g x = out_edges g1 x.
Proof.
  intros K D. pose proof (kind_of_ids _ _ _ K) as H. unfold out_edges, g, fused; simpl. rewrite filter_app.
  rewrite (filter_nil _ (map _ _)); [apply app_nil_r|]. intros e He. apply in_map_iff in He. destruct He as (e' & <- & He').
  apply Nat.eqb_neq. simpl. fold (mv (m_src e')). intros E. destruct (wf_ends _ W2 _ He') as [Hs _].
  assert (C : cn (m_src e') = Some (mv (m_src e'))) by (apply mv_g1; auto; rewrite E; auto). rewrite E in C.
  destruct (cn_Some _ _ C) as (_ & _ & Ek & Dn). unfold data_at in Dn. rewrite <- Ek, K, D in Dn. congruence.
Qed.
Lemma in_edges_g2 y : In y (ids g2) -> cn y = None -> in_edges g (fresh y) = map (moved_edge fresh g1 l1 g2) (in_edges g2 y).
Proof.
  intros H C. unfold in_edges, g, fused; simpl. rewrite filter_app.
  rewrite (filter_nil _ (g_edges g1)).
  2:{ intros e He. apply Nat.eqb_neq. intros E. apply (FF y H). rewrite <- E. apply (wf_ends _ W1 _ He). }
  simpl. rewrite filter_map_comm. f_equal. apply filter_ext_in. intros e He. simpl. fold (mv (m_dst e)).
  destruct (wf_ends _ W2 _ He) as [_ Hd]. destruct (Nat.eqb_spec (m_dst e) y) as [E|E].
  - rewrite E, (mv_None _ C). apply Nat.eqb_refl.
  - apply Nat.eqb_neq. intros E'. apply mv_fresh in E'; auto. tauto.
Qed.
Lemma out_edges_g2 y : In y (ids g2) -> cn y = None -> out_edges g (fresh y) = map (moved_edge fresh g1 l1 g2) (out_edges g2 y).
Proof.
  intros H C. unfold out_edges, g, fused; simpl. rewrite filter_app.
  rewrite (filter_nil _ (g_edges g1)).
  2:{ intros e He. apply Nat.eqb_neq. intros E. apply (FF y H). rewrite <- E. apply (wf_ends _ W1 _ He). }
  simpl. rewrite filter_map_comm. f_equal. apply filter_ext_in. intros e He. simpl. fold (mv (m_src e)).
  destruct (wf_ends _ W2 _ He) as [Hs _]. destruct (Nat.eqb_spec (m_src e) y) as [E|E].
  - rewrite E, (mv_None _ C). apply Nat.eqb_refl.
  - apply Nat.eqb_neq. intros E'. apply mv_fresh in E'; auto. tauto.
Qed.
Lemma operand_g1 x c : In x (ids g1) -> operand_of g x c = operand_of g1 x c.
Proof.
  intros H. unfold operand_of. rewrite in_edges_g1 by auto. destruct (find _ _) as [e|] eqn:F; auto.
  apply find_some in F. destruct F as [F _]. apply in_edges_In in F. destruct F as [F _].
  rewrite kind_g1; auto. apply (wf_ends _ W1 _ F).
Qed.
Lemma op_g1 x : In x (ids g1) -> op_of g x = op_of g1 x.
Proof.
  intros H. unfold op_of. rewrite kind_g1 by auto. destruct (kind_of g1 x) as [[d|d z|c ins o|c ins o]|] eqn:K; auto.
  rewrite (out_edges_g1 x _ K eq_refl). destruct (out_edges g1 x) as [|e l] eqn:Oe; auto.
  assert (He : In e (out_edges g1 x)) by (rewrite Oe; left; auto). apply out_edges_In in He. destruct He as [He _].
  rewrite kind_g1 by (apply (wf_ends _ W1 _ He)). destruct (kind_of g1 (m_dst e)) as [[d|d z|c' i' o'|c' i' o']|]; auto.
  do 2 f_equal. clear K. induction ins as [|i ins IH]; simpl; auto. rewrite operand_g1 by auto. f_equal. exact IH.
Qed.
Lemma operand_g2 y c : In y (ids g2) -> cn y = None -> operand_of g (fresh y) c = operand_of g2 y c.
Proof.
  intros H C. unfold operand_of. rewrite in_edges_g2 by auto. rewrite find_map. simpl.
  destruct (find _ (in_edges g2 y)) as [e|] eqn:F; simpl; auto.
  apply find_some in F. destruct F as [F _]. apply in_edges_In in F. destruct F as [F _].
  fold (mv (m_src e)). rewrite kind_mv; auto. apply (wf_ends _ W2 _ F).
Qed.
Lemma op_g2 y : In y (ids g2) -> cn y = None -> op_of g (fresh y) = op_of g2 y.
Proof.
  intros H C. unfold op_of. rewrite kind_g2 by auto. destruct (kind_of g2 y) as [[d|d z|c ins o|c ins o]|] eqn:K; auto.
  rewrite out_edges_g2 by auto. destruct (out_edges g2 y) as [|e l] eqn:Oe; auto. simpl.
  assert (He : In e (out_edges g2 y)) by (rewrite Oe; left; auto). apply out_edges_In in He. destruct He as [He _].
  fold (mv (m_dst e)). rewrite kind_mv by (apply (wf_ends _ W2 _ He)).
  destruct (kind_of g2 (m_dst e)) as [[d|d z|c' i' o'|c' i' o']|]; auto.
  do 2 f_equal. clear K. induction ins as [|i ins IH]; simpl; auto. rewrite operand_g2 by auto. f_equal. exact IH.
Qed.
Lemma op_connector y x : cn y = Some x -> op_of g2 y = None.
Proof.
  intros C. destruct (cn_Some _ _ C) as (_ & _ & _ & D). unfold data_at in D. unfold op_of.
  destruct (kind_of g2 y) as [[d|d z|c ins o|c ins o]|]; auto; simpl in D; congruence.
Qed.

Lemma fused_wf : wf g.
Proof.
  constructor.
  - rewrite ids_fused. apply NoDup_app_iff. split; [apply wf_ids; auto|]. split.
    + pose proof (NoDup_filter (fun y => match cn y with Some _ => false | None => true end) (wf_ids _ W2)) as N.
      assert (IN : forall y, In y (filter (fun y => match cn y with Some _ => false | None => true end) (ids g2)) -> In y (ids g2)) by (intros y Hy; apply filter_In in Hy; tauto).
      induction N as [|a l Ha N IH]; simpl; constructor.
      * intros Hi. apply in_map_iff in Hi. destruct Hi as (b & E & Hb). apply FI in E; [subst; contradiction|apply IN; right; auto|apply IN; left; auto].
      * apply IH. intros y Hy. apply IN. right; auto.
    + intros x H Hi. apply in_map_iff in Hi. destruct Hi as (b & <- & Hb). apply filter_In in Hb. apply (FF b); tauto.
  - assert (IM : forall y, In y (ids g2) -> In (mv y) (ids g)).
    { intros y Hy. rewrite ids_fused. apply in_or_app. destruct (cn y) as [x|] eqn:C.
      - left. rewrite (mv_Some _ _ C). apply (cn_Some _ _ C).
      - right. rewrite (mv_None _ C). apply in_map. apply filter_In. rewrite C. auto. }
    intros e He. unfold g, fused in He; simpl in He. apply in_app_or in He. destruct He as [He|He].
    + destruct (wf_ends _ W1 _ He). rewrite ids_fused. split; apply in_or_app; auto.
    + apply in_map_iff in He. destruct He as (e' & <- & He'). destruct (wf_ends _ W2 _ He') as [A B]. simpl. split; apply IM; auto.
  - intros x k ins K Ki. pose proof (kind_of_ids _ _ _ K) as Hx. rewrite ids_fused in Hx. apply in_app_or in Hx. destruct Hx as [Hx|Hx].
    + rewrite kind_g1 in K by auto. rewrite in_edges_g1 by auto. apply (wf_in _ W1 _ _ _ K Ki).
    + apply in_map_iff in Hx. destruct Hx as (y & <- & Hy). apply filter_In in Hy. destruct Hy as [Hy C]. destruct (cn y) eqn:Cy; [discriminate|].
      rewrite kind_g2 in K by auto. rewrite in_edges_g2 by auto. rewrite map_map. simpl. apply (wf_in _ W2 _ _ _ K Ki).
  - intros x k outs K Ki. pose proof (kind_of_ids _ _ _ K) as Hx. rewrite ids_fused in Hx. apply in_app_or in Hx. destruct Hx as [Hx|Hx].
    + rewrite kind_g1 in K by auto. rewrite (out_edges_g1 x k) by (auto; destruct k; simpl in *; congruence). apply (wf_out _ W1 _ _ _ K Ki).
    + apply in_map_iff in Hx. destruct Hx as (y & <- & Hy). apply filter_In in Hy. destruct Hy as [Hy C]. destruct (cn y) eqn:Cy; [discriminate|].
      rewrite kind_g2 in K by auto. rewrite out_edges_g2 by auto. rewrite map_map. simpl. apply (wf_out _ W2 _ _ _ K Ki).
Qed.

Definition both : list nat := l1 ++ map fresh (filter (fun y => match cn y with Some _ => false | None => true end) l2).
Lemma Permutation_filter {A} (p : A -> bool) l m : Permutation l m -> Permutation (filter p l) (filter p m).
Proof.
  induction 1; simpl; auto.
  - destruct (p x); auto.
  - destruct (p x), (p y); auto. apply perm_swap.
  - eapply perm_trans; eauto.
Qed.
Lemma both_linear : linear g both.
Proof.
  split.
  - rewrite ids_fused. apply Permutation_app; [apply L1|]. apply Permutation_map, Permutation_filter, L2.
  - intros x y E. apply edge_fused in E. destruct E as [E|(a & b & E & -> & ->)]; [apply before_app_l, L1; auto|].
    pose proof (cn_dst _ _ E) as Cb. rewrite (mv_None _ Cb).
    assert (INb : In b (filter (fun y => match cn y with Some _ => false | None => true end) l2)).
    { apply filter_In. rewrite Cb. split; auto. apply (Permutation_in _ (Permutation_sym (proj1 L2))). apply (edge_ids _ W2 _ _ E). }
    destruct (cn a) as [z|] eqn:Ca.
    + rewrite (mv_Some _ _ Ca). apply before_app; [|apply in_map; auto].
      apply (Permutation_in _ (Permutation_sym (proj1 L1))). apply (cn_Some _ _ Ca).
    + rewrite (mv_None _ Ca). apply before_app_r. destruct (proj2 L2 a b E) as (p1 & p2 & p3 & ->).
      rewrite filter_app. simpl. rewrite Ca. rewrite filter_app. simpl. rewrite Cb. rewrite map_app. simpl. rewrite map_app. simpl.
      eexists _, _, _. reflexivity.
Qed.
Lemma flat_map_ext_in {A B} (f h : A -> list B) l : (forall x, In x l -> f x = h x) -> flat_map f l = flat_map h l.
Proof. induction l as [|a l IH]; simpl; intros H; auto. rewrite H, IH; auto. Qed.
Lemma lower_both : lower g both = lower g1 l1 ++ lower g2 l2.
Proof.
  unfold both, lower. rewrite flat_map_app. f_equal.
  - apply flat_map_ext_in. intros x Hx. rewrite op_g1; auto. apply (Permutation_in _ (proj1 L1)); auto.
  - assert (IN : forall y, In y l2 -> In y (ids g2)) by (intros y; apply (Permutation_in _ (proj1 L2))).
    revert IN. generalize l2 as l. induction l as [|y l IH]; intros IN; simpl; auto. destruct (cn y) as [x|] eqn:C.
    + rewrite (op_connector _ _ C). apply IH. intros z Hz. apply IN. right; auto.
    + simpl. rewrite (op_g2 y) by (auto; apply IN; left; auto). f_equal. apply IH. intros z Hz. apply IN. right; auto.
Qed.
(** A race-free result computes what the two blocks computed one after the other. *)
Lemma fusion_exec l I st : race_free g -> linear g l ->
  same_result (exec_block I st (lower g l)) (exec_block I st (lower g1 l1 ++ lower g2 l2)).
Proof. intros RF L. rewrite <- lower_both. apply C47_every_order_same; auto; [apply fused_wf|apply both_linear]. Qed.
Lemma linear_acyclic h l : wf h -> linear h l -> acyclic h.
Proof.
  intros W [P H]. assert (N : NoDup l) by (eapply Permutation_NoDup; [apply Permutation_sym; exact P|apply wf_ids; auto]).
  exists (fun x => match index (Nat.eqb x) l with Some i => i | None => 0 end).
  intros x y E. destruct (H x y E) as (a & b & c & El).
  assert (IX : forall u v z, NoDup (u ++ z :: v) -> index (Nat.eqb z) (u ++ z :: v) = Some (List.length u)).
  { induction u as [|w u IHu]; intros v z Nz; simpl; [rewrite Nat.eqb_refl; auto|].
    inversion Nz as [|? ? Hn Nz']; subst. destruct (Nat.eqb_spec z w) as [->|]; [exfalso; apply Hn; apply in_or_app; right; left; auto|].
    rewrite IHu; auto. }
  rewrite El in N |- *. rewrite (IX a (b ++ y :: c) x N).
  replace (a ++ x :: b ++ y :: c) with ((a ++ x :: b) ++ y :: c) in N |- * by (rewrite <- app_assoc; reflexivity).
  rewrite (IX _ _ _ N), app_length. simpl. lia.
Qed.
Lemma fused_acyclic : acyclic g.
Proof. apply (linear_acyclic g both); [apply fused_wf|apply both_linear]. Qed.
End F.
