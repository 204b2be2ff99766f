(** When the criterion of BlockFusion is enough. *)
From Coq Require Import List String ZArith Bool Arith Lia Permutation Relations.
From Verif Require Import Sym SymFacts IR IRFacts DataFlow DataFlowProofs DataFlowExec DataFlowProps BlockFusion BlockFusionProofs.
Import ListNotations.
Local Open Scope nat_scope.

Definition linked (g : dfg) : nat -> nat -> Prop := clos_refl_sym_trans nat (edge g).
Definition is_task (g : dfg) (t : nat) : Prop := exists c i o, kind_of g t = Some (KTask c i o).
(** only tasklets and access nodes, with computational memlets between them, and
    every tasklet writes a container *)
Record plain (g : dfg) : Prop := {
  pl_edge : forall x y, edge g x y -> (data_at g x <> None /\ is_task g y) \/ (is_task g x /\ exists d, kind_of g y = Some (KAcc d));
  pl_task : forall t, is_task g t -> exists o, op_of g t = Some o }.
(** at most one sink per weakly connected component *)
Definition funnel (g : dfg) : Prop := forall x y, In x (ids g) -> outdeg g x = 0 -> outdeg g y = 0 -> linked g x y -> x = y.
(** at most one tasklet per weakly connected component *)
Definition single (g : dfg) : Prop := forall t u, is_task g t -> is_task g u -> linked g t u -> t = u.
Definition no_isolated (g : dfg) : Prop := forall x, In x (ids g) -> exists y, edge g x y \/ edge g y x.

Lemma edge_linked g x y : edge g x y -> linked g x y. Proof. apply rst_step. Qed.
Lemma path_linked g x y : path g x y -> linked g x y.
Proof. induction 1 as [x y E|x y z E P IH]; [apply rst_step; auto|]. eapply rst_trans; [apply rst_step; exact E|exact IH]. Qed.
Lemma linked_step g x y : linked g x y -> x = y \/ exists z, edge g x z \/ edge g z x.
Proof.
  intros H. assert (H2 : (x = y \/ exists z, edge g x z \/ edge g z x) /\ (x = y \/ exists z, edge g y z \/ edge g z y)); [|tauto].
  induction H as [x y E|x|x y H IH|x y z H1 IH1 H2 IH2].
  - split; right; [exists y|exists x]; auto.
  - auto.
  - destruct IH as [A B]. split; [destruct B as [->|B]|destruct A as [->|A]]; auto.
  - destruct IH1 as [A B], IH2 as [C D]. split.
    + destruct A as [->|A]; auto.
    + destruct D as [->|D]; auto.
Qed.
Lemma path_snoc g a b c : path g a b -> edge g b c -> path g a c.
Proof.
  intros P Q. induction P as [a b Q'|a b d Q' P IH]; [eapply P_cons; [exact Q'|apply P_one; auto]|eapply P_cons; [exact Q'|apply IH; auto]].
Qed.
Lemma to_sink g : wf g -> acyclic g -> forall x, In x (ids g) -> exists z, In z (ids g) /\ outdeg g z = 0 /\ (z = x \/ path g x z).
Proof.
  intros W [r Hr]. assert (BD : forall x, In x (ids g) -> r x <= fold_right (fun x n => r x + n) 0 (ids g)).
  { clear. induction (ids g) as [|c l IH]; intros x Hx; [contradiction|]. simpl. destruct Hx as [->|Hx]; [lia|]. specialize (IH x Hx). lia. }
  assert (B : forall n x, In x (ids g) -> fold_right (fun x n => r x + n) 0 (ids g) < n + r x -> exists z, In z (ids g) /\ outdeg g z = 0 /\ (z = x \/ path g x z)).
  { induction n as [|n IH]; intros x Hx Hb; [specialize (BD x Hx); lia|].
    destruct (outdeg g x) eqn:O; [exists x; auto|]. unfold outdeg in O. destruct (out_edges g x) as [|e l] eqn:Oe; [discriminate|].
    assert (He : In e (out_edges g x)) by (rewrite Oe; simpl; auto). apply out_edges_In in He. destruct He as [He Es].
    assert (Ed : edge g x (m_dst e)) by (exists e; auto). destruct (edge_ids _ W _ _ Ed) as [_ Hd].
    destruct (IH (m_dst e) Hd) as (z & Hz & Oz & Pz); [apply Hr in Ed; lia|]. exists z. repeat split; auto. right.
    destruct Pz as [->|Pz]; [apply P_one; auto|eapply P_cons; eauto]. }
  intros x Hx. apply (B (S (fold_right (fun x n => r x + n) 0 (ids g))) x Hx). lia.
Qed.
Lemma comps_linked g : wf g -> forall fuel rest c x y, In c (comps g fuel rest) -> incl rest (ids g) -> In x c -> In y c -> linked g x y.
Proof.
  intros W. assert (K : forall x n y, In y (Nat.iter n (grow g) [x]) -> linked g x y).
  { intros x n. induction n as [|n IH]; intros y H; [destruct H as [<-|[]]; apply rst_refl|].
    simpl in H. apply grow_In in H. destruct H as [_ [H|(z & Hz & [E|E])]]; auto.
    - eapply rst_trans; [apply IH; exact Hz|]. apply rst_sym, rst_step; auto.
    - eapply rst_trans; [apply IH; exact Hz|]. apply rst_step; auto. }
  induction fuel as [|fuel IH]; intros rest c x y Hc I Hx Hy; [contradiction|].
  destruct rest as [|a r]; [contradiction|]. cbn [comps] in Hc. destruct Hc as [<-|Hc].
  - apply filter_In in Hx. apply filter_In in Hy. destruct Hx as [_ Hx], Hy as [_ Hy]. apply mem_In in Hx. apply mem_In in Hy.
    eapply rst_trans; [apply rst_sym; eapply K; exact Hx|eapply K; exact Hy].
  - eapply IH; eauto. intros z Hz. apply filter_In in Hz. apply I. tauto.
Qed.
Lemma components_spec g : wf g -> (forall x, In x (ids g) -> exists c, In c (components g) /\ In x c) /\
  (forall c x y, In c (components g) -> In x c -> (In y c <-> linked g x y)).
Proof.
  intros W. destruct (comps_ok g W (List.length (ids g)) (ids g)) as [P HC]; auto.
  { apply wf_ids; auto. } { intros x Hx; exact Hx. }
  { intros x y E. destruct (edge_ids _ W _ _ E). tauto. }
  fold (components g) in *. split.
  - intros x Hx. apply (Permutation_in _ (Permutation_sym P)) in Hx. apply in_concat in Hx. destruct Hx as (c & ? & ?). exists c; auto.
  - intros c x y Hc Hx. split.
    + intros Hy. eapply comps_linked; eauto. intros z Hz; exact Hz.
    + intros L. destruct (HC c Hc) as (_ & _ & _ & CL).
      assert (In x c <-> In y c); [|tauto]. clear -L CL. induction L as [x y E|x|x y H IH|x y z H1 IH1 H2 IH2]; try tauto. apply CL; auto.
Qed.
Lemma op_out g t a : op_of g t = Some a -> is_task g t /\ exists e, In e (g_edges g) /\ m_src e = t /\ kind_of g (m_dst e) = Some (KAcc (o_out a)) /\ o_sub a = m_sub e.
Proof.
  unfold op_of. destruct (kind_of g t) as [[d|d z|c ins o|c ins o]|] eqn:K; try discriminate.
  destruct (out_edges g t) as [|e l] eqn:Oe; [discriminate|]. destruct (kind_of g (m_dst e)) as [[d|d z|c' i' o'|c' i' o']|] eqn:K'; try discriminate.
  intros E. injection E as <-. simpl. split; [exists c, ins, o; auto|]. exists e.
  assert (He : In e (out_edges g t)) by (rewrite Oe; left; auto). apply out_edges_In in He. tauto.
Qed.
Lemma op_in g t a x : op_of g t = Some a -> In x (op_uses a) ->
  (exists e, In e (g_edges g) /\ m_dst e = t /\ kind_of g (m_src e) = Some (KAcc x)) \/
  (exists e, In e (g_edges g) /\ In x (concat (map atoms (m_sub e)))).
Proof.
  intros H Hx. destruct (op_out _ _ _ H) as (_ & e & He & _ & _ & Es). unfold op_uses in Hx. apply in_app_or in Hx. destruct Hx as [Hx|Hx].
  2:{ right. exists e. rewrite <- Es. auto. }
  revert H. unfold op_of. destruct (kind_of g t) as [[d|d z|c ins o|c ins o]|] eqn:K; try discriminate.
  destruct (out_edges g t) as [|e' l] eqn:Oe; [discriminate|]. destruct (kind_of g (m_dst e')) as [[d|d z|c' i' o'|c' i' o']|] eqn:K'; try discriminate.
  intros E. injection E as <-. simpl in Hx.
  apply in_concat in Hx. destruct Hx as (ns & Hn & Hx). apply in_map_iff in Hn. destruct Hn as (opd & <- & Ho).
  apply in_flat_map in Ho. destruct Ho as (i & _ & Ho). unfold operand_of in Ho.
  destruct (find _ _) as [f|] eqn:F; [|contradiction]. apply find_some in F. destruct F as [F _]. apply in_edges_In in F. destruct F as [F1 F2].
  destruct (kind_of g (m_src f)) as [[d'|d' z|c' i' o'|c' i' o']|] eqn:Ks; try contradiction.
  - destruct Ho as [<-|[]]. simpl in Hx. destruct Hx as [<-|Hx]; [left; exists f; auto|right; exists f; auto].
  - destruct Ho as [<-|[]]. contradiction.
Qed.
(** a container an operation touches is an access node next to it *)
Lemma touches g t a x : op_of g t = Some a -> x = o_out a \/ (exists e, In e (g_edges g) /\ m_dst e = t /\ kind_of g (m_src e) = Some (KAcc x)) ->
  exists n, linked g t n /\ kind_of g n = Some (KAcc x).
Proof.
  intros H [->|(e & He & <- & K)].
  - destruct (op_out _ _ _ H) as (_ & e & He & Es & K & _). exists (m_dst e). split; auto. apply rst_step. exists e. auto.
  - exists (m_src e). split; auto. apply rst_sym, rst_step. exists e. auto.
Qed.
(** next to an access node there is an operation touching its container *)
Lemma touched g n d z : plain g -> kind_of g n = Some (KAcc d) -> edge g n z \/ edge g z n ->
  is_task g z /\ forall a, op_of g z = Some a -> wf g -> (edge g z n /\ (forall m, edge g z m -> m = n) -> o_out a = d) /\ (edge g n z -> In d (op_uses a)).
Proof.
  intros PL K E. assert (NT : ~ is_task g n) by (intros (c & i & o & K'); congruence).
  assert (T : is_task g z).
  { destruct E as [E|E]; destruct (pl_edge _ PL _ _ E) as [[_ H]|[H _]]; auto; contradiction. }
  split; auto. intros a Ha W. split.
  - intros [_ U]. destruct (op_out _ _ _ Ha) as (_ & e & He & Es & Kd & _). assert (m_dst e = n) by (apply U; exists e; auto). congruence.
  - intros (e & He & Es & Ed). destruct T as (c & i & o & Kz). unfold op_of in Ha. rewrite Kz in Ha.
    destruct (out_edges g z) as [|e' l] eqn:Oe; [discriminate|]. destruct (kind_of g (m_dst e')) as [[d'|d' z'|c' i' o'|c' i' o']|] eqn:K'; try discriminate.
    injection Ha as <-. unfold op_uses; simpl. apply in_or_app. left. apply in_concat. exists (opnames (ORead d (m_sub e))). split; [|left; auto].
    apply in_map. apply in_flat_map. exists (m_dconn e).
    destruct (wf_in _ W _ _ _ Kz eq_refl) as [HI HN].
    assert (Hi : In e (in_edges g z)) by (apply in_edges_In; auto). split; [apply HI, in_map; auto|].
    unfold operand_of. destruct (find _ _) as [f|] eqn:F.
    + apply find_some in F. destruct F as [F1 F2]. apply String.eqb_eq in F2.
      assert (f = e) as ->; [|rewrite Es, K; left; auto].
      clear -HN Hi F1 F2. induction (in_edges g z) as [|h l IH]; [contradiction|]. simpl in HN. inversion HN as [|? ? Hn HN']; subst.
      destruct Hi as [->|Hi], F1 as [->|F1]; auto; exfalso; apply Hn.
      * rewrite <- F2. apply in_map; auto.
      * rewrite F2. apply in_map; auto.
    + exfalso. apply (find_none _ _ F) in Hi. rewrite String.eqb_refl in Hi. discriminate.
Qed.
Lemma task_one g z m n : wf g -> is_task g z -> edge g z m -> edge g z n -> m = n.
Proof.
  intros W (c & i & o & K) (e & He & Es & <-) (f & Hf & Fs & <-). destruct (wf_out _ W _ _ _ K eq_refl) as [HI HN].
  assert (H1 : In e (out_edges g z)) by (apply out_edges_In; auto). assert (H2 : In f (out_edges g z)) by (apply out_edges_In; auto).
  assert (E : m_sconn e = m_sconn f).
  { assert (A : In (m_sconn e) [o]) by (apply HI, in_map; auto). assert (B : In (m_sconn f) [o]) by (apply HI, in_map; auto).
    destruct A as [<-|[]], B as [<-|[]]; auto. }
  assert (e = f) as ->; auto. clear -HN H1 H2 E. induction (out_edges g z) as [|h l IH]; [contradiction|].
  simpl in HN. inversion HN as [|? ? Hn HN']; subst. destruct H1 as [->|H1], H2 as [->|H2]; auto; exfalso; apply Hn.
  - rewrite E. apply in_map; auto.
  - rewrite <- E. apply in_map; auto.
Qed.
Lemma outdeg0 g x : outdeg g x = 0 -> forall y, ~ edge g x y.
Proof. intros H y E. apply edge_out in E. contradiction. Qed.
Lemma indeg0 g x : indeg g x = 0 -> forall y, ~ edge g y x.
Proof.
  intros H y (e & He & _ & Ed). assert (Hi : In e (in_edges g x)) by (apply in_edges_In; auto). unfold indeg in H. destruct (in_edges g x); [contradiction|discriminate].
Qed.

Section R.
Variables (sym : string -> bool) (fresh : nat -> nat) (g1 g2 : dfg) (l1 l2 : list nat).
Hypothesis W1 : wf g1. Hypothesis W2 : wf g2.
Hypothesis L1 : linear g1 l1. Hypothesis L2 : linear g2 l2.
Hypothesis FI : forall x y, In x (ids g2) -> In y (ids g2) -> fresh x = fresh y -> x = y.
Hypothesis FF : forall x, In x (ids g2) -> ~ In (fresh x) (ids g1).
Hypothesis LIT : forall x y k k', kind_of g1 x = Some k -> kind_of g2 y = Some k' -> any_data k <> None -> any_data k = any_data k' -> k = k'.
Hypothesis P1 : plain g1. Hypothesis P2 : plain g2.
Hypothesis R1 : race_free g1. Hypothesis R2 : race_free g2.
Hypothesis FU : funnel g1. Hypothesis NI : no_isolated g1. Hypothesis SI : single g2.
Hypothesis SY : forall e x, In e (g_edges g1) \/ In e (g_edges g2) -> In x (concat (map atoms (m_sub e))) -> sym x = true.
Hypothesis CF : can_fuse sym g1 [] g2 = true.
Let g := fused fresh g1 l1 g2.
Let mv := moved fresh g1 l1 g2.

Lemma lift1 x y : path g1 x y -> path g x y.
Proof.
  induction 1 as [x y E|x y z E P IH]; [apply P_one|eapply P_cons; [|exact IH]]; eapply edge_fused; eauto.
Qed.
Lemma lift2 x y : path g2 x y -> path g (mv x) (mv y).
Proof.
  induction 1 as [x y E|x y z E P IH]; [apply P_one|eapply P_cons; [|exact IH]]; (apply (edge_fused fresh g1 g2 l1); auto; right; eauto).
Qed.

Lemma avoid_sound h w e x : subsets_avoid h w = true -> In e (g_edges h) -> In x (concat (map atoms (m_sub e))) -> ~ In x w.
Proof.
  unfold subsets_avoid. rewrite forallb_forall. intros H He Hx Hw. specialize (H e He). rewrite forallb_forall in H. specialize (H x Hx).
  apply negb_true_iff in H. assert (existsb (String.eqb x) w = true); [|congruence]. apply existsb_exists. exists x. rewrite String.eqb_refl. auto.
Qed.
Lemma written_In h t a : wf h -> op_of h t = Some a -> sym (o_out a) = true -> In (o_out a) (written sym h).
Proof.
  intros W H S. destruct (op_out _ _ _ H) as (_ & e & He & Es & K & _). unfold written. apply in_flat_map.
  exists (Vt (m_dst e) (KAcc (o_out a))). split; [apply kind_of_In; auto|]. simpl. rewrite S.
  destruct (Nat.ltb_spec 0 (indeg h (m_dst e))) as [L|L]; simpl; [auto|].
  exfalso. apply (indeg0 h (m_dst e)) with (y := t); [lia|]. exists e. auto.
Qed.
Lemma crit : subsets_avoid g1 (written sym g2) = true /\ subsets_avoid g2 (written sym g1) = true /\
  forall c1 c2, In c1 (components g1) -> In c2 (components g2) -> pair_ok g1 g2 c1 c2 = true.
Proof.
  pose proof CF as H. unfold can_fuse in H. rewrite !andb_true_iff in H. destruct H as (((((_ & _) & A) & B) & _) & C).
  repeat split; auto. intros c1 c2 H1 H2. rewrite forallb_forall in C. specialize (C c1 H1). rewrite forallb_forall in C. auto.
Qed.
Lemma share t u a b : op_of g1 t = Some a -> op_of g2 u = Some b -> conflict a b ->
  exists n1 n2 d, linked g1 t n1 /\ kind_of g1 n1 = Some (KAcc d) /\ linked g2 u n2 /\ kind_of g2 n2 = Some (KAcc d).
Proof.
  intros Ha Hb C. destruct crit as (C1 & C2 & _).
  assert (E : exists x, (x = o_out a \/ (exists e, In e (g_edges g1) /\ m_dst e = t /\ kind_of g1 (m_src e) = Some (KAcc x))) /\
                        (x = o_out b \/ (exists e, In e (g_edges g2) /\ m_dst e = u /\ kind_of g2 (m_src e) = Some (KAcc x)))).
  { destruct C as [E|[E|E]].
    - exists (o_out a). auto.
    - exists (o_out a). split; [auto|]. destruct (op_in _ _ _ _ Hb E) as [H|(e & He & Hx)]; [auto|].
      exfalso. eapply avoid_sound; [exact C2|exact He|exact Hx|]. eapply written_In; [exact W1|exact Ha|]. eapply SY; eauto.
    - exists (o_out b). split; [|auto]. destruct (op_in _ _ _ _ Ha E) as [H|(e & He & Hx)]; [auto|].
      exfalso. eapply avoid_sound; [exact C1|exact He|exact Hx|]. eapply written_In; [exact W2|exact Hb|]. eapply SY; eauto. }
  destruct E as (x & H1 & H2). destruct (touches _ _ _ _ Ha H1) as (n1 & N1 & K1), (touches _ _ _ _ Hb H2) as (n2 & N2 & K2).
  exists n1, n2, x. auto.
Qed.
Lemma cross t u a b : op_of g1 t = Some a -> op_of g2 u = Some b -> conflict a b -> path g t (mv u).
Proof.
  intros Ha Hb C. destruct (share _ _ _ _ Ha Hb C) as (n1 & n2 & d & N1 & K1 & N2 & K2).
  destruct (op_out _ _ _ Ha) as [Tt _]. destruct (op_out _ _ _ Hb) as [Tu _].
  destruct (components_spec g1 W1) as [I1 CS1]. destruct (components_spec g2 W2) as [I2 CS2].
  destruct (I1 t (op_of_ids _ _ _ Ha)) as (c1 & Hc1 & Ht1). destruct (I2 u (op_of_ids _ _ _ Hb)) as (c2 & Hc2 & Hu2).
  destruct crit as (_ & _ & PO). specialize (PO c1 c2 Hc1 Hc2). unfold pair_ok in PO.
  assert (M : In (n1, n2) (matches g1 g2 c1 c2)).
  { unfold matches. apply in_flat_map. exists n1. split; [apply (CS1 c1 t n1 Hc1 Ht1); auto|]. apply in_flat_map. exists n2.
    split; [apply (CS2 c2 u n2 Hc2 Hu2); auto|]. rewrite K1, K2, String.eqb_refl. left; auto. }
  destruct (matches g1 g2 c1 c2) as [|m0 ms] eqn:EM; [contradiction|]. rewrite <- EM in PO.
  apply existsb_exists in PO. destruct PO as ([s1 s2] & Hs & Hz). simpl in Hz. apply andb_true_iff in Hz. destruct Hz as [Z1 Z2].
  apply Nat.eqb_eq in Z1. apply Nat.eqb_eq in Z2. clear EM M.
  unfold matches in Hs. apply in_flat_map in Hs. destruct Hs as (s1' & Hs1 & Hs). apply in_flat_map in Hs. destruct Hs as (s2' & Hs2 & Hs).
  destruct (kind_of g1 s1') as [[e1|? ?|? ? ?|? ? ?]|] eqn:J1; try contradiction.
  destruct (kind_of g2 s2') as [[e2|? ?|? ? ?|? ? ?]|] eqn:J2; try contradiction.
  destruct (String.eqb_spec e1 e2) as [<-|]; [|contradiction]. destruct Hs as [E|[]]. injection E as -> ->.
  apply (CS1 c1 t s1 Hc1 Ht1) in Hs1. apply (CS2 c2 u s2 Hc2 Hu2) in Hs2.
  (* t reaches s1, the only sink of its component *)
  pose proof (linear_acyclic _ _ W1 L1) as A1.
  assert (SK : forall x, In x (ids g1) -> linked g1 x s1 -> x = s1 \/ path g1 x s1).
  { intros x Hx Lx. destruct (to_sink g1 W1 A1 x Hx) as (z & Hz & Oz & Pz).
    assert (z = s1) as ->; [|destruct Pz; auto]. apply FU; auto. eapply rst_trans; [|exact Lx].
    destruct Pz as [->|Pz]; [apply rst_refl|]. apply rst_sym, path_linked; auto. }
  assert (PT : path g1 t s1).
  { destruct (SK t (op_of_ids _ _ _ Ha) Hs1) as [->|]; auto. destruct Tt as (c & i & o & K'). congruence. }
  (* the source of u's component feeds u *)
  assert (EU : edge g2 s2 u).
  { destruct (linked_step g2 s2 u) as [->|(z & [E|E])]; [apply rst_sym; auto|destruct Tu as (c & i & o & K'); congruence| |].
    - assert (Tz : is_task g2 z).
      { destruct (pl_edge _ P2 _ _ E) as [[_ H]|[(c & i & o & H) _]]; [auto|congruence]. }
      assert (z = u) as <-; auto. apply SI; auto. eapply rst_trans; [|apply rst_sym; exact Hs2]. apply rst_sym, rst_step; auto.
    - exfalso. eapply indeg0; eauto. }
  (* the connector of s2 is s1 *)
  assert (CN : connector g1 l1 g2 s2 = Some s1).
  { unfold connector. rewrite Z2. simpl. rewrite J2. simpl.
    assert (In1 : In s1 l1) by (apply (Permutation_in _ (Permutation_sym (proj1 L1))); eapply kind_of_ids; eauto).
    assert (D1 : data_at g1 s1 = Some e1) by (unfold data_at; rewrite J1; auto).
    destruct (last_access_total g1 e1 l1 None s1 In1 D1) as [q Hq]. rewrite Hq. f_equal.
    apply last_access_spec in Hq. destruct Hq as [(a1 & b1 & El & Dq & Lst)|[Hq _]]; [|discriminate].
    destruct (Nat.eq_dec q s1) as [|Hne]; auto. exfalso.
    assert (Bq : before l1 s1 q).
    { rewrite El in In1 |- *. apply in_app_or in In1. destruct In1 as [H|[H|H]]; [|congruence|].
      - apply before_app; [auto|left; auto].
      - exfalso. apply (Lst s1 H). auto. }
    assert (Iq : In q (ids g1)) by (apply (Permutation_in _ (proj1 L1)); rewrite El; apply in_or_app; right; left; auto).
    assert (ND : NoDup l1) by (eapply Permutation_NoDup; [apply Permutation_sym; apply L1|apply wf_ids; auto]).
    assert (Kq : kind_of g1 q = Some (KAcc e1)).
    { destruct (kind_of_Some g1 q Iq) as [k Kk]. unfold data_at in Dq. rewrite Kk in Dq. rewrite Kk. f_equal.
      apply (LIT q s2 k (KAcc e1) Kk J2); [congruence|simpl; exact Dq]. }
    assert (Lq : linked g1 q s1).
    { (* the writer w of s1 and an operation next to q conflict *)
      assert (exists w, edge g1 w s1) as (w & Ew).
      { clear -PT. induction PT as [x y E|x y z E P IH]; eauto. }
      destruct (NI q Iq) as (z & Ez).
      destruct (touched g1 q e1 z P1 Kq Ez) as [Tz Hz].
      destruct (touched g1 s1 e1 w P1 J1 (or_intror Ew)) as [Tw Hw].
      destruct (pl_task _ P1 z Tz) as [oz Oz]. destruct (pl_task _ P1 w Tw) as [ow Ow].
      destruct (Hz oz Oz W1) as [Hz1 Hz2]. destruct (Hw ow Ow W1) as [Hw1 _].
      assert (Eo : o_out ow = e1) by (apply Hw1; split; [exact Ew|]; intros m Em; exact (task_one g1 w m s1 W1 Tw Em Ew)).
      assert (Lzq : linked g1 q z) by (destruct Ez; [apply rst_step|apply rst_sym, rst_step]; auto).
      eapply rst_trans; [exact Lzq|]. eapply rst_trans; [|apply rst_step; exact Ew].
      destruct (Nat.eq_dec z w) as [->|Hzw]; [apply rst_refl|].
      assert (CW : conflict oz ow).
      { destruct Ez as [Ez|Ez].
        - right; right. rewrite Eo. apply Hz2; auto.
        - left. rewrite Eo. apply Hz1. split; [exact Ez|]. intros m Em. exact (task_one g1 z m q W1 Tz Em Ez). }
      destruct (R1 z w oz ow Oz Ow Hzw CW) as [Pz|Pz]; [apply path_linked; auto|apply rst_sym, path_linked; auto]. }
    destruct (SK q Iq Lq) as [|Pq]; [contradiction|]. eapply before_asym; [exact ND|exact Bq|]. exact (path_before g1 l1 q s1 W1 L1 Pq). }
  assert (MS : mv s2 = s1) by (unfold mv, moved; rewrite CN; auto).
  eapply path_snoc; [apply lift1; exact PT|]. rewrite <- MS. apply (edge_fused fresh g1 g2 l1); auto. right. exists s2, u. auto.
Qed.
Lemma fused_race_free : race_free g.
Proof.
  assert (CASE : forall t a, op_of g t = Some a -> op_of g1 t = Some a \/ exists y, t = mv y /\ op_of g2 y = Some a).
  { intros t a Ha. pose proof (op_of_ids _ _ _ Ha) as Ht. unfold g in Ht. rewrite (ids_fused fresh g1 g2 l1) in Ht. apply in_app_or in Ht.
    destruct Ht as [Ht|Ht].
    - left. unfold g in Ha. rewrite (op_g1 fresh g1 g2 l1) in Ha; auto.
    - right. apply in_map_iff in Ht. destruct Ht as (y & <- & Hy). apply filter_In in Hy. destruct Hy as [Hy Cy].
      destruct (connector g1 l1 g2 y) eqn:C; [discriminate|]. exists y.
      assert (mv y = fresh y) by (unfold mv, moved; rewrite C; auto). split; auto.
      unfold g in Ha. rewrite (op_g2 fresh g1 g2 l1) in Ha; auto. }
  intros t u a b Ha Hb Hne C.
  destruct (CASE t a Ha) as [Ha1|(y & -> & Ha2)], (CASE u b Hb) as [Hb1|(z & -> & Hb2)].
  - destruct (R1 t u a b Ha1 Hb1 Hne C); [left|right]; apply lift1; auto.
  - left. eapply cross; eauto.
  - right. eapply cross; eauto. unfold conflict in *. clear -C. intuition.
  - assert (y <> z) by congruence. destruct (R2 y z a b Ha2 Hb2 H C); [left|right]; apply lift2; auto.
Qed.
End R.
