(** C47: the order in which the nodes of a block are emitted. *)
From Coq Require Import List String ZArith Bool Arith Lia Permutation.
From Verif Require Import Sym SymFacts IR IRFacts DataFlow DataFlowProofs DataFlowExec.
Import ListNotations.
Local Open Scope string_scope.
Local Open Scope nat_scope.

(** Specification: every node once, sources of an edge before its target. *)
Definition linear (g : dfg) (l : list nat) : Prop :=
  Permutation l (ids g) /\ forall x y, edge g x y -> before l x y.
(** two operations that touch a common container, one of them writing it, are
    ordered by the graph *)
Definition race_free (g : dfg) : Prop := forall t u a b, op_of g t = Some a -> op_of g u = Some b -> t <> u -> conflict a b ->
  path g t u \/ path g u t.
Definition C47_full : Prop := forall g, wf g -> acyclic g -> exists l, topological_sort g = Ok l /\ linear g l.

(** It terminates, does not throw, and returns each node exactly once. *)
Theorem C47_sort_each_node_once g : wf g -> acyclic g -> exists l, topological_sort g = Ok l /\ Permutation l (ids g).
Proof. intros W A. destruct (sort_ok g W A) as (l & E & P & _). exists l. auto. Qed.
(** It is a topological order when no node with several outgoing edges is
    reachable from another such node. *)
Theorem C47_sort_topological_partial g : wf g -> acyclic g -> antichain g -> exists l, topological_sort g = Ok l /\ linear g l.
Proof.
  intros W A AN. destruct (sort_ok g W A) as (l & E & P & H). destruct (antichain_compat g AN) as [rho CR].
  exists l. split; auto. split; auto. intros x y. apply (H rho CR).
Qed.

Lemma before_trans (l : list nat) : NoDup l -> forall x y z, before l x y -> before l y z -> before l x z.
Proof.
  intros N x y z (a & b & c & E1) (d & e & f & E2).
  revert a d E1 E2. induction l as [|h l IH]; intros a d E1 E2; [destruct a; discriminate|].
  apply NoDup_cons_iff in N. destruct N as [Hn N'].
  destruct a as [|h1 a], d as [|h2 d]; simpl in E1, E2; injection E1 as A1 A2; injection E2 as B1 B2.
  - exfalso. apply Hn. rewrite A2. apply in_or_app. right. left. congruence.
  - subst x. apply before_hd. rewrite B2. apply in_or_app. right. right. apply in_or_app. right. left. auto.
  - exfalso. apply Hn. rewrite A2. apply in_or_app. right. right. apply in_or_app. right. left. congruence.
  - apply before_cons. eapply IH; eauto.
Qed.
Lemma path_before g l x y : wf g -> linear g l -> path g x y -> before l x y.
Proof.
  intros W [P H] Q. assert (N : NoDup l) by (eapply Permutation_NoDup; [apply Permutation_sym; exact P|apply wf_ids; auto]).
  induction Q as [x y E|x y z E Q IH]; [auto|]. eapply before_trans; eauto.
Qed.
Lemma before_asym (l : list nat) x y : NoDup l -> before l x y -> before l y x -> False.
Proof.
  intros N B C. pose proof (before_trans l N _ _ _ B C) as (a & b & c & ->).
  apply NoDup_remove_2 in N. apply N. apply in_or_app. right. apply in_or_app. right. left. auto.
Qed.
(** In a race-free block every topological order computes the same. *)
Theorem C47_every_order_same g l1 l2 I st : wf g -> race_free g -> linear g l1 -> linear g l2 ->
  same_result (exec_block I st (lower g l1)) (exec_block I st (lower g l2)).
Proof.
  intros W RF L1 L2. assert (N : NoDup l1) by (eapply Permutation_NoDup; [apply Permutation_sym; apply L1|apply wf_ids; auto]).
  apply reorder; auto.
  - eapply perm_trans; [apply L1|]. apply Permutation_sym, L2.
  - intros t u a b Ht Hu C B. assert (Hne : t <> u).
    { intros ->. eapply before_asym; eauto. }
    destruct (RF t u a b Ht Hu Hne C) as [P|P]; [eapply path_before; eauto|].
    exfalso. eapply before_asym; [exact N|exact B|]. eapply path_before; eauto.
Qed.
(** So the emitted code computes what any topological order computes. *)
Theorem C47_emitted_code_partial g : wf g -> acyclic g -> race_free g -> antichain g ->
  exists b, block_code g = Ok b /\ forall l I st, linear g l -> same_result (exec_block I st b) (exec_block I st (lower g l)).
Proof.
  intros W A RF AN. destruct (C47_sort_topological_partial g W A AN) as (l & E & L).
  exists (lower g l). unfold block_code. rewrite E. split; auto. intros l' I st L'. apply C47_every_order_same; auto.
Qed.

(** n -> T1 (assign) -> a;  a -> T2 (assign) -> b;  n, a -> T3 (fp_add) -> c *)
Definition c47_edge (s : nat) (c : string) (d : nat) (c' : string) : memlet := Ml s c d c' [].
Definition c47_bad : dfg := Dfg
  [Vt 1 (KAcc "n"); Vt 2 (KTask 0 ["_in"] "_out"); Vt 3 (KAcc "a"); Vt 4 (KTask 0 ["_in"] "_out"); Vt 5 (KAcc "b");
   Vt 6 (KTask 2 ["_in1"; "_in2"] "_out"); Vt 7 (KAcc "c")]
  [c47_edge 1 "void" 2 "_in"; c47_edge 2 "_out" 3 "void"; c47_edge 3 "void" 4 "_in"; c47_edge 4 "_out" 5 "void";
   c47_edge 1 "void" 6 "_in1"; c47_edge 3 "void" 6 "_in2"; c47_edge 6 "_out" 7 "void"].

(** deciding the hypotheses on concrete graphs *)
Definition subset_b (a b : list string) : bool := forallb (fun x => existsb (String.eqb x) b) a.
Fixpoint nodup_b (l : list string) : bool := match l with [] => true | x :: r => negb (existsb (String.eqb x) r) && nodup_b r end.
Definition nodup_n (l : list nat) : bool := List.length (dedup [] l) =? List.length l.
Definition wf_b (g : dfg) : bool :=
  nodup_n (ids g) && forallb (fun e => mem (m_src e) (ids g) && mem (m_dst e) (ids g)) (g_edges g) &&
  forallb (fun v => match code_ins (v_kind v) with
                    | Some i => subset_b (map m_dconn (in_edges g (v_id v))) i && nodup_b (map m_dconn (in_edges g (v_id v))) | None => true end &&
                    match code_outs (v_kind v) with
                    | Some o => subset_b (map m_sconn (out_edges g (v_id v))) o && nodup_b (map m_sconn (out_edges g (v_id v))) | None => true end) (g_nodes g).
Lemma existsb_In x l : existsb (String.eqb x) l = true <-> In x l.
Proof. rewrite existsb_exists. split; [intros (y & H & E); apply String.eqb_eq in E; subst; auto|intros H; exists x; rewrite String.eqb_refl; auto]. Qed.
Lemma subset_ok a b : subset_b a b = true -> incl a b.
Proof. intros H x Hx. unfold subset_b in H. rewrite forallb_forall in H. apply existsb_In, H; auto. Qed.
Lemma nodup_ok l : nodup_b l = true -> NoDup l.
Proof.
  induction l as [|a l IH]; simpl; intros H; [constructor|]. apply andb_true_iff in H. destruct H as [H1 H2].
  constructor; auto. intros Hi. apply existsb_In in Hi. rewrite Hi in H1. discriminate.
Qed.
Lemma nodup_n_ok l : nodup_n l = true -> NoDup l.
Proof.
  intros H. apply Nat.eqb_eq in H.
  apply NoDup_incl_NoDup with (l := dedup [] l); [apply dedup_NoDup|lia|].
  intros x Hx. apply dedup_In in Hx. tauto.
Qed.
Lemma wf_dec g : wf_b g = true -> wf g.
Proof.
  unfold wf_b. intros H. apply andb_true_iff in H. destruct H as [H H3]. apply andb_true_iff in H. destruct H as [H1 H2].
  rewrite forallb_forall in H2, H3.
  assert (K : forall x k, kind_of g x = Some k -> exists v, In v (g_nodes g) /\ v_kind v = k /\ v_id v = x).
  { intros x k E. unfold kind_of in E. destruct (find _ _) as [v|] eqn:F; [|discriminate]. injection E as <-.
    apply find_some in F. destruct F as [F1 F2]. apply Nat.eqb_eq in F2. exists v. auto. }
  constructor.
  - apply nodup_n_ok; auto.
  - intros e He. specialize (H2 e He). apply andb_true_iff in H2. rewrite !mem_In in H2. exact H2.
  - intros x k i E Ei. destruct (K x k E) as (v & Hv & <- & <-). specialize (H3 v Hv). rewrite Ei in H3.
    apply andb_true_iff in H3. destruct H3 as [H3 _]. apply andb_true_iff in H3. destruct H3. split; [apply subset_ok|apply nodup_ok]; auto.
  - intros x k o E Eo. destruct (K x k E) as (v & Hv & <- & <-). specialize (H3 v Hv). rewrite Eo in H3.
    apply andb_true_iff in H3. destruct H3 as [_ H3]. apply andb_true_iff in H3. destruct H3. split; [apply subset_ok|apply nodup_ok]; auto.
Qed.
Lemma acyclic_dec g (r : nat -> nat) : forallb (fun e => r (m_src e) <? r (m_dst e)) (g_edges g) = true -> acyclic g.
Proof. intros H. exists r. intros x y (e & He & <- & <-). rewrite forallb_forall in H. apply Nat.ltb_lt. auto. Qed.
Definition reach_b (g : dfg) (x y : nat) : bool :=
  mem y (Nat.iter (List.length (g_nodes g)) (fun s => dedup [] (s ++ flat_map (fun z => map m_dst (out_edges g z)) s)) (map m_dst (out_edges g x))).
Lemma reach_ok g x y : reach_b g x y = true -> path g x y.
Proof.
  unfold reach_b. rewrite mem_In. generalize (List.length (g_nodes g)). intros n. revert y.
  assert (E : forall z w, In w (map m_dst (out_edges g z)) -> edge g z w).
  { intros z w H. apply in_map_iff in H. destruct H as (e & <- & He). apply out_edges_In in He. exists e. tauto. }
  assert (T : forall a b c, path g a b -> edge g b c -> path g a c).
  { intros a b c P Q. induction P as [a b Q'|a b d Q' P IH]; [eapply P_cons; [exact Q'|apply P_one; auto]|eapply P_cons; [exact Q'|apply IH; auto]]. }
  induction n as [|n IH]; intros y H; [apply P_one, E; exact H|].
  simpl in H. apply dedup_In in H. destruct H as [H _]. apply in_app_or in H. destruct H as [H|H]; [apply IH; auto|].
  apply in_flat_map in H. destruct H as (z & Hz & H). apply E in H. eapply T; eauto.
Qed.
Definition conflict_b (a b : op) : bool :=
  String.eqb (o_out a) (o_out b) || existsb (String.eqb (o_out a)) (op_uses b) || existsb (String.eqb (o_out b)) (op_uses a).
Definition race_free_b (g : dfg) : bool :=
  forallb (fun t => forallb (fun u => match op_of g t, op_of g u with
    | Some a, Some b => (t =? u) || negb (conflict_b a b) || reach_b g t u || reach_b g u t | _, _ => true end) (ids g)) (ids g).
Lemma op_of_ids g t a : op_of g t = Some a -> In t (ids g).
Proof.
  unfold op_of, kind_of. destruct (find _ _) as [v|] eqn:F; [|discriminate]. intros _.
  apply find_some in F. destruct F as [F1 F2]. apply Nat.eqb_eq in F2. subst t. apply in_map; auto.
Qed.
Lemma race_free_dec g : race_free_b g = true -> race_free g.
Proof.
  unfold race_free_b. rewrite forallb_forall. intros H t u a b Ht Hu Hne C.
  specialize (H t (op_of_ids _ _ _ Ht)). rewrite forallb_forall in H. specialize (H u (op_of_ids _ _ _ Hu)).
  rewrite Ht, Hu in H. destruct (Nat.eqb_spec t u); [contradiction|]. simpl in H.
  assert (Cb : conflict_b a b = true).
  { unfold conflict_b. rewrite !orb_true_iff, !existsb_In, String.eqb_eq. unfold conflict in C. tauto. }
  rewrite Cb in H. simpl in H. apply orb_true_iff in H. destruct H; [left|right]; apply reach_ok; auto.
Qed.
Definition before_b (l : list nat) (x y : nat) : bool :=
  match index (Nat.eqb x) l with Some i => mem y (skipn (S i) l) | None => false end.
Lemma before_b_ok l x y : before_b l x y = true -> before l x y.
Proof.
  unfold before_b. destruct (index (Nat.eqb x) l) as [i|] eqn:E; [|discriminate]. apply index_Some in E. destruct E as (z & E & Ez).
  apply Nat.eqb_eq in Ez. subst z. intros H. apply mem_In in H. apply nth_error_split in E. destruct E as (a & b & -> & <-).
  replace (skipn (S (List.length a)) (a ++ x :: b)) with b in H.
  2:{ clear. induction a as [|h a IH]; simpl; auto. }
  apply before_app_r. apply before_hd. auto.
Qed.
Lemma linear_dec g l : wf g -> (nodup_n l && forallb (fun x => mem x l) (ids g) && forallb (fun x => mem x (ids g)) l &&
  forallb (fun e => before_b l (m_src e) (m_dst e)) (g_edges g))%bool = true -> linear g l.
Proof.
  intros W H. apply andb_true_iff in H. destruct H as [H H4]. apply andb_true_iff in H. destruct H as [H H3]. apply andb_true_iff in H. destruct H as [H1 H2].
  rewrite forallb_forall in H2, H3, H4. split.
  - apply NoDup_Permutation; [apply nodup_n_ok; auto|apply wf_ids; auto|]. intros x. split; intros Hx; apply mem_In; auto.
  - intros x y (e & He & <- & <-). apply before_b_ok. auto.
Qed.

Lemma c47_bad_wf : wf c47_bad. Proof. apply wf_dec. reflexivity. Qed.
Lemma c47_bad_ac : acyclic c47_bad. Proof. apply (acyclic_dec _ (fun x => x)). reflexivity. Qed.
Theorem C47_sort_topological_refuted : ~ C47_full.
Proof.
  intros F. destruct (F c47_bad c47_bad_wf c47_bad_ac) as (l & E & P & H).
  assert (El : l = [1; 6; 7; 2; 3; 4; 5]) by (vm_compute in E; congruence). subst l.
  assert (B : before [1; 6; 7; 2; 3; 4; 5] 3 6).
  { apply H. exists (c47_edge 3 "void" 6 "_in2"). simpl. auto 10. }
  assert (N : NoDup [1; 6; 7; 2; 3; 4; 5]) by (apply nodup_n_ok; reflexivity).
  eapply before_asym; [exact N|exact B|]. apply before_b_ok. reflexivity.
Qed.
(** the emitted code of that race-free block: c gets n plus the value a had
    before the block, while every topological order adds n to n *)
Definition c47_I (c : nat) (vs : list Z) : option Z :=
  match c, vs with 0, [v] => Some v | 2, [v; w] => Some (v + w)%Z | _, _ => None end.
Theorem C47_emitted_code_refuted : race_free c47_bad /\ exists b l st s s',
  block_code c47_bad = Ok b /\ linear c47_bad l /\ exec_block c47_I st b = Some s /\ exec_block c47_I st (lower c47_bad l) = Some s' /\
  s "c" [] = 5%Z /\ s' "c" [] = 10%Z.
Proof.
  split; [apply race_free_dec; reflexivity|].
  eexists _, [1; 2; 3; 4; 5; 6; 7], (fun x _ => if String.eqb x "n" then 5%Z else 0%Z), _, _.
  split; [vm_compute; reflexivity|]. split; [apply linear_dec; [apply c47_bad_wf|reflexivity]|].
  split; [reflexivity|]. split; [reflexivity|]. split; reflexivity.
Qed.

(** The statement of a tasklet: its code, one operand per input connector, in the
    order of the connectors, each read through the memlet that enters the
    connector, and a store through an outgoing memlet.  [connected]: every input
    connector is fed by a container or a constant (tasklet.cpp:20-59). *)
Definition connected (g : dfg) (t : nat) (ins : list string) : Prop := forall c, In c ins ->
  exists e, In e (g_edges g) /\ m_dst e = t /\ m_dconn e = c /\ ((exists d, kind_of g (m_src e) = Some (KAcc d)) \/ exists d z, kind_of g (m_src e) = Some (KCst d z)).
Lemma operand_one g t c ins out cn e : wf g -> kind_of g t = Some (KTask c ins out) -> In e (g_edges g) -> m_dst e = t -> m_dconn e = cn ->
  find (fun e => String.eqb (m_dconn e) cn) (in_edges g t) = Some e.
Proof.
  intros W K He Hd Hc. destruct (wf_in g W t _ _ K eq_refl) as (_ & ND).
  assert (Hi: In e (in_edges g t)) by (unfold in_edges; apply filter_In; split; [exact He|apply Nat.eqb_eq; auto]).
  revert ND Hi. generalize (in_edges g t) as l. induction l as [|f l IH]; intros ND Hi; [destruct Hi|]. destruct Hi as [<-|Hi]; simpl.
  - rewrite Hc, String.eqb_refl. reflexivity.
  - inversion ND as [|? ? N1 N2]; subst. destruct (String.eqb_spec (m_dconn f) (m_dconn e)) as [E|_]; [|auto].
    elim N1. rewrite E. apply in_map. exact Hi.
Qed.
Theorem C47_tasklet_statement g t c ins out o : wf g -> kind_of g t = Some (KTask c ins out) -> connected g t ins -> op_of g t = Some o ->
  o_code o = c /\ List.length (o_ins o) = List.length ins /\
  (forall k cn e, nth_error ins k = Some cn -> In e (g_edges g) -> m_dst e = t -> m_dconn e = cn ->
     (forall d, kind_of g (m_src e) = Some (KAcc d) -> nth_error (o_ins o) k = Some (ORead d (m_sub e))) /\
     (forall d z, kind_of g (m_src e) = Some (KCst d z) -> nth_error (o_ins o) k = Some (OConst z))) /\
  exists e, In e (g_edges g) /\ m_src e = t /\ kind_of g (m_dst e) = Some (KAcc (o_out o)) /\ m_sub e = o_sub o.
Proof.
  intros W K C H. unfold op_of in H. rewrite K in H. destruct (out_edges g t) as [|e0 l0] eqn:OE; [discriminate|].
  destruct (kind_of g (m_dst e0)) as [[d0| | |]|] eqn:K0; try discriminate. injection H as <-. cbn [o_code o_ins o_out o_sub].
  assert (ONE: forall cn, In cn ins -> exists r, operand_of g t cn = [r]).
  { intros cn Hc. destruct (C cn Hc) as (e & He & Hd & Hcn & Q). unfold operand_of. rewrite (operand_one g t c ins out cn e W K He Hd Hcn).
    destruct Q as [(d & Q)|(d & z & Q)]; rewrite Q; eauto. }
  split; [reflexivity|]. split; [|split].
  - clear - ONE. induction ins as [|a r IH]; [reflexivity|]. simpl. rewrite app_length, IH by (intros cn Hc; apply ONE; right; exact Hc).
    destruct (ONE a (or_introl eq_refl)) as (x & ->). reflexivity.
  - assert (NTH: forall k cn, nth_error ins k = Some cn -> forall r, operand_of g t cn = [r] -> nth_error (flat_map (operand_of g t) ins) k = Some r).
    { clear - ONE. induction ins as [|a l IH]; intros k cn Hk r Hr; [destruct k; discriminate|]. simpl. destruct (ONE a (or_introl eq_refl)) as (x & Ex). rewrite Ex. simpl.
      destruct k as [|k]; simpl in Hk |- *; [congruence|]. apply (IH (fun cn Hc => ONE cn (or_intror Hc)) k cn Hk r Hr). }
    intros k cn e Hk He Hd Hc. split.
    + intros d Q. apply (NTH k cn Hk). unfold operand_of. rewrite (operand_one g t c ins out cn e W K He Hd Hc), Q. reflexivity.
    + intros d z Q. apply (NTH k cn Hk). unfold operand_of. rewrite (operand_one g t c ins out cn e W K He Hd Hc), Q. reflexivity.
  - exists e0. assert (Hi: In e0 (out_edges g t)) by (rewrite OE; left; reflexivity). unfold out_edges in Hi. apply filter_In in Hi as [Hi Hs]. apply Nat.eqb_eq in Hs. auto.
Qed.

(** A block that meets the hypotheses: b = a + 1; c = b; a = b * b; y = x. *)
Definition c47_good : dfg := Dfg
  [Vt 1 (KAcc "a"); Vt 2 (KCst "1" 1); Vt 3 (KTask 2 ["_in1"; "_in2"] "_out"); Vt 4 (KAcc "b");
   Vt 5 (KTask 0 ["_in"] "_out"); Vt 6 (KAcc "c"); Vt 7 (KTask 4 ["_in1"; "_in2"] "_out"); Vt 8 (KAcc "a");
   Vt 9 (KAcc "x"); Vt 10 (KTask 0 ["_in"] "_out"); Vt 11 (KAcc "y")]
  [c47_edge 1 "void" 3 "_in1"; c47_edge 2 "void" 3 "_in2"; c47_edge 3 "_out" 4 "void"; c47_edge 4 "void" 5 "_in"; c47_edge 5 "_out" 6 "void";
   c47_edge 4 "void" 7 "_in1"; c47_edge 4 "void" 7 "_in2"; c47_edge 7 "_out" 8 "void"; c47_edge 9 "void" 10 "_in"; c47_edge 10 "_out" 11 "void"].
Lemma path_inv g x y : path g x y -> exists e, In e (g_edges g) /\ m_src e = x /\ (m_dst e = y \/ path g (m_dst e) y).
Proof. intros P. inversion P as [? ? (e & He & H1 & H2)|? z ? (e & He & H1 & H2) P']; subst; exists e; auto. Qed.
Example C47_tasklet_hypotheses : connected c47_good 3 ["_in1"; "_in2"] /\ kind_of c47_good 3 = Some (KTask 2 ["_in1"; "_in2"] "_out") /\
  op_of c47_good 3 = Some {| o_code := 2; o_ins := [ORead "a" []; OConst 1%Z]; o_out := "b"; o_sub := [] |}.
Proof.
  split; [|split; reflexivity]. intros c [<-|[<-|[]]].
  - exists (c47_edge 1 "void" 3 "_in1"). split; [left; reflexivity|]. repeat split. left. exists "a". reflexivity.
  - exists (c47_edge 2 "void" 3 "_in2"). split; [right; left; reflexivity|]. repeat split. right. exists "1", 1%Z. reflexivity.
Qed.
Example C47_hypotheses : wf c47_good /\ acyclic c47_good /\ race_free c47_good /\ antichain c47_good /\
  topological_sort c47_good = Ok [1; 2; 3; 4; 7; 8; 5; 6; 9; 10; 11].
Proof.
  split; [apply wf_dec; reflexivity|]. split; [apply (acyclic_dec _ (fun x => x)); reflexivity|].
  split; [apply race_free_dec; reflexivity|]. split; [|vm_compute; reflexivity].
  intros x y Hx Hy P.
  assert (M : forall z, multi c47_good z -> z = 4).
  { intros z Hz. unfold multi, outdeg, out_edges, c47_good in Hz. simpl in Hz. 
    do 12 (destruct z as [|z]; [simpl in Hz; lia || reflexivity|]). simpl in Hz. lia. }
  rewrite (M x Hx), (M y Hy) in P.
  apply (path_acyclic c47_good) in P; [congruence|apply (acyclic_dec _ (fun x => x)); reflexivity].
Qed.
