(** C61: copies through a temporary inside one block are removed. *)
From Coq Require Import List String ZArith Bool Arith Lia Permutation.
From Verif Require Import Sym SymFacts IR IRFacts DataFlow DataFlowProofs DataFlowExec DataFlowProps TaskletFuse Hole.
Import ListNotations.
Local Open Scope string_scope.
Local Open Scope list_scope.
Local Open Scope nat_scope.

(** Specification.  [g'] computes in every topological order what [g] computes in every topological order,
    except for the value of [t]. *)
Definition computes_same (t : string) (g g' : dfg) : Prop := forall (I : nat -> list Z -> option Z) (l l' : list nat) (s : store),
  (forall v, I 0 [v] = Some v) -> linear g l -> linear g' l' ->
  same_off t (exec_block I s (lower g l)) (exec_block I s (lower g' l')).
(** [e] reads, directly or in its subset, the container [d]. *)
Definition needs (g : dfg) (e : memlet) (d : string) : Prop := kind_of g (m_src e) = Some (KAcc d) \/ In d (concat (map atoms (m_sub e))).
(** Each operation that changes what the copy into [a] reads comes before the copy or after every reader of [a]. *)
Definition not_changed_between (g : dfg) (a : nat) : Prop := forall ie e0 u o, In ie (g_edges g) -> m_dst ie = a -> In e0 (g_edges g) -> m_dst e0 = m_src ie ->
  op_of g u = Some o -> needs g e0 (o_out o) -> path g u (m_src ie) \/ forall y, edge g a y -> y = u \/ path g y u.

Definition C61_full : Prop := forall g a t g', valid_block g -> race_free g -> kind_of g a = Some (KAcc t) -> only_at g a t ->
  fuse_input g a = Some g' \/ fuse_output g a = Some g' -> valid_block g' /\ race_free g' /\ computes_same t g g'.

Lemma in_inv g a g' t : valid_block g -> kind_of g a = Some (KAcc t) -> fuse_input g a = Some g' ->
  exists ie e0 ins0 out0, in_edges g a = [ie] /\ kind_of g (m_src ie) = Some (KTask 0 ins0 out0) /\ in_edges g (m_src ie) = [e0] /\ m_sub ie = [] /\
    (forall o, In o (out_edges g a) -> m_sub o = [] /\ task_node g (m_dst o)) /\ out_edges g a <> [] /\ g' = rewire g a (m_src ie) e0.
Proof.
  intros V Ka H. unfold fuse_input in H. rewrite Ka in H. destruct (in_edges g a) as [|ie [|]] eqn:Ia; try discriminate.
  destruct (out_edges g a) as [|o1 os] eqn:Oa; [discriminate|]. destruct (kind_of g (m_src ie)) as [[| |c i u|]|] eqn:Kk; try discriminate. destruct c; [|discriminate].
  destruct (in_edges g (m_src ie)) as [|e0 [|]] eqn:Ik; try discriminate. destruct (is_nil (m_sub ie) && _) eqn:B; [|discriminate]. inversion H; subst g'; clear H.
  apply andb_true_iff in B as [B1 B2]. rewrite forallb_forall in B2. exists ie, e0, i, u. split; [reflexivity|]. split; [exact Kk|]. split; [exact Ik|].
  split; [destruct (m_sub ie); [reflexivity|discriminate]|]. split; [|split; [discriminate|reflexivity]].
  intros o Ho. apply B2 in Ho. apply andb_true_iff in Ho as [H1 H2]. split; [destruct (m_sub o); [reflexivity|discriminate]|].
  unfold task_b in H2. unfold task_node. destruct (kind_of g (m_dst o)) as [[| |c' i' u'|]|]; try discriminate. eauto.
Qed.

Lemma opx_needs g e d : In d (opnames (opx_of g e)) -> needs g e d.
Proof.
  unfold opx_of, needs. destruct (kind_of g (m_src e)) as [[x|x z|c i u|c i u]|]; cbn [opnames]; try (intros []).
  - left. congruence.
  - right. assumption.
Qed.
Lemma settled_of g a ie e0 : in_edges g a = [ie] -> in_edges g (m_src ie) = [e0] -> not_changed_between g a -> settled g a (m_src ie) e0.
Proof.
  intros Ia Ik H u o Ho W. assert (F1 : In ie (in_edges g a)) by (rewrite Ia; left; reflexivity). assert (F2 : In e0 (in_edges g (m_src ie))) by (rewrite Ik; left; reflexivity).
  apply in_in in F1 as [F1 G1]. apply in_in in F2 as [F2 G2].
  apply (H ie e0 u o F1 G1 F2 G2 Ho). apply opx_needs. exact W.
Qed.

(** x -> assign -> t -> tasklets *)
Lemma input_core g a t g' : valid_block g -> race_free g -> kind_of g a = Some (KAcc t) -> only_at g a t ->
  (forall ie e0, in_edges g a = [ie] -> in_edges g (m_src ie) = [e0] -> forall i u, kind_of g (m_src ie) = Some (KTask 0 i u) -> m_sub ie = [] -> settled g a (m_src ie) e0) -> fuse_input g a = Some g' ->
  valid_block g' /\ race_free g' /\ computes_same t g g'.
Proof.
  intros V RF Ka ON ST H. destruct (in_inv g a g' t V Ka H) as (ie & e0 & i & u & Ia & Kk & Ik & SI & OUTS & SOME & ->). specialize (ST ie e0 Ia Ik i u Kk SI).
  assert (V' : valid_block (rewire g a (m_src ie) e0)) by (eapply valid'; eauto).
  assert (R' : race_free (rewire g a (m_src ie) e0)) by (eapply race_free'; eauto).
  split; [exact V'|]. split; [exact R'|]. intros I l l' s COPY L L'.
  eapply same_off_r; [eapply input_exec; eauto|]. apply C47_every_order_same; [apply V'|exact R'| |exact L'].
  eapply linear'; eauto.
Qed.
Theorem C61_input_fusion_partial g a t g' : valid_block g -> race_free g -> kind_of g a = Some (KAcc t) -> only_at g a t -> not_changed_between g a ->
  fuse_input g a = Some g' -> valid_block g' /\ race_free g' /\ computes_same t g g'.
Proof. intros V RF Ka ON NC H. eapply input_core; eauto. intros. apply settled_of; auto. Qed.
(** With one reader of t that condition is not needed. *)
Theorem C61_single_reader g a t g' o : valid_block g -> race_free g -> kind_of g a = Some (KAcc t) -> only_at g a t -> out_edges g a = [o] ->
  fuse_input g a = Some g' -> valid_block g' /\ race_free g' /\ computes_same t g g'.
Proof. intros V RF Ka ON OE H. eapply input_core; eauto. intros. eapply settled_single; eauto. Qed.

(** tasklet -> t -> assign -> out *)
Theorem C61_output_fusion g a t g' : valid_block g -> race_free g -> kind_of g a = Some (KAcc t) -> only_at g a t -> fuse_output g a = Some g' ->
  valid_block g' /\ race_free g' /\ computes_same t g g'.
Proof.
  intros V RF Ka ON H. unfold fuse_output in H. rewrite Ka in H. destruct (in_edges g a) as [|ie [|]] eqn:Ia; try discriminate.
  destruct (out_edges g a) as [|oe [|]] eqn:Oa; try discriminate. destruct (kind_of g (m_src ie)) as [[| |c i u|]|] eqn:KT; try discriminate.
  destruct (kind_of g (m_dst oe)) as [[| |c0 i0 u0|]|] eqn:Kk; try discriminate. destruct c0; [|discriminate].
  destruct (out_edges g (m_dst oe)) as [|e1 [|]] eqn:Ok; try discriminate. destruct (is_nil (m_sub ie) && is_nil (m_sub oe)) eqn:B; [|discriminate].
  inversion H as [E]; clear H. apply andb_true_iff in B as [B1 B2]. assert (SI : m_sub ie = []) by (destruct (m_sub ie); [reflexivity|discriminate]). assert (SO : m_sub oe = []) by (destruct (m_sub oe); [reflexivity|discriminate]).
  assert (V' : valid_block g') by (rewrite <- E; eapply o_valid; eauto).
  assert (R' : race_free g') by (rewrite <- E; eapply o_race; eauto).
  split; [rewrite E; exact V'|]. split; [rewrite E; exact R'|]. rewrite E. intros I l l' s COPY L L'.
  eapply same_off_r; [eapply output_exec; eauto|]. rewrite E. apply C47_every_order_same; [apply V'|exact R'| |exact L'].
  rewrite <- E. eapply o_linear; eauto.
Qed.

(** ** Inside a program *)
(** The block does not mention [t]. *)
Definition unused (g : dfg) (t : string) : Prop := (forall y, kind_of g y <> Some (KAcc t)) /\ forall e, In e (g_edges g) -> ~ In t (concat (map atoms (m_sub e))).
Theorem C61_temporary_gone g a t g' : kind_of g a = Some (KAcc t) -> only_at g a t -> fuse_input g a = Some g' \/ fuse_output g a = Some g' -> unused g' t.
Proof.
  intros Ka [O1 O2] [H|H].
  - unfold fuse_input in H. rewrite Ka in H. destruct (in_edges g a) as [|ie [|]]; try discriminate.
    destruct (out_edges g a) as [|o1 os]; [discriminate|]. destruct (kind_of g (m_src ie)) as [[| |c i u|]|]; try discriminate. destruct c; [|discriminate].
    destruct (in_edges g (m_src ie)) as [|e0 [|]] eqn:Ik; try discriminate. destruct (is_nil (m_sub ie) && _); [|discriminate]. inversion H; subst g'; clear H.
    assert (H0 : In e0 (g_edges g)). { assert (Q : In e0 (in_edges g (m_src ie))) by (rewrite Ik; left; reflexivity). apply in_in in Q. apply Q. }
    split.
    + intros y K. unfold rewire in K. rewrite kind_filter in K. destruct (keep g a (m_src ie) e0 y) eqn:KE; [|discriminate]. apply O1 in K.
      unfold keep in KE. rewrite K, Nat.eqb_refl in KE. discriminate.
    + intros e He. cbn [rewire g_edges] in He. unfold left_edges in He. apply in_map_iff in He as (f & <- & Hf). apply filter_In in Hf as [Hf _].
      unfold moved. destruct (_ =? a); [apply (O2 e0 H0)|]. destruct (_ && _); apply (O2 f Hf).
  - unfold fuse_output in H. rewrite Ka in H. destruct (in_edges g a) as [|ie [|]]; try discriminate.
    destruct (out_edges g a) as [|oe [|]]; try discriminate. destruct (kind_of g (m_src ie)) as [[| |c i u|]|]; try discriminate.
    destruct (kind_of g (m_dst oe)) as [[| |c0 i0 u0|]|]; try discriminate. destruct c0; [|discriminate].
    destruct (out_edges g (m_dst oe)) as [|e1 [|]] eqn:Ok; try discriminate. destruct (is_nil (m_sub ie) && is_nil (m_sub oe)); [|discriminate]. inversion H; subst g'; clear H.
    assert (H0 : In e1 (g_edges g)). { assert (Q : In e1 (out_edges g (m_dst oe))) by (rewrite Ok; left; reflexivity). apply in_out in Q. apply Q. }
    split.
    + intros y K. rewrite (kind_filter (fun y => negb (y =? a) && negb (y =? m_dst oe))) in K. destruct (negb (y =? a)) eqn:KE; [|discriminate]. destruct (negb (y =? m_dst oe)); [|discriminate].
      cbn [andb] in K. apply O1 in K. rewrite K, Nat.eqb_refl in KE. discriminate.
    + intros e He. cbn [g_edges] in He. apply in_map_iff in He as (f & <- & Hf). apply filter_In in Hf as [Hf _].
      destruct (_ =? a); [apply (O2 e1 H0)|apply (O2 f Hf)].
Qed.
Lemma unused_ops g t l o : unused g t -> In o (lower g l) -> ~ In t (op_uses o).
Proof.
  intros [U1 U2] H K. apply lower_in in H as (y & _ & H). unfold op_uses in K. apply in_app_or in K as [K|K].
  - rewrite <- flat_map_concat_map in K. apply in_flat_map in K as (i & Hi & K). destruct (ins_inv g y o i H Hi) as (e & He & _ & [(d & Kd & ->)|(d & z & _ & ->)]); [|destruct K].
    cbn [opnames] in K. destruct K as [->|K]; [exact (U1 _ Kd)|exact (U2 e He K)].
  - destruct (op_inv g y o H) as (c & ins & out & e & m & d & _ & Oe & _ & ->). cbn [o_sub] in K. assert (Q : In e (out_edges g y)) by (rewrite Oe; left; reflexivity).
    apply in_out in Q as [Q _]. exact (U2 e Q K).
Qed.
(** [p] contains the block as emitted in some topological order, [q] the fused one; nothing else reads t.
    Then both programs do the same, but for the final value of t. *)
Definition same_program (t : string) (p q : seq) : Prop := forall (I : nat -> list Z -> option Z) st, (forall v, I 0 [v] = Some v) ->
  (forall o s1, runs I p st o s1 -> exists s1', runs I q st o s1' /\ forall x i, x <> t -> s1 x i = s1' x i) /\
  (forall o s1, runs I q st o s1 -> exists s1', runs I p st o s1' /\ forall x i, x <> t -> s1 x i = s1' x i).
(** A block emitted twice in the same way, from stores that agree except on t *)
Lemma emitted t g g' (s s' s1 : store) I l l' : computes_same t g g' -> unused g' t -> (forall v, I 0 [v] = Some v) -> linear g l -> linear g' l' -> eqx (one t) s s' ->
  (exec_block I s (lower g l) = Some s1 -> exists s1', exec_block I s' (lower g' l') = Some s1' /\ eqx (one t) s1 s1') /\
  (exec_block I s (lower g' l') = Some s1 -> exists s1', exec_block I s' (lower g l) = Some s1' /\ eqx (one t) s1 s1').
Proof.
  intros C U COPY L L' E. assert (AG : forall a b : store, eqx (one t) a b -> forall x i, x <> t -> a x i = b x i) by (intros a b H x i N; apply H; exact N).
  split; intros X.
  - pose proof (C I l l' s COPY L L') as Q. rewrite X in Q. destruct (exec_block I s (lower g' l')) as [s2|] eqn:X2; [|destruct Q]. cbn in Q.
    pose proof (exec_off I t (lower g' l') s s' (fun o Ho => unused_ops g' t l' o U Ho) (AG _ _ E)) as Q2. rewrite X2 in Q2.
    destruct (exec_block I s' (lower g' l')) as [s3|]; [|destruct Q2]. exists s3. split; [reflexivity|]. intros x N i. rewrite Q by exact N. apply Q2. exact N.
  - pose proof (exec_off I t (lower g' l') s s' (fun o Ho => unused_ops g' t l' o U Ho) (AG _ _ E)) as Q2. rewrite X in Q2.
    destruct (exec_block I s' (lower g' l')) as [s3|] eqn:X3; [|destruct Q2]. pose proof (C I l l' s' COPY L L') as Q. rewrite X3 in Q.
    destruct (exec_block I s' (lower g l)) as [s4|]; [|destruct Q]. exists s4. split; [reflexivity|]. intros x N i. cbn in Q, Q2. rewrite Q2 by exact N. symmetry. apply Q. exact N.
Qed.
Lemma whole t g g' l l' p q : computes_same t g g' -> unused g' t -> linear g l -> linear g' l' -> swS (one t) (lower g l) (lower g' l') p q -> same_program t p q.
Proof.
  intros C U L L' W I st COPY. split; intros o s1 R.
  - destruct (hole_sim (one t) (lower g l) (lower g' l') I) as (_ & H & _).
    { intros s s' s2 E X. eapply (emitted t g g' s s' s2 I l l'); eauto. }
    destruct (H p st o s1 R q st W (eqx_refl _ _)) as (s1' & R' & Q). exists s1'. split; [exact R'|]. intros x i N. apply Q. exact N.
  - destruct (hole_sim (one t) (lower g' l') (lower g l) I) as (_ & H & _).
    { intros s s' s2 E X. eapply (emitted t g g' s s' s2 I l l'); eauto. }
    destruct (H q st o s1 R p st (proj1 (proj2 (sw_sym _ _ _)) _ _ W) (eqx_refl _ _)) as (s1' & R' & Q). exists s1'. split; [exact R'|]. intros x i N. apply Q. exact N.
Qed.
Theorem C61_program g a t g' l l' p q : valid_block g -> race_free g -> kind_of g a = Some (KAcc t) -> only_at g a t ->
  fuse_output g a = Some g' \/ (fuse_input g a = Some g' /\ (not_changed_between g a \/ exists o, out_edges g a = [o])) ->
  linear g l -> linear g' l' -> swS (one t) (lower g l) (lower g' l') p q -> same_program t p q.
Proof.
  intros V RF Ka ON F L L' W. destruct F as [F|[F [NC|(o & OE)]]].
  - destruct (C61_output_fusion g a t g' V RF Ka ON F) as (_ & _ & C). eapply whole; eauto. eapply C61_temporary_gone; eauto.
  - destruct (C61_input_fusion_partial g a t g' V RF Ka ON NC F) as (_ & _ & C). eapply whole; eauto. eapply C61_temporary_gone; eauto.
  - destruct (C61_single_reader g a t g' o V RF Ka ON OE F) as (_ & _ & C). eapply whole; eauto. eapply C61_temporary_gone; eauto.
Qed.

(** ** Concrete blocks *)
Definition data_b (g : dfg) (x : nat) : bool := match kind_of g x with Some (KAcc _) | Some (KCst _ _) => true | _ => false end.
Definition acc_b (g : dfg) (x : nat) : bool := match kind_of g x with Some (KAcc _) => true | _ => false end.
Definition ends_b (g : dfg) : bool := forallb (fun e => (data_b g (m_src e) && task_b g (m_dst e)) || (task_b g (m_src e) && acc_b g (m_dst e))) (g_edges g).
Definition tasks_b (g : dfg) : bool := forallb (fun v => match v_kind v with
  | KTask c ins _ => (List.length (in_edges g (v_id v)) =? List.length ins) && (List.length (out_edges g (v_id v)) =? 1) && (negb (c =? 0) || (List.length ins =? 1)) | _ => true end) (g_nodes g).
Lemma valid_dec g r : wf_b g = true -> forallb (fun e => r (m_src e) <? r (m_dst e)) (g_edges g) = true -> ends_b g = true -> tasks_b g = true -> valid_block g.
Proof.
  intros W A E T. constructor.
  - apply wf_dec; exact W.
  - apply (acyclic_dec g r); exact A.
  - intros e He. unfold ends_b in E. rewrite forallb_forall in E. apply E in He. apply orb_true_iff in He.
    unfold data_node, task_node. unfold data_b, task_b, acc_b in He.
    destruct He as [H|H]; apply andb_true_iff in H as [H1 H2]; [left|right].
    + split; [destruct (kind_of g (m_src e)) as [[| | |]|]; try discriminate; [left|right]; eauto|destruct (kind_of g (m_dst e)) as [[| | |]|]; try discriminate; eauto].
    + split; [destruct (kind_of g (m_src e)) as [[| | |]|]; try discriminate; eauto|destruct (kind_of g (m_dst e)) as [[| | |]|]; try discriminate; eauto].
  - intros x c ins out K. unfold kind_of in K. destruct (find _ _) as [v|] eqn:F; [|discriminate]. cbn in K. inversion K as [K']. apply find_some in F as [F1 F2]. apply Nat.eqb_eq in F2.
    unfold tasks_b in T. rewrite forallb_forall in T. apply T in F1. rewrite K', F2 in F1. apply andb_true_iff in F1 as [F1 F3]. apply andb_true_iff in F1 as [F1 F4].
    apply Nat.eqb_eq in F1, F4. split; [exact F1|]. split; [exact F4|]. intros ->. cbn in F3. apply Nat.eqb_eq in F3. exact F3.
Qed.
Definition only_b (g : dfg) (a : nat) (t : string) : bool :=
  forallb (fun v => match v_kind v with KAcc d => negb (String.eqb d t) || (v_id v =? a) | _ => true end) (g_nodes g) &&
  forallb (fun e => negb (existsb (String.eqb t) (concat (map atoms (m_sub e))))) (g_edges g).
Lemma only_dec g a t : only_b g a t = true -> only_at g a t.
Proof.
  intros H. apply andb_true_iff in H as [H1 H2]. rewrite forallb_forall in H1, H2. split.
  - intros y K. unfold kind_of in K. destruct (find _ _) as [v|] eqn:F; [|discriminate]. cbn in K. inversion K as [K']. apply find_some in F as [F1 F2]. apply Nat.eqb_eq in F2.
    apply H1 in F1. rewrite K', String.eqb_refl in F1. cbn in F1. apply Nat.eqb_eq in F1. congruence.
  - intros e He Q. apply H2 in He. apply existsb_In in Q. rewrite Q in He. discriminate.
Qed.

Definition ce (s : nat) (d : nat) (c' : string) : memlet := Ml s "void" d c' [].
Definition co (s : nat) (d : nat) : memlet := Ml s "_out" d "void" [].
Definition inc (n : nat) : vert := Vt n (KTask 2 ["_in1"; "_in2"] "_out").
Definition asn (n : nat) : vert := Vt n (KTask 0 ["_in"] "_out").
(** t = A[i];  y = t + x;  z = t + y, and then A[i] = z *)
Definition c61_in : dfg := Dfg
  [Vt 1 (KAcc "A"); asn 2; Vt 3 (KAcc "t"); inc 4; Vt 5 (KAcc "x"); Vt 6 (KAcc "y"); inc 7; Vt 8 (KAcc "z"); asn 9; Vt 10 (KAcc "A")]
  [Ml 1 "void" 2 "_in" [ESym "i"]; co 2 3; ce 3 4 "_in1"; ce 5 4 "_in2"; co 4 6; ce 3 7 "_in1"; ce 6 7 "_in2"; co 7 8; ce 8 9 "_in"; Ml 9 "_out" 10 "void" [ESym "i"]].
(** t = x + y;  A[i] = t *)
Definition c61_out : dfg := Dfg
  [Vt 1 (KAcc "x"); Vt 2 (KAcc "y"); inc 3; Vt 4 (KAcc "t"); asn 5; Vt 6 (KAcc "A")]
  [ce 1 3 "_in1"; ce 2 3 "_in2"; co 3 4; ce 4 5 "_in"; Ml 5 "_out" 6 "void" [ESym "i"]].
Definition settled_b (g : dfg) (a : nat) : bool :=
  forallb (fun ie => negb (m_dst ie =? a) || forallb (fun e0 => negb (m_dst e0 =? m_src ie) || forallb (fun u => match op_of g u with
    | Some o => negb ((match kind_of g (m_src e0) with Some (KAcc d) => String.eqb d (o_out o) | _ => false end) || existsb (String.eqb (o_out o)) (concat (map atoms (m_sub e0)))) ||
        reach_b g u (m_src ie) || forallb (fun f => negb (m_src f =? a) || (m_dst f =? u) || reach_b g (m_dst f) u) (g_edges g)
    | None => true end) (ids g)) (g_edges g)) (g_edges g).
Lemma settled_dec g a : settled_b g a = true -> not_changed_between g a.
Proof.
  intros H ie e0 u o H1 E1 H2 E2 Ho N. unfold settled_b in H. rewrite forallb_forall in H. apply H in H1. rewrite E1, Nat.eqb_refl in H1. cbn [negb orb] in H1.
  rewrite forallb_forall in H1. apply H1 in H2. rewrite E2, Nat.eqb_refl in H2. cbn [negb orb] in H2. rewrite forallb_forall in H2.
  specialize (H2 u (op_of_ids g u o Ho)). rewrite Ho in H2. apply orb_true_iff in H2 as [H2|H2]; [apply orb_true_iff in H2 as [H2|H2]|].
  - exfalso. apply negb_true_iff, orb_false_iff in H2 as [Q1 Q2]. destruct N as [N|N].
    + rewrite N, String.eqb_refl in Q1. discriminate.
    + apply existsb_In in N. congruence.
  - left. apply reach_ok. exact H2.
  - right. intros y (f & Hf & F1 & F2). rewrite forallb_forall in H2. apply H2 in Hf. rewrite F1, Nat.eqb_refl, F2 in Hf. cbn [negb orb] in Hf.
    apply orb_true_iff in Hf as [Q|Q]; [left; apply Nat.eqb_eq; exact Q|right; apply reach_ok; exact Q].
Qed.
Definition no_t (g : dfg) : bool := negb (existsb (fun v => match v_kind v with KAcc d => String.eqb d "t" | _ => false end) (g_nodes g)).
Theorem C61_hypotheses :
  (valid_block c61_in /\ race_free c61_in /\ only_at c61_in 3 "t" /\ not_changed_between c61_in 3 /\ exists g', fuse_input c61_in 3 = Some g' /\ List.length (g_nodes g') = 8 /\ no_t g' = true) /\
  (valid_block c61_out /\ race_free c61_out /\ only_at c61_out 4 "t" /\ exists g', fuse_output c61_out 4 = Some g' /\ List.length (g_nodes g') = 4 /\ no_t g' = true).
Proof.
  split.
  - split; [apply (valid_dec _ (fun n => if n =? 5 then 3 else n)); vm_compute; reflexivity|].
    split; [apply race_free_dec; vm_compute; reflexivity|]. split; [apply only_dec; vm_compute; reflexivity|].
    split; [apply settled_dec; vm_compute; reflexivity|]. eexists. split; [vm_compute; reflexivity|]. split; vm_compute; reflexivity.
  - split; [apply (valid_dec _ (fun n => n)); vm_compute; reflexivity|].
    split; [apply race_free_dec; vm_compute; reflexivity|]. split; [apply only_dec; vm_compute; reflexivity|].
    eexists. split; [vm_compute; reflexivity|]. split; vm_compute; reflexivity.
Qed.

(** for (i = 0; i < 8; i = i + 1) { t = x + y; A[i] = t } *)
Definition c61_loop (b : list op) : seq := SCons (NLoop KFor "i" (EInt 0) (CLt (ESym "i") (EInt 8)) (EAdd [ESym "i"; EInt 1]) (SCons (NBlock b) [] SNil)) [] SNil.
Theorem C61_program_hypotheses : exists g' l l', fuse_output c61_out 4 = Some g' /\ linear c61_out l /\ linear g' l' /\
  swS (one "t") (lower c61_out l) (lower g' l') (c61_loop (lower c61_out l)) (c61_loop (lower g' l')) /\ lower c61_out l <> lower g' l'.
Proof.
  eexists. exists [1;2;3;4;5;6], [1;2;3;6]. split; [vm_compute; reflexivity|].
  split; [apply linear_dec; [apply wf_dec; vm_compute; reflexivity|vm_compute; reflexivity]|]. split; [apply linear_dec; [apply wf_dec; vm_compute; reflexivity|vm_compute; reflexivity]|].
  split; [|vm_compute; discriminate].
  assert (A : forall l, existsb (String.eqb "t") l = false -> avoids (one "t") l). { intros m H x Hx ->. apply existsb_In in Hx. congruence. }
  unfold c61_loop. constructor; [|apply A; reflexivity|constructor]. constructor; try (apply A; reflexivity). constructor; [constructor|apply A; reflexivity|constructor].
Qed.

(** Two readers, and the copied container is overwritten between them:
    t = x;  x = t + 1;  z = x;  y = t + z.   After the fusion y = x + z, with the new x. *)
Definition c61_bad : dfg := Dfg
  [Vt 1 (KAcc "x"); asn 2; Vt 3 (KAcc "t"); inc 4; Vt 5 (KCst "1" 1); Vt 6 (KAcc "x"); asn 7; Vt 8 (KAcc "z"); inc 9; Vt 10 (KAcc "y")]
  [ce 1 2 "_in"; co 2 3; ce 3 4 "_in1"; ce 5 4 "_in2"; co 4 6; ce 6 7 "_in"; co 7 8; ce 3 9 "_in1"; ce 8 9 "_in2"; co 9 10].
Definition c61_bad' : dfg := match fuse_input c61_bad 3 with Some g => g | None => c61_bad end.
Definition val (g : dfg) (l : list nat) (x : string) : option Z :=
  option_map (fun s : store => s x []) (exec_block c47_I (fun x _ => if String.eqb x "x" then 5%Z else 0%Z) (lower g l)).
Theorem C61_two_readers_refuted : valid_block c61_bad /\ race_free c61_bad /\ only_at c61_bad 3 "t" /\ fuse_input c61_bad 3 = Some c61_bad' /\
  (forall l, linear c61_bad l -> val c61_bad l "y" = Some 11%Z) /\ (forall l, linear c61_bad' l -> val c61_bad' l "y" = Some 12%Z).
Proof.
  assert (V : valid_block c61_bad) by (apply (valid_dec _ (fun n => if n =? 5 then 3 else n)); vm_compute; reflexivity).
  assert (V' : wf c61_bad') by (apply wf_dec; vm_compute; reflexivity).
  assert (R : race_free c61_bad) by (apply race_free_dec; vm_compute; reflexivity).
  assert (R' : race_free c61_bad') by (apply race_free_dec; vm_compute; reflexivity).
  split; [exact V|]. split; [exact R|]. split; [apply only_dec; vm_compute; reflexivity|]. split; [vm_compute; reflexivity|]. split; intros l L.
  - assert (L1 : linear c61_bad [1;2;3;5;4;6;7;8;9;10]) by (apply linear_dec; [apply V|vm_compute; reflexivity]).
    pose proof (C47_every_order_same c61_bad l _ c47_I (fun x _ => if String.eqb x "x" then 5%Z else 0%Z) (vb_wf _ V) R L L1) as Q.
    assert (E : val c61_bad [1;2;3;5;4;6;7;8;9;10] "y" = Some 11%Z) by (vm_compute; reflexivity).
    unfold val in *. destruct (exec_block _ _ (lower c61_bad l)), (exec_block _ _ (lower c61_bad [1;2;3;5;4;6;7;8;9;10])); cbn in Q, E |- *; try contradiction; try discriminate. rewrite Q. exact E.
  - assert (L1 : linear c61_bad' [1;5;4;6;7;8;9;10]) by (apply linear_dec; [apply V'|vm_compute; reflexivity]).
    pose proof (C47_every_order_same c61_bad' l _ c47_I (fun x _ => if String.eqb x "x" then 5%Z else 0%Z) V' R' L L1) as Q.
    assert (E : val c61_bad' [1;5;4;6;7;8;9;10] "y" = Some 12%Z) by (vm_compute; reflexivity).
    unfold val in *. destruct (exec_block _ _ (lower c61_bad' l)), (exec_block _ _ (lower c61_bad' [1;5;4;6;7;8;9;10])); cbn in Q, E |- *; try contradiction; try discriminate. rewrite Q. exact E.
Qed.
Theorem C61_full_refuted : ~ C61_full.
Proof.
  intros F. destruct C61_two_readers_refuted as (V & R & O & E & H1 & H2).
  destruct (F c61_bad 3 "t" c61_bad' V R eq_refl O (or_introl E)) as (V' & R' & C).
  assert (L1 : linear c61_bad [1;2;3;5;4;6;7;8;9;10]) by (apply linear_dec; [apply V|vm_compute; reflexivity]).
  assert (L2 : linear c61_bad' [1;5;4;6;7;8;9;10]) by (apply linear_dec; [apply V'|vm_compute; reflexivity]).
  specialize (H1 _ L1). specialize (H2 _ L2).
  specialize (C c47_I _ _ (fun x _ => if String.eqb x "x" then 5%Z else 0%Z) (fun v => eq_refl) L1 L2). unfold val in H1, H2.
  destruct (exec_block _ _ (lower c61_bad _)), (exec_block _ _ (lower c61_bad' _)); cbn in C, H1, H2; try contradiction; try discriminate.
  assert (Q : s "y" [] = s0 "y" []) by (apply C; discriminate). congruence.
Qed.
