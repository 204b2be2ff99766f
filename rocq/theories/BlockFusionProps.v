(** C48: fusing two consecutive blocks. *)
From Coq Require Import List String ZArith Bool Arith Lia Permutation Relations.
From Verif Require Import Sym SymFacts IR IRFacts DataFlow DataFlowProofs DataFlowExec DataFlowProps BlockFusion BlockFusionProofs BlockFusionProofs2.
Import ListNotations.
Local Open Scope string_scope.
Local Open Scope nat_scope.

(** Specification: a block followed by its transition assignments. *)
Definition after (a : assigns) (r : option store) : option store := match r with Some s => exec_assigns s a | None => None end.
Definition run_block (I : nat -> list Z -> option Z) (b : block) (a : assigns) (r : option store) : option store :=
  after a (match r with Some s => exec_block I s b | None => None end).
(** the emission order of the block is a topological order (C47 says when) *)
Definition in_order (g : dfg) : Prop := exists l, topological_sort g = Ok l /\ linear g l.
(** the code of the fused block computes what the code of the two blocks computes *)
Definition fuses_well (fresh : nat -> nat) (sym : string -> bool) (g1 : dfg) (a1 : assigns) (g2 : dfg) (a2 : assigns) : Prop :=
  forall g a, fuse sym fresh g1 a1 g2 a2 = Ok (g, a) -> in_order g ->
  exists b1 b2 b, block_code g1 = Ok b1 /\ block_code g2 = Ok b2 /\ block_code g = Ok b /\
  forall I st, same_result (run_block I b a (Some st)) (run_block I b2 a2 (run_block I b1 a1 (Some st))).
(** the ids given to the copied nodes are new *)
Definition new_ids (fresh : nat -> nat) (g1 g2 : dfg) : Prop :=
  (forall x y, In x (ids g2) -> In y (ids g2) -> fresh x = fresh y -> x = y) /\ (forall x, In x (ids g2) -> ~ In (fresh x) (ids g1)).
(** a literal and a container never share a name, and equal literals have equal values *)
Definition literals_agree (g1 g2 : dfg) : Prop :=
  forall x y k k', kind_of g1 x = Some k -> kind_of g2 y = Some k' -> any_data k <> None -> any_data k = any_data k' -> k = k'.
(** subsets mention only containers of symbol type *)
Definition symbolic_subsets (sym : string -> bool) (g1 g2 : dfg) : Prop :=
  forall e x, In e (g_edges g1) \/ In e (g_edges g2) -> In x (concat (map atoms (m_sub e))) -> sym x = true.
Definition good_block (g : dfg) : Prop := wf g /\ plain g /\ race_free g /\ in_order g.
Definition C48_full : Prop := forall sym fresh g1 a1 g2 a2, good_block g1 -> good_block g2 -> new_ids fresh g1 g2 ->
  literals_agree g1 g2 -> symbolic_subsets sym g1 g2 -> fuses_well fresh sym g1 a1 g2 a2.

Lemma after_same a r r' : same_result r r' -> same_result (after a r) (after a r').
Proof.
  destruct r as [s|], r' as [s'|]; intros H; simpl in H; try contradiction; [|exact H].
  assert (H1 : steq s s') by (intros x _; apply H). assert (H2 : steq s' s) by (intros x _ i; symmetry; apply H).
  simpl. destruct (exec_assigns s a) as [t|] eqn:E.
  - destruct (exec_assigns_eqx none a s s' t H1 (avoids_none _) E) as (t' & E' & Q). rewrite E'. intros x i. apply Q. intros [].
  - destruct (exec_assigns s' a) as [t|] eqn:E'; [|exact Logic.I]. destruct (exec_assigns_eqx none a s' s t H2 (avoids_none _) E') as (t' & E'' & _). congruence.
Qed.
Lemma fuse_inv sym fresh g1 a1 g2 a2 g a : fuse sym fresh g1 a1 g2 a2 = Ok (g, a) ->
  can_fuse sym g1 a1 g2 = true /\ a1 = [] /\ a = a2 /\ exists l1, topological_sort g1 = Ok l1 /\ g = fused fresh g1 l1 g2.
Proof.
  unfold fuse. destruct (can_fuse sym g1 a1 g2) eqn:C; [|discriminate]. destruct (topological_sort g1) as [l1| |] eqn:T; try discriminate.
  intros E. injection E as <- <-. assert (a1 = []) as ->.
  { unfold can_fuse in C. rewrite !andb_true_iff in C. destruct C as [[_ C] _]. destruct a1; [auto|discriminate]. }
  rewrite app_nil_r. eauto 10.
Qed.
Lemma fuse_run fresh g1 l1 g2 l2 l a2 I st : wf g1 -> wf g2 -> linear g1 l1 -> linear g2 l2 -> new_ids fresh g1 g2 -> literals_agree g1 g2 ->
  race_free (fused fresh g1 l1 g2) -> linear (fused fresh g1 l1 g2) l ->
  same_result (run_block I (lower (fused fresh g1 l1 g2) l) a2 (Some st)) (run_block I (lower g2 l2) a2 (run_block I (lower g1 l1) [] (Some st))).
Proof.
  intros W1 W2 L1 L2 [F1 F2] LA RF L.
  pose proof (fusion_exec fresh g1 g2 l1 l2 W1 W2 L1 L2 F1 F2 LA l I st RF L) as E.
  unfold run_block. apply (after_same a2) in E. eapply same_trans; [exact E|]. rewrite exec_app.
  destruct (exec_block I st (lower g1 l1)); apply same_refl.
Qed.

(** If the fused block is race free, nothing is lost. *)
Theorem C48_race_free_result sym fresh g1 a1 g2 a2 : good_block g1 -> good_block g2 -> new_ids fresh g1 g2 -> literals_agree g1 g2 ->
  (forall g a, fuse sym fresh g1 a1 g2 a2 = Ok (g, a) -> race_free g) -> fuses_well fresh sym g1 a1 g2 a2.
Proof.
  intros (W1 & _ & _ & l1 & T1 & L1) (W2 & _ & _ & l2 & T2 & L2) NI LA RF g a E (l & T & L). specialize (RF g a E).
  apply fuse_inv in E. destruct E as (_ & -> & -> & l1' & T1' & ->). assert (l1' = l1) as -> by congruence.
  exists (lower g1 l1), (lower g2 l2), (lower (fused fresh g1 l1 g2) l). unfold block_code. rewrite T1, T2, T.
  split; [auto|]. split; [auto|]. split; [auto|]. intros I st. apply fuse_run; auto.
Qed.
(** It is, when every connected component of the first block ends in one sink and
    every connected component of the second block holds one tasklet: the shape of
    blocks that were built with one statement each, and of blocks fused from them
    by chaining. *)
Theorem C48_block_fusion_partial sym fresh g1 a1 g2 a2 : good_block g1 -> good_block g2 -> new_ids fresh g1 g2 ->
  literals_agree g1 g2 -> symbolic_subsets sym g1 g2 -> funnel g1 -> no_isolated g1 -> single g2 -> fuses_well fresh sym g1 a1 g2 a2.
Proof.
  intros B1 B2 [F1 F2] LA SY FU NI SI. apply C48_race_free_result; auto; [split; auto|]. intros g a E.
  destruct B1 as (W1 & P1 & R1 & l1 & T1 & L1), B2 as (W2 & P2 & R2 & l2 & T2 & L2).
  apply fuse_inv in E. destruct E as (CF & -> & _ & l1' & T1' & ->). assert (l1' = l1) as -> by congruence.
  eapply (fused_race_free sym); eauto.
Qed.
(** Fusing keeps every operation: the block is well formed, and its operations are those of the two blocks. *)
Theorem C48_fused_wf sym fresh g1 a1 g2 a2 g a : good_block g1 -> good_block g2 -> new_ids fresh g1 g2 -> literals_agree g1 g2 ->
  fuse sym fresh g1 a1 g2 a2 = Ok (g, a) -> wf g /\ acyclic g /\ forall b1 b2 b, block_code g1 = Ok b1 -> block_code g2 = Ok b2 ->
  block_code g = Ok b -> Permutation b (b1 ++ b2)%list.
Proof.
  intros (W1 & _ & _ & l1 & T1 & L1) (W2 & _ & _ & l2 & T2 & L2) [F1 F2] LA E.
  apply fuse_inv in E. destruct E as (_ & -> & -> & l1' & T1' & ->). assert (l1' = l1) as -> by congruence.
  assert (W : wf (fused fresh g1 l1 g2)) by (apply fused_wf; auto).
  assert (A : acyclic (fused fresh g1 l1 g2)) by (apply (fused_acyclic fresh g1 g2 l1 l2); auto).
  split; [exact W|]. split; [exact A|]. intros b1 b2 b. unfold block_code. rewrite T1, T2.
  destruct (C47_sort_each_node_once _ W A) as (l & T & P). rewrite T. intros [= <-] [= <-] [= <-].
  assert (EL : lower (fused fresh g1 l1 g2) (both fresh g1 g2 l1 l2) = (lower g1 l1 ++ lower g2 l2)%list) by (apply lower_both; auto).
  rewrite <- EL. unfold lower. apply Permutation_flat_map.
  eapply perm_trans; [exact P|]. apply Permutation_sym. assert (BL : linear (fused fresh g1 l1 g2) (both fresh g1 g2 l1 l2)) by (apply both_linear; auto). apply BL.
Qed.

(** deciding the hypotheses on concrete graphs *)
Lemma plain_dec g : wf g -> forallb (fun e => match kind_of g (m_src e), kind_of g (m_dst e) with
    | Some (KAcc _ | KCst _ _), Some (KTask _ _ _) | Some (KTask _ _ _), Some (KAcc _) => true | _, _ => false end) (g_edges g) = true ->
  forallb (fun v => match v_kind v with KTask _ _ _ => match op_of g (v_id v) with Some _ => true | None => false end | _ => true end) (g_nodes g) = true ->
  plain g.
Proof.
  intros W H1 H2. rewrite forallb_forall in H1, H2. constructor.
  - intros x y (e & He & <- & <-). specialize (H1 e He). unfold data_at, is_task.
    destruct (kind_of g (m_src e)) as [[]|]; try discriminate; destruct (kind_of g (m_dst e)) as [[]|]; try discriminate; simpl.
    all: first [left; split; [discriminate|solve [eauto]]|right; split; solve [eauto]].
  - intros t (c & i & o & K). pose proof (kind_of_In _ _ _ K) as Hi. specialize (H2 _ Hi). simpl in H2. destruct (op_of g t); [eauto|discriminate].
Qed.
Lemma linked_colour g (c : nat -> nat) : forallb (fun e => c (m_src e) =? c (m_dst e)) (g_edges g) = true -> forall x y, linked g x y -> c x = c y.
Proof.
  rewrite forallb_forall. intros H x y L. induction L as [x y (e & He & <- & <-)| | |]; try congruence. apply Nat.eqb_eq. auto.
Qed.
Lemma funnel_dec g c : wf g -> forallb (fun e => c (m_src e) =? c (m_dst e)) (g_edges g) = true ->
  forallb (fun x => forallb (fun y => negb ((outdeg g x =? 0) && (outdeg g y =? 0) && (c x =? c y)) || (x =? y)) (ids g)) (ids g) = true -> funnel g.
Proof.
  intros W H1 H2 x y Hx Ox Oy L. destruct (Nat.eq_dec x y) as [|N]; auto.
  assert (Hy : In y (ids g)).
  { assert (L' : linked g y x) by (apply rst_sym; exact L). destruct (linked_step g y x L') as [E|(z & [E|E])]; [congruence|apply (edge_ids _ W _ _ E)|apply (edge_ids _ W _ _ E)]. }
  pose proof (linked_colour g c H1 x y L) as C. rewrite forallb_forall in H2. specialize (H2 x Hx). rewrite forallb_forall in H2. specialize (H2 y Hy).
  rewrite Ox, Oy, C in H2. simpl in H2. rewrite Nat.eqb_refl in H2. simpl in H2. apply Nat.eqb_eq. exact H2.
Qed.
Lemma single_dec g c : forallb (fun e => c (m_src e) =? c (m_dst e)) (g_edges g) = true ->
  forallb (fun v => forallb (fun w => match v_kind v, v_kind w with KTask _ _ _, KTask _ _ _ => negb (c (v_id v) =? c (v_id w)) || (v_id v =? v_id w) | _, _ => true end) (g_nodes g)) (g_nodes g) = true -> single g.
Proof.
  intros H1 H2 t u (c1 & i1 & o1 & K1) (c2 & i2 & o2 & K2) L. pose proof (linked_colour g c H1 _ _ L) as C.
  apply kind_of_In in K1. apply kind_of_In in K2. rewrite forallb_forall in H2. specialize (H2 _ K1). rewrite forallb_forall in H2. specialize (H2 _ K2).
  simpl in H2. rewrite C, Nat.eqb_refl in H2. simpl in H2. apply Nat.eqb_eq. auto.
Qed.
Lemma no_isolated_dec g : forallb (fun x => existsb (fun e => (m_src e =? x) || (m_dst e =? x)) (g_edges g)) (ids g) = true -> no_isolated g.
Proof.
  intros H x Hx. rewrite forallb_forall in H. specialize (H x Hx). apply existsb_exists in H. destruct H as (e & He & H).
  apply orb_true_iff in H. destruct H as [H|H]; apply Nat.eqb_eq in H; [exists (m_dst e)|exists (m_src e)]; [left|right]; exists e; auto.
Qed.
Definition dk_eqb (a b : dkind) : bool := match a, b with
  | KAcc x, KAcc y => String.eqb x y | KCst x z, KCst y w => String.eqb x y && Z.eqb z w | _, _ => false end.
Lemma literals_dec g1 g2 : forallb (fun v => forallb (fun w => match any_data (v_kind v), any_data (v_kind w) with
   | Some a, Some b => negb (String.eqb a b) || dk_eqb (v_kind v) (v_kind w) | _, _ => true end) (g_nodes g2)) (g_nodes g1) = true -> literals_agree g1 g2.
Proof.
  intros H x y k k' K K' N E. apply kind_of_In in K. apply kind_of_In in K'. rewrite forallb_forall in H. specialize (H _ K). rewrite forallb_forall in H. specialize (H _ K').
  simpl in H. rewrite <- E in H. destruct (any_data k) as [a|] eqn:Ek; [|congruence]. rewrite String.eqb_refl in H. simpl in H.
  destruct k, k'; simpl in H; try discriminate; [apply String.eqb_eq in H; congruence|].
  apply andb_true_iff in H. destruct H as [H1 H2]. apply String.eqb_eq in H1. apply Z.eqb_eq in H2. congruence.
Qed.
Definition in_order_b (g : dfg) : bool := match topological_sort g with
  | Ok l => nodup_n l && forallb (fun x => mem x l) (ids g) && forallb (fun x => mem x (ids g)) l && forallb (fun e => before_b l (m_src e) (m_dst e)) (g_edges g)
  | _ => false end.
Lemma in_order_dec g : wf g -> in_order_b g = true -> in_order g.
Proof. unfold in_order_b, in_order. intros W H. destruct (topological_sort g) as [l| |]; try discriminate. exists l. split; auto. apply linear_dec; auto. Qed.
Lemma good_dec g : wf_b g = true -> forallb (fun e => match kind_of g (m_src e), kind_of g (m_dst e) with
    | Some (KAcc _ | KCst _ _), Some (KTask _ _ _) | Some (KTask _ _ _), Some (KAcc _) => true | _, _ => false end) (g_edges g) = true ->
  forallb (fun v => match v_kind v with KTask _ _ _ => match op_of g (v_id v) with Some _ => true | None => false end | _ => true end) (g_nodes g) = true ->
  race_free_b g = true -> in_order_b g = true -> good_block g.
Proof.
  intros H1 H2 H3 H4 H5. assert (W : wf g) by (apply wf_dec; auto). split; auto. split; [apply plain_dec; auto|].
  split; [apply race_free_dec; auto|apply in_order_dec; auto].
Qed.
Lemma new_ids_add k g1 g2 : forallb (fun x => x <? k) (ids g1) = true -> new_ids (fun x => x + k) g1 g2.
Proof. intros H. rewrite forallb_forall in H. split; [intros; lia|]. intros x _ Hi. apply H in Hi. apply Nat.ltb_lt in Hi. lia. Qed.

(** b = a + 1; c = a  followed by  a = b: the criterion matches b, whose copy is
    joined, and the read of a for c is no longer ordered before the write of a. *)
Definition c48_g1 : dfg := Dfg
  [Vt 1 (KAcc "a"); Vt 2 (KCst "1" 1); Vt 3 (KTask 2 ["_in1"; "_in2"] "_out"); Vt 4 (KAcc "b"); Vt 5 (KTask 0 ["_in"] "_out"); Vt 6 (KAcc "c")]
  [c47_edge 1 "void" 3 "_in1"; c47_edge 2 "void" 3 "_in2"; c47_edge 3 "_out" 4 "void"; c47_edge 1 "void" 5 "_in"; c47_edge 5 "_out" 6 "void"].
Definition c48_g2 : dfg := Dfg [Vt 8 (KAcc "b"); Vt 9 (KTask 0 ["_in"] "_out"); Vt 10 (KAcc "a")]
  [c47_edge 8 "void" 9 "_in"; c47_edge 9 "_out" 10 "void"].
Lemma c48_g1_good : good_block c48_g1. Proof. apply good_dec; vm_compute; reflexivity. Qed.
Lemma c48_g2_good : good_block c48_g2. Proof. apply good_dec; vm_compute; reflexivity. Qed.
Theorem C48_block_fusion_refuted : ~ C48_full.
Proof.
  intros F. assert (N : new_ids (fun x => x + 10) c48_g1 c48_g2) by (apply new_ids_add; reflexivity).
  assert (LA : literals_agree c48_g1 c48_g2) by (apply literals_dec; reflexivity).
  assert (SY : symbolic_subsets (fun _ => false) c48_g1 c48_g2).
  { intros e x [H|H] Hx; repeat (destruct H as [<-|H]; [contradiction|]); contradiction. }
  specialize (F (fun _ => false) (fun x => x + 10) c48_g1 [] c48_g2 [] c48_g1_good c48_g2_good N LA SY).
  specialize (F _ _ eq_refl). assert (O : in_order (fused (fun x => x + 10) c48_g1 [1; 5; 6; 2; 3; 4] c48_g2)).
  { apply in_order_dec; [apply wf_dec; vm_compute; reflexivity|vm_compute; reflexivity]. }
  destruct F as (b1 & b2 & b & E1 & E2 & E & H); [exact O|].
  vm_compute in E1, E2, E. injection E1 as <-. injection E2 as <-. injection E as <-.
  specialize (H c47_I (fun x _ => if String.eqb x "a" then 5%Z else 0%Z)). vm_compute in H.
  specialize (H "c" []). vm_compute in H. discriminate.
Qed.

(** b = a * 2 followed by c = b + b, and y = x beside each. *)
Definition c48_h1 : dfg := Dfg
  [Vt 1 (KAcc "a"); Vt 2 (KCst "2" 2); Vt 3 (KTask 4 ["_in1"; "_in2"] "_out"); Vt 4 (KAcc "b"); Vt 5 (KAcc "x"); Vt 6 (KTask 0 ["_in"] "_out"); Vt 7 (KAcc "y")]
  [c47_edge 1 "void" 3 "_in1"; c47_edge 2 "void" 3 "_in2"; c47_edge 3 "_out" 4 "void"; c47_edge 5 "void" 6 "_in"; c47_edge 6 "_out" 7 "void"].
Definition c48_h2 : dfg := Dfg
  [Vt 1 (KAcc "b"); Vt 3 (KTask 2 ["_in1"; "_in2"] "_out"); Vt 4 (KAcc "a"); Vt 5 (KAcc "y"); Vt 6 (KTask 0 ["_in"] "_out"); Vt 7 (KAcc "x")]
  [c47_edge 1 "void" 3 "_in1"; c47_edge 1 "void" 3 "_in2"; c47_edge 3 "_out" 4 "void"; c47_edge 5 "void" 6 "_in"; c47_edge 6 "_out" 7 "void"].
Example C48_hypotheses : good_block c48_h1 /\ good_block c48_h2 /\ new_ids (fun x => x + 8) c48_h1 c48_h2 /\ literals_agree c48_h1 c48_h2 /\
  symbolic_subsets (fun _ => false) c48_h1 c48_h2 /\ funnel c48_h1 /\ no_isolated c48_h1 /\ single c48_h2 /\
  exists g, fuse (fun _ => false) (fun x => x + 8) c48_h1 [] c48_h2 [("i", EInt 0)] = Ok (g, [("i", EInt 0)]) /\ in_order g /\ List.length (g_nodes g) = 11.
Proof.
  split; [apply good_dec; vm_compute; reflexivity|]. split; [apply good_dec; vm_compute; reflexivity|].
  split; [apply new_ids_add; reflexivity|]. split; [apply literals_dec; reflexivity|].
  split; [intros e x [H|H] Hx; repeat (destruct H as [<-|H]; [contradiction|]); contradiction|].
  split; [apply (funnel_dec _ (fun x => if x <=? 4 then 0 else 1)); [apply wf_dec| |]; reflexivity|].
  split; [apply no_isolated_dec; reflexivity|].
  split; [apply (single_dec _ (fun x => if x <=? 4 then 0 else 1)); reflexivity|].
  eexists. split; [vm_compute; reflexivity|]. split; [|reflexivity].
  apply in_order_dec; [apply wf_dec|]; vm_compute; reflexivity.
Qed.
