(** C80: sorting the blocks of a sequence (opt/src/passes/offloading/code_motion/
    block_sorting.cpp, modelled in BlockSort.v). *)
From Verif Require Import Sym SymFacts Alloc AllocProofs AllocSim BlockSort BlockSortProofs BlockSortSim.
From Coq Require Import Permutation.
Open Scope string_scope.
Open Scope list_scope.
Open Scope Z_scope.

(** Two memories nobody can tell apart: the same scalars, pointers and buffers. *)
Definition same_memory (m m' : machine) : Prop :=
  (forall y, data m y = data m' y) /\ (forall y, ptr m y = ptr m' y) /\ (forall b, heap m b = heap m' b).
(** Buffers and pointers are older than the next allocation. *)
Definition fresh_allocations (m : machine) : Prop := aged m.
(** [cls] is an alias analysis of program [p]: a reference stays in the class of what
    it refers to. *)
Definition alias_classes (cls : string -> string) (p : list child) : Prop := forall y x e, In (View y x e) (accesses p) -> cls y = cls x.
Definition classes_apart (cls : string -> string) (m : machine) : Prop :=
  forall x y b i j, ptr m x = Some (b, i) -> ptr m y = Some (b, j) -> cls x = cls y.
(** A block that is a memset of [x] and a block that shares no container with it do not
    reach the same memory. *)
Definition memset_unaliased (cls : string -> string) (p : list child) : Prop :=
  forall a x v n, In a (blocks p) -> In [Fill x v n] (blocks p) -> (forall z, In z (x :: atoms v ++ atoms n) -> ~ In z (names a)) ->
    forall z, In z (names a) -> cls z <> cls x.

Lemma meq_same m m' : meq m m' -> same_memory m m'.
Proof. intros [a b c d]. split; [intros y; apply a; exact I|]. split; [intros y; apply b; exact I|intros y; apply d; exact I]. Qed.

(** Every execution of the program is one of the sorted program, with the same outcome
    and memory, as long as no memset can be moved over an access to the same buffer
    under another name. Partial: the program uses the accesses of BlockSort.v (no data
    offloading nodes, no pointers in memory). *)
Theorem C80_sort_partial cls p m o m' : fresh_allocations m -> classes_apart cls m -> alias_classes cls p -> memset_unaliased cls p ->
  execs p m o m' -> exists m'', execs (sort p) m o m'' /\ same_memory m' m''.
Proof.
  intros G P V F R. destruct (le_sort cls (blocks p) F p V (fun b H => H) m m o m' (conj G P) (agree_refl _ _ m) R) as (m2 & S & E).
  exists m2. split; [exact S|apply meq_same, E].
Qed.

(** Without memset blocks nothing has to be known about aliases: allocations and
    references may move up and releases down whatever the pointers are. *)
Theorem C80_without_memset_partial p m o m' : fresh_allocations m -> (forall x v n, ~ In [Fill x v n] (blocks p)) ->
  execs p m o m' -> exists m'', execs (sort p) m o m'' /\ same_memory m' m''.
Proof.
  intros G F. apply (C80_sort_partial (fun _ => "")); [exact G|intros x y b i j _ _; reflexivity|intros y x e _; reflexivity|].
  intros a x v n _ H. destruct (F x v n H).
Qed.

(** Sorting neither drops nor duplicates an access, and it is what every level of the
    program gets. *)
Lemma perm_up x acc : Permutation (x :: acc) (ins_up x acc).
Proof.
  induction acc as [|c acc IH]; simpl; [apply Permutation_refl|]. destruct (may can_up c x); [|apply Permutation_refl].
  eapply Permutation_trans; [apply perm_swap|]. constructor. exact IH.
Qed.
Lemma perm_down x acc : Permutation (x :: acc) (ins_down x acc).
Proof.
  induction acc as [|c acc IH]; simpl; [apply Permutation_refl|]. destruct (may can_down c x); [|apply Permutation_refl].
  eapply Permutation_trans; [apply perm_swap|]. constructor. exact IH.
Qed.
Lemma perm_downs l : Permutation l (fold_right ins_down [] l).
Proof. induction l as [|c l IH]; simpl; [constructor|]. eapply Permutation_trans; [constructor; exact IH|apply perm_down]. Qed.
Section Perm.
  Variables (g : child -> list ins) (f : node -> node).
  Lemma perm_loop p : Forall (fun c => Permutation (g c) (g (f (fst c), snd c))) p -> forall acc,
    Permutation (flat_map g acc ++ flat_map g p) (flat_map g (fst (up_loop f acc p)) ++ flat_map g (snd (up_loop f acc p))).
  Proof.
    intros H. induction H as [|[n tr] p Hc H IH]; intros acc; cbn [up_loop]; [apply Permutation_refl|]. simpl in Hc. destruct (jump n).
    - simpl. rewrite app_assoc. apply Permutation_app_tail, Permutation_app_comm.
    - eapply Permutation_trans; [|apply IH]. cbn [flat_map]. rewrite app_assoc. apply Permutation_app_tail.
      eapply Permutation_trans; [apply Permutation_app_comm|]. eapply Permutation_trans; [apply Permutation_app_tail; exact Hc|].
      change (Permutation (flat_map g ((f n, tr) :: acc)) (flat_map g (ins_up (f n, tr) acc))). apply Permutation_flat_map, perm_up.
  Qed.
  Lemma perm_sort_with p : Forall (fun c => Permutation (g c) (g (f (fst c), snd c))) p -> Permutation (flat_map g p) (flat_map g (sort_with f p)).
  Proof.
    intros H. pose proof (perm_loop p H []) as K. unfold sort_with. destruct (up_loop f [] p) as [a r]. simpl in K. rewrite flat_map_app.
    eapply Permutation_trans; [exact K|]. apply Permutation_app_tail, Permutation_flat_map. eapply Permutation_trans; [apply Permutation_rev|apply perm_downs].
  Qed.
End Perm.
Lemma perm_node n : Permutation (ins_of n) (ins_of (sort_node n)).
Proof.
  induction n using node_ind'; try apply Permutation_refl.
  - apply (perm_sort_with insc). eapply Forall_impl; [|exact H]. intros c Hc. apply Permutation_app_tail. exact Hc.
  - apply Permutation_app; apply (perm_sort_with insc); [eapply Forall_impl; [|exact H]|eapply Forall_impl; [|exact H0]]; intros d Hd; apply Permutation_app_tail; exact Hd.
  - apply Permutation_app_head, Permutation_app_head. apply (perm_sort_with insc). eapply Forall_impl; [|exact H]. intros d Hd. apply Permutation_app_tail. exact Hd.
Qed.
Theorem C80_same_accesses p : Permutation (accesses p) (accesses (sort p)).
Proof. apply (perm_sort_with insc). apply Forall_forall. intros c _. apply Permutation_app_tail, perm_node. Qed.

(** Programs are deterministic, so the execution of the sorted program is its only one. *)
Lemma at_det m x e b i B b' i' B' : at_cell m x e b i B -> at_cell m x e b' i' B' -> b = b' /\ i = i' /\ B = B'.
Proof.
  intros (k & j & Ep & Eh & Ee & Ei & _) (k' & j' & Ep' & Eh' & Ee' & Ei' & _). rewrite Ep in Ep'. injection Ep' as <- <-.
  rewrite Ee in Ee'. injection Ee' as <-. rewrite Eh in Eh'. injection Eh' as <-. subst. auto.
Qed.
Lemma step_det a m m1 m2 : step a m m1 -> step a m m2 -> m1 = m2.
Proof.
  intros R1 R2. destruct R1 as [y e m v Ev|y x e m b i B v Ha Ec|x e v m b i B z Ha Ev|y x e m b k j Ep Ej|x k n m z Ez Hz|x m m1 Q|x v n m b k B z j Ep Eh Ev Ej Hk Hj Hs];
    inversion R2; subst.
  - congruence.
  - match goal with H : at_cell _ _ _ _ _ _, H' : at_cell _ _ _ _ _ _ |- _ => destruct (at_det _ _ _ _ _ _ _ _ _ H H') as (-> & -> & ->) end. congruence.
  - match goal with H : at_cell _ _ _ _ _ _, H' : at_cell _ _ _ _ _ _ |- _ => destruct (at_det _ _ _ _ _ _ _ _ _ H H') as (-> & -> & ->) end. congruence.
  - congruence.
  - congruence.
  - repeat match goal with H : released _ _ _ |- _ => destruct H end. congruence.
  - repeat match goal with A : ?t = Some _, B : ?t = Some _ |- _ => rewrite A in B; injection B; clear B; intros; subst end. reflexivity.
Qed.
Lemma steps_det l : forall m m1 m2, steps l m m1 -> steps l m m2 -> m1 = m2.
Proof.
  induction l as [|a l IH]; intros m m1 m2 R1 R2; inversion R1 as [|a1 l1 ma mb mc A1 B1]; inversion R2 as [|a2 l2 md me mf A2 B2]; subst; [reflexivity|].
  rewrite (step_det _ _ _ _ A1 A2) in B1. exact (IH _ _ _ B1 B2).
Qed.
Theorem C80_deterministic p m o m1 o' m2 : execs p m o m1 -> execs p m o' m2 -> o = o' /\ m1 = m2.
Proof.
  assert (K : (forall n m o m1, exec n m o m1 -> forall o' m2, exec n m o' m2 -> o = o' /\ m1 = m2) /\
    (forall p m o m1, execs p m o m1 -> forall o' m2, execs p m o' m2 -> o = o' /\ m1 = m2) /\
    (forall c u p m o m1, iter c u p m o m1 -> forall o' m2, iter c u p m o' m2 -> o = o' /\ m1 = m2)).
  { clear. apply exec_all.
    - intros l m m1 R o' m2 R'. inversion R'; subst. split; [reflexivity|]. eapply steps_det; eassumption.
    - intros p m o m1 _ IH o' m2 R'. inversion R'; subst. auto.
    - intros c p q m t o m1 Ec _ IH o' m2 R'. inversion R' as [| |c0 p0 q0 m0 t' o0 m3 Ec' X| | | |]; subst. rewrite Ec in Ec'. injection Ec' as <-. auto.
    - intros i c u p m m1 o m2 R _ IH o' m3 R'. inversion R' as [| | |i0 c0 u0 p0 m0 m4 o0 m5 R1 R2| | |]; subst. rewrite (steps_det _ _ _ _ R R1) in *. auto.
    - intros m o' m2 R'. inversion R'; auto.
    - intros m o' m2 R'. inversion R'; auto.
    - intros m o' m2 R'. inversion R'; auto.
    - intros m o' m2 R'. inversion R'; auto.
    - intros n tr p m m1 m2 o m3 _ IH1 R _ IH2 o' m4 R'. inversion R' as [|n0 tr0 p0 m0 ma mb o0 mc X1 X2 X3|n0 tr0 p0 m0 o0 ma X1 Ho]; subst.
      + destruct (IH1 _ _ X1) as [_ E]. subst. rewrite (steps_det _ _ _ _ R X2) in *. auto.
      + destruct (IH1 _ _ X1) as [E _]. subst. contradiction.
    - intros n tr p m o m1 _ IH Ho o' m4 R'. inversion R' as [|n0 tr0 p0 m0 ma mb o0 mc X1 X2 X3|n0 tr0 p0 m0 o0 ma X1 Ho']; subst; [|auto].
      destruct (IH _ _ X1) as [E _]. subst. contradiction.
    - intros c u p m Ec o' m2 R'. inversion R'; subst; try congruence. auto.
    - intros c u p m o1 m1 m2 o m3 Ec _ IH1 Ho R _ IH2 o' m4 R'. inversion R' as [c0 u0 p0 m0 Ec'|c0 u0 p0 m0 o2 ma mb o3 mc Ec' X1 Ho' X2 X3|c0 u0 p0 m0 ma Ec' X1|c0 u0 p0 m0 ma Ec' X1]; subst; [congruence| | |].
      + destruct (IH1 _ _ X1) as [_ E]. subst. rewrite (steps_det _ _ _ _ R X2) in *. auto.
      + destruct (IH1 _ _ X1) as [E _]. subst. destruct Ho; discriminate.
      + destruct (IH1 _ _ X1) as [E _]. subst. destruct Ho; discriminate.
    - intros c u p m m1 Ec _ IH o' m4 R'. inversion R' as [c0 u0 p0 m0 Ec'|c0 u0 p0 m0 o2 ma mb o3 mc Ec' X1 Ho' X2 X3|c0 u0 p0 m0 ma Ec' X1|c0 u0 p0 m0 ma Ec' X1]; subst; [congruence| | |].
      + destruct (IH _ _ X1) as [E _]. subst. destruct Ho'; discriminate.
      + destruct (IH _ _ X1) as [_ E]. auto.
      + destruct (IH _ _ X1) as [E _]. discriminate.
    - intros c u p m m1 Ec _ IH o' m4 R'. inversion R' as [c0 u0 p0 m0 Ec'|c0 u0 p0 m0 o2 ma mb o3 mc Ec' X1 Ho' X2 X3|c0 u0 p0 m0 ma Ec' X1|c0 u0 p0 m0 ma Ec' X1]; subst; [congruence| | |].
      + destruct (IH _ _ X1) as [E _]. subst. destruct Ho'; discriminate.
      + destruct (IH _ _ X1) as [E _]. discriminate.
      + destruct (IH _ _ X1) as [_ E]. auto. }
  intros R1 R2. exact (proj1 (proj2 K) _ _ _ _ R1 _ _ R2).
Qed.

Definition blk (l : list ins) : child := (NBlk l, []).
Definition cell (v : Z) : ident -> option buffer := fun b => if String.eqb (fst b) "x" || String.eqb (fst b) "z" then
  match snd b with O => Some (Buf Heap 8 (fun i => if i =? 0 then Some v else None)) | _ => None end else None.
Definition c80_m : machine :=
  Mc (fun _ => 0) (fun y => if String.eqb y "x" then Some (("x", O), 0) else if String.eqb y "z" then Some (("z", O), 0) else None)
     (cell 5) (fun y => if String.eqb y "x" || String.eqb y "z" then 1%nat else 0%nat).
Lemma c80_fresh : fresh_allocations c80_m.
Proof.
  split.
  - intros [b k] B. simpl. unfold cell. simpl. destruct (String.eqb b "x" || String.eqb b "z"); [|discriminate]. destruct k; [intros _; lia|discriminate].
  - intros y [b k] j. simpl. destruct (String.eqb y "x"); [intros E; injection E as <- <- <-; simpl; lia|].
    destruct (String.eqb y "z"); [intros E; injection E as <- <- <-; simpl; lia|discriminate].
Qed.

(** A memset is moved over a store through a reference to the same buffer: they share no
    container name. p = &x[0]; p[0] = 7; memset(x, 0, 1); s = x[0] gives s = 0, the
    sorted program s = 7. *)
Definition c80_alias : list child :=
  [blk [View "p" "x" (EInt 0)]; blk [Store "p" (EInt 0) (EInt 7)]; blk [Fill "x" (EInt 0) (EInt 1)]; blk [Load "s" "x" (EInt 0)]].
Definition c80_alias' : list child :=
  [blk [View "p" "x" (EInt 0)]; blk [Fill "x" (EInt 0) (EInt 1)]; blk [Store "p" (EInt 0) (EInt 7)]; blk [Load "s" "x" (EInt 0)]].
Theorem C80_aliased_memset_refuted : exists p m m1 m2, fresh_allocations m /\ execs p m Nxt m1 /\ execs (sort p) m Nxt m2 /\
  data m1 "s" = 0 /\ data m2 "s" = 7.
Proof.
  exists c80_alias, c80_m. replace (sort c80_alias) with c80_alias' by (vm_compute; reflexivity). eexists. eexists.
  split; [exact c80_fresh|]. split; [|split].
  - eapply X_cons; [constructor; econstructor; [eapply P_view; reflexivity|constructor]|constructor|].
    eapply X_cons; [constructor; econstructor; [eapply P_store; [exists 0, 0; split; [reflexivity|]; split; [reflexivity|]; split; [reflexivity|]; split; [reflexivity|simpl; lia]|reflexivity]|constructor]|constructor|].
    eapply X_cons; [constructor; econstructor; [eapply P_fill with (k := 0) (j := 1); [reflexivity|reflexivity|reflexivity|reflexivity|lia|lia|simpl; lia]|constructor]|constructor|].
    eapply X_cons; [constructor; econstructor; [eapply P_load; [exists 0, 0; split; [reflexivity|]; split; [reflexivity|]; split; [reflexivity|]; split; [reflexivity|simpl; lia]|reflexivity]|constructor]|constructor|].
    constructor.
  - eapply X_cons; [constructor; econstructor; [eapply P_view; reflexivity|constructor]|constructor|].
    eapply X_cons; [constructor; econstructor; [eapply P_fill with (k := 0) (j := 1); [reflexivity|reflexivity|reflexivity|reflexivity|lia|lia|simpl; lia]|constructor]|constructor|].
    eapply X_cons; [constructor; econstructor; [eapply P_store; [exists 0, 0; split; [reflexivity|]; split; [reflexivity|]; split; [reflexivity|]; split; [reflexivity|simpl; lia]|reflexivity]|constructor]|constructor|].
    eapply X_cons; [constructor; econstructor; [eapply P_load; [exists 0, 0; split; [reflexivity|]; split; [reflexivity|]; split; [reflexivity|]; split; [reflexivity|simpl; lia]|reflexivity]|constructor]|constructor|].
    constructor.
  - split; reflexivity.
Qed.

(** A program with a reference and a memset that meets the hypotheses of
    [C80_sort_partial], runs, and is changed by the pass: the allocation and the memset
    move to the front, the release to the end. *)
Definition c80_ok : list child :=
  [blk [Store "x" (EInt 0) (EInt 1)]; blk [New "y" Heap (EInt 8)]; blk [Fill "y" (EInt 0) (EInt 8)];
   blk [View "p" "x" (EInt 0)]; blk [Free "z"]; blk [Load "s" "p" (EInt 0)]].
Definition c80_ok' : list child :=
  [blk [New "y" Heap (EInt 8)]; blk [Fill "y" (EInt 0) (EInt 8)]; blk [Store "x" (EInt 0) (EInt 1)];
   blk [View "p" "x" (EInt 0)]; blk [Load "s" "p" (EInt 0)]; blk [Free "z"]].
Definition c80_cls (y : string) : string := if String.eqb y "p" then "x" else y.
Theorem C80_hypotheses :
  fresh_allocations c80_m /\ classes_apart c80_cls c80_m /\ alias_classes c80_cls c80_ok /\ memset_unaliased c80_cls c80_ok /\
  (exists m', execs c80_ok c80_m Nxt m' /\ data m' "s" = 1) /\ sort c80_ok = c80_ok'.
Proof.
  split; [exact c80_fresh|]. split; [|split; [|split; [|split]]].
  - intros x y b i j. simpl. destruct (String.eqb_spec x "x") as [->|]; destruct (String.eqb_spec y "x") as [->|];
      try (destruct (String.eqb_spec x "z") as [->|]); try (destruct (String.eqb_spec y "z") as [->|]); intros E F; congruence.
  - intros y x e H. repeat (destruct H as [H|H]; [try discriminate; injection H as <- <- <-; reflexivity|]). destruct H.
  - intros a x v n Ha Hf D z Hz K. assert (E : x = "y") by (simpl in Hf; intuition congruence). subst x.
    change (c80_cls "y") with "y" in K. unfold c80_cls in K. destruct (String.eqb z "p"); [discriminate|]. subst z.
    apply (D "y"); [left; reflexivity|exact Hz].
  - eexists. split.
    + eapply X_cons; [constructor; econstructor; [eapply P_store; [exists 0, 0; split; [reflexivity|]; split; [reflexivity|]; split; [reflexivity|]; split; [reflexivity|simpl; lia]|reflexivity]|constructor]|constructor|].
      eapply X_cons; [constructor; econstructor; [eapply P_new with (z := 8); [reflexivity|lia]|constructor]|constructor|].
      eapply X_cons; [constructor; econstructor; [eapply P_fill with (k := 0) (j := 8); [reflexivity|reflexivity|reflexivity|reflexivity|lia|lia|simpl; lia]|constructor]|constructor|].
      eapply X_cons; [constructor; econstructor; [eapply P_view; reflexivity|constructor]|constructor|].
      eapply X_cons; [constructor; econstructor; [constructor; eapply Released; reflexivity|constructor]|constructor|].
      eapply X_cons; [constructor; econstructor; [eapply P_load; [exists 0, 0; split; [reflexivity|]; split; [reflexivity|]; split; [reflexivity|]; split; [reflexivity|simpl; lia]|reflexivity]|constructor]|constructor|].
      constructor.
    + reflexivity.
  - vm_compute. reflexivity.
Qed.

(** Sorting stops at a jump: it stays where it is in front of the children after it,
    which are left as they are. *)
Lemma fixed_down J x l : may can_down J x = false -> ins_down x (l ++ [J]) = ins_down x l ++ [J].
Proof.
  intros H. induction l as [|c l IH]; simpl; [rewrite H; reflexivity|]. rewrite IH. destruct (may can_down c x); reflexivity.
Qed.
Theorem C80_stops_at_jump p j tr r : jump j = true -> exists p', sort (p ++ (j, tr) :: r) = p' ++ (j, tr) :: r /\ length p' = length p.
Proof.
  intros Hj. unfold sort, sort_with.
  assert (L : forall x acc, length (ins_up x acc) = S (length acc)) by (intros x acc; symmetry; exact (Permutation_length (perm_up x acc))).
  assert (K : forall p acc, (exists a, up_loop sort_node acc (p ++ (j, tr) :: r) = ((j, tr) :: a, r) /\ length a = length acc + length p)%nat \/
    exists a b, up_loop sort_node acc (p ++ (j, tr) :: r) = (a, b ++ (j, tr) :: r) /\ (length a + length b = length acc + length p)%nat).
  { clear p. induction p as [|[n t] p IH]; intros acc; simpl.
    - rewrite Hj. left. exists acc. split; [reflexivity|]. unfold child in *; lia.
    - destruct (jump n).
      + right. exists ((n, t) :: acc), p. split; [reflexivity|]. simpl; unfold child in *; lia.
      + destruct (IH (ins_up (sort_node n, t) acc)) as [(a & E & H)|(a & b & E & H)]; rewrite E; rewrite L in H; [left; exists a|right; exists a, b]; (split; [reflexivity|unfold child in *; lia]). }
  assert (D : forall l, length (fold_right ins_down [] l) = length l) by (intros l; symmetry; exact (Permutation_length (perm_downs l))).
  destruct (K p []) as [(a & E & H)|(a & b & E & H)]; rewrite E.
  - exists (fold_right ins_down [] (rev a)). split.
    + change (rev ((j, tr) :: a)) with (rev a ++ [(j, tr)]). rewrite fold_right_app. simpl.
      assert (G : forall l, fold_right ins_down [(j, tr)] l = fold_right ins_down [] l ++ [(j, tr)]).
      { induction l as [|c l IH]; simpl; [reflexivity|]. rewrite IH. apply fixed_down. destruct j; try discriminate; reflexivity. }
      rewrite G, <- app_assoc. reflexivity.
    + rewrite D, rev_length, H. reflexivity.
  - exists (fold_right ins_down [] (rev a) ++ b). split; [rewrite app_assoc; reflexivity|]. rewrite app_length, D, rev_length. exact H.
Qed.
