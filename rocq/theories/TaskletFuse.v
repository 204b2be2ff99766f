(** TaskletFusion (sdfg/src/passes/dataflow/tasklet_fusion.cpp): removing copies from and to a
    temporary inside one block. *)
From Coq Require Import List String ZArith Bool Arith Lia Permutation.
From Verif Require Import Sym SymFacts IR IRFacts DataFlow DataFlowProofs DataFlowExec DataFlowProps.
From Verif Require Trace.
Import ListNotations.
Local Open Scope string_scope.
Local Open Scope list_scope.
Local Open Scope nat_scope.

Definition is_nil {A} (l : list A) : bool := match l with [] => true | _ => false end.
Definition task_b (g : dfg) (x : nat) : bool := match kind_of g x with Some (KTask _ _ _) => true | _ => false end.

(** tasklet_fusion.cpp:41-155, one access node [a] (container t) of
        x -> assign -> t -> tasklets.
    [e0]: the memlet into the assignment [k].  Each tasklet that reads t reads x instead, through
    [e0]'s subset, from [e0]'s access node; its other reads of the container of that access node are
    moved to that access node as well (94-121); access nodes left without an edge by that are removed
    (119-121), so are [a] and [k] (146-153).  A scalar memlet has no subset.  The types, and the
    requirement that t has no other users (container_allowed_accesses, 24-32), are not checked here. *)
Definition same_data (g : dfg) (x y : nat) : bool :=
  match kind_of g x, kind_of g y with Some (KAcc d), Some (KAcc d') => String.eqb d d' | _, _ => false end.
Definition moved (g : dfg) (a : nat) (e0 e : memlet) : memlet :=
  if m_src e =? a then Ml (m_src e0) (m_sconn e0) (m_dst e) (m_dconn e) (m_sub e0)
  else if mem (m_dst e) (map m_dst (out_edges g a)) && same_data g (m_src e) (m_src e0)
  then Ml (m_src e0) (m_sconn e) (m_dst e) (m_dconn e) (m_sub e) else e.
Definition left_edges (g : dfg) (a k : nat) (e0 : memlet) : list memlet :=
  map (moved g a e0) (filter (fun e => negb (m_dst e =? a) && negb (m_dst e =? k)) (g_edges g)).
Definition keep (g : dfg) (a k : nat) (e0 : memlet) (y : nat) : bool :=
  negb (y =? a) && negb (y =? k) &&
  (negb (existsb (fun e => (m_src e =? y) && mem (m_dst e) (map m_dst (out_edges g a)) && same_data g y (m_src e0)) (g_edges g)) ||
   existsb (fun e => (m_src e =? y) || (m_dst e =? y)) (left_edges g a k e0)).
Definition rewire (g : dfg) (a k : nat) (e0 : memlet) : dfg :=
  Dfg (filter (fun v => keep g a k e0 (v_id v)) (g_nodes g)) (left_edges g a k e0).
Definition fuse_input (g : dfg) (a : nat) : option dfg :=
  match kind_of g a, in_edges g a, out_edges g a with
  | Some (KAcc _), [ie], _ :: _ =>
    match kind_of g (m_src ie), in_edges g (m_src ie) with
    | Some (KTask 0 _ _), [e0] =>
      if is_nil (m_sub ie) && forallb (fun o => is_nil (m_sub o) && task_b g (m_dst o)) (out_edges g a)
      then Some (rewire g a (m_src ie) e0) else None
    | _, _ => None end
  | _, _, _ => None end.

(** tasklet_fusion.cpp:158-236, one access node [a] of   tasklet -> t -> assign -> out. *)
Definition fuse_output (g : dfg) (a : nat) : option dfg :=
  match kind_of g a, in_edges g a, out_edges g a with
  | Some (KAcc _), [ie], [oe] =>
    match kind_of g (m_src ie), kind_of g (m_dst oe), out_edges g (m_dst oe) with
    | Some (KTask _ _ _), Some (KTask 0 _ _), [e1] =>
      if is_nil (m_sub ie) && is_nil (m_sub oe)
      then Some (Dfg (filter (fun v => negb (v_id v =? a) && negb (v_id v =? m_dst oe)) (g_nodes g))
                     (map (fun e => if m_dst e =? a then Ml (m_src ie) (m_sconn ie) (m_dst e1) (m_dconn e1) (m_sub e1) else e)
                          (filter (fun e => negb (m_src e =? a) && negb (m_src e =? m_dst oe)) (g_edges g))))
      else None
    | _, _, _ => None end
  | _, _, _ => None end.

(** Equal results up to the container [t]. *)
Definition same_off (t : string) (a b : option store) : Prop :=
  match a, b with Some s, Some s' => forall x i, x <> t -> s x i = s' x i | None, None => True | _, _ => False end.
Lemma same_off_l t a b c : same_result a b -> same_off t b c -> same_off t a c.
Proof. destruct a, b, c; simpl; auto; try contradiction. intros H1 H2 x i N. rewrite H1. auto. Qed.
Lemma same_off_r t a b c : same_off t a b -> same_result b c -> same_off t a c.
Proof. destruct a, b, c; simpl; auto; try contradiction. intros H1 H2 x i N. rewrite H1 by exact N. auto. Qed.

(* ---------------------------------------------------------------- *)
(** * On the statements of a block *)
Section Ops.
  Variable I : nat -> list Z -> option Z.
  Hypothesis COPY : forall v, I 0 [v] = Some v.
  Variable t : string.
  Lemma off_agree (s s' : store) l : (forall y, In y l -> y <> t) -> (forall x i, x <> t -> s x i = s' x i) -> forall y, In y l -> forall i, s y i = s' y i.
  Proof. intros H A y Hy i. apply A, H, Hy. Qed.
  Lemma wr_off (s s' : store) x i v : (forall y j, y <> t -> s y j = s' y j) -> forall y j, y <> t -> wr s x i v y j = wr s' x i v y j.
  Proof. intros H y j N. unfold wr. destruct (_ && _)%bool; auto. Qed.
  (** Statements that do not touch [t]. *)
  Lemma exec_off bl : forall s s' : store, (forall o, In o bl -> ~ In t (op_uses o)) -> (forall x i, x <> t -> s x i = s' x i) -> same_off t (exec_block I s bl) (exec_block I s' bl).
  Proof.
    induction bl as [|o bl IH]; intros s s' H A; [exact A|]. cbn [exec_block]. destruct (op_agree s s' o) as [E1 E2].
    { intros x Hx. apply (off_agree s s' (op_uses o)); auto. intros y Hy ->. apply (H o (or_introl eq_refl)). exact Hy. }
    unfold exec_op. rewrite E1, E2. destruct (reads_in s' (o_ins o)); [|exact Logic.I]. destruct (evals (env_of s') (o_sub o)); [|exact Logic.I]. destruct (I (o_code o) l); [|exact Logic.I].
    apply IH; [intros o' H'; apply H; right; exact H'|]. apply wr_off; exact A.
  Qed.

  Variable opx : operand.
  Hypothesis XT : ~ In t (opnames opx).
  Definition swap_in (i : operand) : operand := match i with ORead y [] => if String.eqb y t then opx else i | _ => i end.
  Definition swap_op (o : op) : op := {| o_code := o_code o; o_ins := map swap_in (o_ins o); o_out := o_out o; o_sub := o_sub o |}.
  Definition tclean (o : op) : Prop := o_out o <> t /\ ~ In t (op_uses (swap_op o)).
  Definition reads_t (o : op) : Prop := In (ORead t []) (o_ins o).
  Definition writes_x (o : op) : Prop := In (o_out o) (opnames opx).
  Lemma read_agree (s s' : store) i : (forall y, In y (opnames i) -> forall j, s y j = s' y j) -> read_in s i = read_in s' i.
  Proof.
    intros H. destruct (op_agree s s' {| o_code := 0; o_ins := [i]; o_out := ""; o_sub := [] |}) as [E _].
    - intros y Hy. apply H. unfold op_uses in Hy. cbn in Hy. rewrite !app_nil_r in Hy. exact Hy.
    - cbn in E. destruct (read_in s i), (read_in s' i); congruence.
  Qed.
  Lemma swap_reads (s s' : store) l : (forall x i, x <> t -> s x i = s' x i) -> ~ In t (concat (map opnames (map swap_in l))) ->
    (In (ORead t []) l -> read_in s' opx = Some (s t [])) -> reads_in s l = reads_in s' (map swap_in l).
  Proof.
    intros A. induction l as [|i l IH]; intros N R; [reflexivity|]. cbn [map reads_in concat] in *.
    rewrite IH; [|intros K; apply N, in_or_app; auto|intros K; apply R; right; exact K].
    assert (E : read_in s i = read_in s' (swap_in i)); [|rewrite E; reflexivity].
    assert (N1 : ~ In t (opnames (swap_in i))) by (intros K; apply N, in_or_app; auto).
    assert (OTH : swap_in i = i -> read_in s i = read_in s' (swap_in i)).
    { intros E. rewrite E in *. apply read_agree. intros y Hy j. apply A. intros ->. contradiction. }
    destruct i as [z|y [|u l0]]; try (apply OTH; reflexivity). cbn [swap_in] in *. destruct (String.eqb_spec y t) as [->|NE]; [|apply OTH; reflexivity].
    rewrite (R (or_introl eq_refl)). cbn. reflexivity.
  Qed.
  Lemma fuse_in_ops : forall bl (s s' : store), (forall o, In o bl -> tclean o) ->
    (forall b1 o b2, bl = b1 ++ o :: b2 -> writes_x o -> forall o', In o' b2 -> ~ reads_t o') ->
    (forall x i, x <> t -> s x i = s' x i) -> ((exists o, In o bl /\ reads_t o) -> read_in s' opx = Some (s t [])) ->
    same_off t (exec_block I s bl) (exec_block I s' (map swap_op bl)).
  Proof.
    induction bl as [|o bl IH]; intros s s' C U A J; [exact A|]. cbn [map exec_block]. destruct (C o (or_introl eq_refl)) as [C1 C2].
    unfold exec_op. cbn [swap_op o_ins o_sub o_code o_out]. unfold op_uses in C2. cbn [swap_op o_ins o_sub] in C2.
    rewrite (swap_reads s s' (o_ins o) A); [|intros K; apply C2, in_or_app; auto|intros K; apply J; exists o; split; [left; reflexivity|exact K]].
    assert (E2 : evals (env_of s) (o_sub o) = evals (env_of s') (o_sub o)).
    { apply (evals_eqx (fun x => x = t)); [intros x Hx i; apply A; exact Hx|]. intros x Hx ->. apply C2, in_or_app. auto. }
    rewrite E2. destruct (reads_in s' (map swap_in (o_ins o))); [|exact Logic.I]. destruct (evals (env_of s') (o_sub o)) as [ix|]; [|exact Logic.I]. destruct (I (o_code o) l) as [v|]; [|exact Logic.I].
    apply IH.
    - intros o' H'. apply C. right. exact H'.
    - intros b1 o1 b2 E. apply (U (o :: b1) o1 b2). rewrite E. reflexivity.
    - apply wr_off; exact A.
    - intros (o' & H' & R'). assert (NX : ~ writes_x o) by (intros K; exact (U [] o bl eq_refl K o' H' R')).
      rewrite <- (read_agree s' (wr s' (o_out o) ix v) opx).
      + rewrite J by (exists o'; split; [right; exact H'|exact R']). f_equal. symmetry. apply wr_other. left. congruence.
      + intros y Hy j. symmetry. apply wr_other. left. intros E. apply NX. unfold writes_x. rewrite E. exact Hy.
  Qed.
  Lemma fuse_in_fail : forall bl s, read_in s opx = None -> (exists o, In o bl /\ reads_t o) ->
    (forall b1 o b2, bl = b1 ++ o :: b2 -> writes_x o -> forall o', In o' b2 -> ~ reads_t o') ->
    exec_block I s (map swap_op bl) = None.
  Proof.
    induction bl as [|o bl IH]; intros s F (o' & H' & R') U; [destruct H'|]. cbn [map exec_block]. destruct H' as [->|H'].
    - unfold exec_op. replace (reads_in s (o_ins (swap_op o'))) with (@None (list Z)); [reflexivity|]. cbn [swap_op o_ins]. symmetry.
      unfold reads_t in R'. induction (o_ins o') as [|i l IHl]; [destruct R'|]. cbn [map reads_in]. destruct R' as [->|R'].
      + cbn [swap_in]. rewrite String.eqb_refl, F. reflexivity.
      + rewrite IHl by exact R'. destruct (read_in s (swap_in i)); reflexivity.
    - destruct (exec_op I s (swap_op o)) as [s1|] eqn:E; [|reflexivity]. apply IH; [|exists o'; auto|intros b1 o1 b2 E1; apply (U (o :: b1) o1 b2); rewrite E1; reflexivity].
      unfold exec_op in E. destruct (reads_in s (o_ins (swap_op o))); [|discriminate]. destruct (evals (env_of s) (o_sub (swap_op o))); [|discriminate]. destruct (I (o_code (swap_op o)) l); inversion E; subst.
      rewrite <- F. symmetry. apply read_agree. intros y Hy j. symmetry. apply wr_other. left. cbn [swap_op o_out]. intros E1. apply (U [] o bl eq_refl) with (o' := o'); auto. unfold writes_x. rewrite E1. exact Hy.
  Qed.
  (** t = x[sub]; ... becomes ... with x[sub] for t. *)
  Lemma fuse_in_block b1 b2 s : (forall o, In o b1 -> swap_op o = o) -> (forall o, In o b2 -> tclean o) -> (exists o, In o b2 /\ reads_t o) ->
    (forall c1 o c2, b2 = c1 ++ o :: c2 -> writes_x o -> forall o', In o' c2 -> ~ reads_t o') ->
    same_off t (exec_block I s (b1 ++ {| o_code := 0; o_ins := [opx]; o_out := t; o_sub := [] |} :: b2)) (exec_block I s (map swap_op (b1 ++ b2))).
  Proof.
    intros H1 H2 R U. rewrite map_app, !exec_app. assert (E : map swap_op b1 = b1). { rewrite <- (map_id b1) at 2. apply map_ext_in. exact H1. }
    rewrite E. destruct (exec_block I s b1) as [s1|]; [|exact Logic.I]. cbn [exec_block]. unfold exec_op. cbn [o_ins o_sub o_code o_out reads_in evals].
    destruct (read_in s1 opx) as [v|] eqn:F.
    - rewrite COPY. apply fuse_in_ops; auto.
      + intros x i N. apply wr_other. left. congruence.
      + intros _. rewrite F. f_equal. symmetry. apply wr_same.
    - rewrite (fuse_in_fail b2 s1 F R U). exact Logic.I.
  Qed.
End Ops.

(** t = f(ins); ...; out[sub] = t  becomes  out[sub] = f(ins); ... *)
Lemma fuse_out_block I t c ins out sub b1 b2 b3 s : (forall v, I 0 [v] = Some v) ->
  (forall o, In o b2 -> ~ conflict {| o_code := 0; o_ins := [ORead t []]; o_out := out; o_sub := sub |} o) ->
  (forall o, In o (b2 ++ b3) -> ~ In t (op_uses o)) -> ~ In t (concat (map atoms sub)) -> out <> t ->
  same_off t (exec_block I s (b1 ++ {| o_code := c; o_ins := ins; o_out := t; o_sub := [] |} :: b2 ++ {| o_code := 0; o_ins := [ORead t []]; o_out := out; o_sub := sub |} :: b3))
             (exec_block I s (b1 ++ {| o_code := c; o_ins := ins; o_out := out; o_sub := sub |} :: b2 ++ b3)).
Proof.
  intros COPY NC CL ST OT. rewrite !exec_app. destruct (exec_block I s b1) as [s1|]; [|exact Logic.I].
  eapply same_off_l.
  - apply (exec_app_same I s1 [{| o_code := c; o_ins := ins; o_out := t; o_sub := [] |}]). intros s2. apply same_sym, bubble. exact NC.
  - cbn [app exec_block]. unfold exec_op at 1 3. cbn [o_ins o_sub o_code o_out evals]. destruct (reads_in s1 ins) as [vs|]; [|exact Logic.I].
    destruct (I c vs) as [v|]; [|destruct (evals (env_of s1) sub); exact Logic.I].
    unfold exec_op. cbn [o_ins o_sub o_code o_out reads_in read_in evals]. rewrite wr_same, COPY.
    assert (E : evals (env_of (wr s1 t [] v)) sub = evals (env_of s1) sub).
    { apply (evals_eqx (fun x => x = t)); [intros x Hx i; apply wr_other; left; congruence|]. intros x Hx ->. contradiction. }
    rewrite E. destruct (evals (env_of s1) sub) as [ix|]; [|exact Logic.I]. apply exec_off; [exact CL|].
    intros x i N. unfold wr. destruct (String.eqb out x && idx_eqb ix i)%bool; [reflexivity|].
    destruct (String.eqb_spec t x); [congruence|reflexivity].
Qed.

(* ---------------------------------------------------------------- *)
(** * On graphs *)
(** A validated block of tasklets (no library nodes): the edges join containers and tasklets, a tasklet has one
    memlet per input connector and one output memlet; assignments have one input (tasklet.cpp:20-59). *)
Definition data_node (g : dfg) (x : nat) : Prop := (exists d, kind_of g x = Some (KAcc d)) \/ exists d z, kind_of g x = Some (KCst d z).
Definition task_node (g : dfg) (x : nat) : Prop := exists c ins out, kind_of g x = Some (KTask c ins out).
Record valid_block (g : dfg) : Prop := {
  vb_wf : wf g; vb_ac : acyclic g;
  vb_ends : forall e, In e (g_edges g) -> (data_node g (m_src e) /\ task_node g (m_dst e)) \/ (task_node g (m_src e) /\ exists d, kind_of g (m_dst e) = Some (KAcc d));
  vb_task : forall x c ins out, kind_of g x = Some (KTask c ins out) -> List.length (in_edges g x) = List.length ins /\ List.length (out_edges g x) = 1 /\ (c = 0 -> List.length ins = 1) }.
(** [t] is only used through the access node [a] (container_allowed_accesses). *)
Definition only_at (g : dfg) (a : nat) (t : string) : Prop :=
  (forall y, kind_of g y = Some (KAcc t) -> y = a) /\ forall e, In e (g_edges g) -> ~ In t (concat (map atoms (m_sub e))).

Lemma in_in g x e : In e (in_edges g x) <-> In e (g_edges g) /\ m_dst e = x.
Proof. unfold in_edges. rewrite filter_In, Nat.eqb_eq. tauto. Qed.
Lemma in_out g x e : In e (out_edges g x) <-> In e (g_edges g) /\ m_src e = x.
Proof. unfold out_edges. rewrite filter_In, Nat.eqb_eq. tauto. Qed.
Lemma kind_in g x kd : kind_of g x = Some kd -> In x (ids g).
Proof.
  unfold kind_of. destruct (find _ _) as [v|] eqn:F; [|discriminate]. intros _. apply find_some in F as [F1 F2]. apply Nat.eqb_eq in F2. subst x. apply in_map. exact F1.
Qed.
Lemma task_out g x e : valid_block g -> task_node g x -> In e (g_edges g) -> m_src e = x -> out_edges g x = [e].
Proof.
  intros V (c & ins & out & K) He Hs. destruct (vb_task g V x c ins out K) as (_ & L & _).
  assert (H : In e (out_edges g x)) by (apply in_out; auto). destruct (out_edges g x) as [|f [|f' l]]; try discriminate L. destruct H as [->|[]]. reflexivity.
Qed.
Lemma not_both g x : data_node g x -> task_node g x -> False.
Proof. intros [(d & K)|(d & z & K)] (c & i & o & K'); congruence. Qed.
Lemma path_snoc g x y z : path g x y -> edge g y z -> path g x z.
Proof. intros P E. induction P as [x y E0|x w y E0 P IH]; [eapply P_cons; [exact E0|apply P_one; exact E]|eapply P_cons; [exact E0|auto]]. Qed.
Lemma path_last g x z : path g x z -> edge g x z \/ exists y, path g x y /\ edge g y z.
Proof.
  intros P. induction P as [x y E|x y z E P IH]; [left; exact E|]. right. destruct IH as [E'|(w & P' & E')].
  - exists y. split; [apply P_one; exact E|exact E'].
  - exists w. split; [eapply P_cons; eauto|exact E'].
Qed.
Lemma path_first g x z : path g x z -> exists y, edge g x y /\ (y = z \/ path g y z).
Proof. intros P. inversion P as [? ? E|? y ? E P']; subst; eauto. Qed.
Lemma path_trans g x y z : path g x y -> path g y z -> path g x z.
Proof. intros P Q. induction P as [x y E|x w y E P IH]; [eapply P_cons; eauto|eapply P_cons; eauto]. Qed.
Lemma path_rank g (r : nat -> nat) x y : (forall x y, edge g x y -> r x < r y) -> path g x y -> r x < r y.
Proof. intros R P. induction P as [x y E|x w y E P IH]; [auto|]. specialize (R _ _ E). lia. Qed.
Lemma op_inv g y o : op_of g y = Some o -> exists c ins out e l d, kind_of g y = Some (KTask c ins out) /\ out_edges g y = e :: l /\
  kind_of g (m_dst e) = Some (KAcc d) /\ o = {| o_code := c; o_ins := flat_map (operand_of g y) ins; o_out := d; o_sub := m_sub e |}.
Proof.
  unfold op_of. destruct (kind_of g y) as [[| |c ins out|]|] eqn:K; try discriminate. destruct (out_edges g y) as [|e l] eqn:O; [discriminate|].
  destruct (kind_of g (m_dst e)) as [[d| | |]|] eqn:K'; try discriminate. intros H. inversion H. exists c, ins, out, e, l, d. auto.
Qed.
Lemma op_task g y o : op_of g y = Some o -> task_node g y.
Proof. intros H. destruct (op_inv g y o H) as (c & ins & out & _ & _ & _ & K & _). exists c, ins, out. exact K. Qed.
Lemma operand_inv g y c i : In i (operand_of g y c) -> exists e, In e (g_edges g) /\ m_dst e = y /\ m_dconn e = c /\
  ((exists d, kind_of g (m_src e) = Some (KAcc d) /\ i = ORead d (m_sub e)) \/ exists d z, kind_of g (m_src e) = Some (KCst d z) /\ i = OConst z).
Proof.
  unfold operand_of. destruct (find _ _) as [e|] eqn:F; [|intros []]. apply find_some in F as [F1 F2]. apply in_in in F1 as [F0 F1]. apply String.eqb_eq in F2.
  intros H. exists e. split; [exact F0|]. split; [exact F1|]. split; [exact F2|]. destruct (kind_of g (m_src e)) as [[d|d z| |]|] eqn:K; try contradiction; destruct H as [<-|[]]; eauto 6.
Qed.
Lemma ins_inv g y o i : op_of g y = Some o -> In i (o_ins o) -> exists e, In e (g_edges g) /\ m_dst e = y /\
  ((exists d, kind_of g (m_src e) = Some (KAcc d) /\ i = ORead d (m_sub e)) \/ exists d z, kind_of g (m_src e) = Some (KCst d z) /\ i = OConst z).
Proof.
  intros H Hi. destruct (op_inv g y o H) as (c & ins & out & e & l & d & _ & _ & _ & ->). cbn [o_ins] in Hi. apply in_flat_map in Hi as (cn & _ & Hi).
  destruct (operand_inv g y cn i Hi) as (f & F1 & F2 & _ & F3). eauto.
Qed.
(** every memlet into a tasklet from a container is an operand *)
Lemma ins_of g y o e d : valid_block g -> op_of g y = Some o -> In e (g_edges g) -> m_dst e = y -> kind_of g (m_src e) = Some (KAcc d) -> In (ORead d (m_sub e)) (o_ins o).
Proof.
  intros V H He Hd K. destruct (op_inv g y o H) as (c & ins & out & e1 & l & d1 & Ky & _ & _ & ->). cbn [o_ins]. apply in_flat_map. exists (m_dconn e).
  destruct (wf_in g (vb_wf g V) y _ ins Ky eq_refl) as [INC _]. split; [apply INC; apply in_map; apply in_in; auto|].
  unfold operand_of. rewrite (operand_one g y c ins out (m_dconn e) e (vb_wf g V) Ky He Hd eq_refl), K. left; reflexivity.
Qed.
Lemma task_op g x : valid_block g -> task_node g x -> exists o, op_of g x = Some o.
Proof.
  intros V (c & ins & out & K). destruct (vb_task g V x c ins out K) as (_ & L & _). unfold op_of. rewrite K. destruct (out_edges g x) as [|e l] eqn:O; [discriminate|].
  assert (H : In e (out_edges g x)) by (rewrite O; left; reflexivity). apply in_out in H as [H1 H2]. destruct (vb_ends g V e H1) as [[D _]|[_ (d & K')]].
  - exfalso. rewrite H2 in D. apply (not_both g x D). exists c, ins, out. exact K.
  - rewrite K'. eauto.
Qed.
Lemma copy_op g k c ins out e0 ie : valid_block g -> kind_of g k = Some (KTask c ins out) -> c = 0 -> in_edges g k = [e0] -> out_edges g k = [ie] -> forall t, kind_of g (m_dst ie) = Some (KAcc t) ->
  forall i, operand_of g k (m_dconn e0) = [i] -> op_of g k = Some {| o_code := 0; o_ins := [i]; o_out := t; o_sub := m_sub ie |}.
Proof.
  intros V K -> Ik Ok t Kt i E. unfold op_of. rewrite K, Ok, Kt. f_equal. f_equal. destruct (vb_task g V k 0 ins out K) as (_ & _ & L). specialize (L eq_refl).
  destruct (wf_in g (vb_wf g V) k _ ins K eq_refl) as [INC _]. rewrite Ik in INC. destruct ins as [|c0 [|]]; try discriminate L.
  assert (c0 = m_dconn e0). { destruct (INC (m_dconn e0) (or_introl eq_refl)) as [->|[]]. reflexivity. } subst c0. cbn [flat_map]. rewrite E. reflexivity.
Qed.
Lemma lower_split g : forall l b1 o b2, lower g l = b1 ++ o :: b2 -> exists l1 u l2, l = l1 ++ u :: l2 /\ op_of g u = Some o /\ lower g l1 = b1 /\ lower g l2 = b2.
Proof.
  induction l as [|x l IH]; intros b1 o b2 E; [destruct b1; discriminate|]. cbn [lower flat_map] in E. destruct (op_of g x) as [p|] eqn:P.
  - destruct b1 as [|q b1]; cbn [app] in E; injection E as E1 E2.
    + subst p. exists [], x, l. auto.
    + destruct (IH b1 o b2 E2) as (l1 & u & l2 & -> & H1 & H2 & H3). exists (x :: l1), u, l2. split; [reflexivity|]. split; [exact H1|]. split; [|exact H3]. cbn [lower flat_map]. rewrite P. cbn [app]. rewrite E1. f_equal. exact H2.
  - destruct (IH b1 o b2 E) as (l1 & u & l2 & -> & H1 & H2 & H3). exists (x :: l1), u, l2. split; [reflexivity|]. split; [exact H1|]. split; [|exact H3]. cbn [lower flat_map]. rewrite P. exact H2.
Qed.
Lemma lower_cons g y m : lower g (y :: m) = match op_of g y with Some o => [o] | None => [] end ++ lower g m. Proof. reflexivity. Qed.
Lemma lower_app g l m : lower g (l ++ m) = lower g l ++ lower g m. Proof. apply flat_map_app. Qed.
Lemma lower_in g l o : In o (lower g l) -> exists u, In u l /\ op_of g u = Some o.
Proof. unfold lower. intros H. apply in_flat_map in H as (u & Hu & H). destruct (op_of g u) as [p|] eqn:P; [|destruct H]. destruct H as [<-|[]]. eauto. Qed.
Lemma before_filter (f : nat -> bool) l x y : before l x y -> f x = true -> f y = true -> before (filter f l) x y.
Proof.
  intros (l1 & l2 & l3 & ->) Hx Hy. exists (filter f l1), (filter f l2), (filter f l3). rewrite !filter_app. cbn [filter]. rewrite Hx, filter_app. cbn [filter]. rewrite Hy. reflexivity.
Qed.
Lemma perm_filter (f : nat -> bool) l m : Permutation l m -> Permutation (filter f l) (filter f m).
Proof.
  intros P. induction P as [|x l m P IH|x y l|l m n P1 IH1 P2 IH2]; cbn [filter]; [constructor|destruct (f x); auto| |eapply perm_trans; eauto].
  destruct (f x), (f y); auto; try apply perm_swap.
Qed.
Lemma ids_filter (f : nat -> bool) g ed : ids (Dfg (filter (fun v => f (v_id v)) (g_nodes g)) ed) = filter f (ids g).
Proof. unfold ids. cbn [g_nodes]. induction (g_nodes g) as [|v l IH]; [reflexivity|]. cbn [filter map]. destruct (f (v_id v)); cbn [map]; rewrite IH; reflexivity. Qed.
Lemma kind_filter (f : nat -> bool) g ed y : kind_of (Dfg (filter (fun v => f (v_id v)) (g_nodes g)) ed) y = if f y then kind_of g y else None.
Proof.
  unfold kind_of. cbn [g_nodes]. induction (g_nodes g) as [|v l IH]; [destruct (f y); reflexivity|]. cbn [filter find]. destruct (Nat.eqb_spec (v_id v) y) as [E|NE].
  - subst y. destruct (f (v_id v)) eqn:F; [cbn [find]; rewrite Nat.eqb_refl; reflexivity|]. rewrite IH. reflexivity.
  - destruct (f (v_id v)); cbn [find]; [destruct (Nat.eqb_spec (v_id v) y); [contradiction|]|]; exact IH.
Qed.
Lemma before_split (l : list nat) x y l1 l2 : NoDup l -> l = l1 ++ x :: l2 -> before l x y -> In y l2.
Proof.
  intros N E (m1 & m2 & m3 & E'). rewrite E in E'. assert (N' : NoDup (l1 ++ x :: l2)) by (rewrite <- E; exact N).
  assert (Q : l1 = m1 /\ l2 = m2 ++ y :: m3).
  { clear - E' N'. revert m1 E'. induction l1 as [|z l1 IH]; intros [|w m1] E'; cbn [app] in *.
    - inversion E'. auto.
    - exfalso. inversion E'; subst. inversion N' as [|? ? H _]; subst. apply H. apply in_elt.
    - exfalso. inversion E'; subst. inversion N' as [|? ? H _]; subst. apply H. apply in_elt.
    - inversion E' as [[E1 E2]]. inversion N' as [|? ? _ H]; subst. destruct (IH H m1 E2) as [-> ->]. auto. }
  destruct Q as [_ ->]. apply in_elt.
Qed.

(** ** Input fusion *)
Section Input.
  Variables (g : dfg) (a k : nat) (t : string) (ie e0 : memlet) (ins0 : list string) (out0 : string).
  Hypothesis V : valid_block g.
  Hypothesis Ka : kind_of g a = Some (KAcc t).
  Hypothesis Ia : in_edges g a = [ie].
  Hypothesis Ek : m_src ie = k.
  Hypothesis Kk : kind_of g k = Some (KTask 0 ins0 out0).
  Hypothesis Ik : in_edges g k = [e0].
  Hypothesis SI : m_sub ie = [].
  Hypothesis OUTS : forall o, In o (out_edges g a) -> m_sub o = [] /\ task_node g (m_dst o).
  Hypothesis SOME : out_edges g a <> [].
  Hypothesis ONLY : only_at g a t.
  Let x := m_src e0.
  Let g' := rewire g a k e0.
  Definition opx_of (e : memlet) : operand := match kind_of g (m_src e) with Some (KCst _ z) => OConst z | Some (KAcc d) => ORead d (m_sub e) | _ => OConst 0%Z end.
  Let opx := opx_of e0.

  Lemma F_ie : In ie (g_edges g) /\ m_dst ie = a. Proof. apply in_in. rewrite Ia. left; reflexivity. Qed.
  Lemma F_e0 : In e0 (g_edges g) /\ m_dst e0 = k. Proof. apply in_in. rewrite Ik. left; reflexivity. Qed.
  Lemma F_ka : edge g k a. Proof. exists ie. destruct F_ie. auto. Qed.
  Lemma F_xk : edge g x k. Proof. exists e0. destruct F_e0. auto. Qed.
  Lemma F_into_a e : In e (g_edges g) -> m_dst e = a -> e = ie.
  Proof. intros H E. assert (K : In e (in_edges g a)) by (apply in_in; auto). rewrite Ia in K. destruct K as [<-|[]]. reflexivity. Qed.
  Lemma F_into_k e : In e (g_edges g) -> m_dst e = k -> e = e0.
  Proof. intros H E. assert (K : In e (in_edges g k)) by (apply in_in; auto). rewrite Ik in K. destruct K as [<-|[]]. reflexivity. Qed.
  Lemma T_k : task_node g k. Proof. exists 0, ins0, out0. exact Kk. Qed.
  Lemma D_a : data_node g a. Proof. left. exists t. exact Ka. Qed.
  Lemma F_out_k : out_edges g k = [ie]. Proof. destruct F_ie. apply task_out; auto. apply T_k. Qed.
  Lemma F_outof_k e : In e (g_edges g) -> m_src e = k -> e = ie.
  Proof. intros H E. assert (K : In e (out_edges g k)) by (apply in_out; auto). rewrite F_out_k in K. destruct K as [<-|[]]. reflexivity. Qed.
  Lemma D_x : data_node g x.
  Proof. destruct F_e0 as [H E]. destruct (vb_ends g V e0 H) as [[D _]|[_ (d & K)]]; [exact D|]. rewrite E, Kk in K. discriminate. Qed.
  Lemma no_loop y : ~ path g y y.
  Proof. intros P. destruct (vb_ac g V) as (r & R). pose proof (path_rank g r y y R P). lia. Qed.
  Lemma x_a : x <> a. Proof. intros E. apply (no_loop a). eapply P_cons; [rewrite <- E at 1; apply F_xk|apply P_one, F_ka]. Qed.
  Lemma x_k : x <> k. Proof. intros E. apply (not_both g k); [rewrite <- E; apply D_x|apply T_k]. Qed.
  Lemma a_k : a <> k. Proof. intros E. apply (not_both g a D_a). rewrite E. apply T_k. Qed.
  Lemma x_t d : kind_of g x = Some (KAcc d) -> d <> t. Proof. intros K ->. apply x_a. apply (proj1 ONLY). exact K. Qed.
  Lemma opx_t : ~ In t (opnames opx).
  Proof.
    unfold opx, opx_of. fold x. destruct (kind_of g x) as [[d|d z| |]|] eqn:K; cbn [opnames]; try tauto. intros [E|H].
    - exact (x_t d K E).
    - apply (proj2 ONLY e0); [apply F_e0|exact H].
  Qed.
  Lemma opx_ok : operand_of g k (m_dconn e0) = [opx].
  Proof.
    destruct F_e0 as [H E]. unfold operand_of. rewrite (operand_one g k 0 ins0 out0 _ e0 (vb_wf g V) Kk H E eq_refl). unfold opx, opx_of.
    destruct D_x as [(d & K)|(d & z & K)]; unfold x in K; rewrite K; reflexivity.
  Qed.
  Lemma op_k : op_of g k = Some {| o_code := 0; o_ins := [opx]; o_out := t; o_sub := [] |}.
  Proof. rewrite (copy_op g k 0 ins0 out0 e0 ie V Kk eq_refl Ik F_out_k t) with (i := opx); [rewrite SI; reflexivity|destruct F_ie as [_ ->]; exact Ka|apply opx_ok]. Qed.
  Lemma op_a : op_of g a = None. Proof. unfold op_of. rewrite Ka. reflexivity. Qed.

  (** readers of t *)
  Definition reader (y : nat) : Prop := edge g a y.
  Lemma reader_mem y : mem y (map m_dst (out_edges g a)) = true <-> reader y.
  Proof.
    rewrite mem_In, in_map_iff. split.
    - intros (e & E & H). apply in_out in H as [H1 H2]. exists e. auto.
    - intros (e & H & E1 & E2). exists e. split; [exact E2|apply in_out; auto].
  Qed.
  Lemma reader_task y : reader y -> task_node g y.
  Proof. intros (e & H & E1 & E2). rewrite <- E2. apply OUTS. apply in_out; auto. Qed.
  Lemma reader_not_k y : reader y -> y <> k.
  Proof. intros R ->. apply (no_loop a). eapply P_cons; [exact R|apply P_one, F_ka]. Qed.
  Lemma reads_reader y o s : op_of g y = Some o -> In (ORead t s) (o_ins o) -> reader y /\ s = [].
  Proof.
    intros H Hi. destruct (ins_inv g y o _ H Hi) as (e & He & Ed & [(d & K & E)|(d & z & _ & E)]); [|discriminate]. inversion E; subst d s.
    assert (Es : m_src e = a) by (apply (proj1 ONLY); exact K). split; [exists e; auto|]. apply OUTS. apply in_out; auto.
  Qed.
  Lemma reader_reads y o : op_of g y = Some o -> reader y -> reads_t t o.
  Proof.
    intros H (e & He & E1 & E2). assert (S0 : m_sub e = []) by (apply OUTS; apply in_out; auto). unfold reads_t. rewrite <- S0. apply (ins_of g y o e t V H He E2). rewrite E1. exact Ka.
  Qed.

  (** the edges of the result *)
  Lemma moved_dst e : m_dst (moved g a e0 e) = m_dst e /\ m_dconn (moved g a e0 e) = m_dconn e.
  Proof. unfold moved. destruct (m_src e =? a); [auto|]. destruct (_ && _); auto. Qed.
  Definition shifted (e : memlet) : Prop := reader (m_dst e) /\ same_data g (m_src e) x = true.
  Lemma moved_cases e : (m_src e = a /\ moved g a e0 e = Ml x (m_sconn e0) (m_dst e) (m_dconn e) (m_sub e0)) \/
    (m_src e <> a /\ shifted e /\ moved g a e0 e = Ml x (m_sconn e) (m_dst e) (m_dconn e) (m_sub e)) \/
    (m_src e <> a /\ ~ shifted e /\ moved g a e0 e = e).
  Proof.
    unfold moved. destruct (Nat.eqb_spec (m_src e) a) as [E|N]; [left; auto|right]. destruct (mem _ _ && same_data g (m_src e) (m_src e0)) eqn:B.
    - left. split; [exact N|]. apply andb_true_iff in B as [B1 B2]. apply reader_mem in B1. split; [split; assumption|reflexivity].
    - right. split; [exact N|]. split; [|reflexivity]. intros [S1 S2]. apply reader_mem in S1. unfold x in S2. rewrite S1, S2 in B. discriminate.
  Qed.
  Lemma edges_inv f : In f (g_edges g') <-> exists e, In e (g_edges g) /\ m_dst e <> a /\ m_dst e <> k /\ f = moved g a e0 e.
  Proof.
    cbn [g' rewire g_edges]. unfold left_edges. rewrite in_map_iff. split.
    - intros (e & <- & H). apply filter_In in H as [H B]. apply andb_true_iff in B as [B1 B2]. apply negb_true_iff in B1, B2. apply Nat.eqb_neq in B1, B2. exists e. auto.
    - intros (e & H & N1 & N2 & ->). exists e. split; [reflexivity|]. apply filter_In. split; [exact H|]. apply andb_true_iff. split; apply negb_true_iff, Nat.eqb_neq; assumption.
  Qed.
  Lemma edges_ends f : In f (g_edges g') -> (m_src f <> a /\ m_src f <> k) /\ (m_dst f <> a /\ m_dst f <> k).
  Proof.
    intros H. apply edges_inv in H as (e & H & N1 & N2 & ->). rewrite (proj1 (moved_dst e)). split; [|auto].
    destruct (moved_cases e) as [(E & ->)|[(N & _ & ->)|(N & _ & ->)]]; cbn [m_src]; try (split; [apply x_a|apply x_k]).
    split; [exact N|]. intros E. apply N1. rewrite (F_outof_k e H E). apply F_ie.
  Qed.
  Lemma keep_ends f : In f (g_edges g') -> keep g a k e0 (m_src f) = true /\ keep g a k e0 (m_dst f) = true.
  Proof.
    intros H. destruct (edges_ends f H) as [[A1 A2] [B1 B2]]. unfold keep.
    assert (L : forall y, (m_src f =? y) || (m_dst f =? y) = true -> existsb (fun e => (m_src e =? y) || (m_dst e =? y)) (left_edges g a k e0) = true).
    { intros y E. apply existsb_exists. exists f. split; [exact H|exact E]. }
    apply Nat.eqb_neq in A1, A2, B1, B2. rewrite A1, A2, B1, B2. rewrite (L (m_src f)) by (rewrite Nat.eqb_refl; reflexivity). rewrite (L (m_dst f)) by (rewrite Nat.eqb_refl, orb_true_r; reflexivity). rewrite !orb_true_r. auto.
  Qed.
  Lemma kind' y : kind_of g' y = if keep g a k e0 y then kind_of g y else None. Proof. apply kind_filter. Qed.
  Lemma keep_not y : keep g a k e0 y = true -> y <> a /\ y <> k.
  Proof. unfold keep. intros H. apply andb_true_iff in H as [H _]. apply andb_true_iff in H as [H1 H2]. apply negb_true_iff in H1, H2. apply Nat.eqb_neq in H1, H2. auto. Qed.
  Lemma keep_task y : task_node g y -> y <> k -> keep g a k e0 y = true.
  Proof.
    intros T N. unfold keep. assert (NA : y <> a) by (intros ->; apply (not_both g a D_a T)). apply Nat.eqb_neq in N, NA. rewrite N, NA. cbn [negb andb].
    apply orb_true_iff. left. apply negb_true_iff. apply not_true_iff_false. intros H. apply existsb_exists in H as (e & _ & H). apply andb_true_iff in H as [_ H].
    unfold same_data in H. destruct T as (c & i & o & K). rewrite K in H. discriminate.
  Qed.
  Lemma in_edges' y : y <> a -> y <> k -> in_edges g' y = map (moved g a e0) (in_edges g y).
  Proof.
    intros NA NK. unfold in_edges. cbn [g' rewire g_edges]. unfold left_edges. induction (g_edges g) as [|e l IH]; [reflexivity|]. cbn [filter].
    destruct (Nat.eqb_spec (m_dst e) y) as [E|N].
    - replace (negb (m_dst e =? a) && negb (m_dst e =? k)) with true.
      + cbn [map filter]. rewrite (proj1 (moved_dst e)). rewrite E, Nat.eqb_refl. cbn [map]. f_equal. exact IH.
      + symmetry. apply andb_true_iff. split; apply negb_true_iff, Nat.eqb_neq; congruence.
    - destruct (negb (m_dst e =? a) && negb (m_dst e =? k)); [|exact IH]. cbn [map filter]. rewrite (proj1 (moved_dst e)). apply Nat.eqb_neq in N. rewrite N. exact IH.
  Qed.
  Lemma out_edges'' y : ~ data_node g y -> y <> k -> out_edges g' y = out_edges g y.
  Proof.
    intros T N. assert (NX : y <> x) by (intros ->; exact (T D_x)). assert (NA : y <> a) by (intros ->; exact (T D_a)).
    assert (ALL : forall e, In e (g_edges g) -> m_src e = y -> m_dst e <> a /\ m_dst e <> k /\ moved g a e0 e = e).
    { intros e H E. split; [|split].
      - intros Q. apply N. rewrite <- E, <- Ek, (F_into_a e H Q). reflexivity.
      - intros Q. apply NX. rewrite <- E, (F_into_k e H Q). reflexivity.
      - destruct (moved_cases e) as [(Q & _)|[(_ & [_ S2] & _)|(_ & _ & Q)]]; [congruence| |exact Q]. unfold same_data in S2. rewrite E in S2. destruct (kind_of g y) as [[d| | |]|] eqn:K; try discriminate S2. exfalso. apply T. left. exists d. exact K. }
    assert (OTH : forall e, m_src e <> y -> m_src (moved g a e0 e) <> y).
    { intros e Q. destruct (moved_cases e) as [(_ & ->)|[(_ & _ & ->)|(_ & _ & ->)]]; cbn [m_src]; congruence. }
    unfold out_edges. cbn [g' rewire g_edges]. unfold left_edges. induction (g_edges g) as [|e l IH]; [reflexivity|]. cbn [filter].
    assert (IH' := IH (fun e H => ALL e (or_intror H))). destruct (Nat.eqb_spec (m_src e) y) as [E|Q].
    - destruct (ALL e (or_introl eq_refl) E) as (Q1 & Q2 & Q3). apply Nat.eqb_neq in Q1, Q2. rewrite Q1, Q2. cbn [negb andb map filter]. rewrite Q3, E, Nat.eqb_refl. f_equal. exact IH'.
    - destruct (negb (m_dst e =? a) && negb (m_dst e =? k)); [|exact IH']. cbn [map filter]. destruct (Nat.eqb_spec (m_src (moved g a e0 e)) y) as [E'|]; [elim (OTH e Q E')|exact IH'].
  Qed.
  Lemma out_edges' y : task_node g y -> y <> k -> out_edges g' y = out_edges g y.
  Proof. intros T. apply out_edges''. intros D. exact (not_both g y D T). Qed.
  Lemma find_moved (c : string) l : find (fun e => String.eqb (m_dconn e) c) (map (moved g a e0) l) = option_map (moved g a e0) (find (fun e => String.eqb (m_dconn e) c) l).
  Proof. induction l as [|e l IH]; [reflexivity|]. cbn [map find]. rewrite (proj2 (moved_dst e)). destruct (String.eqb (m_dconn e) c); [reflexivity|exact IH]. Qed.
  Lemma operand' y c : y <> a -> y <> k -> operand_of g' y c = map (swap_in t opx) (operand_of g y c).
  Proof.
    intros NA NK. unfold operand_of. rewrite in_edges' by assumption. rewrite find_moved. destruct (find _ (in_edges g y)) as [e|] eqn:F; [|reflexivity]. cbn [option_map].
    apply find_some in F as [F _]. apply in_in in F as [He Ed].
    assert (KP : kind_of g' (m_src (moved g a e0 e)) = kind_of g (m_src (moved g a e0 e))).
    { rewrite kind'. assert (IN : In (moved g a e0 e) (g_edges g')) by (apply edges_inv; exists e; subst y; auto). rewrite (proj1 (keep_ends _ IN)). reflexivity. }
    rewrite KP. assert (NOT : forall d, m_src e <> a -> kind_of g (m_src e) = Some (KAcc d) -> forall l, swap_in t opx (ORead d l) = ORead d l).
    { intros d N K l. cbn [swap_in]. destruct l; [|reflexivity]. destruct (String.eqb_spec d t) as [->|]; [|reflexivity]. elim N. apply (proj1 ONLY). exact K. }
    destruct (moved_cases e) as [(E & ->)|[(N & [_ S2] & ->)|(N & _ & ->)]]; cbn [m_src m_sub].
    - rewrite E, Ka. assert (S0 : m_sub e = []) by (apply OUTS; apply in_out; auto). rewrite S0. cbn [map swap_in]. rewrite String.eqb_refl. unfold opx, opx_of. fold x.
      destruct D_x as [(d & K)|(d & z & K)]; rewrite K; reflexivity.
    - unfold same_data in S2. destruct (kind_of g (m_src e)) as [[d| | |]|] eqn:K; try discriminate. destruct (kind_of g x) as [[d'| | |]|]; try discriminate. apply String.eqb_eq in S2. subst d'.
      cbn [map]. rewrite (NOT d N eq_refl). reflexivity.
    - destruct (kind_of g (m_src e)) as [[d| | |]|] eqn:K; try reflexivity. cbn [map]. rewrite (NOT d N eq_refl). reflexivity.
  Qed.
  Lemma op' y : y <> a -> y <> k -> op_of g' y = option_map (swap_op t opx) (op_of g y).
  Proof.
    intros NA NK. unfold op_of. rewrite kind'. destruct (kind_of g y) as [[d|d z|c i o|c i o]|] eqn:K; try (destruct (keep g a k e0 y); reflexivity).
    assert (T : task_node g y) by (exists c, i, o; exact K). rewrite (keep_task y T NK), (out_edges' y T NK). destruct (out_edges g y) as [|e l] eqn:O; [reflexivity|].
    assert (He : In e (out_edges g' y)) by (rewrite out_edges' by assumption; rewrite O; left; reflexivity). apply in_out in He as [He _].
    rewrite kind', (proj2 (keep_ends e He)). destruct (kind_of g (m_dst e)) as [[d| | |]|]; try reflexivity. cbn [option_map]. unfold swap_op. cbn [o_code o_ins o_out o_sub]. f_equal. f_equal.
    clear O K. induction i as [|cn i IH]; [reflexivity|]. cbn [flat_map]. rewrite map_app, operand', IH by assumption. reflexivity.
  Qed.
  Lemma lower' l : lower g' (filter (keep g a k e0) l) = map (swap_op t opx) (lower g (filter (fun y => negb (y =? k)) l)).
  Proof.
    induction l as [|y l IH]; [reflexivity|]. cbn [filter]. destruct (Nat.eqb_spec y k) as [->|NK]; cbn [negb].
    - replace (keep g a k e0 k) with false; [exact IH|]. unfold keep. rewrite Nat.eqb_refl, andb_false_r. reflexivity.
    - rewrite (lower_cons g y), map_app, <- IH. destruct (keep g a k e0 y) eqn:KP.
      + rewrite lower_cons. f_equal. rewrite op' by (try exact NK; apply keep_not; exact KP). destruct (op_of g y); reflexivity.
      + replace (op_of g y) with (@None op); [reflexivity|]. symmetry. destruct (op_of g y) as [o|] eqn:O; [|reflexivity]. pose proof (keep_task y (op_task g y o O) NK). congruence.
  Qed.

  (** ** the order and the execution *)
  Lemma edge' y z : edge g' y z -> edge g y z \/ (y = x /\ reader z).
  Proof.
    intros (f & H & E1 & E2). apply edges_inv in H as (e & H & N1 & N2 & ->). rewrite (proj1 (moved_dst e)) in E2.
    destruct (moved_cases e) as [(E & Q)|[(N & [R _] & Q)|(N & _ & Q)]]; rewrite Q in E1; cbn [m_src] in E1; subst.
    - right. split; [reflexivity|]. exists e. auto.
    - right. split; [reflexivity|exact R].
    - left. exists e. auto.
  Qed.
  Lemma x_reader z : reader z -> edge g' x z.
  Proof.
    intros (e & H & E1 & E2). exists (moved g a e0 e). rewrite (proj1 (moved_dst e)). split; [|split; [|exact E2]].
    - apply edges_inv. exists e. split; [exact H|]. split; [|split; [|reflexivity]].
      + rewrite E2. intros ->. apply (no_loop a). apply P_one. exists e. auto.
      + rewrite E2. intros ->. apply (no_loop a). eapply P_cons; [exists e; split; [exact H|split; [exact E1|exact E2]]|apply P_one, F_ka].
    - unfold moved. apply Nat.eqb_eq in E1. rewrite E1. reflexivity.
  Qed.
  Lemma x_path z : reader z -> path g x z.
  Proof. intros R. eapply P_cons; [apply F_xk|]. eapply P_cons; [apply F_ka|]. apply P_one. exact R. Qed.
  Lemma linear' l : linear g l -> linear g' (filter (keep g a k e0) l).
  Proof.
    intros L. assert (W := vb_wf g V). split.
    - unfold g', rewire. rewrite ids_filter. apply perm_filter. apply L.
    - intros y z H. assert (B : before l y z) by (destruct (edge' y z H) as [E|(-> & R)]; [apply L; exact E|apply (path_before g l x z W L); apply x_path; exact R]).
      destruct H as (f & Hf & E1 & E2). destruct (keep_ends f Hf) as [P1 P2]. rewrite E1 in P1. rewrite E2 in P2. apply before_filter; assumption.
  Qed.
  (** Nothing that x[sub] depends on is written after the copy and before the last read of t. *)
  Definition settled : Prop := forall u o, op_of g u = Some o -> writes_x opx o -> path g u k \/ forall y, reader y -> y = u \/ path g y u.
  Hypothesis SET : settled.
  Variable I : nat -> list Z -> option Z.
  Hypothesis COPY : forall v, I 0 [v] = Some v.
  Lemma swap_clean u o : op_of g u = Some o -> u <> k -> tclean t opx o.
  Proof.
    intros H N. destruct (op_inv g u o H) as (c & i & ou & e & l & d & K & O & Kd & E). assert (He : In e (out_edges g u)) by (rewrite O; left; reflexivity). apply in_out in He as [He Es]. split.
    - rewrite E. cbn [o_out]. intros ->. apply N. rewrite <- Es, <- Ek. f_equal. apply (F_into_a e He). apply (proj1 ONLY). exact Kd.
    - unfold op_uses. cbn [swap_op o_ins o_sub]. intros Q. apply in_app_or in Q as [Q|Q]; [|rewrite E in Q; cbn [o_sub] in Q; exact (proj2 ONLY e He Q)].
      apply in_concat in Q as (nm & Hn & Q). rewrite map_map in Hn. apply in_map_iff in Hn as (j & <- & Hj).
      destruct (ins_inv g u o j H Hj) as (f & Hf & Ef & [(d' & K' & ->)|(d' & z & _ & ->)]); [|destruct Q].
      assert (CASE : swap_in t opx (ORead d' (m_sub f)) = ORead d' (m_sub f) -> d' <> t -> False).
      { intros E1 N1. rewrite E1 in Q. cbn [opnames] in Q. destruct Q as [Q|Q]; [contradiction|]. exact (proj2 ONLY f Hf Q). }
      destruct (string_dec d' t) as [->|N1].
      + assert (Q0 : m_sub f = []) by (apply (reads_reader u o (m_sub f) H Hj)). rewrite Q0 in Q. cbn [swap_in] in Q. rewrite String.eqb_refl in Q. exact (opx_t Q).
      + apply CASE; [|exact N1]. cbn [swap_in]. destruct (m_sub f); [|reflexivity]. apply String.eqb_neq in N1. rewrite N1. reflexivity.
  Qed.
  Theorem input_exec l s : linear g l -> same_off t (exec_block I s (lower g l)) (exec_block I s (lower g' (filter (keep g a k e0) l))).
  Proof.
    intros L. assert (W := vb_wf g V). assert (ND : NoDup l) by (eapply Permutation_NoDup; [apply Permutation_sym; apply L|apply wf_ids; exact W]).
    assert (HK : In k l) by (apply (Permutation_in _ (Permutation_sym (proj1 L))); eapply kind_in; exact Kk). apply in_split in HK as (l1 & l2 & E).
    assert (NK : forall y, In y l1 \/ In y l2 -> y <> k). { intros y H ->. rewrite E in ND. apply NoDup_remove_2 in ND. apply ND. apply in_or_app. exact H. }
    rewrite lower'. rewrite E at 1. rewrite lower_app. cbn [lower flat_map]. rewrite op_k. cbn [app].
    assert (FL : filter (fun y => negb (y =? k)) l = l1 ++ l2).
    { rewrite E, filter_app. cbn [filter]. rewrite Nat.eqb_refl. cbn [negb]. f_equal.
      - clear - NK. induction l1 as [|y m IH]; [reflexivity|]. cbn [filter]. assert (N := NK y (or_introl (or_introl eq_refl))). apply Nat.eqb_neq in N. rewrite N. cbn [negb]. f_equal. apply IH. intros z [H|H]; apply NK; [left; right; exact H|right; exact H].
      - clear - NK. induction l2 as [|y m IH]; [reflexivity|]. cbn [filter]. assert (N := NK y (or_intror (or_introl eq_refl))). apply Nat.eqb_neq in N. rewrite N. cbn [negb]. f_equal. apply IH. intros z [H|H]; apply NK; [left; exact H|right; right; exact H]. }
    rewrite FL, lower_app. apply (fuse_in_block I COPY t opx).
    - intros o Ho. apply lower_in in Ho as (u & Hu & H). unfold swap_op. destruct o as [c i ou sb]. cbn [o_code o_ins o_out o_sub]. f_equal. rewrite <- (map_id i) at 2. apply map_ext_in. intros j Hj.
      destruct j as [z|d [|q r]]; try reflexivity. cbn [swap_in]. destruct (String.eqb_spec d t) as [->|]; [|reflexivity]. exfalso.
      destruct (reads_reader u _ [] H Hj) as [R _]. assert (B : before l k u) by (apply (path_before g l k u W L); eapply P_cons; [apply F_ka|apply P_one; exact R]).
      apply (before_split l k u l1 l2 ND E) in B. rewrite E in ND. clear - ND Hu B. apply NoDup_app_iff in ND as (_ & _ & ND). apply (ND u Hu). right. exact B.
    - intros o Ho. apply lower_in in Ho as (u & Hu & H). apply (swap_clean u o H). apply NK. right. exact Hu.
    - assert (EX : exists e, In e (out_edges g a)) by (clear - SOME; destruct (out_edges g a) as [|e m]; [congruence|exists e; left; reflexivity]). destruct EX as (e & He).
      assert (R : reader (m_dst e)) by (apply in_out in He as [H1 H2]; exists e; auto). destruct (task_op g _ V (reader_task _ R)) as (o & O).
      exists o. split; [|apply (reader_reads _ o O R)]. unfold lower. apply in_flat_map. exists (m_dst e). split; [|rewrite O; left; reflexivity].
      apply (before_split l k (m_dst e) l1 l2 ND E). apply (path_before g l _ _ W L). eapply P_cons; [apply F_ka|apply P_one; exact R].
    - intros c1 o c2 EC WX o' Ho' RT. destruct (lower_split g l2 c1 o c2 EC) as (m1 & u & m2 & -> & Hu & _ & E2). rewrite <- E2 in Ho'. apply lower_in in Ho' as (y & Hy & H').
      assert (R : reader y) by (apply (reads_reader y o' [] H' RT)). 
      assert (B1 : before l k u) by (exists l1, m1, m2; exact E). assert (B2 : before l u y). { apply in_split in Hy as (n1 & n2 & ->). exists (l1 ++ k :: m1), n1, n2. rewrite E, <- app_assoc. reflexivity. }
      destruct (SET u o Hu WX) as [P|P].
      + apply (before_asym l k u ND B1). apply (path_before g l _ _ W L). exact P.
      + destruct (P y R) as [->|P']; [exact (before_asym l u u ND B2 B2)|]. apply (before_asym l u y ND B2). apply (path_before g l _ _ W L). exact P'.
  Qed.

  (** ** the result is a valid block, and race free if the block was *)
  Lemma valid' : valid_block g'.
  Proof.
    assert (W := vb_wf g V). constructor.
    - constructor.
      + unfold g', rewire. rewrite ids_filter. apply NoDup_filter. apply wf_ids. exact W.
      + intros f Hf. destruct (keep_ends f Hf) as [K1 K2]. unfold g', rewire. rewrite ids_filter. pose proof Hf as Hf'. apply edges_inv in Hf' as (e & He & _ & _ & E).
        destruct (wf_ends g W e He) as [W1 W2]. split; apply filter_In; (split; [|assumption]).
        * destruct (moved_cases e) as [(_ & Q)|[(_ & _ & Q)|(_ & _ & Q)]]; rewrite E, Q; cbn [m_src]; auto; apply (wf_ends g W e0), F_e0.
        * rewrite E, (proj1 (moved_dst e)). exact W2.
      + intros y kd i K CI. rewrite kind' in K. destruct (keep g a k e0 y) eqn:KP; [|discriminate]. destruct (keep_not y KP) as [N1 N2].
        rewrite (in_edges' y N1 N2), map_map. rewrite (map_ext _ m_dconn) by (intros e; apply moved_dst). exact (wf_in g W y kd i K CI).
      + intros y kd i K CI. rewrite kind' in K. destruct (keep g a k e0 y) eqn:KP; [|discriminate]. destruct (keep_not y KP) as [N1 N2].
        destruct kd as [d|d z|c ii o|c ii o]; try discriminate CI.
        * rewrite out_edges'; [exact (wf_out g W y _ i K CI)|exists c, ii, o; exact K|exact N2].
        * rewrite out_edges''; [exact (wf_out g W y _ i K CI)| |exact N2]. intros [(d & K')|(d & z & K')]; congruence.
    - destruct (vb_ac g V) as (r & R). exists r. intros y z E. destruct (edge' y z E) as [E'|(-> & RD)]; [auto|]. apply (path_rank g r x z R). apply x_path. exact RD.
    - intros f Hf. destruct (keep_ends f Hf) as [K1 K2]. pose proof Hf as Hf'. apply edges_inv in Hf' as (e & He & _ & _ & E).
      assert (SAME : forall y, keep g a k e0 y = true -> kind_of g' y = kind_of g y) by (intros y Q; rewrite kind', Q; reflexivity).
      unfold data_node, task_node. rewrite (SAME _ K1), (SAME _ K2). assert (ED : m_dst f = m_dst e) by (rewrite E; apply moved_dst).
      destruct (moved_cases e) as [(S1 & Q)|[(_ & [RD _] & Q)|(_ & _ & Q)]]; rewrite Q in E; [| |subst f; exact (vb_ends g V e He)].
      + left. rewrite ED. split; [rewrite E; exact D_x|]. apply OUTS. apply in_out; auto.
      + left. rewrite ED. split; [rewrite E; exact D_x|]. apply reader_task. exact RD.
    - intros y c i o K. rewrite kind' in K. destruct (keep g a k e0 y) eqn:KP; [|discriminate]. destruct (keep_not y KP) as [N1 N2].
      rewrite (in_edges' y N1 N2), map_length, out_edges'; [exact (vb_task g V y c i o K)|exists c, i, o; exact K|exact N2].
  Qed.
  Lemma path_mono u v : task_node g u -> u <> k -> v <> a -> v <> k -> path g u v -> path g' u v.
  Proof.
    destruct (vb_ac g V) as (r & R). intros TU NU. remember (r v) as n eqn:EN. assert (LE : r v <= n) by lia. clear EN. revert v LE.
    induction n as [|n IH]; intros v LE NA NK P; [pose proof (path_rank g r u v R P); lia|].
    assert (REC : forall z, path g u z -> r z < r v -> z <> a -> z <> k -> path g' u z) by (intros z Pz LT N1 N2; apply IH; [lia|assumption..]).
    assert (VIAX : path g u x -> reader v -> path g' u v).
    { intros Pz RD. eapply path_snoc; [|apply x_reader; exact RD]. apply REC; [exact Pz| |apply x_a|apply x_k]. apply (path_rank g r x v R). apply x_path. exact RD. }
    assert (VIAK : path g u k -> path g u x).
    { intros Pz. apply path_last in Pz as [(e & He & E1 & E2)|(z & Pz & (e & He & E1 & E2))]; rewrite (F_into_k e He E2) in E1.
      - exfalso. apply (not_both g u); [rewrite <- E1; apply D_x|exact TU].
      - fold x in E1. rewrite E1. exact Pz. }
    assert (STEP : forall z, (z = u \/ path g u z) -> edge g z v -> path g' u v).
    { intros z Hz E. destruct (Nat.eq_dec z a) as [->|NZ].
      - destruct Hz as [EU|Pz]; [exfalso; apply (not_both g u); [rewrite <- EU; apply D_a|exact TU]|]. apply VIAX; [|exact E].
        apply path_last in Pz as [(e & He & E1 & E2)|(z & Pz & (e & He & E1 & E2))]; rewrite (F_into_a e He E2), Ek in E1; [congruence|]. apply VIAK. rewrite E1. exact Pz.
      - destruct E as (e & He & E1 & E2). assert (NZK : z <> k). { intros ->. apply NA. rewrite <- E2, (F_outof_k e He E1). apply F_ie. }
        assert (IN : In (moved g a e0 e) (g_edges g')) by (apply edges_inv; exists e; split; [exact He|]; split; [congruence|]; split; [congruence|reflexivity]).
        destruct (moved_cases e) as [(Q & _)|[(_ & [RD SD] & _)|(_ & _ & Q)]]; [congruence| |].
        + rewrite E2 in RD. apply VIAX; [|exact RD]. rewrite E1 in SD. unfold same_data in SD. destruct (kind_of g z) as [[d| | |]|] eqn:Kz; try discriminate SD. destruct (kind_of g x) as [[d'| | |]|] eqn:Kx; try discriminate SD. apply String.eqb_eq in SD. subst d'.
          destruct Hz as [->|Pz]; [exfalso; destruct TU as (c & i & o & K); congruence|].
          assert (WR : exists w, (u = w \/ path g u w) /\ edge g w z). { apply path_last in Pz as [E3|(w & Pw & E3)]; [exists u; auto|exists w; auto]. }
          destruct WR as (w & Hw & (e3 & He3 & E31 & E32)).
          assert (TW : task_node g w). { destruct (vb_ends g V e3 He3) as [[_ (c & i & o & K)]|[T _]]; [rewrite E32 in K; congruence|rewrite E31 in T; exact T]. }
          destruct (task_op g w V TW) as (o & O).
          assert (WX : writes_x opx o).
          { destruct (op_inv g w o O) as (c & i & ou & e4 & l & d4 & _ & O4 & K4 & E4). assert (e4 = e3). { rewrite (task_out g w e3 V TW He3 E31) in O4. inversion O4. reflexivity. } subst e4.
            unfold writes_x, opx, opx_of. fold x. rewrite Kx. rewrite E4. cbn [o_out]. rewrite E32, Kz in K4. inversion K4. left. reflexivity. }
          destruct (SET w o O WX) as [PK|PR].
          * apply VIAK. destruct Hw as [->|Pw]; [exact PK|eapply path_trans; eauto].
          * exfalso. assert (PW : path g w v) by (eapply P_cons; [exists e3; eauto|apply P_one; exists e; eauto]).
            destruct (PR v RD) as [<-|PV]; [exact (no_loop _ PW)|exact (no_loop _ (path_trans _ _ _ _ PW PV))].
        + rewrite Q in IN. assert (E' : edge g' z v) by (exists e; auto). destruct Hz as [->|Pz]; [apply P_one; exact E'|]. eapply path_snoc; [|exact E']. apply REC; [exact Pz| |exact NZ|exact NZK]. apply R. exists e. auto. }
    apply path_last in P as [E|(z & Pz & E)]; [exact (STEP u (or_introl eq_refl) E)|exact (STEP z (or_intror Pz) E)].
  Qed.
  Lemma swap_uses o y : In y (op_uses (swap_op t opx o)) -> In y (op_uses o) \/ (reads_t t o /\ In y (opnames opx)).
  Proof.
    unfold op_uses, reads_t. cbn [swap_op o_ins o_sub]. intros H. apply in_app_or in H as [H|H]; [|left; apply in_or_app; auto].
    apply in_concat in H as (l & Hl & H). rewrite map_map in Hl. apply in_map_iff in Hl as (i & <- & Hi).
    assert (OTH : swap_in t opx i = i -> In y (concat (map opnames (o_ins o)) ++ concat (map atoms (o_sub o)))).
    { intros E. rewrite E in H. apply in_or_app. left. apply in_concat. exists (opnames i). split; [apply in_map; exact Hi|exact H]. }
    destruct i as [z|d [|q l0]]; try (left; apply OTH; reflexivity). cbn [swap_in] in *. destruct (String.eqb_spec d t) as [->|]; [|left; apply OTH; reflexivity]. right. auto.
  Qed.
  Lemma race_free' : race_free g -> race_free g'.
  Proof.
    intros RF p q o1 o2 H1 H2 NE C. destruct (task_op g' p valid' (op_task g' p o1 H1)) as (o1' & _).
    assert (PQ : forall y o, op_of g' y = Some o -> y <> a /\ y <> k /\ exists o', op_of g y = Some o' /\ o = swap_op t opx o').
    { intros y o H. assert (KP : keep g a k e0 y = true) by (destruct (op_task g' y o H) as (c & i & ou & K); rewrite kind' in K; destruct (keep g a k e0 y); [reflexivity|discriminate]).
      destruct (keep_not y KP) as [N1 N2]. split; [exact N1|]. split; [exact N2|]. rewrite (op' y N1 N2) in H. destruct (op_of g y) as [o'|]; inversion H. eauto. }
    destruct (PQ p o1 H1) as (A1 & A2 & p1 & O1 & ->). destruct (PQ q o2 H2) as (B1 & B2 & p2 & O2 & ->). clear o1' H1 H2.
    assert (RD : forall u v ou ov, op_of g u = Some ou -> op_of g v = Some ov -> u <> v -> u <> a -> u <> k -> v <> a -> v <> k -> reads_t t ov -> In (o_out ou) (opnames opx) -> path g' u v \/ path g' v u).
    { intros u v ou ov Hu Hv NUV U1 U2 V1 V2 RT WX. assert (R : reader v) by (apply (reads_reader v ov [] Hv RT)). destruct (SET u ou Hu WX) as [P|P].
      - left. apply path_mono; auto; [apply (op_task g u ou Hu)|]. eapply path_trans; [exact P|]. eapply P_cons; [apply F_ka|apply P_one; exact R].
      - destruct (P v R) as [->|P']; [congruence|]. right. apply path_mono; auto. apply (op_task g v ov Hv). }
    assert (ORIG : conflict p1 p2 -> path g' p q \/ path g' q p).
    { intros Q. destruct (RF p q p1 p2 O1 O2 NE Q) as [P|P]; [left|right]; apply path_mono; auto; eapply op_task; eauto. }
    destruct C as [C|[C|C]].
    - apply ORIG. left. exact C.
    - apply swap_uses in C as [C|[RT C]]; [apply ORIG; right; left; exact C|]. eapply RD; eauto.
    - apply swap_uses in C as [C|[RT C]]; [apply ORIG; right; right; exact C|]. destruct (RD q p p2 p1) as [P|P]; auto.
  Qed.
End Input.

(** With a single reader of t nothing more than race freedom is needed. *)
Lemma settled_single g a k t ie e0 ins0 out0 o1 : valid_block g -> kind_of g a = Some (KAcc t) -> in_edges g a = [ie] -> m_src ie = k -> kind_of g k = Some (KTask 0 ins0 out0) ->
  in_edges g k = [e0] -> m_sub ie = [] -> out_edges g a = [o1] -> only_at g a t -> race_free g -> settled g a k e0.
Proof.
  intros V Ka Ia Ek Kk Ik SI OUT ONLY RF u o H WX.
  assert (OK : op_of g k = Some {| o_code := 0; o_ins := [opx_of g e0]; o_out := t; o_sub := [] |}) by (eapply op_k; eauto).
  assert (NK : u <> k). { intros ->. rewrite OK in H. inversion H; subst o. unfold writes_x in WX. cbn [o_out] in WX. eapply (opx_t g a k t ie e0); eauto. }
  destruct (RF u k o _ H OK NK) as [P|P]; [|left; exact P|right].
  - right. left. unfold op_uses. cbn [o_ins o_sub map concat]. rewrite !app_nil_r. exact WX.
  - intros y (e & He & E1 & E2). assert (e = o1). { assert (Q : In e (out_edges g a)) by (apply in_out; auto). rewrite OUT in Q. destruct Q as [<-|[]]. reflexivity. } subst e.
    apply path_first in P as (z & (f & Hf & F1 & F2) & Q). assert (EZ : z = a). { rewrite <- F2. assert (Q2 : f = ie) by (eapply F_outof_k; eauto). rewrite Q2. assert (Q1 : In ie (in_edges g a)) by (rewrite Ia; left; reflexivity). apply in_in in Q1. apply Q1. } rewrite EZ in Q.
    destruct Q as [EU|Q]; [exfalso; apply (not_both g u); [rewrite <- EU; left; eauto|eapply op_task; eauto]|].
    apply path_first in Q as (z' & (f' & Hf' & G1 & G2) & Q). assert (f' = o1). { assert (Q' : In f' (out_edges g a)) by (apply in_out; auto). rewrite OUT in Q'. destruct Q' as [<-|[]]. reflexivity. } subst f'.
    rewrite E2 in G2. subst z'. destruct Q as [EU|Q]; auto.
Qed.

(** ** Output fusion *)
Section Output.
  Variables (g : dfg) (a k T0 : nat) (t : string) (ie oe e1 : memlet) (cT : nat) (insT : list string) (outT : string) (ins0 : list string) (out0 : string).
  Hypothesis V : valid_block g.
  Hypothesis Ka : kind_of g a = Some (KAcc t).
  Hypothesis Ia : in_edges g a = [ie].
  Hypothesis Oa : out_edges g a = [oe].
  Hypothesis ET : m_src ie = T0.
  Hypothesis KT : kind_of g T0 = Some (KTask cT insT outT).
  Hypothesis Ek : m_dst oe = k.
  Hypothesis Kk : kind_of g k = Some (KTask 0 ins0 out0).
  Hypothesis Ok : out_edges g k = [e1].
  Hypothesis SI : m_sub ie = [].
  Hypothesis SO : m_sub oe = [].
  Hypothesis ONLY : only_at g a t.
  Let g' := Dfg (filter (fun v => negb (v_id v =? a) && negb (v_id v =? k)) (g_nodes g))
                (map (fun e => if m_dst e =? a then Ml T0 (m_sconn ie) (m_dst e1) (m_dconn e1) (m_sub e1) else e)
                     (filter (fun e => negb (m_src e =? a) && negb (m_src e =? k)) (g_edges g))).
  Let kp (y : nat) : bool := negb (y =? a) && negb (y =? k).
  Let redir (e : memlet) : memlet := if m_dst e =? a then Ml T0 (m_sconn ie) (m_dst e1) (m_dconn e1) (m_sub e1) else e.
  Let b := m_dst e1.

  Lemma kp_ok y : kp y = true <-> y <> a /\ y <> k.
  Proof. unfold kp. rewrite andb_true_iff, !negb_true_iff, !Nat.eqb_neq. tauto. Qed.
  Lemma O_ie : In ie (g_edges g) /\ m_dst ie = a. Proof. apply in_in. rewrite Ia. left; reflexivity. Qed.
  Lemma O_oe : In oe (g_edges g) /\ m_src oe = a. Proof. apply in_out. rewrite Oa. left; reflexivity. Qed.
  Lemma O_e1 : In e1 (g_edges g) /\ m_src e1 = k. Proof. apply in_out. rewrite Ok. left; reflexivity. Qed.
  Lemma O_into_a e : In e (g_edges g) -> m_dst e = a -> e = ie.
  Proof. intros H E. assert (K : In e (in_edges g a)) by (apply in_in; auto). rewrite Ia in K. destruct K as [<-|[]]. reflexivity. Qed.
  Lemma O_outof_a e : In e (g_edges g) -> m_src e = a -> e = oe.
  Proof. intros H E. assert (K : In e (out_edges g a)) by (apply in_out; auto). rewrite Oa in K. destruct K as [<-|[]]. reflexivity. Qed.
  Lemma O_outof_k e : In e (g_edges g) -> m_src e = k -> e = e1.
  Proof. intros H E. assert (K : In e (out_edges g k)) by (apply in_out; auto). rewrite Ok in K. destruct K as [<-|[]]. reflexivity. Qed.
  Lemma tk_k : task_node g k. Proof. exists 0, ins0, out0. exact Kk. Qed.
  Lemma tk_T : task_node g T0. Proof. exists cT, insT, outT. exact KT. Qed.
  Lemma dt_a : data_node g a. Proof. left. exists t. exact Ka. Qed.
  Lemma I_k : in_edges g k = [oe].
  Proof.
    destruct (vb_task g V k 0 ins0 out0 Kk) as (L & _ & L1). rewrite (L1 eq_refl) in L. destruct O_oe as [H _]. assert (Q : In oe (in_edges g k)) by (apply in_in; auto).
    destruct (in_edges g k) as [|f [|f' l]]; try discriminate L. destruct Q as [->|[]]. reflexivity.
  Qed.
  Lemma O_into_k e : In e (g_edges g) -> m_dst e = k -> e = oe.
  Proof. intros H E. assert (K : In e (in_edges g k)) by (apply in_in; auto). rewrite I_k in K. destruct K as [<-|[]]. reflexivity. Qed.
  Lemma O_out_T : out_edges g T0 = [ie]. Proof. destruct O_ie as [H _]. apply task_out; auto. apply tk_T. Qed.
  Lemma O_outof_T e : In e (g_edges g) -> m_src e = T0 -> e = ie.
  Proof. intros H E. assert (K : In e (out_edges g T0)) by (apply in_out; auto). rewrite O_out_T in K. destruct K as [<-|[]]. reflexivity. Qed.
  Lemma E_Ta : edge g T0 a. Proof. exists ie. destruct O_ie. auto. Qed.
  Lemma E_ak : edge g a k. Proof. exists oe. destruct O_oe. auto. Qed.
  Lemma E_kb : edge g k b. Proof. exists e1. destruct O_e1. auto. Qed.
  Lemma acy y : ~ path g y y.
  Proof. intros P. destruct (vb_ac g V) as (r & R). pose proof (path_rank g r y y R P). lia. Qed.
  Lemma Tk : path g T0 k. Proof. eapply P_cons; [apply E_Ta|apply P_one, E_ak]. Qed.
  Lemma T_ne : T0 <> a /\ T0 <> k.
  Proof. split; [intros E; apply (not_both g a dt_a); rewrite <- E; apply tk_T|intros E; apply (acy k); rewrite <- E at 1; apply Tk]. Qed.
  Lemma b_data : exists d, kind_of g b = Some (KAcc d).
  Proof. destruct O_e1 as [H E]. destruct (vb_ends g V e1 H) as [[D _]|[_ D]]; [exfalso; rewrite E in D; exact (not_both g k D tk_k)|exact D]. Qed.
  Lemma b_ne : b <> a /\ b <> k.
  Proof.
    split; [intros E; apply (acy a); eapply P_cons; [apply E_ak|]; rewrite <- E; apply P_one, E_kb|].
    intros E. destruct b_data as (d & K). rewrite E, Kk in K. discriminate.
  Qed.
  Lemma okind y : kind_of g' y = if kp y then kind_of g y else None. Proof. apply (kind_filter kp). Qed.
  Lemma oedges f : In f (g_edges g') <-> exists e, In e (g_edges g) /\ m_src e <> a /\ m_src e <> k /\ f = redir e.
  Proof.
    cbn [g' g_edges]. rewrite in_map_iff. split.
    - intros (e & <- & H). apply filter_In in H as [H B]. apply kp_ok in B as [B1 B2]. exists e. auto.
    - intros (e & H & N1 & N2 & ->). exists e. split; [reflexivity|]. apply filter_In. split; [exact H|]. apply kp_ok. auto.
  Qed.
  Lemma redir_cases e : In e (g_edges g) -> (e = ie /\ redir e = Ml T0 (m_sconn ie) b (m_dconn e1) (m_sub e1)) \/ (m_dst e <> a /\ redir e = e).
  Proof. intros H. unfold redir. destruct (Nat.eqb_spec (m_dst e) a) as [E|N]; [left; split; [apply O_into_a; assumption|reflexivity]|right; auto]. Qed.
  Lemma oends f : In f (g_edges g') -> kp (m_src f) = true /\ kp (m_dst f) = true.
  Proof.
    intros H. apply oedges in H as (e & H & N1 & N2 & ->). destruct (redir_cases e H) as [(_ & ->)|(N & ->)]; rewrite !kp_ok; cbn [m_src m_dst].
    - split; [apply T_ne|apply b_ne].
    - split; [auto|]. split; [exact N|]. intros E. apply N1. rewrite (O_into_k e H E). apply O_oe.
  Qed.
  Lemma oin y : task_node g y -> y <> k -> in_edges g' y = in_edges g y.
  Proof.
    intros TY NK. assert (NA : y <> a) by (intros E; apply (not_both g a dt_a); rewrite <- E; exact TY).
    assert (NB : y <> b) by (intros E; destruct b_data as (d & K); destruct TY as (c & i & o & K'); congruence).
    assert (ALL : forall e, In e (g_edges g) -> m_dst e = y -> m_src e <> a /\ m_src e <> k).
    { intros e H E. split; intros Q; [apply NK; rewrite <- E, <- Ek, (O_outof_a e H Q); reflexivity|apply NB; rewrite <- E, (O_outof_k e H Q); reflexivity]. }
    unfold in_edges. cbn [g' g_edges]. induction (g_edges g) as [|e l IH]; [reflexivity|]. cbn [filter]. assert (IH' := IH (fun e H => ALL e (or_intror H))).
    destruct (Nat.eqb_spec (m_dst e) y) as [E|N].
    - destruct (ALL e (or_introl eq_refl) E) as [Q1 Q2]. apply Nat.eqb_neq in Q1, Q2. rewrite Q1, Q2. cbn [negb andb map filter]. assert (Q : (m_dst e =? a) = false) by (apply Nat.eqb_neq; congruence). rewrite Q, E, Nat.eqb_refl. f_equal. exact IH'.
    - destruct (negb (m_src e =? a) && negb (m_src e =? k)); [|exact IH']. cbn [map filter]. destruct (m_dst e =? a); cbn [m_dst].
      + replace (m_dst e1 =? y) with false by (symmetry; apply Nat.eqb_neq; fold b; congruence). exact IH'.
      + apply Nat.eqb_neq in N. rewrite N. exact IH'.
  Qed.
  Lemma oout y : y <> a -> y <> k -> out_edges g' y = map redir (out_edges g y).
  Proof.
    intros NA NK. unfold out_edges. cbn [g' g_edges]. assert (ALL : forall e, In e (g_edges g) -> m_src (redir e) = m_src e).
    { intros e H. destruct (redir_cases e H) as [(-> & ->)|(_ & ->)]; [cbn [m_src]; congruence|reflexivity]. }
    induction (g_edges g) as [|e l IH]; [reflexivity|]. cbn [filter]. assert (IH' := IH (fun e H => ALL e (or_intror H))). specialize (ALL e (or_introl eq_refl)).
    destruct (Nat.eqb_spec (m_src e) y) as [E|N].
    - assert (Q : negb (m_src e =? a) && negb (m_src e =? k) = true) by (apply kp_ok; split; congruence). rewrite Q. cbn [map filter]. fold (redir e). rewrite ALL, E, Nat.eqb_refl. f_equal. exact IH'.
    - destruct (negb (m_src e =? a) && negb (m_src e =? k)); [|exact IH']. cbn [map filter]. fold (redir e). rewrite ALL. apply Nat.eqb_neq in N. rewrite N. exact IH'.
  Qed.
  Lemma o_operand y c : task_node g y -> y <> k -> operand_of g' y c = operand_of g y c.
  Proof.
    intros TY NK. unfold operand_of. rewrite (oin y TY NK). destruct (find _ (in_edges g y)) as [e|] eqn:F; [|reflexivity]. apply find_some in F as [F _]. 
    rewrite <- (oin y TY NK) in F. apply in_in in F as [F _]. rewrite okind, (proj1 (oends e F)). reflexivity.
  Qed.
  Lemma o_kind_task y c i o : kind_of g y = Some (KTask c i o) -> y <> k -> kp y = true.
  Proof. intros K N. apply kp_ok. split; [|exact N]. intros ->. congruence. Qed.
  Lemma o_op y : y <> k -> y <> T0 -> op_of g' y = op_of g y.
  Proof.
    intros NK NT. unfold op_of. rewrite okind. destruct (kind_of g y) as [[d|d z|c i o|c i o]|] eqn:K; try (destruct (kp y); reflexivity).
    assert (TY : task_node g y) by (exists c, i, o; exact K). pose proof (o_kind_task y c i o K NK) as KP. rewrite KP. apply kp_ok in KP as [NA _].
    rewrite (oout y NA NK). destruct (out_edges g y) as [|e l] eqn:OE; [reflexivity|]. cbn [map].
    assert (He : In e (out_edges g y)) by (rewrite OE; left; reflexivity). apply in_out in He as [He Es].
    destruct (redir_cases e He) as [(-> & _)|(Nd & ->)]; [congruence|].
    rewrite okind. assert (KD : kp (m_dst e) = true). { apply kp_ok. split; [exact Nd|]. intros E. apply NA. rewrite <- Es, (O_into_k e He E). apply O_oe. } rewrite KD.
    destruct (kind_of g (m_dst e)) as [[d| | |]|]; try reflexivity. f_equal. f_equal. apply flat_map_ext. intros cn. apply o_operand; assumption.
  Qed.
  Definition d1 : string := match kind_of g b with Some (KAcc d) => d | _ => "" end.
  Lemma b_kind : kind_of g b = Some (KAcc d1). Proof. unfold d1. destruct b_data as (d & ->). reflexivity. Qed.
  Let insop := flat_map (operand_of g T0) insT.
  Lemma o_opT : op_of g T0 = Some {| o_code := cT; o_ins := insop; o_out := t; o_sub := [] |}.
  Proof. unfold op_of. rewrite KT, O_out_T. destruct O_ie as [_ ->]. rewrite Ka, SI. reflexivity. Qed.
  Lemma o_opT' : op_of g' T0 = Some {| o_code := cT; o_ins := insop; o_out := d1; o_sub := m_sub e1 |}.
  Proof.
    destruct T_ne as [N1 N2]. unfold op_of. rewrite okind, (proj2 (kp_ok T0) T_ne), KT, (oout T0 N1 N2), O_out_T. cbn [map]. destruct (redir_cases ie (proj1 O_ie)) as [(_ & ->)|(N & _)]; [|elim N; apply O_ie].
    cbn [m_dst m_sub]. rewrite okind, (proj2 (kp_ok b) b_ne), b_kind. f_equal. f_equal. apply flat_map_ext. intros cn. apply o_operand; [apply tk_T|exact N2].
  Qed.
  Let kop : op := {| o_code := 0; o_ins := [ORead t []]; o_out := d1; o_sub := m_sub e1 |}.
  Lemma o_opk : op_of g k = Some kop.
  Proof.
    unfold kop. apply (copy_op g k 0 ins0 out0 oe e1 V Kk eq_refl I_k Ok d1 b_kind). destruct O_oe as [H E]. unfold operand_of. rewrite (operand_one g k 0 ins0 out0 _ oe (vb_wf g V) Kk H Ek eq_refl), E, Ka, SO. reflexivity.
  Qed.
  Lemma o_edge y z : edge g' y z -> edge g y z \/ (y = T0 /\ z = b).
  Proof.
    intros (f & H & Q1 & Q2). apply oedges in H as (e & H & N1 & N2 & ->). destruct (redir_cases e H) as [(_ & Q)|(_ & Q)]; rewrite Q in Q1, Q2; cbn [m_src m_dst] in *; [right; auto|left; exists e; auto].
  Qed.
  Lemma Tb : path g T0 b. Proof. eapply path_snoc; [apply Tk|apply E_kb]. Qed.
  Lemma Tb' : edge g' T0 b.
  Proof.
    exists (redir ie). destruct O_ie as [H E]. split; [apply oedges; exists ie; rewrite ET; destruct T_ne; auto|]. destruct (redir_cases ie H) as [(_ & ->)|(N & _)]; [auto|contradiction].
  Qed.
  Lemma o_linear l : linear g l -> linear g' (filter kp l).
  Proof.
    intros L. split.
    - unfold g'. change (fun v => negb (v_id v =? a) && negb (v_id v =? k)) with (fun v => kp (v_id v)). rewrite ids_filter. apply perm_filter. apply L.
    - intros y z H. assert (B : before l y z) by (destruct (o_edge y z H) as [E|(-> & ->)]; [apply L; exact E|apply (path_before g l T0 b (vb_wf g V) L), Tb]).
      destruct H as (f & Hf & E1 & E2). destruct (oends f Hf) as [P1 P2]. rewrite E1 in P1. rewrite E2 in P2. apply before_filter; assumption.
  Qed.
  Lemma into_k u : path g u k -> u = a \/ u = T0 \/ path g u T0.
  Proof.
    intros P. apply path_last in P as [(e & H & E1 & E2)|(z & P & (e & H & E1 & E2))]; rewrite (O_into_k e H E2), (proj2 O_oe) in E1; [auto|]. subst z.
    apply path_last in P as [(f & H' & G1 & G2)|(z & P & (f & H' & G1 & G2))]; rewrite (O_into_a f H' G2), ET in G1; [auto|]. subst z. auto.
  Qed.
  Lemma uses_t u o : op_of g u = Some o -> u <> k -> ~ In t (op_uses o).
  Proof.
    intros H N Q. unfold op_uses in Q. apply in_app_or in Q as [Q|Q].
    - apply in_concat in Q as (nm & Hn & Q). apply in_map_iff in Hn as (i & <- & Hi). destruct (ins_inv g u o i H Hi) as (e & He & Ed & [(d & K & ->)|(d & z & _ & ->)]); [|destruct Q]. destruct Q as [->|Q]; [|exact (proj2 ONLY e He Q)].
      apply N. rewrite <- Ed, <- Ek. f_equal. apply (O_outof_a e He). apply (proj1 ONLY). exact K.
    - destruct (op_inv g u o H) as (c & i & ou & e & l & d & _ & O & _ & E). rewrite E in Q. cbn [o_sub] in Q. assert (He : In e (out_edges g u)) by (rewrite O; left; reflexivity). apply in_out in He as [He _]. exact (proj2 ONLY e He Q).
  Qed.
  Hypothesis RF : race_free g.
  Variable I : nat -> list Z -> option Z.
  Hypothesis COPY : forall v, I 0 [v] = Some v.
  Theorem output_exec l s : linear g l -> same_off t (exec_block I s (lower g l)) (exec_block I s (lower g' (filter kp l))).
  Proof.
    intros L. assert (W := vb_wf g V). assert (ND : NoDup l) by (eapply Permutation_NoDup; [apply Permutation_sym; apply L|apply wf_ids; exact W]).
    destruct (path_before g l T0 k W L Tk) as (l1 & l2 & l3 & E).
    assert (SAME : forall m, (forall y, In y m -> y <> k /\ y <> T0) -> lower g' (filter kp m) = lower g m).
    { induction m as [|y m IH]; intros H; [reflexivity|]. cbn [filter]. destruct (H y (or_introl eq_refl)) as [Q1 Q2]. assert (IH' := IH (fun z Hz => H z (or_intror Hz))). destruct (kp y) eqn:KP.
      - rewrite !lower_cons, IH', (o_op y Q1 Q2). reflexivity.
      - rewrite lower_cons, IH'. assert (EA : y = a). { destruct (Nat.eq_dec y a) as [E'|N]; [exact E'|]. rewrite (proj2 (kp_ok y) (conj N Q1)) in KP. discriminate. }
        replace (op_of g y) with (@None op); [reflexivity|]. rewrite EA. unfold op_of. rewrite Ka. reflexivity. }
    assert (OUT : forall y, In y l1 \/ In y l2 \/ In y l3 -> y <> k /\ y <> T0).
    { rewrite E in ND. intros y H. split; intros ->.
      - rewrite app_comm_cons, app_assoc in ND. apply NoDup_remove_2 in ND. apply ND. rewrite !in_app_iff. cbn [In]. tauto.
      - apply NoDup_remove_2 in ND. apply ND. rewrite !in_app_iff. cbn [In]. tauto. }
    rewrite E, !filter_app. cbn [filter]. rewrite (proj2 (kp_ok T0) T_ne). rewrite filter_app. cbn [filter].
    assert (KK : kp k = false) by (unfold kp; rewrite Nat.eqb_refl, andb_false_r; reflexivity). rewrite KK.
    rewrite !lower_app, !lower_cons, !lower_app, lower_cons, o_opT, o_opT', o_opk. rewrite !SAME by (intros y Hy; apply OUT; auto). cbn [app].
    apply (fuse_out_block I t cT insop d1 (m_sub e1)); [exact COPY| | |apply (proj2 ONLY e1), O_e1|].
    - intros o Ho C. apply lower_in in Ho as (u & Hu & H). destruct (OUT u (or_intror (or_introl Hu))) as [NK NT].
      assert (B1 : before l T0 u) by (rewrite E; apply before_app_r; apply before_hd; apply in_or_app; auto).
      assert (B2 : before l u k). { rewrite E. apply in_split in Hu as (m1 & m2 & ->). exists (l1 ++ T0 :: m1), m2, l3. rewrite <- !app_assoc. reflexivity. }
      destruct (RF k u _ o o_opk H (fun E => NK (eq_sym E)) C) as [P|P].
      + apply (before_asym l u k ND B2). apply (path_before g l _ _ W L P).
      + destruct (into_k u P) as [EA|[EA|P']]; [|congruence|].
        * destruct (op_task g u o H) as (c & i & ou & K). congruence.
        * apply (before_asym l T0 u ND B1). apply (path_before g l _ _ W L P').
    - intros o Ho. rewrite <- lower_app in Ho. apply lower_in in Ho as (u & Hu & H). apply (uses_t u o H). apply OUT. apply in_app_or in Hu. tauto.
    - intros E1. apply (proj1 b_ne). apply (proj1 ONLY). rewrite <- E1. apply b_kind.
  Qed.
  Lemma o_valid : valid_block g'.
  Proof.
    assert (W := vb_wf g V). constructor.
    - constructor.
      + unfold g'. change (fun v => negb (v_id v =? a) && negb (v_id v =? k)) with (fun v => kp (v_id v)). rewrite ids_filter. apply NoDup_filter. apply wf_ids. exact W.
      + intros f Hf. destruct (oends f Hf) as [K1 K2]. unfold g'. change (fun v => negb (v_id v =? a) && negb (v_id v =? k)) with (fun v => kp (v_id v)). rewrite ids_filter.
        pose proof Hf as Hf'. apply oedges in Hf' as (e & He & _ & _ & E). split; apply filter_In; (split; [|assumption]); destruct (redir_cases e He) as [(_ & Q)|(_ & Q)]; rewrite E, Q; cbn [m_src m_dst]; try apply (wf_ends g W e He).
        * eapply kind_in; exact KT.
        * eapply kind_in; exact b_kind.
      + intros y kd i K CI. rewrite okind in K. destruct (kp y) eqn:KP; [|discriminate]. apply kp_ok in KP as [N1 N2]. destruct kd as [d|d z|c ii o|c ii o]; try discriminate CI.
        * rewrite oin; [exact (wf_in g W y _ i K CI)|exists c, ii, o; exact K|exact N2].
        * assert (EM : in_edges g' y = []); [|rewrite EM; split; [intros ? []|constructor]].
          destruct (in_edges g' y) as [|f l] eqn:EI; [reflexivity|]. exfalso. assert (Hf : In f (in_edges g' y)) by (rewrite EI; left; reflexivity). apply in_in in Hf as [Hf Ed]. apply oedges in Hf as (e & He & _ & _ & E).
          destruct (redir_cases e He) as [(_ & Q)|(_ & Q)]; rewrite Q in E; subst f; cbn [m_dst] in Ed; [rewrite Ed in *; pose proof b_kind; congruence|].
          destruct (vb_ends g V e He) as [[_ (c1 & i1 & o1 & K1)]|[_ (d & K1)]]; rewrite Ed in K1; congruence.
      + intros y kd i K CI. rewrite okind in K. destruct (kp y) eqn:KP; [|discriminate]. apply kp_ok in KP as [N1 N2]. rewrite (oout y N1 N2), map_map.
        assert (Q : map (fun e => m_sconn (redir e)) (out_edges g y) = map m_sconn (out_edges g y)); [|rewrite Q; exact (wf_out g W y kd i K CI)].
        apply map_ext_in. intros e He. apply in_out in He as [He _]. destruct (redir_cases e He) as [(-> & ->)|(_ & ->)]; reflexivity.
    - destruct (vb_ac g V) as (r & R). exists r. intros y z E. destruct (o_edge y z E) as [E'|(-> & ->)]; [auto|]. apply (path_rank g r T0 b R), Tb.
    - intros f Hf. destruct (oends f Hf) as [K1 K2]. pose proof Hf as Hf'. apply oedges in Hf' as (e & He & _ & _ & E).
      assert (SAME : forall y, kp y = true -> kind_of g' y = kind_of g y) by (intros y Q; rewrite okind, Q; reflexivity).
      unfold data_node, task_node. rewrite (SAME _ K1), (SAME _ K2). destruct (redir_cases e He) as [(_ & Q)|(_ & Q)]; rewrite Q in E; subst f; cbn [m_src m_dst].
      + right. split; [apply tk_T|apply b_data].
      + exact (vb_ends g V e He).
    - intros y c i o K. rewrite okind in K. destruct (kp y) eqn:KP; [|discriminate]. apply kp_ok in KP as [N1 N2].
      rewrite (oout y N1 N2), map_length, oin; [exact (vb_task g V y c i o K)|exists c, i, o; exact K|exact N2].
  Qed.
  Lemma o_path u v : u <> a -> u <> k -> v <> a -> v <> k -> path g u v -> path g' u v.
  Proof.
    destruct (vb_ac g V) as (r & R). intros NU1 NU2. remember (r v) as n eqn:EN. assert (LE : r v <= n) by lia. clear EN. revert v LE.
    induction n as [|n IH]; intros v LE NA NK P; [pose proof (path_rank g r u v R P); lia|].
    assert (REC : forall z, path g u z -> r z < r v -> z <> a -> z <> k -> path g' u z) by (intros z Pz LT N1 N2; apply IH; [lia|assumption..]).
    assert (STEP : forall z, (z = u \/ path g u z) -> edge g z v -> path g' u v).
    { intros z Hz (e & He & E1 & E2). destruct (Nat.eq_dec z a) as [EA|NZ]; [elim NK; rewrite <- E2, <- Ek, (O_outof_a e He (eq_trans E1 EA)); reflexivity|].
      destruct (Nat.eq_dec z k) as [EK|NZK].
      - assert (EB : v = b) by (rewrite <- E2, (O_outof_k e He (eq_trans E1 EK)); reflexivity). rewrite EK in Hz. rewrite EB in REC |- *. destruct Hz as [Hz|Pz]; [congruence|].
        destruct (into_k u Pz) as [?|[->|PT]]; [congruence|apply P_one, Tb'|]. eapply path_snoc; [|apply Tb']. apply REC; [exact PT| |apply T_ne|apply T_ne]. apply (path_rank g r T0 b R), Tb.
      - assert (E' : edge g' z v). { exists e. split; [|auto]. apply oedges. exists e. split; [exact He|]. split; [congruence|]. split; [congruence|]. destruct (redir_cases e He) as [(-> & _)|(_ & Q)]; [elim NA; rewrite <- E2; apply O_ie|congruence]. }
        destruct Hz as [->|Pz]; [apply P_one; exact E'|]. eapply path_snoc; [|exact E']. apply REC; [exact Pz| |exact NZ|exact NZK]. apply R. exists e. auto. }
    apply path_last in P as [E|(z & Pz & E)]; [exact (STEP u (or_introl eq_refl) E)|exact (STEP z (or_intror Pz) E)].
  Qed.
  Lemma o_race : race_free g'.
  Proof.
    assert (NODE : forall y o, op_of g' y = Some o -> y <> a /\ y <> k).
    { intros y o H. apply kp_ok. destruct (op_task g' y o H) as (c & i & ou & K). rewrite okind in K. destruct (kp y); [reflexivity|discriminate]. }
    assert (HALF : forall q o, op_of g' q = Some o -> q <> T0 -> conflict {| o_code := cT; o_ins := insop; o_out := d1; o_sub := m_sub e1 |} o -> path g' T0 q \/ path g' q T0).
    { intros q o H NT C. destruct (NODE q o H) as [NA NK]. rewrite (o_op q NK NT) in H. destruct T_ne as [T1 T2].
      assert (Q : conflict {| o_code := cT; o_ins := insop; o_out := t; o_sub := [] |} o \/ conflict kop o).
      { unfold conflict, op_uses in *. cbn [o_out o_ins o_sub kop map concat opnames] in *. rewrite !in_app_iff in *. cbn [In map concat] in *. rewrite ?app_nil_r in *. tauto. }
      destruct Q as [Q|Q].
      - destruct (RF T0 q _ o o_opT H (fun E => NT (eq_sym E)) Q) as [P|P]; [left|right]; apply o_path; auto.
      - destruct (RF k q _ o o_opk H (fun E => NK (eq_sym E)) Q) as [P|P].
        + left. apply o_path; auto. eapply path_trans; [apply Tk|exact P].
        + right. destruct (into_k q P) as [?|[?|P']]; [congruence|congruence|]. apply o_path; auto. }
    intros p q o1 o2 H1 H2 NE C. destruct (NODE p o1 H1) as [A1 A2]. destruct (NODE q o2 H2) as [B1 B2].
    destruct (Nat.eq_dec p T0) as [->|NP].
    - rewrite o_opT' in H1. inversion H1; subst o1. apply (HALF q o2 H2 (fun E => NE (eq_sym E)) C).
    - destruct (Nat.eq_dec q T0) as [->|NQ].
      + rewrite o_opT' in H2. inversion H2; subst o2. assert (C' : conflict {| o_code := cT; o_ins := insop; o_out := d1; o_sub := m_sub e1 |} o1) by (unfold conflict in *; intuition congruence).
        destruct (HALF p o1 H1 NP C') as [P|P]; auto.
      + rewrite (o_op p A2 NP) in H1. rewrite (o_op q B2 NQ) in H2. destruct (RF p q o1 o2 H1 H2 NE C) as [P|P]; [left|right]; apply o_path; auto.
  Qed.
End Output.
