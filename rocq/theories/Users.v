(** Uses of containers, and executions with a log of uses.

    analysis::Users (sdfg/src/analysis/users.cpp:80-400) creates one [User] per
    access of a container by an element: access nodes and memlets of a block,
    transitions, if-conditions, loop init/condition/update, return.  Here a user
    is the position of the element, which part of it, read or write, and the
    container.  Simplifications: all reads made by one tasklet of one container
    are one user (in the code one per access node or memlet); blocks are lists
    of operations in execution order (C47), so an access node that is written
    and then read is a write user of one operation and a read user of another. *)
From Verif Require Export Sym SymFacts IR IRFacts DataFlowExec.

(** Position in the tree, innermost step first: child of a sequence, branch of
    an if, body of a loop. *)
Inductive pstep := Kid (k : nat) | Br (k : nat) | Body.
Definition path := list pstep.
(** Part of the element (ForUser::is_init, is_condition, is_update,
    users.h): operation [j] of a block, the transition after a child, the
    conditions of an if, loop init/condition/update, return; [UArt] is the
    artificial "undefined user" of data_dependency_analysis.cpp:521-528. *)
Inductive uel := UOp (j : nat) | UAsg | UCond | UInit | UTest | UUpd | URet | UArt.
Record user := U { u_at : path; u_el : uel; u_w : bool; u_x : string }.
Definition utrace := list user.

Definition rdU (p : path) (e : uel) (l : list string) : utrace := map (U p e false) l.
(** A tasklet loads its inputs (and the symbols of the memlet subsets), then
    stores: block_dispatcher.cpp:245-330. *)
Definition opU (p : path) (j : nat) (o : op) : utrace := rdU p (UOp j) (op_uses o) ++ [U p (UOp j) true (o_out o)].
Fixpoint blkU (p : path) (j : nat) (b : block) : utrace :=
  match b with [] => [] | o :: b' => opU p j o ++ blkU p (S j) b' end.
(** sequence_dispatcher.cpp:35-45 *)
Definition asgU (p : path) (a : assigns) : utrace :=
  concat (map (fun xe => rdU p UAsg (atoms (snd xe)) ++ [U p UAsg true (fst xe)]) a).

(** [runU I p n st o st' T]: the node [n] at position [p], started in [st], ends in
    [st'] with outcome [o] (as [run] of IR.v) and makes the uses [T], in order.
    The children of a sequence at [q] are at [Kid k :: q]. *)
Section Sem.
  Variable I : nat -> list Z -> option Z.
  Inductive runU : path -> node -> store -> outcome -> store -> utrace -> Prop :=
  | U_block p b st st' : exec_block I st b = Some st' -> runU p (NBlock b) st ONorm st' (blkU p 0 b)
  | U_seq p s st o st' T : runsU p 0 s st o st' T -> runU p (NSeq s) st o st' T
  | U_if p bs st o st' T : runbU p 0 bs st o st' T -> runU p (NIf bs) st o st' T
  | U_while p s st o st' T : runwU p s st o st' T -> runU p (NWhile s) st o st' T
  | U_loop p k i init c u s st v o st' T :
      eval (env_of st) init = Some v -> runlU p i c u s (wr st i [] v) o st' T ->
      runU p (NLoop k i init c u s) st o st' (rdU p UInit (atoms init) ++ U p UInit true i :: T)
  | U_break p st : runU p NBreak st OBrk st []
  | U_continue p st : runU p NContinue st OCont st []
  | U_return p r st : runU p (NReturn r) st (ORet r) st [U p URet false r]
  with runsU : path -> nat -> seq -> store -> outcome -> store -> utrace -> Prop :=
  | U_nil q k st : runsU q k SNil st ONorm st []
  | U_cons q k n a r st st1 st2 o st' T1 T2 :
      runU (Kid k :: q) n st ONorm st1 T1 -> exec_assigns st1 a = Some st2 -> runsU q (S k) r st2 o st' T2 ->
      runsU q k (SCons n a r) st o st' (T1 ++ asgU (Kid k :: q) a ++ T2)
  | U_exit q k n a r st o st' T : runU (Kid k :: q) n st o st' T -> o <> ONorm -> runsU q k (SCons n a r) st o st' T
  with runbU : path -> nat -> brs -> store -> outcome -> store -> utrace -> Prop :=
  | U_bnil p k st : runbU p k BNil st ONorm st []
  | U_btrue p k c s r st o st' T : cev (env_of st) c = Some true -> runsU (Br k :: p) 0 s st o st' T ->
      runbU p k (BCons c s r) st o st' (rdU p UCond (catoms c) ++ T)
  | U_bfalse p k c s r st o st' T : cev (env_of st) c = Some false -> runbU p (S k) r st o st' T ->
      runbU p k (BCons c s r) st o st' (rdU p UCond (catoms c) ++ T)
  with runwU : path -> seq -> store -> outcome -> store -> utrace -> Prop :=
  | U_wnext p s st o1 st1 o st' T1 T2 :
      runsU (Body :: p) 0 s st o1 st1 T1 -> o1 = ONorm \/ o1 = OCont -> runwU p s st1 o st' T2 -> runwU p s st o st' (T1 ++ T2)
  | U_wbreak p s st st' T : runsU (Body :: p) 0 s st OBrk st' T -> runwU p s st ONorm st' T
  | U_wret p s st r st' T : runsU (Body :: p) 0 s st (ORet r) st' T -> runwU p s st (ORet r) st' T
  with runlU : path -> string -> cond -> expr -> seq -> store -> outcome -> store -> utrace -> Prop :=
  | U_lend p i c u s st : cev (env_of st) c = Some false -> runlU p i c u s st ONorm st (rdU p UTest (catoms c))
  | U_lnext p i c u s st o1 st1 v o st' T1 T2 :
      cev (env_of st) c = Some true -> runsU (Body :: p) 0 s st o1 st1 T1 -> o1 = ONorm \/ o1 = OCont ->
      eval (env_of st1) u = Some v -> runlU p i c u s (wr st1 i [] v) o st' T2 ->
      runlU p i c u s st o st' (rdU p UTest (catoms c) ++ T1 ++ rdU p UUpd (atoms u) ++ U p UUpd true i :: T2)
  | U_lbreak p i c u s st st' T :
      cev (env_of st) c = Some true -> runsU (Body :: p) 0 s st OBrk st' T -> runlU p i c u s st ONorm st' (rdU p UTest (catoms c) ++ T)
  | U_lret p i c u s st r st' T :
      cev (env_of st) c = Some true -> runsU (Body :: p) 0 s st (ORet r) st' T -> runlU p i c u s st (ORet r) st' (rdU p UTest (catoms c) ++ T).
End Sem.

Scheme runU_ind' := Minimality for runU Sort Prop
with runsU_ind' := Minimality for runsU Sort Prop
with runbU_ind' := Minimality for runbU Sort Prop
with runwU_ind' := Minimality for runwU Sort Prop
with runlU_ind' := Minimality for runlU Sort Prop.
Combined Scheme runU_mind from runU_ind', runsU_ind', runbU_ind', runwU_ind', runlU_ind'.

(** The log adds nothing to, and takes nothing from, the executions. *)
Lemma runU_run I :
  (forall p n st o st' T, runU I p n st o st' T -> run I n st o st') /\
  (forall q k s st o st' T, runsU I q k s st o st' T -> runs I s st o st') /\
  (forall p k b st o st' T, runbU I p k b st o st' T -> runb I b st o st') /\
  (forall p s st o st' T, runwU I p s st o st' T -> runw I s st o st') /\
  (forall p i c u s st o st' T, runlU I p i c u s st o st' T -> runl I i c u s st o st').
Proof. apply runU_mind; intros; try (econstructor; eassumption). Qed.
Lemma run_runU I :
  (forall n st o st', run I n st o st' -> forall p, exists T, runU I p n st o st' T) /\
  (forall s st o st', runs I s st o st' -> forall q k, exists T, runsU I q k s st o st' T) /\
  (forall b st o st', runb I b st o st' -> forall p k, exists T, runbU I p k b st o st' T) /\
  (forall s st o st', runw I s st o st' -> forall p, exists T, runwU I p s st o st' T) /\
  (forall i c u s st o st', runl I i c u s st o st' -> forall p, exists T, runlU I p i c u s st o st' T).
Proof.
  apply run_mind; intros; try solve [eexists; econstructor; eassumption].
  - destruct (H0 p 0%nat); eexists; econstructor; eassumption.
  - destruct (H0 p 0%nat); eexists; econstructor; eassumption.
  - destruct (H0 p); eexists; econstructor; eassumption.
  - destruct (H1 p); eexists; econstructor; eassumption.
  - destruct (H0 (Kid k :: q)), (H3 q (S k)); eexists; eapply U_cons; eassumption.
  - destruct (H0 (Kid k :: q)); eexists; eapply U_exit; eassumption.
  - destruct (H1 (Br k :: p) 0%nat); eexists; eapply U_btrue; eassumption.
  - destruct (H1 p (S k)); eexists; eapply U_bfalse; eassumption.
  - destruct (H0 (Body :: p) 0%nat), (H3 p); eexists; eapply U_wnext; eassumption.
  - destruct (H0 (Body :: p) 0%nat); eexists; eapply U_wbreak; eassumption.
  - destruct (H0 (Body :: p) 0%nat); eexists; eapply U_wret; eassumption.
  - destruct (H1 (Body :: p) 0%nat), (H5 p); eexists; eapply U_lnext; eassumption.
  - destruct (H1 (Body :: p) 0%nat); eexists; eapply U_lbreak; eassumption.
  - destruct (H1 (Body :: p) 0%nat); eexists; eapply U_lret; eassumption.
Qed.

(* ---------------------------------------------------------------- *)
(** * Data flow in a log *)
Definition writes_of (x : string) (u : user) : Prop := u_w u = true /\ u_x u = x.
Definition reads_of (x : string) (u : user) : Prop := u_w u = false /\ u_x u = x.
(** [carries k x T w r]: in [T] the read [r] of [x] comes after the write [w] of
    [x]; if [k] (a write replaces the whole content: [x] is a scalar), with no
    other write of [x] in between. *)
Definition carries (k : bool) (x : string) (T : utrace) (w r : user) : Prop :=
  exists A B C, T = A ++ w :: B ++ r :: C /\ writes_of x w /\ reads_of x r /\ (k = true -> forall u, In u B -> ~ writes_of x u).

(** equality of users is decidable *)
Definition uel_dec (a b : uel) : {a = b} + {a <> b}. Proof. decide equality. apply Nat.eq_dec. Defined.
Definition pstep_dec (a b : pstep) : {a = b} + {a <> b}. Proof. decide equality; apply Nat.eq_dec. Defined.
Definition user_dec (a b : user) : {a = b} + {a <> b}.
Proof. decide equality; [apply string_dec|apply Bool.bool_dec|apply uel_dec|apply (list_eq_dec pstep_dec)]. Defined.
Definition is_u (a b : user) : bool := if user_dec a b then true else false.
Lemma is_u_eq a b : is_u a b = true <-> a = b.
Proof. unfold is_u. destruct (user_dec a b); split; intros; congruence. Qed.
