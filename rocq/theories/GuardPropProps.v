(** * C78: moving the bounds test of a kernel with barriers into its body *)
From Coq Require Import String List ZArith Bool Lia.
From Verif Require Import Sym SymFacts IR IRFacts Trace GuardProp.
Import ListNotations.
Open Scope string_scope.
Open Scope list_scope.
Open Scope Z_scope.

Lemma propagate_cases bar i c body body' : propagate_guard bar i c body = Some body' -> guardS bar i c body = Some body'.
Proof.
  unfold propagate_guard. destruct (has_barS bar body); cbn [negb]; [|discriminate]. destruct (uses_iS i body) eqn:U; cbn [negb]; [auto|].
  intros H. injection H as <-. apply unusedS. exact U.
Qed.

(** A thread whose index is in range does what it did, provided the body does not write the
    names of the test. *)
Theorem C78_in_range bar i c I body body' st o st' : propagate_guard bar i c body = Some body' ->
  (forall y, In y (catoms c) -> ~ In y (swrites body)) -> cev (env_of st) c = Some true ->
  runs I body st o st' -> runs I body' st o st' /\ forall o2 st2, runs I body' st o2 st2 -> o2 = o /\ st2 = st'.
Proof.
  intros G F C R. apply propagate_cases in G. assert (R' : runs I body' st o st') by (eapply (proj1 (proj2 (in_range_sim bar i c I))); eassumption).
  split; [exact R'|]. intros o2 st2 R2. destruct (runs_det I _ _ _ _ _ _ R2 R') as [-> ->]. auto.
Qed.
(** A thread whose index is out of range now executes the body, for its barriers. It writes
    nothing other threads see, if what they see is written in parts that mention the index
    and hold no barrier ([tidyS]). *)
Theorem C78_out_of_range_partial bar i c I (shared : string -> Prop) body body' st o st' : propagate_guard bar i c body = Some body' ->
  (forall y, In y (catoms c) -> ~ In y (swrites body)) -> tidyS bar i shared body -> cev (env_of st) c = Some false ->
  runs I body' st o st' -> forall y j, shared y -> st' y j = st y j.
Proof.
  intros G F T C R. apply propagate_cases in G. apply (proj1 (proj2 (out_range_sim c I shared)) _ _ _ _ R); [|intros y Hy K|exact C].
  - exact (proj1 (proj2 (tidy_safe bar i c shared)) body T body' G).
  - apply (proj1 (proj2 (guard_writes bar i c)) body body' G) in K. exact (F y Hy K).
Qed.
(** Two threads that agree on the names the control around the barriers depends on pass the
    same number of barriers of the changed body, whether their indices are in range or not. *)
Theorem C78_same_barriers_partial bar i c I (V : string -> Prop) body body' s t o s' T o2 t' T2 : propagate_guard bar i c body = Some body' ->
  alignedS bar I V body -> liftS bar i V body -> (forall y, V y -> s y [] = t y []) ->
  runsT I body' s o s' T -> runsT I body' t o2 t' T2 -> passed bar T = passed bar T2 /\ o = o2 /\ forall y, V y -> s' y [] = t' y [].
Proof.
  intros G A L K R1 R2. apply propagate_cases in G.
  destruct (proj1 (proj2 (aligned_sim bar I V)) _ _ _ _ _ R1 (proj1 (proj2 (aligned_guard bar i c I V)) body A L body' G) _ _ _ _ K R2) as (P1 & P2 & P3). auto.
Qed.

(** ** What the conditions are for *)
Definition c78_I : nat -> list Z -> option Z := fun k l => match k, l with 0%nat, [x] => Some x | 1%nat, [x; y] => Some (x + y) | _, _ => None end.
Definition c78_c : cond := CLt (ESym "i") (ESym "n").
Definition c78_bar : op := Build_op 0 [OConst 0] "bar" [].
Definition c78_put (x : string) (e : expr) : op := Build_op 0 [OConst 7] x [e].
Definition c78_st (i : Z) : store := fun x j => match j with [] => if String.eqb x "i" then i else if String.eqb x "n" then 4 else 0 | _ => 0 end.

(** An index computed from the map's in a transition is not seen to use it: the statement
    [A[j] = 7] with [j := i + 1] stays outside every test, and a thread out of range writes. *)
Definition c78_derived : seq := SCons (NBlock [c78_bar]) [("j", EAdd [ESym "i"; EInt 1])] (SCons (NBlock [c78_put "A" (ESym "j")]) [] SNil).
Theorem C78_derived_index_refuted : exists body', propagate_guard "bar" "i" c78_c c78_derived = Some body' /\
  (forall y, In y (catoms c78_c) -> ~ In y (swrites c78_derived)) /\ cev (env_of (c78_st 9)) c78_c = Some false /\
  exists st', runs c78_I body' (c78_st 9) ONorm st' /\ st' "A" [10] <> c78_st 9 "A" [10].
Proof.
  exists c78_derived. split; [vm_compute; reflexivity|]. split; [intros y Hy K; cbn in Hy, K; destruct Hy as [<-|[<-|[]]]; destruct K as [K|[K|[K|[]]]]; discriminate|].
  split; [vm_compute; reflexivity|]. eexists. split.
  - eapply R_cons; [constructor; cbn; reflexivity|cbn; reflexivity|]. eapply R_cons; [constructor; cbn; reflexivity|cbn; reflexivity|constructor].
  - vm_compute. discriminate.
Qed.
(** The assignments of a statement's transition move under the test with it. The barrier
    that depends on them is no longer passed by all threads. *)
Definition c78_lifted : seq :=
  SCons (NBlock [c78_put "A" (ESym "i")]) [("m", EInt 1)] (SCons (NIf (BCons (CEq (ESym "m") (EInt 1)) (SCons (NBlock [c78_bar]) [] SNil) BNil)) [] SNil).
Lemma c78_aligned : alignedS "bar" c78_I (fun y => y = "m") c78_lifted.
Proof.
  cbn [c78_lifted alignedS alignedN alignedB]. change (has_bar "bar" (NBlock [c78_put "A" (ESym "i")])) with false. cbv iota.
  split; [intros y e [H|[]] _; injection H as <- <-; intros z []|]. split.
  { right. split; [intros st o st' R; inversion R; reflexivity|]. intros y [<-|[]]. discriminate. }
  split; [intros y e []|]. split; [|exact Logic.I].
  change (has_bar "bar" (NIf (BCons (CEq (ESym "m") (EInt 1)) (SCons (NBlock [c78_bar]) [] SNil) BNil))) with true. cbv iota.
  split; [intros y [<-|[]]; reflexivity|]. split; [|exact Logic.I]. split; [intros y e []|]. split; [|exact Logic.I].
  change (has_bar "bar" (NBlock [c78_bar])) with true. cbv iota. intros y [<-|[]]. discriminate.
Qed.
Theorem C78_transition_refuted : exists body', propagate_guard "bar" "i" c78_c c78_lifted = Some body' /\
  alignedS "bar" c78_I (fun y => y = "m") c78_lifted /\ c78_st 0 "m" [] = c78_st 9 "m" [] /\
  exists s' T t' T2, runsT c78_I body' (c78_st 0) ONorm s' T /\ runsT c78_I body' (c78_st 9) ONorm t' T2 /\ passed "bar" T = 1%nat /\ passed "bar" T2 = 0%nat.
Proof.
  eexists. split; [vm_compute; reflexivity|]. split; [exact c78_aligned|]. split; [reflexivity|]. do 4 eexists. split; [|split].
  - eapply T_cons; [eapply T_if, T_btrue; [vm_compute; reflexivity|]; eapply T_cons; [constructor; cbn; reflexivity|cbn; reflexivity|constructor]|reflexivity|].
    eapply T_cons; [eapply T_if, T_btrue; [vm_compute; reflexivity|]; eapply T_cons; [constructor; cbn; reflexivity|cbn; reflexivity|constructor]|reflexivity|constructor].
  - eapply T_cons; [eapply T_if, T_bfalse; [vm_compute; reflexivity|constructor]|reflexivity|].
    eapply T_cons; [eapply T_if, T_bfalse; [vm_compute; reflexivity|constructor]|reflexivity|constructor].
  - split; vm_compute; reflexivity.
Qed.
(** A branch without a barrier beside one with a barrier is taken for a sequence of its
    parent: the code casts an IfElse to a Sequence. *)
Theorem C78_branch_refuted : propagate_guard "bar" "i" c78_c
  (SCons (NIf (BCons (CEq (ESym "m") (EInt 1)) (SCons (NBlock [c78_bar]) [] SNil) (BCons (CNe (ESym "m") (EInt 1)) (SCons (NBlock [c78_put "A" (ESym "i")]) [] SNil) BNil))) [] SNil) = None.
Proof. vm_compute. reflexivity. Qed.

(** ** The hypotheses can be met *)
Definition c78_good : seq :=
  SCons (NBlock [c78_put "A" (ESym "i")]) []
  (SCons (NLoop KFor "k" (EInt 0) (CLt (ESym "k") (EInt 2)) (EAdd [ESym "k"; EInt 1])
     (SCons (NBlock [c78_put "B" (ESym "i")]) [] (SCons (NBlock [c78_bar]) [] SNil))) [] SNil).
Definition c78_shared (y : string) : Prop := y = "A" \/ y = "B".
Example C78_hypotheses : exists body', propagate_guard "bar" "i" c78_c c78_good = Some body' /\ body' <> c78_good /\
  (forall y, In y (catoms c78_c) -> ~ In y (swrites c78_good)) /\ tidyS "bar" "i" c78_shared c78_good /\
  alignedS "bar" c78_I (fun y => y = "k") c78_good /\ liftS "bar" "i" (fun y => y = "k") c78_good /\
  exists s' T t' T2, runsT c78_I body' (c78_st 1) ONorm s' T /\ runsT c78_I body' (c78_st 9) ONorm t' T2 /\
    passed "bar" T = 2%nat /\ passed "bar" T2 = 2%nat /\ s' "A" [1] = 7 /\ t' "A" [9] = 0.
Proof.
  assert (Q : forall b, quiet c78_I (NBlock b)) by (intros b st o st' R; inversion R; reflexivity).
  eexists. split; [vm_compute; reflexivity|]. split; [discriminate|].
  split; [intros y Hy K; cbn in Hy, K; destruct Hy as [<-|[<-|[]]]; repeat (destruct K as [K|K]; [discriminate|]); exact K|].
  assert (B1 : has_bar "bar" (NBlock [c78_put "A" (ESym "i")]) = false) by reflexivity.
  assert (B2 : has_bar "bar" (NBlock [c78_put "B" (ESym "i")]) = false) by reflexivity.
  assert (B3 : has_bar "bar" (NBlock [c78_bar]) = true) by reflexivity.
  assert (B4 : forall x e d u, has_bar "bar" (NLoop KFor x e d u (SCons (NBlock [c78_put "B" (ESym "i")]) [] (SCons (NBlock [c78_bar]) [] SNil))) = true).
  { intros x e d u. apply mem_in. cbn. auto. }
  split; [|split; [|split]].
  - cbn [c78_good tidyS]. rewrite B1, B4. cbn [tidyN tidyS]. rewrite B2, B3. cbn [tidyN].
    split; [intros y []|]. split; [left; vm_compute; reflexivity|]. split; [intros y []|]. split; [|exact Logic.I].
    split; [intros [H|H]; discriminate|]. split; [intros y []|]. split; [left; vm_compute; reflexivity|]. split; [intros y []|]. split; [|exact Logic.I].
    intros y [<-|[]] [H|H]; discriminate.
  - cbn [c78_good alignedS]. rewrite B1, B4. cbn [alignedN alignedS]. rewrite B2, B3. cbn [alignedN].
    split; [intros y e []|]. split; [right; split; [apply Q|intros y [<-|[]]; discriminate]|]. split; [intros y e []|]. split; [|exact Logic.I].
    split; [intros y []|]. split; [intros y [<-|[]]; reflexivity|]. split; [intros y [<-|[]]; reflexivity|].
    split; [intros y e []|]. split; [right; split; [apply Q|intros y [<-|[]]; discriminate]|]. split; [intros y e []|]. split; [|exact Logic.I].
    intros y [<-|[]]. discriminate.
  - cbn [c78_good liftS]. rewrite B1, B4. cbn [liftN liftS]. rewrite B2, B3. cbn [liftN].
    split; [intros _; right; split; [intros y []|intros []]|]. split; [|exact Logic.I]. split; [intros _; right; split; [intros y []|intros []]|]. split; exact Logic.I.
  - do 4 eexists. split; [|split].
    + eapply T_cons; [eapply T_if, T_btrue; [vm_compute; reflexivity|]; eapply T_cons; [constructor; cbn; reflexivity|cbn; reflexivity|constructor]|cbn; reflexivity|].
      eapply T_cons; [|cbn; reflexivity|constructor]. eapply T_loop; [vm_compute; reflexivity|].
      eapply T_lnext with (o1 := ONorm); [vm_compute; reflexivity| |left; reflexivity|vm_compute; reflexivity|].
      { eapply T_cons; [eapply T_if, T_btrue; [vm_compute; reflexivity|]; eapply T_cons; [constructor; cbn; reflexivity|cbn; reflexivity|constructor]|cbn; reflexivity|].
        eapply T_cons; [constructor; cbn; reflexivity|cbn; reflexivity|constructor]. }
      eapply T_lnext with (o1 := ONorm); [vm_compute; reflexivity| |left; reflexivity|vm_compute; reflexivity|].
      { eapply T_cons; [eapply T_if, T_btrue; [vm_compute; reflexivity|]; eapply T_cons; [constructor; cbn; reflexivity|cbn; reflexivity|constructor]|cbn; reflexivity|].
        eapply T_cons; [constructor; cbn; reflexivity|cbn; reflexivity|constructor]. }
      eapply T_lend. vm_compute. reflexivity.
    + eapply T_cons; [eapply T_if, T_bfalse; [vm_compute; reflexivity|constructor]|cbn; reflexivity|].
      eapply T_cons; [|cbn; reflexivity|constructor]. eapply T_loop; [vm_compute; reflexivity|].
      eapply T_lnext with (o1 := ONorm); [vm_compute; reflexivity| |left; reflexivity|vm_compute; reflexivity|].
      { eapply T_cons; [eapply T_if, T_bfalse; [vm_compute; reflexivity|constructor]|cbn; reflexivity|].
        eapply T_cons; [constructor; cbn; reflexivity|cbn; reflexivity|constructor]. }
      eapply T_lnext with (o1 := ONorm); [vm_compute; reflexivity| |left; reflexivity|vm_compute; reflexivity|].
      { eapply T_cons; [eapply T_if, T_bfalse; [vm_compute; reflexivity|constructor]|cbn; reflexivity|].
        eapply T_cons; [constructor; cbn; reflexivity|cbn; reflexivity|constructor]. }
      eapply T_lend. vm_compute. reflexivity.
    + repeat split; vm_compute; reflexivity.
Qed.
