(** * C76: removing an array dimension of size one *)
From Coq Require Import String List ZArith Bool Lia.
From Verif Require Import Sym SymFacts IR IRFacts Trace TrivialArray.
Import ListNotations.
Open Scope string_scope.
Open Scope list_scope.
Open Scope Z_scope.

(** Every access of the execution to the container is within its constant dimensions. *)
Definition in_bounds (x : string) (dims : list expr) (T : trace) : Prop :=
  forall w e j, In (Ev w x e j) T -> forall k n, nth_error dims k = Some (EInt n) -> exists z, nth_error j k = Some z /\ 0 <= z < n.
(** [b] is the memory [a] with the dimension [d] of [x] removed: [b] holds at every index
    the value [a] holds at the index with a 0 inserted at position [d]. *)
Definition removed (x : string) (d : nat) (a b : store) : Prop :=
  (forall y j, y <> x -> b y j = a y j) /\ (forall u v, length u = d -> b x (u ++ v) = a x (u ++ 0 :: v)).

Lemma expr_eqb_one n : expr_eqb n (EInt 1) = true -> n = EInt 1.
Proof. intros H. apply expr_eqb_eq in H. exact H. Qed.
Lemma trivial_dim_spec dims : forall d, trivial_dim dims = Some d -> nth_error dims d = Some (EInt 1).
Proof.
  induction dims as [|n r IH]; intros d H; cbn in H; [discriminate|]. destruct (expr_eqb n (EInt 1)) eqn:E.
  - injection H as <-. apply expr_eqb_one in E. subst n. reflexivity.
  - destruct (trivial_dim r) as [k|]; [|discriminate]. injection H as <-. apply IH. reflexivity.
Qed.
Lemma in_bounds_flat x dims d T : trivial_dim dims = Some d -> in_bounds x dims T -> flat x d T.
Proof.
  intros D B w e j H. destruct (B w e j H d 1 (trivial_dim_spec dims d D)) as (z & Z1 & Z2). replace z with 0 in Z1 by lia. exact Z1.
Qed.
Lemma erase_app d (u v : list Z) z : length u = d -> erase_at d (u ++ z :: v) = u ++ v /\ nth_error (u ++ z :: v) d = Some z.
Proof.
  revert d. induction u as [|q u IH]; intros [|d] L; cbn in L; try discriminate; cbn; [auto|]. injection L as L. destruct (IH d L) as [A B]. rewrite A. auto.
Qed.
Lemma split_at d : forall j z, nth_error j d = Some z -> exists u v : list Z, length u = d /\ j = u ++ z :: v.
Proof.
  induction d as [|d IH]; intros [|q j] z H; cbn in H; try discriminate.
  - injection H as ->. exists [], j. auto.
  - destruct (IH j z H) as (u & v & L & ->). exists (q :: u), v. cbn. auto.
Qed.
Lemma removed_stripped x d a b : removed x d a b <-> stripped x d a b.
Proof.
  split; intros (H1 & H2); split.
  - intros y j N. symmetry. apply H1, N.
  - intros j H. apply split_at in H as (u & v & L & ->). destruct (erase_app d u v 0 L) as [-> _]. symmetry. apply H2, L.
  - intros y j N. symmetry. apply H1, N.
  - intros u v L. destruct (erase_app d u v 0 L) as [E F]. rewrite (H2 _ F), E. reflexivity.
Qed.

(** Every execution of the program whose accesses are within bounds is an execution of the
    changed program, with the same outcome and the same memory, the dimension aside. *)
Theorem C76_dimension_removed I n x dims d a o a' T b :
  trivial_dim dims = Some d -> runT I n a o a' T -> in_bounds x dims T -> removed x d a b ->
  exists b', run I (strip_node x d n) b o b' /\ removed x d a' b'.
Proof.
  intros D R B S. apply removed_stripped in S. destruct (proj1 (strip_sim x d I) n a o a' T R b S (in_bounds_flat x dims d T D B)) as (b' & R' & S').
  exists b'. split; [exact R'|apply removed_stripped, S'].
Qed.
(** A memory for the changed program always exists. *)
Theorem C76_initial_memory x d a : exists b, removed x d a b.
Proof.
  exists (fun y j => if String.eqb y x then a y (firstn d j ++ 0 :: skipn d j) else a y j). split.
  - intros y j N. apply String.eqb_neq in N. rewrite N. reflexivity.
  - intros u v <-. rewrite String.eqb_refl. rewrite firstn_app, skipn_app, firstn_all, skipn_all, Nat.sub_diag. cbn. rewrite app_nil_r. reflexivity.
Qed.
(** No execution of the changed program ends in another way. *)
Theorem C76_only_result I n x dims d a o a' T b o' b' :
  trivial_dim dims = Some d -> runT I n a o a' T -> in_bounds x dims T -> removed x d a b -> run I (strip_node x d n) b o' b' ->
  o' = o /\ removed x d a' b'.
Proof.
  intros D R B S R'. destruct (C76_dimension_removed I n x dims d a o a' T b D R B S) as (b2 & R2 & S2).
  destruct (run_det I _ _ _ _ _ _ R' R2) as [-> ->]. auto.
Qed.

Definition c76_I (c : nat) (vs : list Z) : option Z := match vs with [v] => Some (v + 1) | _ => None end.
(** for (i = 0; i < 2; i++) A[i][0] = A[i][0] + 1, for A of dimensions [2][1] *)
Definition c76_loop : node :=
  NLoop KFor "i" (EInt 0) (CLt (ESym "i") (EInt 2)) (EAdd [ESym "i"; EInt 1])
    (SCons (NBlock [{| o_code := 0%nat; o_ins := [ORead "A" [ESym "i"; EInt 0]]; o_out := "A"; o_sub := [ESym "i"; EInt 0] |}]) [] SNil).
Definition c76_a : store := fun _ _ => 5.
Theorem C76_hypotheses :
  trivial_dim [EInt 2; EInt 1] = Some 1%nat /\
  (exists a' T, runT c76_I c76_loop c76_a ONorm a' T /\ in_bounds "A" [EInt 2; EInt 1] T /\ a' "A" [1; 0] = 6) /\
  strip_node "A" 1 c76_loop =
    NLoop KFor "i" (EInt 0) (CLt (ESym "i") (EInt 2)) (EAdd [ESym "i"; EInt 1])
      (SCons (NBlock [{| o_code := 0%nat; o_ins := [ORead "A" [ESym "i"]]; o_out := "A"; o_sub := [ESym "i"] |}]) [] SNil).
Proof.
  split; [reflexivity|]. split; [|reflexivity].
  assert (Q : exists a' T, runT c76_I c76_loop c76_a ONorm a' T /\ (forall w e j, In (Ev w "A" e j) T -> j = [0; 0] \/ j = [1; 0]) /\ a' "A" [1; 0] = 6).
  { eexists. eexists. split; [|split].
    - unfold c76_loop. eapply T_loop; [reflexivity|]. eapply T_lnext; [reflexivity| |left; reflexivity|reflexivity|].
      + eapply T_cons; [apply T_block; reflexivity|reflexivity|apply T_nil].
      + eapply T_lnext; [reflexivity| |left; reflexivity|reflexivity|].
        * eapply T_cons; [apply T_block; reflexivity|reflexivity|apply T_nil].
        * apply T_lend. reflexivity.
    - intros w e j H. vm_compute in H. repeat (destruct H as [H|H]; [try discriminate H; injection H as _ _ <-; auto|]). destruct H.
    - reflexivity. }
  destruct Q as (a' & T & R & J & V). exists a', T. split; [exact R|]. split; [|exact V].
  intros w e j H k n K. destruct (J w e j H) as [->| ->]; destruct k as [|[|[|k]]]; cbn in K; try discriminate; injection K as <-; cbn; eexists; split; try reflexivity; lia.
Qed.
