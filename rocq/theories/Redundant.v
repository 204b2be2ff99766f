(** Removing a copy-out that a later copy-out of the same container makes redundant.

    Modelled: opt/src/passes/offloading/remove_redundant_transfers_pass.cpp:19-90
    (run_pass) and opt/src/targets/offloading/data_offloading_node.cpp:102-120
    (equal_with), on the commands of Offload.v: within one sequence the first copy-out
    dominates the second and the second post-dominates the first. Simplified: one
    device, one node per block. *)
From Verif Require Import Sym SymFacts IR IRFacts Trace DepProofs For2MapProofs Distribute ParProofs Offload OffloadProofs OffloadSim.

Definition dir_eqb (a b : direction) : bool := match a, b with D2H, D2H | H2D, H2D | NoDir, NoDir => true | _, _ => false end.
Definition life_eqb (a b : lifecycle) : bool := match a, b with Alloc, Alloc | Free, Free | Keep, Keep => true | _, _ => false end.
(** equal_with, 102-120: the device container is not compared *)
Definition equal_with (x y : transfer) : bool := dir_eqb (x_dir x) (x_dir y) && life_eqb (x_life x) (x_life y) && expr_eqb (x_size x) (x_size y).
Definition cmd_uses (c : command) : list string := cmd_reads c ++ cmd_writes c.
(** run_pass for the copy-outs [o] and [i] with [mid] in between: same host container,
    equal, the container not used in between (63-75); the first is removed (82-88). *)
Definition drop_first (o : transfer) (mid : list command) (i : transfer) (post : list command) : option (list command) :=
  if dir_eqb (x_dir o) D2H && dir_eqb (x_dir i) D2H && equal_with o i && String.eqb (x_host o) (x_host i) &&
     negb (existsb (fun c => existsb (String.eqb (x_host o)) (cmd_uses c)) mid)
  then Some (mid ++ Xfer i :: post) else None.

Lemma drop_first_sim I dev o mid i post p s sF : wf s -> drop_first o mid i post = Some p -> x_life o <> Alloc ->
  ~ In (x_host o) (atoms (x_size o)) ->
  (forall c y, In c mid -> In y (atoms (x_size o)) -> ~ In y (cmd_writes c)) ->
  doall I dev (Xfer o :: mid ++ Xfer i :: post) s sF ->
  exists sF', doall I dev p s sF' /\ R (fun _ => False) sF sF' /\
    (x_life o = Free -> forall q b, live s (x_dev o) q b -> exists b', heap sF' q = Some b' /\ fst b' = fst b /\ forall k, snd b' k = snd b k).
Proof.
  intros WF M LA NH NS D. unfold drop_first in M.
  destruct (dir_eqb (x_dir o) D2H) eqn:DO; [|discriminate]. destruct (dir_eqb (x_dir i) D2H) eqn:DI; [|discriminate]. cbn [andb] in M.
  destruct (equal_with o i) eqn:EW; [|discriminate]. destruct (String.eqb_spec (x_host o) (x_host i)) as [EH|]; [|discriminate]. cbn [andb] in M.
  destruct (existsb (fun c => existsb (String.eqb (x_host o)) (cmd_uses c)) mid) eqn:NU; [discriminate|]. cbn [negb] in M. injection M as <-.
  assert (DO' : x_dir o = D2H) by (destruct (x_dir o); try discriminate; reflexivity). assert (DI' : x_dir i = D2H) by (destruct (x_dir i); try discriminate; reflexivity). clear DO DI.
  unfold equal_with in EW. apply andb_true_iff in EW as [EW ES]. apply andb_true_iff in EW as [_ EL]. apply expr_eqb_eq in ES.
  assert (LI : x_life i = x_life o) by (destruct (x_life o), (x_life i); try discriminate; reflexivity). clear EL.
  assert (NU' : forall c, In c mid -> ~ In (x_host o) (cmd_reads c) /\ ~ In (x_host o) (cmd_writes c)).
  { intros c Hc. assert (K : ~ In (x_host o) (cmd_uses c)).
    { intros K. apply not_true_iff_false in NU. apply NU. apply existsb_exists. exists c. split; [exact Hc|]. apply existsb_exists. exists (x_host o). split; [exact K|apply String.eqb_refl]. }
    unfold cmd_uses in K. rewrite in_app_iff in K. split; intros Q; apply K; auto. }
  set (a := x_host o) in *. set (X := fun x : string => x = a).
  inversion D as [|? ? ? s1 ? D1 D2]; subst. apply doall_app in D2 as (s2 & D2 & D3). inversion D3 as [|? ? ? s3 ? D4 D5]; subst. clear D D3.
  (* the first copy-out *)
  inversion D1 as [x' n ? sa sb sc E A B F| | |]. subst. clear D1. assert (EA : sa = s) by (inversion A; congruence). subst sa. clear A.
  inversion B as [? q b D0 Lv Ln|? q0 b0 D0 Lv Ln IN|? D0]; subst; try congruence. clear B D0. fold a in F.
  assert (HS : host s1 = host (to_host a b0 n s)) by (inversion F; reflexivity).
  assert (R1 : R X s1 s).
  { assert (LL : forall x r c, live s1 x r c -> live s x r c).
    { intros x r c K. inversion F as [? q b D0 Lv1|? D0]; subst; [apply live_release in K as (K & _); exact K|exact K]. }
    constructor.
    - inversion F as [? q b D0 Lv1|? D0]; subst; [apply wf_release|]; exact WF.
    - exact WF.
    - intros x Nx j. rewrite HS. cbn [to_host host]. destruct j as [|k [|]]; try reflexivity. destruct (String.eqb_spec a x) as [<-|]; [elim Nx; reflexivity|reflexivity].
    - intros x r c K. exists r, c. split; [apply LL, K|]. split; [lia|auto].
    - intros x y r c t e r' c' t' e' Lx Ly Lx' Ly'. apply LL in Lx, Ly. destruct (live_det _ _ _ _ _ _ Lx Lx'), (live_det _ _ _ _ _ _ Ly Ly'). subst. reflexivity. }
  assert (U1 : x_life o = Free -> unused s1 s q0).
  { intros LF. inversion F as [? q b D0 Lv1|? D0]; subst; [|congruence]. assert (q = q0) by (destruct (live_det _ _ _ _ _ _ Lv1 Lv); assumption). subst q.
    intros x r c K. apply live_release in K as ((K1 & _) & K3). change (ptr s x = Some r) in K1. rewrite K1. intros Q. injection Q as ->. auto. }
  (* in between *)
  assert (AVM : forall c, In c mid -> avoids X (cmd_reads c)).
  { intros c Hc y Hy ->. apply (proj1 (NU' c Hc)). exact Hy. }
  destruct (doall_sim I dev X mid _ _ _ R1 AVM D2) as (s2' & P2 & R2 & F2 & A2 & K2).
  (* the second copy-out *)
  assert (AVI : avoids X (cmd_reads (Xfer i))).
  { intros y Hy ->. apply NH. cbn [cmd_reads] in Hy. rewrite DI' in Hy. cbn [app] in Hy. rewrite <- ES in Hy. exact Hy. }
  destruct (xfer_sim I dev X i s2 s3 s2' R2 AVI D4) as (s3' & P3 & R3 & F3 & A3 & K3).
  assert (EQ : forall j, host s3 a j = host s3' a j).
  { inversion D4 as [x1 n1 ? ta tb tc E1 A1 B1 C1| | |]; subst. inversion P3 as [x2 n2 ? ua ub uc E2 A4 B2 C2| | |]; subst.
    assert (ta = s2) by (inversion A1; congruence). assert (ua = s2') by (inversion A4; congruence). subst ta ua.
    assert (N1 : n1 = n).
    { rewrite <- ES in E1. assert (Q : eval (env_of (host s2)) (x_size o) = eval (env_of (host s)) (x_size o)); [|congruence].
      unfold eval. rewrite (ev_agree _ (env_of (host s))); [reflexivity|]. intros y Hy. unfold env_of.
      rewrite (doall_writes I dev mid _ _ y D2); [rewrite HS; reflexivity|]. intros c Hc. apply (NS c y Hc Hy). }
    assert (N2 : n2 = n).
    { subst n1. rewrite <- ES in E1, E2. assert (Q : eval (env_of (host s2')) (x_size o) = eval (env_of (host s2)) (x_size o)); [|congruence].
      symmetry. apply (eval_eqx X); [apply (R_host _ _ _ R2)|]. intros y Hy ->. apply NH. exact Hy. }
    subst n1 n2.
    inversion B1 as [? q b D0 Lv1 Ln1|? q1 b1 D0 Lv1 Ln1 IN1|? D0]; subst; try congruence.
    inversion B2 as [? q b D0' Lv2 Ln2|? q2 b2 D0' Lv2 Ln2 IN2|? D0']; subst; try congruence.
    assert (H3 : host s3 = host (to_host (x_host i) b1 n s2)) by (inversion C1; reflexivity). assert (H3' : host s3' = host (to_host (x_host i) b2 n s2')) by (inversion C2; reflexivity).
    pose proof (R_same _ _ _ R2 _ _ _ _ _ Lv1 Lv2) as (V1 & V2).
    assert (OUT : forall j, (forall k, j = [k] -> inr k n = false) -> host s2 a j = host s2' a j).
    { intros j Hj. rewrite (doall_writes I dev mid _ _ a D2) by (intros c Hc; apply (NU' c Hc)). rewrite (doall_writes I dev mid _ _ a P2) by (intros c Hc; apply (NU' c Hc)).
      rewrite HS. cbn [to_host host]. destruct j as [|k [|]]; try reflexivity. rewrite (Hj k eq_refl), andb_false_r. reflexivity. }
    intros j. rewrite H3, H3'. cbn [to_host host]. rewrite <- EH. destruct j as [|k [|]]; try (apply OUT; discriminate).
    rewrite String.eqb_refl. cbn [andb]. destruct (inr k n) eqn:Ek; [|apply OUT; intros k' Q; injection Q as <-; exact Ek].
    apply inr_true in Ek. specialize (IN1 k Ek). destruct (snd b1 k) as [v|] eqn:Ev; [|contradiction]. rewrite (V2 k v) by (try exact Ev; lia). reflexivity. }
  assert (R3' : R (fun _ => False) s3 s3').
  { destruct R3 as [V1 V2 V3 V4 V5]. constructor; auto. intros x _ j. destruct (string_dec x a) as [->|N]; [apply EQ|apply V3; exact N]. }
  destruct (doall_sim I dev (fun _ => False) post _ _ _ R3' (fun c Hc y Hy K => K) D5) as (sF' & P4 & R4 & F4 & A4 & K4).
  exists sF'. split; [apply doall_app; exists s2'; split; [exact P2|econstructor; [exact P3|exact P4]]|]. split; [exact R4|].
  intros LF q b Lq. assert (q = q0 /\ b = b0) as (-> & ->) by (destruct (live_det _ _ _ _ _ _ Lq Lv); auto).
  assert (Q0 : (q0 < fresh s)%nat) by (apply (proj1 WF (x_dev o)), Lv).
  destruct (K2 q0 Q0 (U1 LF)) as (SB1 & U2). destruct (K3 q0) as (SB2 & U3); [lia|exact U2|]. destruct (K4 q0) as (SB3 & _); [lia|exact U3|].
  pose proof (same_buffer_trans _ _ _ (same_buffer_trans _ _ _ SB1 SB2) SB3) as SB. rewrite (proj2 Lv) in SB.
  destruct (heap sF' q0) as [b'|]; [|elim SB]. destruct SB as (S1 & S2). exists b'. split; [reflexivity|]. split; [symmetry; exact S1|]. intros k. symmetry. apply S2.
Qed.
