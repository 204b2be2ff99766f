(** Two machines that differ in device addresses, in host containers nobody reads,
    and in device buffers nobody refers to, execute the same commands alike. *)
From Verif Require Import Sym SymFacts IR IRFacts Trace DepProofs For2MapProofs Distribute ParProofs Offload OffloadProofs.

Definition wf (s : machine) : Prop := (forall x q, ptr s x = Some q -> (q < fresh s)%nat) /\ (forall q, (fresh s <= q)%nat -> heap s q = None).
(** more initialised, at least as large *)
Definition covers (b b' : buffer) : Prop := fst b <= fst b' /\ forall k v, 0 <= k < fst b -> snd b k = Some v -> snd b' k = Some v.
Record R (X : string -> Prop) (s s' : machine) : Prop := mkR {
  R_wf : wf s; R_wf' : wf s'; R_host : eqx X (host s) (host s');
  R_live : forall x q b, live s x q b -> exists q' b', live s' x q' b' /\ covers b b';
  R_alias : forall x y q b r c q' b' r' c', live s x q b -> live s y r c -> live s' x q' b' -> live s' y r' c' -> (q = r <-> q' = r') }.
(** no live pointer of [s] is the address [q0] of [s'] *)
Definition unused (s s' : machine) (q0 : nat) : Prop := forall x q b, live s x q b -> ptr s' x <> Some q0.
(** pointers a command assigns *)
Definition cmd_assigns (c : command) : list string :=
  match c with Xfer x => match x_life x with Alloc => [x_dev x] | _ => [] end | MapPtr _ b => [b] | _ => [] end.
Definition step_ok (X : string -> Prop) (A : list string) (s1 s' s1' : machine) (s : machine) : Prop :=
  R X s1 s1' /\ (fresh s' <= fresh s1')%nat /\ (forall x, ~ In x A -> ptr s1' x = ptr s' x) /\
  (forall q0, (q0 < fresh s')%nat -> unused s s' q0 -> same_buffer (heap s' q0) (heap s1' q0) /\ unused s1 s1' q0).

Lemma same_buffer_refl b : same_buffer b b. Proof. destruct b; cbn; auto. Qed.
Lemma same_buffer_trans a b c : same_buffer a b -> same_buffer b c -> same_buffer a c.
Proof. destruct a, b, c; cbn; try tauto. intros (A & B) (C & D). split; [congruence|]. intros k. rewrite B. apply D. Qed.
Lemma step_trans X A s s' s1 s1' s2 s2' : step_ok X A s1 s' s1' s -> step_ok X A s2 s1' s2' s1 -> step_ok X A s2 s' s2' s.
Proof.
  intros (A1 & A2 & A3 & A4) (B1 & B2 & B3 & B4). split; [exact B1|]. split; [lia|]. split; [intros x Hx; rewrite B3, A3 by exact Hx; reflexivity|].
  intros q0 Hq U. destruct (A4 q0 Hq U) as (C1 & C2). destruct (B4 q0) as (D1 & D2); [lia|exact C2|]. split; [eapply same_buffer_trans; eassumption|exact D2].
Qed.
Lemma step_refl X A s s' : R X s s' -> step_ok X A s s' s' s.
Proof. intros H. split; [exact H|]. split; [lia|]. split; [auto|]. intros q0 _ U. split; [apply same_buffer_refl|exact U]. Qed.
Lemma R_same X s s' : R X s s' -> forall x q b q' b', live s x q b -> live s' x q' b' -> covers b b'.
Proof. intros H x q b q' b' L L'. destruct (R_live _ _ _ H x q b L) as (q2 & b2 & L2 & C). destruct (live_det _ _ _ _ _ _ L' L2) as (-> & ->). exact C. Qed.

Lemma alias_to X s s' : R X s s' -> forall x y q b c q' b' r' c', live s x q b -> live s y q c -> live s' x q' b' -> live s' y r' c' -> q' = r'.
Proof. intros H x y q b c q' b' r' c' L1 L2 L3 L4. apply (proj1 (R_alias _ _ _ H x y q b q c q' b' r' c' L1 L2 L3 L4)). reflexivity. Qed.
Lemma alias_from X s s' : R X s s' -> forall x y q b r c q' b' c', live s x q b -> live s y r c -> live s' x q' b' -> live s' y q' c' -> q = r.
Proof. intros H x y q b r c q' b' c' L1 L2 L3 L4. apply (proj2 (R_alias _ _ _ H x y q b r c q' b' q' c' L1 L2 L3 L4)). reflexivity. Qed.

(** allocation *)
Lemma live_alloc d n s x q b : wf s -> live (alloc d n s) x q b -> (x = d /\ q = fresh s /\ b = (n, fun _ => None)) \/ (x <> d /\ live s x q b /\ q <> fresh s).
Proof.
  intros (W1 & W2) (P & H). unfold alloc in P, H. cbn [ptr heap] in P, H. unfold setp in P. destruct (String.eqb_spec d x) as [<-|N].
  - left. injection P as <-. rewrite seth_same in H. injection H as <-. auto.
  - right. pose proof (W1 _ _ P). rewrite seth_other in H by lia. split; [congruence|]. split; [split; assumption|lia].
Qed.
Lemma wf_alloc d n s : wf s -> wf (alloc d n s).
Proof.
  intros (W1 & W2). split; unfold alloc; cbn [ptr heap fresh].
  - intros x q. unfold setp. destruct (String.eqb d x); [intros E; injection E as <-; lia|]. intros H. apply W1 in H. lia.
  - intros q Hq. rewrite seth_other by lia. apply W2. lia.
Qed.
Lemma alloc_sim X d n s s' : R X s s' -> step_ok X [d] (alloc d n s) s' (alloc d n s') s.
Proof.
  intros [W W' H L A]. split; [constructor; auto using wf_alloc|split; [cbn; lia|split]].
  - intros x q b Lx. apply live_alloc in Lx as [(-> & -> & ->)|(N & Lx & _)]; [| |exact W].
    + exists (fresh s'), (n, fun _ => None). split; [split; [apply setp_same|apply seth_same]|]. split; [cbn; lia|]. intros k v _ Q. discriminate.
    + destruct (L _ _ _ Lx) as (q' & b' & (P' & H') & C). exists q', b'. split; [|exact C]. destruct W' as (W1 & _). pose proof (W1 _ _ P').
      split; [cbn; rewrite setp_other by congruence; exact P'|cbn; rewrite seth_other by lia; exact H'].
  - intros x y q b r c q' b' r' c' Lx Ly Lx' Ly'. apply live_alloc in Lx; [|exact W]. apply live_alloc in Ly; [|exact W]. apply live_alloc in Lx'; [|exact W']. apply live_alloc in Ly'; [|exact W'].
    destruct Lx as [(-> & -> & ->)|(N & Lx & N2)], Lx' as [(E1 & -> & ->)|(N' & Lx' & N2')], Ly as [(-> & -> & ->)|(Ny & Ly & N3)], Ly' as [(E3 & -> & ->)|(Ny' & Ly' & N3')]; try congruence;
      try (split; intros; congruence). eapply A; eassumption.
  - intros x Hx. cbn. apply setp_other. intros <-. apply Hx. left. reflexivity.
  - intros q0 Hq U. split; [cbn; rewrite seth_other by lia; apply same_buffer_refl|]. intros x q b Lx. apply live_alloc in Lx as [(-> & -> & ->)|(N & Lx & _)]; [| |exact W].
    + cbn. rewrite setp_same. intros Q. injection Q as <-. lia.
    + cbn. rewrite setp_other by congruence. eapply U. exact Lx.
Qed.

(** host to device *)
Lemma live_to_device a q0 b0 n s x q b : live (to_device a q0 b0 n s) x q b ->
  exists c, live s x q c /\ ((q <> q0 /\ b = c) \/ (q = q0 /\ b = (fst b0, fun k => if inr k n then Some (host s a [k]) else snd b0 k))) \/ heap s q0 = None.
Proof.
  intros (P & H). unfold to_device in P, H. cbn [ptr heap] in P, H. unfold seth in H. destruct (Nat.eqb_spec q0 q) as [<-|N].
  - injection H as <-. destruct (heap s q0) as [c|] eqn:E; [|exists b0; auto]. exists c. left. split; [split; assumption|]. right. auto.
  - exists b. left. split; [split; assumption|]. left. auto.
Qed.
Lemma wf_to_device a q0 b0 n s : wf s -> heap s q0 <> None -> wf (to_device a q0 b0 n s).
Proof.
  intros (W1 & W2) N. split; cbn; [exact W1|]. intros q Hq. rewrite seth_other; [apply W2; exact Hq|]. intros <-. rewrite W2 in N by exact Hq. auto.
Qed.
Lemma in_sim X d a n s s' q b q' b' A0 : R X s s' -> ~ X a -> live s d q b -> live s' d q' b' -> n <= fst b -> step_ok X A0 (to_device a q b n s) s' (to_device a q' b' n s') s.
Proof.
  intros RR NX Lv Lv' Ln. pose proof (R_same _ _ _ RR _ _ _ _ _ Lv Lv') as CV. pose proof (alias_to _ _ _ RR) as A1. pose proof (alias_from _ _ _ RR) as A2. destruct RR as [W W' H L A].
  assert (B1: heap s q <> None) by (destruct Lv as (_ & E); rewrite E; discriminate). assert (B2: heap s' q' <> None) by (destruct Lv' as (_ & E); rewrite E; discriminate).
  assert (LI: forall x r c, live (to_device a q b n s) x r c -> exists c0, live s x r c0 /\ ((r <> q /\ c = c0) \/ (r = q /\ c = (fst b, fun k => if inr k n then Some (host s a [k]) else snd b k)))).
  { intros x r c K. apply live_to_device in K as (c0 & [K|K]); [eauto|contradiction]. }
  assert (LI': forall x r c, live (to_device a q' b' n s') x r c -> exists c0, live s' x r c0). { intros x r c K. apply live_to_device in K as (c0 & [(K & _)|K]); [eauto|contradiction]. }
  split; [constructor; auto using wf_to_device|split; [cbn; lia|split]].
  - intros x r c Lx. apply LI in Lx as (c0 & Lx & K). destruct (L _ _ _ Lx) as (r' & c' & (P' & H') & C). destruct K as [(N & ->)|(-> & ->)].
    + exists r', c'. split; [|exact C]. split; [exact P'|]. cbn. rewrite seth_other; [exact H'|]. intros <-. apply N. symmetry. eapply (A2 d x); [exact Lv|exact Lx|exact Lv'|split; eassumption].
    + assert (r' = q') by (symmetry; eapply (A1 d x); [exact Lv|exact Lx|exact Lv'|split; eassumption]). subst r'.
      eexists q', _. split; [split; [exact P'|cbn; rewrite seth_same; reflexivity]|]. destruct CV as (C1 & C2). split; [exact C1|]. cbn [fst snd]. intros k v Hk. destruct (inr k n); [|apply C2; exact Hk].
      rewrite <- (H a NX). auto.
  - intros x y r c t e r' c' t' e' Lx Ly Lx' Ly'. apply LI in Lx as (c0 & Lx & _). apply LI in Ly as (e0 & Ly & _). apply LI' in Lx' as (c1 & Lx'). apply LI' in Ly' as (e1 & Ly'). eapply A; eassumption.
  - intros x _. reflexivity.
  - intros q0 Hq U. split; [|intros x r c Lx; apply LI in Lx as (c0 & Lx & _); eapply U; exact Lx].
    cbn. rewrite seth_other; [apply same_buffer_refl|]. intros <-. apply (U d q b Lv). apply Lv'.
Qed.
(** device to host *)
Lemma out_sim X d a n s s' q b q' b' A0 : R X s s' -> live s d q b -> live s' d q' b' -> n <= fst b -> (forall k, 0 <= k < n -> snd b k <> None) ->
  step_ok X A0 (to_host a b n s) s' (to_host a b' n s') s /\ n <= fst b' /\ (forall k, 0 <= k < n -> snd b' k <> None).
Proof.
  intros RR Lv Lv' Ln IN. pose proof (R_same _ _ _ RR _ _ _ _ _ Lv Lv') as (C1 & C2). destruct RR as [W W' H L A].
  assert (E: forall k, 0 <= k < n -> snd b' k = snd b k). { intros k Hk. specialize (IN k Hk). destruct (snd b k) as [v|] eqn:Q; [|contradiction]. apply (C2 k v); [lia|exact Q]. }
  split; [|split; [lia|intros k Hk; rewrite E by exact Hk; apply IN; exact Hk]].
  split; [constructor; auto|split; [cbn; lia|split; [reflexivity|]]].
  - intros x Nx j. unfold to_host. cbn [host]. destruct j as [|k [|]]; try apply (H x Nx). rewrite <- (H x Nx). destruct (String.eqb a x && inr k n) eqn:Q; [|reflexivity].
    apply andb_true_iff in Q as [_ Q]. apply inr_true in Q. rewrite E by exact Q. reflexivity.
  - intros q0 Hq U. split; [apply same_buffer_refl|exact U].
Qed.
(** release *)
Lemma live_release q0 s x q b : live (release q0 s) x q b -> live s x q b /\ q <> q0.
Proof. intros (P & H). cbn in P, H. unfold seth in H. destruct (Nat.eqb_spec q0 q); [discriminate|]. split; [split; assumption|congruence]. Qed.
Lemma wf_release q s : wf s -> wf (release q s).
Proof. intros (W1 & W2). split; cbn; [exact W1|]. intros r Hr. unfold seth. destruct (Nat.eqb q r); auto. Qed.
Lemma free_sim X d s s' q b q' b' A0 : R X s s' -> live s d q b -> live s' d q' b' -> step_ok X A0 (release q s) s' (release q' s') s.
Proof.
  intros RR Lv Lv'. pose proof (alias_to _ _ _ RR) as A1. pose proof (alias_from _ _ _ RR) as A2. destruct RR as [W W' H L A]. split; [constructor; auto using wf_release|split; [cbn; lia|split; [reflexivity|]]].
  - intros x r c Lx. apply live_release in Lx as (Lx & N). destruct (L _ _ _ Lx) as (r' & c' & (P' & H') & C). exists r', c'. split; [|exact C]. split; [exact P'|].
    cbn. rewrite seth_other; [exact H'|]. intros <-. apply N. symmetry. eapply (A2 d x); [exact Lv|exact Lx|exact Lv'|split; eassumption].
  - intros x y r c t e r' c' t' e' Lx Ly Lx' Ly'. apply live_release in Lx as (Lx & _). apply live_release in Ly as (Ly & _). apply live_release in Lx' as (Lx' & _). apply live_release in Ly' as (Ly' & _).
    eapply A; eassumption.
  - intros q0 Hq U. split; [|intros x r c Lx; apply live_release in Lx as (Lx & _); eapply U; exact Lx].
    cbn. rewrite seth_other; [apply same_buffer_refl|]. intros <-. apply (U d q b Lv). apply Lv'.
Qed.

Section Sim.
  Variables (I : nat -> list Z -> option Z) (dev : string -> bool).
  Lemma xfer_sim X x s s1 s' : R X s s' -> avoids X (cmd_reads (Xfer x)) -> does I dev (Xfer x) s s1 -> exists s1', does I dev (Xfer x) s' s1' /\ step_ok X (cmd_assigns (Xfer x)) s1 s' s1' s.
  Proof.
    intros RR AV D. inversion D as [x' n ? sa sb sc E A B F| | |]. subst. cbn [cmd_reads] in AV. apply avoids_app in AV as [AV1 AV2].
    assert (E': eval (env_of (host s')) (x_size x) = Some n). { rewrite <- E. symmetry. apply (eval_eqx X); [apply (R_host _ _ _ RR)|exact AV2]. }
    assert (QA: exists sa', allocs x n s' sa' /\ step_ok X (cmd_assigns (Xfer x)) sa s' sa' s).
    { inversion A; subst; [|exists s'; split; [apply A_no; assumption|apply step_refl; exact RR]]. exists (alloc (x_dev x) n s'). split; [apply A_yes; assumption|].
      cbn [cmd_assigns]. rewrite H. apply alloc_sim. exact RR. }
    destruct QA as (sa' & A' & SA). pose proof (proj1 SA) as RA.
    assert (QB: exists sb', copies x n sa' sb' /\ step_ok X (cmd_assigns (Xfer x)) sb sa' sb' sa).
    { inversion B as [s0 q b D0 Lv Ln|s0 q b D0 Lv Ln IN|s0 D0]; subst.
      - destruct (R_live _ _ _ RA _ _ _ Lv) as (q' & b' & Lv' & C1 & _). exists (to_device (x_host x) q' b' n sa'). split; [apply C_in; [assumption|exact Lv'|lia]|].
        eapply in_sim; try eassumption. apply AV1. rewrite D0. left. reflexivity.
      - destruct (R_live _ _ _ RA _ _ _ Lv) as (q' & b' & Lv' & _). destruct (out_sim X (x_dev x) (x_host x) n sa sa' q b q' b' (cmd_assigns (Xfer x)) RA Lv Lv' Ln IN) as (S1 & S2 & S3).
        exists (to_host (x_host x) b' n sa'). split; [eapply C_out; eassumption|exact S1].
      - exists sa'. split; [apply C_no; assumption|apply step_refl; exact RA]. }
    destruct QB as (sb' & B' & SB). pose proof (proj1 SB) as RB.
    assert (QF: exists sc', frees x sb' sc' /\ step_ok X (cmd_assigns (Xfer x)) s1 sb' sc' sb).
    { inversion F as [s0 q b D0 Lv|s0 D0]; subst.
      - destruct (R_live _ _ _ RB _ _ _ Lv) as (q' & b' & Lv' & _). exists (release q' sb'). split; [eapply F_yes; eassumption|]. eapply free_sim; eassumption.
      - exists sb'. split; [apply F_no; assumption|apply step_refl; exact RB]. }
    destruct QF as (sc' & F' & SF). exists sc'. split; [econstructor; eassumption|]. eapply step_trans; [exact SA|]. eapply step_trans; eassumption.
  Qed.
  Lemma host_sim X n s s1 s' : R X s s' -> avoids X (cmd_reads (HostC n)) -> does I dev (HostC n) s s1 -> exists s1', does I dev (HostC n) s' s1' /\ step_ok X (cmd_assigns (HostC n)) s1 s' s1' s.
  Proof.
    intros RR AV D. inversion D as [|n' ? h N K| |]. subst. destruct (run_frame _ _ _ _ _ _ _ K (R_host _ _ _ RR) AV) as (h' & K' & E).
    exists (Mc h' (ptr s') (heap s') (fresh s')). split; [constructor; assumption|]. destruct RR as [W W' H L A].
    split; [constructor; auto|split; [cbn; lia|split; [reflexivity|]]]. intros q0 Hq U. split; [apply same_buffer_refl|exact U].
  Qed.
  Lemma map_sim X a b s s1 s' : R X s s' -> does I dev (MapPtr a b) s s1 -> exists s1', does I dev (MapPtr a b) s' s1' /\ step_ok X (cmd_assigns (MapPtr a b)) s1 s' s1' s.
  Proof.
    intros RR D. inversion D. subst. eexists. split; [constructor|]. destruct RR as [W W' H L A].
    assert (Q: forall t x q c, live (Mc (host t) (setp (ptr t) b (ptr t a)) (heap t) (fresh t)) x q c -> live t (if String.eqb b x then a else x) q c).
    { intros t x q c (P & K). cbn in P, K. unfold setp in P. destruct (String.eqb b x); split; assumption. }
    assert (Q': forall t x q c, live t (if String.eqb b x then a else x) q c -> live (Mc (host t) (setp (ptr t) b (ptr t a)) (heap t) (fresh t)) x q c).
    { intros t x q c (P & K). split; [|exact K]. cbn. unfold setp. destruct (String.eqb b x); exact P. }
    assert (WM: forall t, wf t -> wf (Mc (host t) (setp (ptr t) b (ptr t a)) (heap t) (fresh t))).
    { intros t (W1 & W2). split; cbn; [|exact W2]. intros x q. unfold setp. destruct (String.eqb b x); apply W1. }
    split; [constructor; auto|split; [cbn; lia|split]].
    - intros x q c Lx. apply Q in Lx. destruct (L _ _ _ Lx) as (q' & c' & Lx' & C). exists q', c'. split; [apply Q'; exact Lx'|exact C].
    - intros x y q c r e q' c' r' e' Lx Ly Lx' Ly'. apply Q in Lx, Ly, Lx', Ly'. eapply A; eassumption.
    - intros x Hx. cbn. apply setp_other. intros <-. apply Hx. left. reflexivity.
    - intros q0 Hq U. split; [apply same_buffer_refl|]. intros x q c Lx. apply Q in Lx. pose proof (U _ _ _ Lx) as K. cbn. unfold setp. destruct (String.eqb b x); exact K.
  Qed.
  Lemma kernel_sim X n s s1 s' : R X s s' -> avoids X (cmd_reads (Kernel n)) -> does I dev (Kernel n) s s1 -> exists s1', does I dev (Kernel n) s' s1' /\ step_ok X (cmd_assigns (Kernel n)) s1 s' s1' s.
  Proof.
    intros RR AV D. inversion D as [| |n' ? v T K B1 B2 B3|]. subst. pose proof (R_same _ _ _ RR) as RS. pose proof (alias_to _ _ _ RR) as A1. pose proof (alias_from _ _ _ RR) as A2. destruct RR as [W W' H L A].
    assert (AG: agree (exposed T) (view dev s) (view dev s')).
    { intros x j Ex. unfold view. destruct (dev x) eqn:Dx.
      - destruct (B1 x j Dx (exposed_touched _ _ _ Ex)) as (k & q & b & -> & Lx & Hk). pose proof (B2 x k q b Dx Ex Lx) as Ik. destruct (L _ _ _ Lx) as (q' & b' & Lx' & _ & C).
        destruct (snd b k) as [w|] eqn:Ew; [|contradiction]. destruct Lx as (-> & ->), Lx' as (-> & ->). rewrite Ew, (C k w Hk Ew). reflexivity.
      - apply exposed_read in Ex as (e & Ex). apply H. apply AV. cbn [cmd_reads]. eapply (proj1 (trace_reads I)); eassumption. }
    destruct (proj1 (run_local I) _ _ _ _ _ K) as (_ & LC). destruct (LC _ AG) as (v' & K' & _ & WV).
    assert (B1': forall x j, dev x = true -> touched T x j -> exists k q b, j = [k] /\ live s' x q b /\ 0 <= k < fst b).
    { intros x j Dx Tx. destruct (B1 x j Dx Tx) as (k & q & b & -> & Lx & Hk). destruct (L _ _ _ Lx) as (q' & b' & Lx' & C1 & _). exists k, q', b'. split; [reflexivity|]. split; [exact Lx'|lia]. }
    assert (B3': forall x y i j q b, touched T x i -> touched T y j -> dev x = true -> dev y = true -> live s' x q b -> live s' y q b -> x = y).
    { intros x y i j q b Tx Ty Dx Dy Lx Ly. destruct (B1 x i Dx Tx) as (_ & q1 & b1 & _ & L1 & _). destruct (B1 y j Dy Ty) as (_ & q2 & b2 & _ & L2 & _).
      assert (q1 = q2) by (eapply (A2 x y); [exact L1|exact L2|exact Lx|exact Ly]). subst q2. assert (b1 = b2) by (destruct L1, L2; congruence). subst b2. eapply B3; eassumption. }
    exists (device_after dev (nnames n) v' T s'). split.
    { apply D_kernel; auto. intros x k q b Dx Ex Lx. destruct (B1 x [k] Dx (exposed_touched _ _ _ Ex)) as (k0 & q1 & b1 & E0 & L1 & Hk). injection E0 as <-.
      pose proof (B2 x k q1 b1 Dx Ex L1) as Ik. destruct (RS _ _ _ _ _ L1 Lx) as (_ & C). destruct (snd b1 k) as [w|] eqn:Ew; [|contradiction]. rewrite (C k w Hk Ew). discriminate. }
    (* the buffers after the kernel *)
    set (pick := fun (t : machine) (q : nat) (k : Z) => find (fun x => dev x && match ptr t x with Some r => Nat.eqb r q | None => false end && writes_b T x k) (nnames n)).
    assert (PK: forall t q k x, pick t q k = Some x -> dev x = true /\ ptr t x = Some q /\ written T x [k]).
    { intros t q k x E. apply find_some in E as (_ & E). apply andb_true_iff in E as [E E3]. apply andb_true_iff in E as [E1 E2]. apply writes_b_written in E3.
      destruct (ptr t x) as [r|]; [|discriminate]. apply Nat.eqb_eq in E2. subst. auto. }
    assert (PN: forall t q k x, pick t q k = None -> dev x = true -> ptr t x = Some q -> written T x [k] -> False).
    { intros t q k x E Dx Px Wx. eapply find_none in E; [|destruct Wx as (e & Wx); eapply (proj1 (trace_names I)); eassumption]. rewrite Dx, Px, Nat.eqb_refl in E.
      apply writes_b_written in Wx. cbn [andb] in E. congruence. }
    assert (LK: forall u t x q c, live (device_after dev (nnames n) u T t) x q c -> exists b, live t x q b /\ c = (fst b, fun k => match pick t q k with Some x => Some (u x [k]) | None => snd b k end)).
    { intros u t x q c (P & Hc). cbn in P, Hc. destruct (heap t q) as [b|] eqn:E; [|discriminate]. exists b. injection Hc as <-. split; [split; assumption|reflexivity]. }
    assert (LK': forall u t x q b, live t x q b -> live (device_after dev (nnames n) u T t) x q (fst b, fun k => match pick t q k with Some x => Some (u x [k]) | None => snd b k end)).
    { intros u t x q b (P & Hb). split; [exact P|]. cbn. rewrite Hb. reflexivity. }
    assert (WD: forall u t, wf t -> wf (device_after dev (nnames n) u T t)).
    { intros u t (W1 & W2). split; cbn; [exact W1|]. intros q Hq. rewrite W2 by exact Hq. reflexivity. }
    split; [constructor; auto|split; [cbn; lia|split; [reflexivity|]]].
    - intros x q c Lx. apply LK in Lx as (b & Lx & ->). destruct (L _ _ _ Lx) as (q' & b' & Lx' & C1 & C2). eexists q', _. split; [apply LK'; exact Lx'|]. split; [exact C1|]. cbn [fst snd].
      intros k w Hk E. destruct (pick s q k) as [y|] eqn:E1.
      + destruct (PK _ _ _ _ E1) as (Dy & Py & Wy). assert (Ly: live s y q b) by (split; [exact Py|apply Lx]).
        destruct (L _ _ _ Ly) as (r' & c' & Ly' & _). assert (r' = q') by (eapply (A1 y x); [exact Ly|exact Lx|exact Ly'|exact Lx']). subst r'.
        assert (c' = b') by (destruct Ly', Lx'; congruence). subst c'.
        destruct (pick s' q' k) as [y'|] eqn:E2; [|exfalso; eapply PN; [exact E2|exact Dy|apply Ly'|exact Wy]].
        destruct (PK _ _ _ _ E2) as (Dy' & Py' & Wy'). assert (y' = y). { eapply B3'; [apply touched_written; exact Wy'|apply touched_written; exact Wy|exact Dy'|exact Dy|split; [exact Py'|apply Lx']|exact Ly']. }
        subst y'. rewrite <- (WV _ _ Wy). exact E.
      + destruct (pick s' q' k) as [y'|] eqn:E2; [|apply (C2 k w Hk E)]. exfalso. destruct (PK _ _ _ _ E2) as (Dy' & Py' & Wy').
        destruct (B1 y' [k] Dy' (touched_written _ _ _ Wy')) as (_ & r & e & _ & Ly & _). assert (r = q) by (eapply (A2 y' x); [exact Ly|exact Lx|split; [exact Py'|apply Lx']|exact Lx']). subst r.
        eapply PN; [exact E1|exact Dy'|apply Ly|exact Wy'].
    - intros x y q c r e q' c' r' e' Lx Ly Lx' Ly'. apply LK in Lx as (b1 & Lx & _). apply LK in Ly as (b2 & Ly & _). apply LK in Lx' as (b3 & Lx' & _). apply LK in Ly' as (b4 & Ly' & _). eapply A; eassumption.
    - intros q0 Hq U. split; [|intros x r c Lx; apply LK in Lx as (b & Lx & _); eapply U; exact Lx]. cbn. destruct (heap s' q0) as [b|] eqn:E; [|exact Logic.I]. split; [reflexivity|]. intros k. cbn [snd].
      change (snd b k = match pick s' q0 k with Some x => Some (v' x [k]) | None => snd b k end). destruct (pick s' q0 k) as [y|] eqn:Ey; [|reflexivity]. exfalso. destruct (PK _ _ _ _ Ey) as (Dy & Py & Wy).
      destruct (B1 y [k] Dy (touched_written _ _ _ Wy)) as (_ & r & e & _ & Ly & _). apply (U _ _ _ Ly). exact Py.
  Qed.
  Lemma does_sim X c s s1 s' : R X s s' -> avoids X (cmd_reads c) -> does I dev c s s1 -> exists s1', does I dev c s' s1' /\ step_ok X (cmd_assigns c) s1 s' s1' s.
  Proof. destruct c; intros; [eapply xfer_sim|eapply host_sim|eapply kernel_sim|eapply map_sim]; eassumption. Qed.
  Lemma doall_sim X l : forall s s1 s', R X s s' -> (forall c, In c l -> avoids X (cmd_reads c)) -> doall I dev l s s1 ->
    exists s1', doall I dev l s' s1' /\ step_ok X (concat (map cmd_assigns l)) s1 s' s1' s.
  Proof.
    induction l as [|c l IH]; intros s s1 s' RR AV D; inversion D as [|? ? ? t ? D1 D2]; subst; [exists s'; split; [constructor|apply step_refl; exact RR]|].
    destruct (does_sim X c s t s' RR (AV c (or_introl eq_refl)) D1) as (t' & D1' & S1). destruct (IH t s1 t' (proj1 S1) (fun c' Hc => AV c' (or_intror Hc)) D2) as (s1' & D2' & S2).
    exists s1'. split; [econstructor; eassumption|]. assert (WK: forall A s1 s' s1' s, step_ok X A s1 s' s1' s -> incl A (concat (map cmd_assigns (c :: l))) -> step_ok X (concat (map cmd_assigns (c :: l))) s1 s' s1' s).
    { intros A a b d e (Q1 & Q2 & Q3 & Q4) IN. split; [exact Q1|]. split; [exact Q2|]. split; [|exact Q4]. intros x Hx. apply Q3. intros K. apply Hx. apply IN. exact K. }
    eapply step_trans; [apply (WK _ _ _ _ _ S1)|apply (WK _ _ _ _ _ S2)]; cbn [map concat]; [apply incl_appl|apply incl_appr]; apply incl_refl.
  Qed.
  (** what a command leaves of the host *)
  Lemma does_writes c s s1 x : does I dev c s s1 -> ~ In x (cmd_writes c) -> forall j, host s1 x j = host s x j.
  Proof.
    intros D N j. inversion D as [y n ? sa sb sc E A B F|n ? h N0 K|n ? v T K B1 B2 B3|a b ?]; subst; try reflexivity.
    - assert (host sa = host s) by (inversion A; reflexivity). assert (host s1 = host sb) by (inversion F; reflexivity). rewrite H0, <- H.
      inversion B as [? q b D0 Lv Ln|? q b D0 Lv Ln IN|? D0]; subst; try reflexivity. cbn [to_host host]. destruct j as [|k [|]]; try reflexivity.
      destruct (String.eqb_spec (x_host y) x) as [<-|]; [|reflexivity]. exfalso. apply N. cbn [cmd_writes]. rewrite D0. left. reflexivity.
    - cbn [host]. eapply run_writes; [exact K|exact N].
  Qed.
  Lemma doall_writes l : forall s s1 x, doall I dev l s s1 -> (forall c, In c l -> ~ In x (cmd_writes c)) -> forall j, host s1 x j = host s x j.
  Proof.
    induction l as [|c l IH]; intros s s1 x D N j; inversion D as [|? ? ? t ? D1 D2]; subst; [reflexivity|].
    rewrite (IH t s1 x D2 (fun c' Hc => N c' (or_intror Hc))). apply (does_writes c s t x D1). apply N. left. reflexivity.
  Qed.
End Sim.

Lemma to_host_env a b n s x : host (to_host a b n s) x [] = host s x []. Proof. reflexivity. Qed.
(** One step of DataTransferMinimization for a copy-out that releases its buffer and
    a copy-in that allocates one. *)
Lemma minimize_sim I dev o mid i post p s sF : wf s -> minimize o mid i post = Some p -> x_life o = Free ->
  (forall c, In c mid -> ~ In (x_dev o) (cmd_assigns c)) ->
  (forall c y, In c mid -> In y (atoms (x_size o)) -> ~ In y (cmd_writes c)) ->
  doall I dev (Xfer o :: mid ++ Xfer i :: post) s sF ->
  exists sF', doall I dev p s sF' /\ forall x, x <> x_host o \/ (exists c, In c (mid ++ post) /\ In (x_host o) (cmd_reads c)) -> forall j, host sF x j = host sF' x j.
Proof.
  intros WF M LF NA NS D. unfold minimize in M.
  destruct (match x_dir o with D2H => true | _ => false end) eqn:DO; [|discriminate].
  destruct (match x_dir i with H2D => true | _ => false end) eqn:DI; [|discriminate]. cbn [andb] in M.
  destruct (redundant_with o i) eqn:RW; [|discriminate]. destruct (String.eqb_spec (x_host o) (x_host i)) as [EH|]; [|discriminate]. cbn [andb] in M.
  destruct (existsb (fun c => existsb (String.eqb (x_host o)) (cmd_writes c)) mid) eqn:NW; [discriminate|]. cbn [negb] in M.
  set (ra := existsb (fun c => existsb (String.eqb (x_host o)) (cmd_reads c)) (mid ++ post)) in M. cbn zeta in M.
  assert (DO': x_dir o = D2H) by (destruct (x_dir o); try discriminate; reflexivity). assert (DI': x_dir i = H2D) by (destruct (x_dir i); try discriminate; reflexivity). clear DO DI.
  unfold redundant_with in RW. apply andb_true_iff in RW as [RW ES]. apply andb_true_iff in RW as [_ OL]. rewrite LF in OL. apply expr_eqb_eq in ES.
  assert (LI: x_life i = Alloc) by (destruct (x_life i); try discriminate; reflexivity). clear OL.
  assert (NW': forall c, In c mid -> ~ In (x_host o) (cmd_writes c)).
  { intros c Hc K. assert (existsb (fun c => existsb (String.eqb (x_host o)) (cmd_writes c)) mid = true); [|congruence].
    apply existsb_exists. exists c. split; [exact Hc|]. apply existsb_exists. exists (x_host o). split; [exact K|apply String.eqb_refl]. }
  injection M as <-.
  inversion D as [|? ? ? s1 ? D1 D2]; subst. apply doall_app in D2 as (s2 & D2 & D3). inversion D3 as [|? ? ? s3 ? D4 D5]; subst. clear D D3.
  (* the copy-out *)
  inversion D1 as [x' n ? sa sb sc E A B F| | |]. subst. clear D1. assert (EA: sa = s) by (inversion A; congruence). subst sa. clear A.
  inversion B as [? q b D0 Lv Ln|? q0 b0 D0 Lv Ln IN|? D0]; subst; try congruence. clear B D0.
  inversion F as [? q b D0 Lv1|? D0]; subst; [|congruence]. clear F D0.
  assert (q = q0 /\ b = b0) as (-> & ->) by (apply (live_det s (x_dev o)); [exact Lv1|exact Lv]). clear Lv1.
  set (X := fun x => ra = false /\ x = x_host o). pose (s1' := if ra then to_host (x_host o) b0 n s else s).
  assert (P1: doall I dev (if ra then [Xfer (Xf D2H Keep (x_size o) (x_host o) (x_dev o))] else []) s s1').
  { unfold s1'. destruct ra; [|constructor]. econstructor; [|constructor]. eapply (D_xfer _ _ (Xf D2H Keep (x_size o) (x_host o) (x_dev o)) n s s (to_host (x_host o) b0 n s)).
    - exact E.
    - apply A_no. discriminate.
    - eapply (C_out (Xf D2H Keep (x_size o) (x_host o) (x_dev o))); [reflexivity|exact Lv|exact Ln|exact IN].
    - apply F_no. discriminate. }
  assert (PT: ptr s1' = ptr s /\ heap s1' = heap s /\ fresh s1' = fresh s) by (unfold s1'; destruct ra; auto). destruct PT as (PT1 & PT2 & PT3).
  assert (R1: R X (release q0 (to_host (x_host o) b0 n s)) s1').
  { assert (LL: forall x r c, live (release q0 (to_host (x_host o) b0 n s)) x r c -> live s1' x r c /\ r <> q0).
    { intros x r c K. apply live_release in K as ((K1 & K2) & K3). split; [|exact K3]. split; [rewrite PT1; exact K1|rewrite PT2; exact K2]. }
    constructor.
    - apply wf_release. exact WF.
    - destruct WF as (W1 & W2). split; rewrite PT3; [rewrite PT1; exact W1|rewrite PT2; exact W2].
    - intros x Nx j. unfold s1'. destruct ra eqn:Er; [reflexivity|]. cbn [release to_host host]. destruct j as [|k [|]]; try reflexivity.
      destruct (String.eqb_spec (x_host o) x) as [<-|]; [|reflexivity]. exfalso. apply Nx. split; reflexivity.
    - intros x r c K. apply LL in K as (K & _). exists r, c. split; [exact K|]. split; [lia|auto].
    - intros x y r c t e r' c' t' e' Lx Ly Lx' Ly'. apply LL in Lx as (Lx & _). apply LL in Ly as (Ly & _). destruct (live_det _ _ _ _ _ _ Lx Lx'), (live_det _ _ _ _ _ _ Ly Ly'). subst. reflexivity. }
  assert (U1: unused (release q0 (to_host (x_host o) b0 n s)) s1' q0).
  { intros x r c K. apply live_release in K as ((K1 & _) & K3). rewrite PT1. change (ptr s x = Some r) in K1. rewrite K1. intros Q. injection Q as ->. auto. }
  assert (AVM: forall c, In c (mid ++ post) -> avoids X (cmd_reads c)).
  { intros c Hc y Hy (Er & ->). assert (ra = true); [|congruence]. apply existsb_exists. exists c. split; [exact Hc|]. apply existsb_exists. exists (x_host o). split; [exact Hy|apply String.eqb_refl]. }
  (* in between *)
  destruct (doall_sim I dev X mid _ _ _ R1 (fun c Hc => AVM c (in_or_app _ _ _ (or_introl Hc))) D2) as (s2' & P2 & R2 & F2 & A2 & K2).
  destruct (K2 q0) as (SB & U2); [rewrite PT3; apply (proj1 WF (x_dev o)); apply Lv|exact U1|].
  assert (PO: ptr s2' (x_dev o) = Some q0).
  { rewrite A2; [rewrite PT1; apply Lv|]. intros K. apply in_concat in K as (l & Hl & K). apply in_map_iff in Hl as (c & <- & Hc). apply (NA c Hc K). }
  rewrite PT2, (proj2 Lv) in SB. destruct (heap s2' q0) as [b2|] eqn:HB; [|elim SB]. destruct SB as (SB1 & SB2).
  assert (HA: forall k, 0 <= k < n -> snd b0 k = Some (host s2 (x_host o) [k])).
  { intros k Hk. rewrite (doall_writes I dev mid _ _ (x_host o) D2 NW'). cbn [release to_host host]. rewrite String.eqb_refl. pose proof Hk as Hk'. apply inr_true in Hk'. rewrite Hk'. cbn [andb].
    specialize (IN k Hk). destruct (snd b0 k); [reflexivity|contradiction]. }
  (* the copy-in *)
  inversion D4 as [x' n2 ? sa sb sc E2 A B F| | |]; subst. clear D4.
  assert (n2 = n).
  { rewrite <- ES in E2. assert (Q: eval (env_of (host s2)) (x_size o) = eval (env_of (host s)) (x_size o)); [|congruence].
    unfold eval. rewrite (ev_agree _ (env_of (host s))); [reflexivity|]. intros y Hy. unfold env_of. rewrite (doall_writes I dev mid _ _ y D2); [reflexivity|]. intros c Hc. apply (NS c y Hc Hy). }
  subst n2. inversion A as [? _ Hn|]; subst; [|congruence]. clear A.
  inversion B as [? q b D0 Lvi Lni|? q b D0 Lvi Lni INi|? D0]; subst; try congruence. clear B D0.
  inversion F as [? q' b' D0 Lv1|? D0]; subst; [congruence|]. clear F D0.
  assert (q = fresh s2 /\ b = (n, fun _ => None)) as (-> & ->).
  { destruct Lvi as (Q1 & Q2). unfold alloc in Q1, Q2. cbn [ptr heap] in Q1, Q2. rewrite setp_same in Q1. injection Q1 as <-. rewrite seth_same in Q2. injection Q2 as <-. auto. }
  set (s3 := to_device (x_host i) (fresh s2) (n, fun _ => None) n (alloc (x_dev i) n s2)) in *.
  pose (s3' := Mc (host s2') (setp (ptr s2') (x_dev i) (Some q0)) (heap s2') (fresh s2')).
  destruct R2 as [W2 W2' H2 L2 AL2].
  assert (LI3: forall x r c, live s3 x r c -> (x = x_dev i /\ r = fresh s2 /\ c = (n, fun k => if inr k n then Some (host s2 (x_host o) [k]) else None)) \/ (x <> x_dev i /\ r <> fresh s2 /\ live s2 x r c)).
  { intros x r c (Q1 & Q2). unfold s3, to_device, alloc in Q1, Q2. cbn [ptr heap host fst snd] in Q1, Q2. rewrite <- EH in Q2. unfold setp in Q1. destruct (String.eqb_spec (x_dev i) x) as [<-|Nx].
    - injection Q1 as <-. rewrite seth_same in Q2. injection Q2 as <-. left. auto.
    - pose proof (proj1 W2 _ _ Q1). rewrite !seth_other in Q2 by lia. right. split; [congruence|]. split; [lia|split; assumption]. }
  assert (LI3': forall x r c, live s3' x r c -> (x = x_dev i /\ r = q0 /\ c = b2) \/ (x <> x_dev i /\ live s2' x r c)).
  { intros x r c (Q1 & Q2). cbn in Q1, Q2. unfold setp in Q1. destruct (String.eqb_spec (x_dev i) x) as [<-|Nx].
    - injection Q1 as <-. left. rewrite HB in Q2. injection Q2 as <-. auto.
    - right. split; [congruence|]. split; assumption. }
  assert (R3: R X s3 s3').
  { constructor.
    - apply wf_to_device; [apply wf_alloc; exact W2|]. cbn. rewrite seth_same. discriminate.
    - split; cbn; [|apply W2']. intros x r. unfold setp. destruct (String.eqb (x_dev i) x); [intros Q; injection Q as <-; apply (proj1 W2' _ _ PO)|apply W2'].
    - exact H2.
    - intros x r c Lx. apply LI3 in Lx as [(-> & -> & ->)|(Nx & Nr & Lx)].
      + exists q0, b2. split; [split; cbn; [apply setp_same|exact HB]|]. split; [cbn; lia|]. cbn [fst snd]. intros k v Hk. pose proof Hk as Hk'. apply inr_true in Hk'. rewrite Hk'. intros Q. injection Q as <-. rewrite <- SB2. apply HA. exact Hk.
      + destruct (L2 _ _ _ Lx) as (r' & c' & (Q1 & Q2) & C). exists r', c'. split; [|exact C]. split; cbn; [rewrite setp_other by congruence; exact Q1|exact Q2].
    - intros x y r c t e r' c' t' e' Lx Ly Lx' Ly'. apply LI3 in Lx. apply LI3 in Ly. apply LI3' in Lx'. apply LI3' in Ly'.
      destruct Lx as [(-> & -> & ->)|(N & Nr & Lx)], Lx' as [(E1 & -> & ->)|(N' & Lx')], Ly as [(-> & -> & ->)|(Ny & Nt & Ly)], Ly' as [(E3 & -> & ->)|(Ny' & Ly')]; try contradiction; try congruence.
      + split; reflexivity.
      + split; intros Q; [congruence|]. exfalso. apply (U2 _ _ _ Ly). rewrite Q. apply Ly'.
      + split; intros Q; [congruence|]. exfalso. apply (U2 _ _ _ Lx). rewrite <- Q. apply Lx'.
      + eapply AL2; eassumption. }
  assert (P3: exists t', doall I dev (if String.eqb (x_dev o) (x_dev i) then [] else [MapPtr (x_dev o) (x_dev i)]) s2' t' /\ R X s3 t').
  { destruct (String.eqb_spec (x_dev o) (x_dev i)) as [Ed|Nd].
    - exists s2'. split; [constructor|]. destruct R3 as [V1 V2 V3 V4 V5].
      assert (Q: forall x r c, live s2' x r c <-> live s3' x r c). { intros x r c. unfold live. cbn. unfold setp. destruct (String.eqb_spec (x_dev i) x) as [<-|]; [rewrite <- Ed, PO|]; reflexivity. }
      constructor; auto.
      + intros x r c Lx. destruct (V4 _ _ _ Lx) as (r' & c' & K & C). exists r', c'. split; [apply Q; exact K|exact C].
      + intros x y r c t e r' c' t' e' Lx Ly Lx' Ly'. apply Q in Lx'. apply Q in Ly'. eapply V5; eassumption.
    - eexists. split; [econstructor; [constructor|constructor]|]. rewrite PO. exact R3. }
  destruct P3 as (t' & P3 & R3').
  destruct (doall_sim I dev X post _ _ _ R3' (fun c Hc => AVM c (in_or_app _ _ _ (or_intror Hc))) D5) as (sF' & P4 & R4 & _).
  exists sF'. split.
  - apply doall_app. exists s1'. split; [exact P1|]. apply doall_app. exists s2'. split; [exact P2|]. apply doall_app. exists t'. split; [exact P3|exact P4].
  - intros x Hx j. apply (R_host _ _ _ R4). intros (Er & ->). destruct Hx as [Hx|(c & Hc & K)]; [congruence|].
    assert (ra = true); [|congruence]. apply existsb_exists. exists c. split; [exact Hc|]. apply existsb_exists. exists (x_host o). split; [exact K|apply String.eqb_refl].
Qed.
