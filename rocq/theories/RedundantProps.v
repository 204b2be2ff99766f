(** * C74: removing redundant copies from the device *)
From Verif Require Import Sym SymFacts IR IRFacts Trace DepProofs For2MapProofs Distribute ParProofs PassCFGProps Offload OffloadProofs OffloadSim OffloadProps Redundant.
Open Scope string_scope.
Open Scope list_scope.
Open Scope Z_scope.

(** If the size means the same at both copies (its symbols are not written in between),
    the program without the first copy runs, host memory is the same at the end in every
    container and element, and every device pointer refers to a buffer with (at least)
    the same contents. *)
Theorem C74_redundant_copy_partial I dev o mid i post p s sF : wf s -> drop_first o mid i post = Some p -> x_life o <> Alloc ->
  ~ In (x_host o) (atoms (x_size o)) ->
  (forall c y, In c mid -> In y (atoms (x_size o)) -> ~ In y (cmd_writes c)) ->
  doall I dev (Xfer o :: mid ++ Xfer i :: post) s sF ->
  exists sF', doall I dev p s sF' /\ (forall x j, host sF x j = host sF' x j) /\
    forall x q b, live sF x q b -> exists q' b', live sF' x q' b' /\ fst b <= fst b' /\ forall k v, 0 <= k < fst b -> snd b k = Some v -> snd b' k = Some v.
Proof.
  intros WF M LA NH NS D. destruct (drop_first_sim I dev o mid i post p s sF WF M LA NH NS D) as (sF' & P & RR & _).
  exists sF'. split; [exact P|]. split; [intros x j; apply (R_host _ _ _ RR); intros []|]. exact (R_live _ _ _ RR).
Qed.
(** If the copies also release their buffer, the buffer of the first is never released:
    it is still there at the end, with the contents it had at the start. *)
Theorem C74_buffer_lost I dev o mid i post p s sF q b : wf s -> drop_first o mid i post = Some p -> x_life o = Free ->
  ~ In (x_host o) (atoms (x_size o)) ->
  (forall c y, In c mid -> In y (atoms (x_size o)) -> ~ In y (cmd_writes c)) ->
  doall I dev (Xfer o :: mid ++ Xfer i :: post) s sF -> live s (x_dev o) q b ->
  exists sF' b', doall I dev p s sF' /\ heap sF' q = Some b' /\ fst b' = fst b /\ forall k, snd b' k = snd b k.
Proof.
  intros WF M LF NH NS D L. destruct (drop_first_sim I dev o mid i post p s sF WF M) as (sF' & P & _ & K); auto; [congruence|].
  destruct (K LF q b L) as (b' & Q). exists sF', b'. split; [exact P|exact Q].
Qed.

(** dA holds 7 and 8, dB holds 5 and 6 *)
Definition c74_s (n : Z) : machine :=
  Mc (fun x j => if String.eqb x "N" then n else if String.eqb x "C" then 3 else 0) (fun x => if String.eqb x "dA" then Some 0%nat else if String.eqb x "dB" then Some 1%nat else None)
     (fun q => match q with O => Some (2, fun k => Some (7 + k)) | S O => Some (2, fun k => Some (5 + k)) | _ => None end) 2.
Lemma c74_wf n : wf (c74_s n).
Proof. split; cbn; [intros x q; destruct (String.eqb x "dA"); [intros E; injection E as <-; lia|]; destruct (String.eqb x "dB"); intros E; [injection E as <-; lia|discriminate]|]. intros [|[|q]] H; try lia. reflexivity. Qed.

(** Copies that release different buffers count as equal: A = copy of dA, free dA;
    A = copy of dB, free dB. dA is never released. *)
Theorem C74_leak_refuted : exists I dev o i p s sF sF', wf s /\ drop_first o [] i [] = Some p /\
  doall I dev (Xfer o :: [] ++ [Xfer i]) s sF /\ doall I dev p s sF' /\ (forall q, heap sF q = None) /\ heap sF' 0%nat <> None.
Proof.
  pose (o := Xf D2H Free (EInt 2) "A" "dA"). pose (i := Xf D2H Free (EInt 2) "A" "dB").
  assert (H1 : exists a, xall [o; i] (c74_s 2) = Some a /\ forall q, heap a q = None).
  { eexists. split; [vm_compute; reflexivity|]. intros [|[|q]]; reflexivity. }
  assert (H2 : exists b, xall [i] (c74_s 2) = Some b /\ heap b 0%nat <> None).
  { eexists. split; [vm_compute; reflexivity|]. vm_compute. discriminate. }
  destruct H1 as (a & E1 & Q1). destruct H2 as (b & E2 & Q2).
  exists I0, is_dev, o, i, [Xfer i], (c74_s 2), a, b. split; [apply c74_wf|]. split; [reflexivity|].
  split; [apply (xall_doall I0 is_dev [o; i]); exact E1|]. split; [apply (xall_doall I0 is_dev [i]); exact E2|]. split; assumption.
Qed.

(** The size N is written between the copies: the second copies fewer elements, and the
    rest of the first copy is missing. *)
Theorem C74_size_changed_refuted : exists I dev o mid i p s sF sF', wf s /\ drop_first o mid i [] = Some p /\ x_life o = Keep /\
  doall I dev (Xfer o :: mid ++ [Xfer i]) s sF /\ doall I dev p s sF' /\ host sF "A" [1] = 8 /\ host sF' "A" [1] = 0.
Proof.
  pose (o := Xf D2H Keep (ESym "N") "A" "dA").
  pose (n := NBlock [{| o_code := 0; o_ins := [OConst 1]; o_out := "N"; o_sub := [] |}]).
  assert (K : forall t, does I0 is_dev (HostC n) t (Mc (wr (host t) "N" [] 1) (ptr t) (heap t) (fresh t))).
  { intros t. apply D_host; [intros x [<-|[]]; reflexivity|constructor; reflexivity]. }
  assert (B : match xxfer o (c74_s 2) with Some a => match xall [o] (Mc (wr (host a) "N" [] 1) (ptr a) (heap a) (fresh a)) with Some c => host c "A" [1] =? 8 | None => false end | None => false end = true) by (vm_compute; reflexivity).
  destruct (xxfer o (c74_s 2)) as [a|] eqn:E1; [|discriminate]. destruct (xall [o] _) as [c|] eqn:E2; [|discriminate]. apply Z.eqb_eq in B.
  assert (B' : match xall [o] (Mc (wr (host (c74_s 2)) "N" [] 1) (ptr (c74_s 2)) (heap (c74_s 2)) (fresh (c74_s 2))) with Some c => host c "A" [1] =? 0 | None => false end = true) by (vm_compute; reflexivity).
  destruct (xall [o] (Mc (wr (host (c74_s 2)) _ _ _) _ _ _)) as [c'|] eqn:E3; [|discriminate]. apply Z.eqb_eq in B'.
  exists I0, is_dev, o, [HostC n], o, [HostC n; Xfer o], (c74_s 2), c, c'. split; [apply c74_wf|]. split; [reflexivity|]. split; [reflexivity|]. split; [|split; [|auto]].
  - econstructor; [apply xxfer_does; exact E1|]. econstructor; [apply K|]. apply (xall_doall I0 is_dev [o]). exact E2.
  - econstructor; [apply K|]. apply (xall_doall I0 is_dev [o]). exact E3.
Qed.

(** The hypotheses are met: dA is copied to A, overwritten with C, and copied to A again. *)
Theorem C74_hypotheses : exists o mid i p sF, wf (c74_s 2) /\ drop_first o mid i [] = Some p /\ x_life o = Keep /\ mid <> [] /\
  ~ In (x_host o) (atoms (x_size o)) /\ (forall c y, In c mid -> In y (atoms (x_size o)) -> ~ In y (cmd_writes c)) /\ atoms (x_size o) <> [] /\
  doall I0 is_dev (Xfer o :: mid ++ [Xfer i]) (c74_s 2) sF /\ host sF "A" [1] = 3.
Proof.
  pose (o := Xf D2H Keep (ESym "N") "A" "dA"). pose (h := Xf H2D Keep (EInt 2) "C" "dA").
  assert (B : match xall [o; h; o] (c74_s 2) with Some c => host c "A" [1] =? 3 | None => false end = true) by (vm_compute; reflexivity).
  destruct (xall [o; h; o] (c74_s 2)) as [c|] eqn:E; [|discriminate]. apply Z.eqb_eq in B.
  exists o, [Xfer h], o, [Xfer h; Xfer o], c. split; [apply c74_wf|]. split; [reflexivity|]. split; [reflexivity|]. split; [discriminate|].
  split; [intros [K|[]]; discriminate|]. split; [intros d y [<-|[]] _ []|]. split; [discriminate|]. split; [apply (xall_doall I0 is_dev [o; h; o]); exact E|exact B].
Qed.
