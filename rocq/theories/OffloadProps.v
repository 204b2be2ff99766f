(** C67: offloading a map. C68: removing a copy to the host and back. *)
From Verif Require Import Sym SymFacts IR IRFacts Trace DepProofs For2MapProofs Distribute ParProofs PassCFGProps Offload OffloadProofs OffloadSim.
Open Scope string_scope. Open Scope list_scope. Open Scope Z_scope.

(* ================================================================= *)
(** C67 *)
(** [args]: the arrays the map uses with the sizes of the copies; every element of
    them the map touches (log [T]) is inside the copy; the other containers it
    touches live on the host, and those it writes are its own. *)
Definition offloadable (dev : string -> bool) (pre : string) (args : list (string * expr)) (n : node) (st : store) (T : trace) : Prop :=
  NoDup (map fst args) /\ (forall a e, In (a, e) args -> dev (pre ++ a)%string = true) /\ (forall x, In x (nnames n) \/ In x (map fst args) -> dev x = false) /\
  forall a e, In (a, e) args -> exists size, eval (env_of st) e = Some size /\ 0 <= size /\ forall j, touched T a j -> exists k, j = [k] /\ 0 <= k < size.

Definition dsize (st : store) (p : string * expr) : Z := match eval (env_of st) (snd p) with Some v => v | None => 0 end.
Theorem C67_offload : forall I dev pre args n s h T,
  runT I n (host s) ONorm h T -> offloadable dev pre args n (host s) T -> (forall q, (fresh s <= q)%nat -> heap s q = None) ->
  exists s', doall I dev (offload pre args n) s s' /\ (forall s2, doall I dev (offload pre args n) s s2 -> s2 = s') /\
    (forall x j, In x (map fst args) -> host s' x j = h x j) /\ (forall x j, ~ In x (map fst args) -> host s' x j = host s x j) /\
    (forall q, same_buffer (heap s q) (heap s' q)).
Proof.
  intros I dev pre args n s h T R (ND & DV & HV & SZ) WF.
  destruct (offload_ok I dev pre args n s h T (dsize (host s)) ND) as (s' & D & A & B & C & _); auto.
  - intros [a e] Hp. apply (DV a e Hp).
  - intros [a e] Hp. destruct (SZ a e Hp) as (N & E & L & _). unfold size_in, dsize. cbn [snd]. rewrite E. auto.
  - intros [a e] j Hp Ht. destruct (SZ a e Hp) as (N & E & _ & Q). unfold dsize. cbn [snd]. rewrite E. apply Q. exact Ht.
  - exists s'. split; [exact D|]. split; [|auto]. intros s2 D2. apply (doall_det _ _ _ _ _ _ D2 D).
Qed.

(** A program of several phases, some of them offloaded: the host memory outside
    [D] (the variables of the maps themselves) is that of the sequential program. *)
Record phase := Ph { ph_off : option (string * list (string * expr)); ph_node : node }.
Definition commands (p : phase) : list command := match ph_off p with Some (pre, args) => offload pre args (ph_node p) | None => [HostC (ph_node p)] end.
Inductive sequential (I : nat -> list Z -> option Z) (dev : string -> bool) (D : string -> Prop) : list phase -> store -> store -> Prop :=
| Sq_nil a : sequential I dev D [] a a
| Sq_cons p l a b c T : runT I (ph_node p) a ONorm b T -> (forall x j, exposed T x j -> ~ D x) ->
    match ph_off p with
    | Some (pre, args) => offloadable dev pre args (ph_node p) a T /\ (forall a e x, In (a, e) args -> In x (atoms e) -> ~ D x) /\ (forall x, In x (nwrites (ph_node p)) -> ~ D x -> In x (map fst args))
    | None => forall x, In x (nnames (ph_node p)) -> dev x = false end ->
    sequential I dev D l b c -> sequential I dev D (p :: l) a c.

Lemma fresh_mono I dev c s s1 : does I dev c s s1 -> (fresh s <= fresh s1)%nat.
Proof.
  intros H. inversion H as [x n ? sa sb sc E A B F| | |]; subst; try reflexivity.
  assert (fresh s <= fresh sa)%nat by (inversion A; cbn; lia). assert (fresh sb = fresh sa) by (inversion B; reflexivity). assert (fresh s1 = fresh sb) by (inversion F; reflexivity). lia.
Qed.
Lemma fresh_all I dev l : forall s s1, doall I dev l s s1 -> (fresh s <= fresh s1)%nat.
Proof. induction l as [|c l IH]; intros s s1 H; inversion H as [|? ? ? t ? A B]; subst; [lia|]. apply fresh_mono in A. apply IH in B. lia. Qed.

Theorem C67_program : forall I dev D l s h, sequential I dev D l (host s) h -> (forall q, (fresh s <= q)%nat -> heap s q = None) ->
  exists s', doall I dev (concat (map commands l)) s s' /\ (forall x j, ~ D x -> host s' x j = h x j) /\ (forall q, same_buffer (heap s q) (heap s' q)).
Proof.
  intros I dev D l s h H.
  assert (G: forall a, sequential I dev D l a h -> forall s, eqx D a (host s) -> (forall q, (fresh s <= q)%nat -> heap s q = None) ->
    exists s', doall I dev (concat (map commands l)) s s' /\ (forall x j, ~ D x -> host s' x j = h x j) /\ (forall q, same_buffer (heap s q) (heap s' q))).
  { clear. induction l as [|p l IH]; intros a H s E WF.
    - inversion H; subst. exists s. split; [constructor|]. split; [intros x j N; symmetry; apply (E x N)|]. intros q. apply same_buffer_refl.
    - inversion H as [|? ? ? b ? T R EX OK H']; subst.
      destruct (proj1 (run_local I) _ _ _ _ _ R) as (FR & LC). destruct (LC (host s)) as (h1 & R1 & FR1 & W1); [intros x j K; apply E; apply (EX x j K)|].
      assert (EB: eqx D b h1). { intros x N j. destruct (written_dec T x j) as [W|W]; [apply W1; exact W|]. rewrite (FR x j W), (FR1 x j W). apply (E x N). }
      assert (S1: exists s1, doall I dev (commands p) s s1 /\ eqx D b (host s1) /\ (forall q, same_buffer (heap s q) (heap s1 q))).
      { unfold commands. destruct (ph_off p) as [[pre args]|].
        - destruct OK as ((ND & DV & HV & SZ) & SD & WA). destruct (C67_offload I dev pre args (ph_node p) s h1 T R1) as (s1 & D1 & _ & A1 & B1 & Q1).
          + split; [exact ND|]. split; [exact DV|]. split; [exact HV|]. intros y e Hp. destruct (SZ y e Hp) as (N & EN & LN & KN). exists N. split; [|auto].
            rewrite <- EN. symmetry. apply (eval_eqx D); [exact E|]. intros x Hx. apply (SD y e x Hp Hx).
          + exact WF.
          + exists s1. split; [exact D1|]. split; [|exact Q1]. intros x N j. destruct (in_dec string_dec x (map fst args)) as [Hx|Hx].
            * rewrite A1 by exact Hx. apply (EB x N).
            * rewrite B1 by exact Hx. rewrite <- (E x N j). apply FR. intros (e & W). apply Hx. apply WA; [|exact N]. apply (proj1 (trace_writes I) _ _ _ _ _ R _ _ _ W).
        - eexists. split; [econstructor; [apply D_host; [exact OK|apply (proj1 (trace_run I) _ _ _ _ _ R1)]|constructor]|]. split; [exact EB|]. intros q. apply same_buffer_refl. }
      destruct S1 as (s1 & D1 & E1 & Q1). destruct (IH b H' s1 E1) as (s' & D2 & A2 & Q2).
      + intros q Hq. specialize (Q1 q). apply fresh_all in D1. rewrite WF in Q1 by lia. destruct (heap s1 q); [elim Q1|reflexivity].
      + exists s'. split; [cbn [map concat]; apply doall_app; exists s1; auto|]. split; [exact A2|]. intros q. eapply same_buffer_trans; [apply Q1|apply Q2]. }
  apply (G (host s) H s). intros x _ j. reflexivity.
Qed.

(* ================================================================= *)
(** C68 *)
(** A step of the pass somewhere in a program, for a copy-out that releases its
    buffer: the new program runs whenever the old one does and leaves the same host
    memory (outside the container of the removed copy, unless that is read again).
    Required, and not checked by the pass: in between, the device pointer is not
    assigned and the size does not change. *)
Theorem C68_minimized_partial : forall I dev before o mid i post p s sF,
  wf s -> minimize o mid i post = Some p -> x_life o = Free ->
  (forall c, In c mid -> ~ In (x_dev o) (cmd_assigns c)) ->
  (forall c y, In c mid -> In y (atoms (x_size o)) -> ~ In y (cmd_writes c)) ->
  doall I dev (before ++ Xfer o :: mid ++ Xfer i :: post) s sF ->
  exists sF', doall I dev (before ++ p) s sF' /\
    forall x, x <> x_host o \/ (exists c, In c (mid ++ post) /\ In (x_host o) (cmd_reads c)) -> forall j, host sF x j = host sF' x j.
Proof.
  intros I dev before o mid i post p s sF W M LF NA NS D. apply doall_app in D as (s1 & D1 & D2).
  assert (W1: wf s1).
  { assert (RR: R none s s). { constructor; auto; [intros x _ j; reflexivity|intros x q b L; exists q, b; split; [exact L|split; [lia|auto]]|].
      intros x y q b r c q' b' r' c' Lx Ly Lx' Ly'. destruct (live_det _ _ _ _ _ _ Lx Lx'), (live_det _ _ _ _ _ _ Ly Ly'). subst. reflexivity. }
    destruct (doall_sim I dev none before s s1 s RR) as (s1' & _ & (Q & _)); [intros c _ x _ []|exact D1|]. apply (R_wf _ _ _ Q). }
  destruct (minimize_sim I dev o mid i post p s1 sF W1 M LF NA NS D2) as (sF' & D3 & E). exists sF'. split; [apply doall_app; eauto|exact E].
Qed.

(** Transfers are executable. *)
Fixpoint upto (n : nat) : list Z := match n with O => [] | S m => upto m ++ [Z.of_nat m] end.
Lemma upto_in n k : In k (upto n) <-> 0 <= k < Z.of_nat n.
Proof. induction n as [|n IH]; [cbn; lia|]. cbn [upto]. rewrite in_app_iff, IH. cbn [In]. lia. Qed.
Definition find_buf (s : machine) (x : string) : option (nat * buffer) := match ptr s x with Some q => match heap s q with Some b => Some (q, b) | None => None end | None => None end.
Lemma find_live s x q b : find_buf s x = Some (q, b) <-> live s x q b.
Proof.
  unfold find_buf, live. destruct (ptr s x) as [r|]; [|split; [discriminate|intros []; discriminate]]. destruct (heap s r) as [c|] eqn:E.
  - split; [intros Q; injection Q as <- <-; auto|]. intros (Q & K). injection Q as <-. rewrite E in K. injection K as <-. reflexivity.
  - split; [discriminate|]. intros (Q & K). injection Q as <-. congruence.
Qed.
Definition xxfer (x : transfer) (s : machine) : option machine :=
  match eval (env_of (host s)) (x_size x) with None => None | Some n =>
  match (match x_life x with Alloc => if 0 <=? n then Some (alloc (x_dev x) n s) else None | _ => Some s end) with None => None | Some s1 =>
  match (match x_dir x with
         | H2D => match find_buf s1 (x_dev x) with Some (q, b) => if n <=? fst b then Some (to_device (x_host x) q b n s1) else None | None => None end
         | D2H => match find_buf s1 (x_dev x) with Some (q, b) => if (n <=? fst b) && forallb (fun k => match snd b k with Some _ => true | None => false end) (upto (Z.to_nat n)) then Some (to_host (x_host x) b n s1) else None | None => None end
         | NoDir => Some s1 end) with None => None | Some s2 =>
  match x_life x with Free => match find_buf s2 (x_dev x) with Some (q, b) => Some (release q s2) | None => None end | _ => Some s2 end end end end.
Lemma xxfer_does I dev x s s' : does I dev (Xfer x) s s' <-> xxfer x s = Some s'.
Proof.
  unfold xxfer. split.
  - intros D. inversion D as [x' n ? sa sb sc E A B F| | |]. subst. rewrite E.
    assert (EA: (match x_life x with Alloc => if 0 <=? n then Some (alloc (x_dev x) n s) else None | _ => Some s end) = Some sa).
    { inversion A; subst; [rewrite H; destruct (Z.leb_spec 0 n); [reflexivity|lia]|]. destruct (x_life x); congruence. }
    rewrite EA. match goal with |- match ?m with _ => _ end = _ => assert (EB: m = Some sb) end.
    { inversion B as [? q b D0 Lv Ln|? q b D0 Lv Ln IN|? D0]; subst; rewrite D0; try reflexivity; apply find_live in Lv; rewrite Lv; destruct (Z.leb_spec n (fst b)); try lia; [reflexivity|].
      replace (forallb _ _) with true; [reflexivity|]. symmetry. apply forallb_forall. intros k Hk. apply upto_in in Hk. specialize (IN k). destruct (snd b k); [reflexivity|]. exfalso. apply IN; [lia|reflexivity]. }
    rewrite EB. inversion F as [? q b D0 Lv|? D0]; subst; [rewrite D0; apply find_live in Lv; rewrite Lv; reflexivity|]. destruct (x_life x); congruence.
  - destruct (eval _ _) as [n|] eqn:E; [|discriminate]. intros H.
    match type of H with match ?m with _ => _ end = _ => destruct m as [sa|] eqn:EA; [|discriminate] end.
    match type of H with match ?m with _ => _ end = _ => destruct m as [sb|] eqn:EB; [|discriminate] end.
    econstructor; [exact E| | |].
    + instantiate (1 := sa). destruct (x_life x) eqn:L; try (injection EA as <-; apply A_no; rewrite L; discriminate). destruct (Z.leb_spec 0 n); [|discriminate]. injection EA as <-. apply A_yes; assumption.
    + instantiate (1 := sb). destruct (x_dir x) eqn:L; [| |injection EB as <-; apply C_no; exact L]; destruct (find_buf sa (x_dev x)) as [[q b]|] eqn:Fb; try discriminate; apply find_live in Fb.
      * destruct (Z.leb_spec n (fst b)); [|discriminate]. cbn [andb] in EB. destruct (forallb _ _) eqn:K; [|discriminate]. injection EB as <-. eapply C_out; try eassumption.
        rewrite forallb_forall in K. intros k Hk. specialize (K k). rewrite upto_in in K. destruct (snd b k); [discriminate|]. exfalso. assert (false = true) by (apply K; lia). discriminate.
      * destruct (Z.leb_spec n (fst b)); [|discriminate]. injection EB as <-. eapply C_in; eassumption.
    + destruct (x_life x) eqn:L; try (injection H as <-; apply F_no; rewrite L; discriminate). destruct (find_buf sb (x_dev x)) as [[q b]|] eqn:Fb; [|discriminate]. apply find_live in Fb. injection H as <-. eapply F_yes; eassumption.
Qed.
Fixpoint xall (l : list transfer) (s : machine) : option machine := match l with [] => Some s | x :: l => match xxfer x s with Some s1 => xall l s1 | None => None end end.
Lemma xall_doall I dev l : forall s s', doall I dev (map Xfer l) s s' <-> xall l s = Some s'.
Proof.
  induction l as [|x l IH]; intros s s'; cbn [map xall]; split; intros H.
  - inversion H; reflexivity.
  - injection H as <-. constructor.
  - inversion H as [|? ? ? t ? A B]; subst. apply xxfer_does in A. rewrite A. apply IH. exact B.
  - destruct (xxfer x s) as [t|] eqn:E; [|discriminate]. econstructor; [apply xxfer_does; exact E|apply IH; exact H].
Qed.

Definition is_dev (x : string) : bool := String.eqb x "dA" || String.eqb x "dB".
Definition c68_one : expr := EInt 1.
Definition c68_out : transfer := Xf D2H Free c68_one "A" "dA".
Definition c68_in : transfer := Xf H2D Alloc c68_one "A" "dA".
Definition c68_free : transfer := Xf NoDir Free c68_one "A" "dA".
(** dA is a device buffer with the element 7; the host's A is 0 *)
Definition c68_s : machine := Mc (fun x j => 0) (fun x => if String.eqb x "dA" then Some 0%nat else None) (fun q => match q with O => Some (1, fun k => if k =? 0 then Some 7 else None) | _ => None end) 1.
Lemma c68_wf : wf c68_s.
Proof. split; cbn; [intros x q; destruct (String.eqb x "dA"); intros E; [injection E as <-; lia|discriminate]|]. intros [|q] H; [lia|reflexivity]. Qed.

(** The caller's array: a kernel computes A, the next one only reads it; the copy-out
    is removed although A is an argument of the function, and A keeps its old value. *)
Theorem C68_lost_output_refuted : exists I dev o i post p s sF sF', wf s /\ minimize o [] i post = Some p /\
  doall I dev (Xfer o :: [] ++ Xfer i :: post) s sF /\ doall I dev p s sF' /\ host sF "A" [0] = 7 /\ host sF' "A" [0] = 0.
Proof.
  pose (F := xall [c68_out; c68_in; c68_free] c68_s). pose (F' := xall [c68_free] c68_s).
  assert (B: match F, F' with Some a, Some b => (host a "A" [0] =? 7) && (host b "A" [0] =? 0) | _, _ => false end = true) by (vm_compute; reflexivity).
  destruct F as [a|] eqn:EF; [|discriminate]. destruct F' as [b|] eqn:EF'; [|discriminate]. apply andb_true_iff in B as [B1 B2]. apply Z.eqb_eq in B1, B2.
  exists I0, is_dev, c68_out, c68_in, [Xfer c68_free], [Xfer c68_free], c68_s, a, b. split; [exact c68_wf|]. split; [reflexivity|].
  split; [apply (xall_doall I0 is_dev [c68_out; c68_in; c68_free]); exact EF|]. split; [apply (xall_doall I0 is_dev [c68_free]); exact EF'|]. auto.
Qed.

(** The same device pointer is used with another size in between: the new program
    uses a released buffer. *)
Theorem C68_use_after_free_refuted : exists I dev o mid i post p s sF, wf s /\ minimize o mid i post = Some p /\ x_life o = Free /\
  (forall c y, In c mid -> In y (atoms (x_size o)) -> ~ In y (cmd_writes c)) /\
  doall I dev (Xfer o :: mid ++ Xfer i :: post) s sF /\ ~ exists sF', doall I dev p s sF'.
Proof.
  pose (in2 := Xf H2D Alloc (EInt 2) "A" "dA"). pose (l := [c68_out; in2; c68_free; c68_in; c68_free]).
  pose (l' := [Xf D2H Keep c68_one "A" "dA"; in2; c68_free; c68_free]).
  assert (B: match xall l c68_s, xall l' c68_s with Some _, None => true | _, _ => false end = true) by (vm_compute; reflexivity).
  destruct (xall l c68_s) as [a|] eqn:EF; [|discriminate]. destruct (xall l' c68_s) as [b|] eqn:EF'; [discriminate|].
  exists I0, is_dev, c68_out, [Xfer in2; Xfer c68_free], c68_in, [Xfer c68_free], (map Xfer l'), c68_s, a.
  split; [exact c68_wf|]. split; [reflexivity|]. split; [reflexivity|]. split; [intros c y _ []|]. split; [apply (xall_doall I0 is_dev l); exact EF|].
  intros (sF' & D). apply xall_doall in D. congruence.
Qed.

(** The size is a symbol that changes in between: the new program copies out of the
    bounds of the buffer. *)
Theorem C68_size_changed_refuted : exists I dev o mid i post p s sF, wf s /\ minimize o mid i post = Some p /\ x_life o = Free /\
  (forall c, In c mid -> ~ In (x_dev o) (cmd_assigns c)) /\
  doall I dev (Xfer o :: mid ++ Xfer i :: post) s sF /\ ~ exists sF', doall I dev p s sF'.
Proof.
  pose (o := Xf D2H Free (ESym "N") "A" "dA"). pose (i := Xf H2D Alloc (ESym "N") "A" "dA"). pose (out2 := Xf D2H Free (ESym "N") "A" "dA").
  pose (st := (fun x j => if String.eqb x "N" then 1 else 0) : store). pose (s := Mc st (ptr c68_s) (heap c68_s) 1).
  pose (n := NBlock [{| o_code := 0; o_ins := [OConst 2]; o_out := "N"; o_sub := [] |}]).
  assert (R: run I0 n st ONorm (wr st "N" [] 2)) by (constructor; reflexivity).
  assert (B: match xxfer o s with Some a => match xall [i; out2] (Mc (wr (host a) "N" [] 2) (ptr a) (heap a) (fresh a)) with Some _ => true | None => false end | None => false end = true) by (vm_compute; reflexivity).
  destruct (xxfer o s) as [a|] eqn:E1; [|discriminate]. destruct (xall [i; out2] _) as [b|] eqn:E2; [|discriminate]. clear B.
  assert (B: match xall [out2] (Mc (wr st "N" [] 2) (ptr s) (heap s) (fresh s)) with Some _ => false | None => true end = true) by (vm_compute; reflexivity).
  destruct (xall [out2] _) as [b'|] eqn:E3; [discriminate|]. clear B.
  exists I0, is_dev, o, [HostC n], i, [Xfer out2], [HostC n; Xfer out2], s, b.
  split; [exact c68_wf|]. split; [reflexivity|]. split; [reflexivity|]. split; [intros c [<-|[]] []|]. split.
  - econstructor; [apply xxfer_does; exact E1|]. econstructor; [apply D_host; [intros x [<-|[]]; reflexivity|constructor; reflexivity]|].
    apply (xall_doall I0 is_dev [i; out2]). exact E2.
  - intros (sF' & D). inversion D as [|? ? ? t ? A B]; subst. inversion A as [|? ? h ? K| |]; subst.
    destruct (run_det _ _ _ _ _ _ _ R K) as [_ <-]. apply (xall_doall I0 is_dev [out2]) in B. change (host s) with st in *. congruence.
Qed.

(** Buffers kept on the device: a kernel changes the buffer in between, the removed
    copy-in would have restored it. *)
Definition c68_nine : block := [{| o_code := 0; o_ins := [OConst 9]; o_out := "dA"; o_sub := [EInt 0] |}].
Theorem C68_kept_buffer_refuted : exists I dev o mid i post p s sF sF', wf s /\ minimize o mid i post = Some p /\
  x_life o = Keep /\ x_dev o = x_dev i /\ doall I dev (Xfer o :: mid ++ Xfer i :: post) s sF /\ doall I dev p s sF' /\
  host sF "A" [0] = 7 /\ host sF' "A" [0] = 9.
Proof.
  pose (o := Xf D2H Keep c68_one "A" "dA"). pose (i := Xf H2D Keep c68_one "A" "dA"). pose (n := NBlock c68_nine).
  pose (after := fun t => device_after is_dev (nnames n) (wr (view is_dev t) "dA" [0] 9) [Ev true "dA" [EInt 0] [0]] t).
  assert (K: forall t b, live t "dA" 0%nat b -> 0 < fst b -> does I0 is_dev (Kernel n) t (after t)).
  { intros t b L Lb. unfold after. change [Ev true "dA" [EInt 0] [0]] with (block_trace I0 (view is_dev t) c68_nine). apply D_kernel.
    - apply (T_block I0 c68_nine (view is_dev t)). reflexivity.
    - intros x j _ (w & e & [Q|[]]). injection Q as <- <- <- <-. exists 0, 0%nat, b. split; [reflexivity|]. split; [exact L|lia].
    - intros x k q c _ Q. cbn in Q. destruct Q as (_ & []).
    - intros x y i0 j q c (w & e & [Q|[]]) (w' & e' & [Q'|[]]) _ _ _ _. congruence. }
  assert (B: match xxfer o c68_s with Some a => match find_buf a "dA" with Some (O, b) => (0 <? fst b) && match xall [i; o] (after a) with Some c => host c "A" [0] =? 7 | None => false end | _ => false end | None => false end = true) by (vm_compute; reflexivity).
  destruct (xxfer o c68_s) as [a|] eqn:E1; [|discriminate]. destruct (find_buf a "dA") as [[[|q] b]|] eqn:E2; try discriminate. apply andb_true_iff in B as [B1 B]. apply Z.ltb_lt in B1.
  destruct (xall [i; o] (after a)) as [c|] eqn:E3; [|discriminate]. apply Z.eqb_eq in B. apply find_live in E2.
  assert (B': match find_buf c68_s "dA" with Some (O, b) => (0 <? fst b) && match xall [o] (after c68_s) with Some c => host c "A" [0] =? 9 | None => false end | _ => false end = true) by (vm_compute; reflexivity).
  destruct (find_buf c68_s "dA") as [[[|q'] b']|] eqn:E4; try discriminate. apply andb_true_iff in B' as [B2 B']. apply Z.ltb_lt in B2.
  destruct (xall [o] (after c68_s)) as [c'|] eqn:E5; [|discriminate]. apply Z.eqb_eq in B'. apply find_live in E4.
  exists I0, is_dev, o, [Kernel n], i, [Xfer o], [Kernel n; Xfer o], c68_s, c, c'. split; [exact c68_wf|]. split; [reflexivity|]. split; [reflexivity|]. split; [reflexivity|]. split; [|split; [|auto]].
  - econstructor; [apply xxfer_does; exact E1|]. econstructor; [apply (K a b E2 B1)|]. apply (xall_doall I0 is_dev [i; o]). exact E3.
  - econstructor; [apply (K c68_s b' E4 B2)|]. apply (xall_doall I0 is_dev [o]). exact E5.
Qed.

(* ================================================================= *)
(** The hypotheses are met. *)
Definition c67_map : node := NLoop KMap "i" (EInt 0) (CLt (ESym "i") (ESym "N")) (EAdd [ESym "i"; EInt 1])
  (SCons (NBlock [{| o_code := 0; o_ins := [ORead "A" [ESym "i"]]; o_out := "B" ; o_sub := [ESym "i"] |}]) [] SNil).
Definition c67_st : store := fun x j => if String.eqb x "N" then 2 else match j with [k] => 10 + k | _ => 0 end.
Definition c67_dev (x : string) : bool := String.eqb x "gA" || String.eqb x "gB".
Definition c67_args : list (string * expr) := [("A", ESym "N"); ("B", ESym "N")].
Definition c67_m : machine := Mc c67_st (fun _ => None) (fun _ => None) 0.
Example C67_hypotheses : exists h T, runT I0 c67_map (host c67_m) ONorm h T /\ offloadable c67_dev "g" c67_args c67_map (host c67_m) T /\ h "B" [1] = 11.
Proof.
  assert (Q: exists h T, runT I0 c67_map (host c67_m) ONorm h T /\ h "B" [1] = 11 /\ forallb (fun e => match e with Ev _ x _ j => (negb (String.eqb x "A") && negb (String.eqb x "B")) || match j with [k] => inr k 2 | _ => false end end) T = true).
  { eexists. eexists. split; [|split].
    - eapply T_loop; [reflexivity|]. eapply T_lnext; [reflexivity| |left; reflexivity|reflexivity|].
      { eapply T_cons; [apply T_block; reflexivity|reflexivity|constructor]. }
      eapply T_lnext; [reflexivity| |left; reflexivity|reflexivity|].
      { eapply T_cons; [apply T_block; reflexivity|reflexivity|constructor]. }
      apply T_lend. reflexivity.
    - vm_compute. reflexivity.
    - vm_compute. reflexivity. }
  destruct Q as (h & T & R & E & B). exists h, T. split; [exact R|]. split; [|exact E]. rewrite forallb_forall in B.
  split; [repeat constructor; cbn; intuition discriminate|]. split; [intros a e [Q|[Q|[]]]; injection Q as <- <-; reflexivity|].
  split; [intros x Hx; cbn in Hx; repeat (destruct Hx as [Hx|Hx]; [rewrite <- ?Hx; try reflexivity|]); intuition (subst; reflexivity)|].
  intros a e Ha. exists 2. split; [destruct Ha as [Q|[Q|[]]]; injection Q as <- <-; reflexivity|]. split; [lia|].
  intros j (w & e' & K). specialize (B _ K). cbn beta iota in B. assert (X: negb (String.eqb a "A") && negb (String.eqb a "B") = false) by (destruct Ha as [Q|[Q|[]]]; injection Q as <- <-; reflexivity).
  rewrite X in B. cbn [orb] in B. destruct j as [|k [|]]; try discriminate. exists k. split; [reflexivity|]. apply inr_true. exact B.
Qed.
Example C68_hypotheses : exists o mid i post p sF, wf c68_s /\ minimize o mid i post = Some p /\ x_life o = Free /\ x_dev o <> x_dev i /\ mid <> [] /\
  (forall c, In c mid -> ~ In (x_dev o) (cmd_assigns c)) /\ (forall c y, In c mid -> In y (atoms (x_size o)) -> ~ In y (cmd_writes c)) /\
  doall I0 is_dev (Xfer o :: mid ++ Xfer i :: post) c68_s sF /\ host sF "C" [0] = 7.
Proof.
  pose (i := Xf H2D Alloc c68_one "A" "dB"). pose (out := Xf D2H Free c68_one "C" "dB"). pose (h2 := Xf H2D Alloc c68_one "A" "dC").
  assert (B: match xall [c68_out; h2; i; out] c68_s with Some c => host c "C" [0] =? 7 | None => false end = true) by (vm_compute; reflexivity).
  destruct (xall [c68_out; h2; i; out] c68_s) as [c|] eqn:E; [|discriminate]. apply Z.eqb_eq in B.
  exists c68_out, [Xfer h2], i, [Xfer out]. eexists. exists c. split; [exact c68_wf|]. split; [reflexivity|]. split; [reflexivity|]. split; [discriminate|]. split; [discriminate|].
  split; [intros d [<-|[]] [K|[]]; discriminate|]. split; [intros d y _ []|]. split; [apply (xall_doall I0 is_dev [c68_out; h2; i; out]); exact E|exact B].
Qed.
