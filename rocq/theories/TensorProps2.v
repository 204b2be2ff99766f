(** C41 (mean, standard deviation), C42 (activation functions, softmax),
    C43 (what surrounds an expanded node). *)
From Coq Require Import List Permutation.
From Verif Require Import TensorMulti TensorAct TensorProps SymFacts SymProofs1.
Open Scope string_scope.
Open Scope Z_scope.
Import ListNotations.

(* ------------------------------------------------------------------ *)
(** Vocabulary: [fl] marks exactly the reduced dimensions; no axis is named twice. *)
Definition reduces (rank : nat) (axes : list Z) (fl : list bool) : Prop :=
  List.length fl = rank /\ forall i, (i < rank)%nat -> (nth i fl false = true <-> is_reduced rank axes i).
Definition axes_distinct (rank : nat) (axes : list Z) : Prop :=
  NoDup (map (fun a => if a <? 0 then Z.of_nat rank + a else a) axes).

Lemma reduces_flags rank axes fl ax : norm_axes rank axes = Some ax -> reduces rank axes fl -> fl = flags rank ax.
Proof.
  intros Ha [HL HR]. destruct (norm_axes_spec _ _ _ Ha) as [_ S].
  assert (Lf : List.length (flags rank ax) = rank) by (unfold flags; rewrite map_length, seq_length; auto).
  apply nth_ext with (d := false) (d' := false); [congruence|]. intros i Hi. rewrite HL in Hi.
  rewrite flags_nth by auto. specialize (HR i Hi). specialize (S i Hi).
  destruct (nth i fl false), (existsb _ ax); auto; [symmetry; apply S, HR; auto|apply HR, S; auto].
Qed.
Lemma norm_axes_nodup rank : forall axes ax, norm_axes rank axes = Some ax -> axes_distinct rank axes -> NoDup ax.
Proof.
  intros axes ax E. assert (K : map (fun a => if a <? 0 then Z.of_nat rank + a else a) axes = map Z.of_nat ax).
  { revert ax E. induction axes as [|a axes IH]; intros ax E; cbn in E.
    - injection E as <-. auto.
    - destruct (norm_axis rank a) as [u|] eqn:Eu; [|discriminate]. destruct (norm_axes rank axes) as [r|]; [|discriminate].
      injection E as <-. cbn [map]. rewrite (IH r eq_refl). f_equal. unfold norm_axis in Eu.
      destruct ((_ <? 0) || _) eqn:Er; [discriminate|]. apply orb_false_iff in Er as [E1 E2]. apply Z.ltb_ge in E1.
      injection Eu as <-. lia. }
  unfold axes_distinct. rewrite K. apply NoDup_map_inv.
Qed.
Lemma computes_of I s hid y f dims st :
  (exists st', runs I s st ONorm st' /\ scattered hid y (fun j => j) f st (box dims) st') -> computes I s hid y (fun j => j) f dims st.
Proof. apply computes_intro. Qed.

(* ======================= C41: mean, standard deviation ======================= *)
(** Mean: the fold over the contributing elements divided by their number. *)
Theorem C41_mean_partial : forall I H sumc g divc axes kd x y shape vs ws us count s fl dims f st,
  expand_mean sumc divc axes kd x y shape vs ws us count [] = Some s ->
  (forall v, I 0%nat [v] = Some v) -> (forall a b, I sumc [a; b] = Some (g a b)) ->
  reduces (List.length shape) axes fl -> axes_distinct (List.length shape) axes ->
  clear H shape [x; y] -> lv H shape vs -> lv H (keep (EInt 1) kd fl shape) ws -> lv H (keep (EInt 1) kd fl shape) us ->
  In count H -> ~ In count us -> x <> y ->
  evals (env_of st) shape = Some dims -> Forall (Z.le 0) dims ->
  (forall o, index_of (keep 1 kd fl dims) o ->
     I divc [fold_left (fun acc j => g (st x j) acc) (contributes kd fl dims o) 0;
             Z.of_nat (List.length (contributes kd fl dims o))] = Some (f o)) ->
  computes I s H y (fun j => j) f (keep 1 kd fl dims) st.
Proof.
  intros I H sumc g divc axes kd x y shape vs ws us count s fl dims f st Es H0 HI Hr Hdis HC Lv Lw Lu Hc Hcu Hxy Hd Hp Hf.
  apply computes_of. destruct (norm_axes (List.length shape) axes) as [ax|] eqn:Ea.
  2: { unfold expand_mean in Es. rewrite Ea in Es. discriminate. }
  pose proof (reduces_flags _ _ _ _ Ea Hr) as ->.
  apply (mean_leg I H [x; y] sumc g divc ax axes kd x y shape vs ws us count s dims f st H0 HI Ea); auto; try (cbn; tauto).
  - eapply norm_axes_nodup; eauto.
  - intros o Ho. apply Hf, box_In, Ho.
Qed.

(** Every axis of every reduced dimension counts: an axis named twice (0 and -1
    of a vector; validate() does not reject it) squares the count. *)
Definition C41_mean_full : Prop := forall I H sumc g divc axes kd x y shape vs ws us count s fl dims f st,
  expand_mean sumc divc axes kd x y shape vs ws us count [] = Some s ->
  (forall v, I 0%nat [v] = Some v) -> (forall a b, I sumc [a; b] = Some (g a b)) ->
  reduces (List.length shape) axes fl ->
  clear H shape [x; y] -> lv H shape vs -> lv H (keep (EInt 1) kd fl shape) ws -> lv H (keep (EInt 1) kd fl shape) us ->
  In count H -> ~ In count us -> x <> y ->
  evals (env_of st) shape = Some dims -> Forall (Z.le 0) dims ->
  (forall o, index_of (keep 1 kd fl dims) o ->
     I divc [fold_left (fun acc j => g (st x j) acc) (contributes kd fl dims o) 0;
             Z.of_nat (List.length (contributes kd fl dims o))] = Some (f o)) ->
  computes I s H y (fun j => j) f (keep 1 kd fl dims) st.
Ltac lv_tac := split; [repeat constructor; cbn; intuition congruence|split; [reflexivity|intros ? ?; cbn in *; intuition congruence]].
Theorem C41_mean_duplicate_axes_refuted : ~ C41_mean_full.
Proof.
  intros F.
  assert (C : computes Iarith (match expand_mean 1 2 [0; -1] true "X" "Y" [EInt 3] ["i"] ["w"] ["u"] "c" [] with Some s => s | None => SNil end)
    ["i"; "w"; "u"; "c"] "Y" (fun j => j) (fun _ => 2) [1] row).
  { apply (F Iarith ["i"; "w"; "u"; "c"] 1%nat Z.add 2%nat [0; -1] true "X" "Y" [EInt 3] ["i"] ["w"] ["u"] "c" _ [true] [3]);
      try reflexivity; try (cbn; tauto); try discriminate; try lv_tac.
    - split; [reflexivity|]. intros i Hi. cbn in Hi. assert (i = 0)%nat by lia. subst i. split; auto. intros _.
      exists 0. cbn. auto.
    - split.
      + intros z Hz. cbn in *. intuition congruence.
      + intros e z [<-|[]] [].
    - intros K. cbn in K. intuition congruence.
    - repeat constructor; lia.
    - intros o Ho. cbn in Ho. inversion Ho as [|? a ? r Ha Hr]; subst. inversion Hr; subst.
      assert (a = 0) by lia. subst a. reflexivity. }
  revert C. apply refute_computes with (fuel := 80%nat) (j := [0]) (v := 0).
  - vm_compute. reflexivity.
  - repeat constructor; lia.
  - lia.
Qed.
Theorem C41_mean_nonvacuous : exists s f,
  expand_mean 1 2 [-1] true "X" "Y" [EInt 3] ["i"] ["w"] ["u"] "c" [] = Some s /\
  computes Iarith s ["i"; "w"; "u"; "c"] "Y" (fun j => j) f [1] row /\ f [0] = 2.
Proof.
  eexists. exists (fun _ => 2). split; [reflexivity|]. split; [|reflexivity].
  apply (C41_mean_partial Iarith ["i"; "w"; "u"; "c"] 1%nat Z.add 2%nat [-1] true "X" "Y" [EInt 3] ["i"] ["w"] ["u"] "c" _ [true] [3]);
      try reflexivity; try (cbn; tauto); try discriminate; try lv_tac.
  - split; [reflexivity|]. intros i Hi. cbn in Hi. assert (i = 0)%nat by lia. subst i. split; auto. intros _.
    exists (-1). cbn. auto.
  - unfold axes_distinct. cbn. repeat constructor. auto.
  - split.
    + intros z Hz. cbn in *. intuition congruence.
    + intros e z [<-|[]] [].
  - intros K. cbn in K. intuition congruence.
  - repeat constructor; lia.
  - intros o Ho. cbn in Ho. inversion Ho as [|? a ? r Ha Hr]; subst. inversion Hr; subst.
    assert (a = 0) by lia. subst a. reflexivity.
Qed.

(** Standard deviation: sqrt (mean(x^2) - mean(x)^2), both means over the
    contributing elements; the input may be the output. *)
Definition std_names_ok (H : list string) (shape os : list expr) (v : std_vars) : Prop :=
  lv H shape (sv_sq v) /\ lv H shape (sv_m1 v) /\ lv H shape (sv_m2 v) /\ lv H os (sv_m1w v) /\ lv H os (sv_m1u v) /\
  lv H os (sv_m2w v) /\ lv H os (sv_m2u v) /\ lv H os (sv_p v) /\ lv H os (sv_sub v) /\ lv H os (sv_rt v) /\
  In (sv_c1 v) H /\ ~ In (sv_c1 v) (sv_m1u v) /\ In (sv_c2 v) H /\ ~ In (sv_c2 v) (sv_m2u v).
Theorem C41_std_partial : forall I H sumc g divc mulc mul subc sub sqrtc axes kd x y x2 m2 m shape v s fl dims mean_sq mean f st,
  expand_std sumc divc mulc subc sqrtc axes kd x y x2 m2 m shape v [] = Some s ->
  (forall v, I 0%nat [v] = Some v) -> (forall a b, I sumc [a; b] = Some (g a b)) ->
  (forall a b, I mulc [a; b] = Some (mul a b)) -> (forall a b, I subc [a; b] = Some (sub a b)) ->
  reduces (List.length shape) axes fl -> axes_distinct (List.length shape) axes ->
  clear H shape [x; y; x2; m2; m] -> std_names_ok H shape (keep (EInt 1) kd fl shape) v ->
  ~ In x [x2; m2; m] -> ~ In y [x2; m2; m] -> NoDup [x2; m2; m] ->
  evals (env_of st) shape = Some dims -> Forall (Z.le 0) dims ->
  (forall o, index_of (keep 1 kd fl dims) o -> let n := Z.of_nat (List.length (contributes kd fl dims o)) in
     I divc [fold_left (fun acc j => g (mul (st x j) (st x j)) acc) (contributes kd fl dims o) 0; n] = Some (mean_sq o) /\
     I divc [fold_left (fun acc j => g (st x j) acc) (contributes kd fl dims o) 0; n] = Some (mean o) /\
     I sqrtc [sub (mean_sq o) (mul (mean o) (mean o))] = Some (f o)) ->
  computes I s (H ++ [x2; m2; m]) y (fun j => j) f (keep 1 kd fl dims) st.
Proof.
  intros I H sumc g divc mulc mul subc sub sqrtc axes kd x y x2 m2 m shape v s fl dims f2 f1 f st Es H0 HI Hm Hs Hr Hdis HC
    (V1 & V2 & V3 & V4 & V5 & V6 & V7 & V8 & V9 & V10 & V11 & V12 & V13 & V14) Hx Hy HN Hd Hp Hf.
  apply computes_of. destruct (norm_axes (List.length shape) axes) as [ax|] eqn:Ea.
  2: { unfold expand_std in Es. rewrite Ea in Es. discriminate. }
  pose proof (reduces_flags _ _ _ _ Ea Hr) as ->.
  apply (std_leg I H [x; y; x2; m2; m] sumc g divc mulc mul subc sub sqrtc ax axes kd x y x2 m2 m shape v s dims f1 f2 f st); auto.
  - eapply norm_axes_nodup; eauto.
  - intros o Ho. apply Hf, box_In, Ho.
  - intros o Ho. apply Hf, box_In, Ho.
  - intros o Ho. apply Hf, box_In, Ho.
Qed.

(* ======================= C42 ======================= *)
(** An interpretation of the scalar operations. *)
Record fpint := { neg : Z -> Z; expf : Z -> Z; add : Z -> Z -> Z; sub : Z -> Z -> Z; mul : Z -> Z -> Z; div : Z -> Z -> Z;
  fma : Z -> Z -> Z -> Z; maxf : Z -> Z -> Z; minf : Z -> Z -> Z }.
Definition interprets (I : nat -> list Z -> option Z) (o : fpops) (F : fpint) : Prop :=
  forall a b,
  I (c_neg o) [a] = Some (neg F a) /\ I (c_exp o) [a] = Some (expf F a) /\ I (c_add o) [a; b] = Some (add F a b) /\
  I (c_sub o) [a; b] = Some (sub F a b) /\ I (c_mul o) [a; b] = Some (mul F a b) /\ I (c_div o) [a; b] = Some (div F a b) /\
  I (c_max o) [a; b] = Some (maxf F a b) /\ I (c_min o) [a; b] = Some (minf F a b).
(** A scalar operation applied to the wrong number of operands has no value (no C code). *)
Definition arity_checked (I : nat -> list Z -> option Z) (o : fpops) : Prop :=
  forall a, I (c_mul o) [a] = None /\ I (c_fma o) [a] = None.

Lemma chain_computes I l x y shape vs dims f st :
  fresh_vars vs shape y (x :: flat_map earg_names (link_args l)) ->
  (forall a, In a (link_args l) -> ~ In y (earg_names a)) -> l <> [] ->
  evals (env_of st) shape = Some dims ->
  (forall j, index_of dims j -> chain_val I (earg_val st j) (st x j) l = Some (f j)) ->
  computes I (only (expand_chain l x y shape vs)) vs y (fun j => j) f dims st.
Proof.
  intros HF Ha Hl Hd Hf. apply computes_intro.
  destruct (chain_run I l x y shape vs dims f st HF Ha Hl Hd) as (st' & R & S).
  - intros j Hj. apply Hf, box_In, Hj.
  - exists st'. split; auto. apply only_seq; auto.
Qed.

Theorem C42_relu : forall I o F x y shape vs dims st, interprets I o F ->
  fresh_vars vs shape y [x] -> evals (env_of st) shape = Some dims ->
  computes I (only (expand_chain (relu_links o) x y shape vs)) vs y (fun j => j) (fun j => maxf F (zero o) (st x j)) dims st.
Proof.
  intros I o F x y shape vs dims st HI HF Hd. apply chain_computes; auto.
  - intros a [<-|[]] [].
  - discriminate.
  - intros j _. cbn. destruct (HI (zero o) (st x j)) as (_ & _ & _ & _ & _ & _ & -> & _). auto.
Qed.
(** 1 / (1 + exp (-x)), in place too. *)
Theorem C42_sigmoid : forall I o F x y shape vs dims st, interprets I o F ->
  fresh_vars vs shape y [x] -> evals (env_of st) shape = Some dims ->
  computes I (only (expand_chain (sigmoid_links o) x y shape vs)) vs y (fun j => j)
    (fun j => div F (one o) (add F (one o) (expf F (neg F (st x j))))) dims st.
Proof.
  intros I o F x y shape vs dims st HI HF Hd. apply chain_computes; auto.
  - intros a [<-|[<-|[]]] [].
  - discriminate.
  - intros j _. cbn [sigmoid_links chain_val map earg_val].
    rewrite (proj1 (HI (st x j) 0)). rewrite (proj1 (proj2 (HI (neg F (st x j)) 0))).
    destruct (HI (one o) (expf F (neg F (st x j)))) as (_ & _ & -> & _).
    destruct (HI (one o) (add F (one o) (expf F (neg F (st x j))))) as (_ & _ & _ & _ & _ & -> & _). auto.
Qed.
(** ELU: alpha (exp x - 1) below 0 and x above: only the first branch is
    there (with alpha = 1). *)
Definition elu (o : fpops) (F : fpint) (pos : Z -> bool) (x : Z) : Z := if pos x then x else mul F (sub F (expf F x) (one o)) (one o).
Definition C42_elu_full : Prop := forall I o F pos x y shape vs dims st, interprets I o F ->
  fresh_vars vs shape y [x] -> evals (env_of st) shape = Some dims ->
  computes I (only (expand_chain (elu_links o) x y shape vs)) vs y (fun j => j) (fun j => elu o F pos (st x j)) dims st.
Theorem C42_elu_partial : forall I o F pos x y shape vs dims st, interprets I o F ->
  fresh_vars vs shape y [x] -> evals (env_of st) shape = Some dims ->
  (forall j, index_of dims j -> pos (st x j) = false) ->
  computes I (only (expand_chain (elu_links o) x y shape vs)) vs y (fun j => j) (fun j => elu o F pos (st x j)) dims st.
Proof.
  intros I o F pos x y shape vs dims st HI HF Hd Hn. apply chain_computes; auto.
  - intros a [<-|[<-|[]]] [].
  - discriminate.
  - intros j Hj. cbn [elu_links chain_val map earg_val]. unfold elu. rewrite (Hn j Hj).
    rewrite (proj1 (proj2 (HI (st x j) 0))).
    destruct (HI (expf F (st x j)) (one o)) as (_ & _ & _ & -> & _).
    destruct (HI (sub F (expf F (st x j)) (one o)) (one o)) as (_ & _ & _ & _ & -> & _). auto.
Qed.
(** Whatever the arithmetic, the positive branch is wrong wherever
    (exp x - 1) * 1 differs from x. *)
Theorem C42_elu_positive_refuted : forall I o F pos x y shape vs dims st j, interprets I o F ->
  fresh_vars vs shape y [x] -> evals (env_of st) shape = Some dims -> index_of dims j ->
  pos (st x j) = true -> mul F (sub F (expf F (st x j)) (one o)) (one o) <> st x j ->
  ~ computes I (only (expand_chain (elu_links o) x y shape vs)) vs y (fun j => j) (fun j => elu o F pos (st x j)) dims st.
Proof.
  intros I o F pos x y shape vs dims st j HI HF Hd Hj Hp Hne [[oc [st' R]] C].
  destruct (C _ _ R) as (_ & V & _). specialize (V j Hj).
  assert (K : computes I (only (expand_chain (elu_links o) x y shape vs)) vs y (fun j => j)
     (fun j => mul F (sub F (expf F (st x j)) (one o)) (one o)) dims st).
  { apply chain_computes; auto.
    - intros a [<-|[<-|[]]] [].
    - discriminate.
    - intros i _. cbn [elu_links chain_val map earg_val].
      rewrite (proj1 (proj2 (HI (st x i) 0))).
      destruct (HI (expf F (st x i)) (one o)) as (_ & _ & _ & -> & _).
      destruct (HI (sub F (expf F (st x i)) (one o)) (one o)) as (_ & _ & _ & _ & -> & _). auto. }
  destruct K as [_ K]. destruct (K _ _ R) as (_ & V2 & _). specialize (V2 j Hj).
  unfold elu in V. rewrite Hp in V. congruence.
Qed.
Lemma stuck_single I b st : exec_block I st b = None -> forall o st', ~ runs I (only (NSeq (single b))) st o st'.
Proof.
  intros E o st' R. unfold only in R.
  assert (K : forall o s, ~ run I (NSeq (single b)) st o s).
  { intros o1 s1 R1. inversion R1 as [|? ? ? ? Rs| | | | | |]; subst. unfold single in Rs.
    inversion Rs as [|? ? ? ? ? ? ? ? Rb|? ? ? ? ? ? Rb]; subst; inversion Rb; subst; congruence. }
  inversion R; subst; eapply K; eauto.
Qed.
(** Leaky ReLU and hard sigmoid: an operand of a scalar operation is missing, so
    the expansion has no execution at all (shown for a rank 0 tensor). *)
Theorem C42_leaky_relu_refuted : forall I o F x y st, interprets I o F -> arity_checked I o ->
  forall oc st', ~ runs I (only (expand_chain (leaky_relu_links o) x y [] [])) st oc st'.
Proof.
  intros I o F x y st HI HA oc st'. apply stuck_single.
  unfold chain_body, leaky_relu_links. cbn [exec_block]. unfold exec_op at 1.
  cbn [o_ins o_code o_out o_sub map carg_in earg_in reads_in read_in syms evals].
  destruct (HI (st x []) (zero o)) as (_ & _ & _ & _ & _ & _ & -> & _).
  cbn [exec_block]. unfold exec_op. cbn [o_ins o_code o_out o_sub map carg_in earg_in reads_in read_in syms evals].
  rewrite (proj1 (HA _)). auto.
Qed.
Theorem C42_hard_sigmoid_refuted : forall I o x y st, arity_checked I o ->
  forall oc st', ~ runs I (only (expand_chain (hard_sigmoid_links o) x y [] [])) st oc st'.
Proof.
  intros I o x y st HA oc st'. apply stuck_single.
  unfold chain_body, hard_sigmoid_links. cbn [exec_block]. unfold exec_op at 1.
  cbn [o_ins o_code o_out o_sub map carg_in earg_in reads_in read_in syms evals].
  rewrite (proj2 (HA _)). auto.
Qed.

(** Softmax over a set of axes: exp (x - max) / sum of the same, max and sum over
    the elements that agree on the other coordinates; in place too. *)
Definition softmax_names_ok (H : list string) (shape rs : list expr) (v : sm_vars) : Prop :=
  lv H shape (mv_max v) /\ lv H rs (mv_maxw v) /\ lv H shape (mv_b1 v) /\ lv H shape (mv_sub v) /\ lv H shape (mv_exp v) /\
  lv H shape (mv_sum v) /\ lv H rs (mv_sumw v) /\ lv H shape (mv_b2 v) /\ lv H shape (mv_div v).
Definition peers (fl : list bool) (dims j : list Z) : list (list Z) :=
  filter (fun i => idx_eqb (keep 0 true fl i) (keep 0 true fl j)) (box dims).
Theorem C42_softmax_partial : forall I H maxc gmax subc subf expc ex0 sumc g divc lowest axes x y mx mxb sb ex sm smb shape v s fl dims f st,
  expand_softmax maxc subc expc sumc divc lowest axes x y mx mxb sb ex sm smb shape v [] = Some s ->
  (forall v, I 0%nat [v] = Some v) -> (forall a b, I maxc [a; b] = Some (gmax a b)) -> (forall a b, I sumc [a; b] = Some (g a b)) ->
  (forall a b, I subc [a; b] = Some (subf a b)) -> (forall a, I expc [a] = Some (ex0 a)) ->
  reduces (List.length shape) axes fl ->
  clear H shape [x; y; mx; mxb; sb; ex; sm; smb] -> softmax_names_ok H shape (keep (EInt 1) true fl shape) v ->
  ~ In x [mx; mxb; sb; ex; sm; smb] -> ~ In y [mx; mxb; sb; ex; sm; smb] -> NoDup [mx; mxb; sb; ex; sm; smb] ->
  evals (env_of st) shape = Some dims ->
  let top j := fold_left (fun acc i => gmax (st x i) acc) (peers fl dims j) lowest in
  let e j := ex0 (subf (st x j) (top j)) in
  (forall j, index_of dims j -> I divc [e j; fold_left (fun acc i => g (e i) acc) (peers fl dims j) 0] = Some (f j)) ->
  computes I s (H ++ [mx; mxb; sb; ex; sm; smb]) y (fun j => j) f dims st.
Proof.
  intros I H maxc gmax subc subf expc ex0 sumc g divc lowest axes x y mx mxb sb ex sm smb shape v s fl dims f st Es H0 Hm Hs Hb He Hr HC
    (V1 & V2 & V3 & V4 & V5 & V6 & V7 & V8 & V9) Hx Hy HN Hd top e Hf.
  apply computes_of. destruct (norm_axes (List.length shape) axes) as [ax|] eqn:Ea.
  2: { unfold expand_softmax in Es. rewrite Ea in Es. discriminate. }
  pose proof (reduces_flags _ _ _ _ Ea Hr) as ->.
  apply (softmax_leg I H [x; y; mx; mxb; sb; ex; sm; smb] maxc gmax subc subf expc ex0 sumc g divc lowest ax axes x y mx mxb sb ex sm smb shape v [] s dims f st); auto.
  intros j Hj. apply Hf, box_In, Hj.
Qed.

(** Not covered by the cells of the model: in memory the max and sum buffers
    overflow.  They are allocated with as many elements as the reduced shape
    has, but addressed with the strides of the full shape; for every rows x
    cols softmax over the last axis with at least 2 x 2 elements the last row's
    maximum lies outside the buffer. *)
Theorem C42_softmax_buffer_refuted : forall rows cols, 2 <= rows -> 2 <= cols ->
  let dims := [rows; cols] in let fl := [false; true] in
  exists o, index_of (keep 1 true fl dims) o /\ offset (row_major dims) o >= softmax_alloc fl dims.
Proof.
  intros rows cols Hr Hc. exists [rows - 1; 0]. split.
  - cbn. repeat constructor; lia.
  - unfold offset, softmax_alloc, prodz. cbn. nia.
Qed.
Definition FI : fpint := {| neg := Z.opp; expf := fun x => x * x; add := Z.add; sub := Z.sub; mul := Z.mul;
  div := fun a b => if b =? 0 then 0 else Z.quot a b; fma := fun a b c => a * b + c; maxf := Z.max; minf := Z.min |}.
Definition fo : fpops := {| c_neg := 1; c_exp := 2; c_add := 3; c_sub := 4; c_mul := 5; c_div := 6; c_fma := 7; c_max := 8; c_min := 9;
  zero := 0; one := 1 |}.
Definition Ifp (c : nat) (l : list Z) : option Z :=
  match c, l with
  | 0%nat, [a] => Some a | 1%nat, [a] => Some (- a) | 2%nat, [a] => Some (a * a) | 3%nat, [a; b] => Some (a + b) | 4%nat, [a; b] => Some (a - b)
  | 5%nat, [a; b] => Some (a * b) | 6%nat, [a; b] => Some (if b =? 0 then 0 else Z.quot a b) | 7%nat, [a; b; c] => Some (a * b + c)
  | 8%nat, [a; b] => Some (Z.max a b) | 9%nat, [a; b] => Some (Z.min a b) | _, _ => None end.
Theorem C42_nonvacuous : interprets Ifp fo FI /\ arity_checked Ifp fo /\ fresh_vars ["i"] [EInt 3] "X" ["X"] /\
  evals (env_of row) [EInt 3] = Some [3] /\ index_of [3] [2] /\ (0 <? row "X" [2]) = true /\
  mul FI (sub FI (expf FI (row "X" [2])) (one fo)) (one fo) <> row "X" [2] /\
  (exists s, expand_softmax 8 4 2 3 6 (-99) [-1] "X" "X" "mx" "mb" "sb" "ex" "sm" "sc" [EInt 2; EInt 3]
    {| mv_max := ["i"; "j"]; mv_maxw := ["i"; "j"]; mv_b1 := ["i"; "j"]; mv_sub := ["i"; "j"]; mv_exp := ["i"; "j"];
       mv_sum := ["i"; "j"]; mv_sumw := ["i"; "j"]; mv_b2 := ["i"; "j"]; mv_div := ["i"; "j"] |} [] = Some s) /\
  clear ["i"; "j"] [EInt 2; EInt 3] ["X"; "X"; "mx"; "mb"; "sb"; "ex"; "sm"; "sc"] /\
  peers [false; true] [2; 3] [1; 1] = [[1; 0]; [1; 1]; [1; 2]].
Proof.
  split; [intros a b; repeat split; reflexivity|]. split; [intros a; split; reflexivity|].
  split; [fresh_tac|]. split; [reflexivity|]. split; [repeat constructor; lia|]. split; [reflexivity|].
  split; [vm_compute; discriminate|]. split; [eexists; reflexivity|]. split; [|vm_compute; reflexivity].
  split.
  - intros z Hz K. cbn in *. intuition congruence.
  - intros e z [<-|[<-|[]]] [].
Qed.

(* ======================= C43 ======================= *)
(** The meaning of a block that holds one elementwise node: the whole tensor is
    computed from the old store. *)
Definition put (y : string) (dims : list Z) (f : list Z -> Z) (st : store) : store :=
  fun z k => if String.eqb z y && existsb (idx_eqb k) (box dims) then f k else st z k.
(** The assignments of the block still run, once, after the operation. *)
Theorem C43_assignments_partial : forall I code args y shape vs dims f tr st st1,
  fresh_vars vs shape y (flat_map earg_names args) -> (forall x, In (AScalar x) args -> x <> y) ->
  evals (env_of st) shape = Some dims ->
  (forall j, index_of dims j -> I code (map (earg_val st j) args) = Some (f j)) ->
  (forall x, In x (asg_reads tr) -> ~ In x vs) ->
  exec_assigns (put y dims f st) tr = Some st1 ->
  (exists o st', runs I (replace_elementwise [] code args y shape vs tr) st o st') /\
  forall o st', runs I (replace_elementwise [] code args y shape vs tr) st o st' ->
    o = ONorm /\ forall z k, ~ In z vs -> st' z k = st1 z k.
Proof.
  intros I code args y shape vs dims f tr st st1 HF Hs Hd Hf Htr Et.
  destruct (elementwise_run I code args y shape vs dims f st HF Hs Hd) as (sm & R & S1 & S2).
  { intros j Hj. apply Hf, box_In, Hj. }
  assert (E : eqx (fun z => In z vs) (put y dims f st) sm).
  { intros z Hz k. unfold put. destruct (String.eqb_spec z y) as [->|Hn]; cbn [andb].
    - destruct (existsb (idx_eqb k) (box dims)) eqn:Ek.
      + apply existsb_exists in Ek as (j & Hj & Ej). apply idx_eqb_eq in Ej. subst j. symmetry. apply S1; auto.
      + symmetry. apply S2; auto. right. intros j Hj ->. assert (existsb (idx_eqb j) (box dims) = true).
        { apply existsb_exists. exists j. split; auto. apply idx_eqb_eq. auto. }
        congruence.
    - symmetry. apply S2; auto. }
  destruct (exec_assigns_eqx (fun z => In z vs) tr _ _ _ E Htr Et) as (s2 & Es & E2).
  assert (R2 : runs I (replace_elementwise [] code args y shape vs tr) st ONorm s2).
  { apply R_cons with (st1 := sm) (st2 := s2); [apply R_seq; auto|auto|apply R_nil]. }
  split; [exists ONorm, s2; auto|]. intros o st' R3. destruct (runs_det I _ _ _ _ _ _ R2 R3) as [<- <-]. split; auto.
  intros z k Hz. symmetry. apply E2; auto.
Qed.
(** Full claim: also what the block does besides the node ([others], independent
    of it) survives, and every kind of node keeps the assignments. *)
Definition C43_others_full : Prop := forall I others code args y shape vs dims f st s1 o st',
  fresh_vars vs shape y (flat_map earg_names args) -> (forall x, In (AScalar x) args -> x <> y) ->
  evals (env_of st) shape = Some dims ->
  (forall j, index_of dims j -> I code (map (earg_val st j) args) = Some (f j)) ->
  exec_block I (put y dims f st) others = Some s1 ->
  runs I (replace_elementwise others code args y shape vs []) st o st' ->
  forall z k, ~ In z vs -> st' z k = s1 z k.
Theorem C43_other_nodes_refuted : ~ C43_others_full.
Proof.
  intros F.
  set (others := [{| o_code := 0; o_ins := [OConst 7]; o_out := "B"; o_sub := [] |}]).
  set (p := replace_elementwise others 0 [AConst 1] "A" [] [] []).
  destruct (xseq Icopy 20 p row) as [[o st']|] eqn:E.
  2: { revert E. vm_compute. discriminate. }
  assert (V : match xseq Icopy 20 p row with Some (_, s) => s "B" [] = 0 | _ => False end) by (vm_compute; reflexivity).
  rewrite E in V. apply xseq_runs in E.
  destruct (exec_block Icopy (put "A" [] (fun _ => 1) row) others) as [s1|] eqn:Eb.
  2: { revert Eb. vm_compute. discriminate. }
  assert (V1 : match exec_block Icopy (put "A" [] (fun _ => 1) row) others with Some s => s "B" [] = 7 | _ => False end)
    by (vm_compute; reflexivity).
  rewrite Eb in V1.
  assert (K : st' "B" [] = s1 "B" []).
  { apply (F Icopy others 0%nat [AConst 1] "A" [] [] [] (fun _ => 1) row s1 o st'); auto; try (intros ? []; fail).
    - repeat split; cbn; auto using NoDup_nil; intros; contradiction.
    - intros x [K|[]]; discriminate. }
  congruence.
Qed.
Definition C43_broadcast_full : Prop := forall I scalar x y in_shape shape vs tr st sb s1 o st',
  (forall v, I 0%nat [v] = Some v) ->
  fresh_vars vs shape y [x] -> x <> y -> (forall z, In z (asg_reads tr) -> ~ In z vs) ->
  runs I (expand_broadcast scalar x y in_shape shape vs) st ONorm sb -> exec_assigns sb tr = Some s1 ->
  runs I (replace_broadcast [] scalar x y in_shape shape vs tr) st o st' ->
  forall z k, ~ In z vs -> st' z k = s1 z k.
Theorem C43_broadcast_assignments_refuted : ~ C43_broadcast_full.
Proof.
  intros F. set (p := expand_broadcast true "X" "Y" [] [EInt 2] ["i"]).
  destruct (xseq Icopy 40 p row) as [[o sb]|] eqn:E.
  2: { revert E. vm_compute. discriminate. }
  assert (V : match xseq Icopy 40 p row with Some (ONorm, s) => s "n" [] = 0 | _ => False end) by (vm_compute; reflexivity).
  rewrite E in V. destruct o; try contradiction. apply xseq_runs in E.
  assert (K : sb "n" [] = wr sb "n" [] 5 "n" []).
  { apply (F Icopy true "X" "Y" [] [EInt 2] ["i"] [("n", EInt 5)] row sb (wr sb "n" [] 5) ONorm sb); auto.
    - fresh_tac.
    - discriminate.
    - intros K. cbn in K. intuition congruence. }
  rewrite wr_same in K. congruence.
Qed.
(** Softmax drops the assignments too. *)
Theorem C43_softmax_assignments_refuted : exists s st',
  expand_softmax 8 4 2 3 6 (-99) [0] "X" "Y" "mx" "mb" "sb" "ex" "sm" "sc" [EInt 2]
    {| mv_max := ["i"]; mv_maxw := ["i"]; mv_b1 := ["i"]; mv_sub := ["i"]; mv_exp := ["i"];
       mv_sum := ["i"]; mv_sumw := ["i"]; mv_b2 := ["i"]; mv_div := ["i"] |} [("n", EInt 5)] = Some s /\
  runs Ifp s row ONorm st' /\ st' "n" [] <> 5.
Proof.
  destruct (expand_softmax 8 4 2 3 6 (-99) [0] "X" "Y" "mx" "mb" "sb" "ex" "sm" "sc" [EInt 2]
    {| mv_max := ["i"]; mv_maxw := ["i"]; mv_b1 := ["i"]; mv_sub := ["i"]; mv_exp := ["i"];
       mv_sum := ["i"]; mv_sumw := ["i"]; mv_b2 := ["i"]; mv_div := ["i"] |} [("n", EInt 5)]) as [s|] eqn:Es; [|discriminate].
  assert (V : match xseq Ifp 60 s row with Some (ONorm, s) => s "n" [] = 0 | _ => False end).
  { vm_compute in Es. injection Es as <-. vm_compute. reflexivity. }
  destruct (xseq Ifp 60 s row) as [[o st']|] eqn:E; [|contradiction].
  destruct o; try contradiction. exists s, st'. split; auto. split; [eapply xseq_runs; eauto|]. lia.
Qed.
Theorem C43_nonvacuous : exists st1,
  fresh_vars ["i"] [EInt 2] "A" ["A"] /\ exec_assigns (put "A" [2] (fun _ => 4) row) [("n", ESym "m"); ("m", EInt 3)] = Some st1 /\
  (forall x, In x (asg_reads [("n", ESym "m"); ("m", EInt 3)]) -> ~ In x ["i"]) /\ st1 "A" [1] = 4 /\ st1 "m" [] = 3.
Proof.
  eexists. split; [fresh_tac|]. split; [reflexivity|]. split.
  - intros x Hx K. cbn in *. intuition congruence.
  - split; reflexivity.
Qed.
