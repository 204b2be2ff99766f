(** C40 (elementwise, fill, cast, transpose, broadcast), C41 (reductions),
    C42 (activation functions), C43 (the rest of the program). *)
From Coq Require Import Permutation.
From Verif Require Import Tensor TensorProofs TensorProofs2 TensorProofs3 SymFacts SymProofs1.
Open Scope string_scope.
Open Scope Z_scope.
Import ListNotations.

(* ------------------------------------------------------------------ *)
(** Specification. *)

(** [j] is an index of a tensor with dimensions [dims]. *)
Definition index_of (dims j : list Z) : Prop := Forall2 (fun d v => 0 <= v < d) dims j.

(** Running [p] from [st] always ends normally; then the cell [y[w]] holds [f j]
    for every (written) cell [w = g j] with [j] an index of [dims], and every
    other cell of every container but the helper variables [hid] is unchanged. *)
Definition computes (I : nat -> list Z -> option Z) (p : seq) (hid : list string) (y : string)
    (g : list Z -> list Z) (f : list Z -> Z) (dims : list Z) (st : store) : Prop :=
  (exists o st', runs I p st o st') /\
  forall o st', runs I p st o st' ->
    o = ONorm /\
    (forall j, index_of dims j -> st' y (g j) = f j) /\
    (forall z k, ~ In z hid -> (z <> y \/ (forall j, index_of dims j -> k <> g j)) -> st' z k = st z k).
Definition only (n : node) : seq := SCons n [] SNil.

(** The new loop variables are distinct, one per dimension, and occur nowhere
    in the node; the node does not overwrite the symbols of its own shape. *)
Definition fresh_vars (vs : list string) (shape : list expr) (y : string) (ins : list string) : Prop :=
  NoDup vs /\ List.length vs = List.length shape /\ ~ In y vs /\ (forall x, In x ins -> ~ In x vs) /\
  (forall e x, In e shape -> In x (atoms e) -> x <> y /\ ~ In x vs).

Lemma computes_intro I p hid y g f dims st :
  (exists st', runs I p st ONorm st' /\ scattered hid y g f st (box dims) st') -> computes I p hid y g f dims st.
Proof.
  intros (st' & R & S1 & S2). split; [exists ONorm, st'; auto|].
  intros o s2 R2. destruct (runs_det I _ _ _ _ _ _ R R2) as [<- <-]. split; [auto|]. split.
  - intros j Hj. apply S1, box_In, Hj.
  - intros z k Hz K. apply S2; auto. destruct K as [K|K]; [auto|]. right. intros j Hj. apply K, box_In, Hj.
Qed.
Lemma only_seq I s st st' : runs I s st ONorm st' -> runs I (only (NSeq s)) st ONorm st'.
Proof.
  intros R. apply R_cons with (st1 := st') (st2 := st'); [apply R_seq; auto|reflexivity|apply R_nil].
Qed.

(* ======================= C40 ======================= *)
(** Elementwise node (unary, binary, n-ary; also fill and cast with the copying
    op-code): the result element at every index is the op-code applied to the
    operand elements at that index, read before the operation -- in place too. *)
Theorem C40_elementwise : forall I code args y shape vs dims f st,
  fresh_vars vs shape y (flat_map earg_names args) ->
  (forall x, In (AScalar x) args -> x <> y) ->
  evals (env_of st) shape = Some dims ->
  (forall j, index_of dims j -> I code (map (earg_val st j) args) = Some (f j)) ->
  computes I (only (expand_elementwise code args y shape vs)) vs y (fun j => j) f dims st.
Proof.
  intros I code args y shape vs dims f st HF Hs Hd Hf. apply computes_intro.
  destruct (elementwise_run I code args y shape vs dims f st HF Hs Hd) as (st' & R & S).
  - intros j Hj. apply Hf, box_In, Hj.
  - exists st'. split; auto. apply only_seq; auto.
Qed.

(** Transpose: out[perm j] = in[j] for every input index, for every permutation. *)
Theorem C40_transpose_partial : forall I perm x y shape vs dims st,
  (forall v, I 0%nat [v] = Some v) ->
  fresh_vars vs shape y [x] -> x <> y ->
  Permutation perm (List.seq 0 (List.length shape)) ->
  evals (env_of st) shape = Some dims ->
  computes I (only (expand_transpose perm x y shape vs)) vs y (permute 0 perm) (fun j => st x j) dims st.
Proof.
  intros I perm x y shape vs dims st H0 HF Hxy HP Hd. apply computes_intro.
  destruct (transpose_run I perm x y shape vs dims st H0 HF Hxy HP Hd) as (st' & R & S).
  exists st'. split; auto. apply only_seq; auto.
Qed.
(** The default permutation reverses the index. *)
Theorem C40_transpose_default : forall I x y shape vs dims st,
  (forall v, I 0%nat [v] = Some v) ->
  fresh_vars vs shape y [x] -> x <> y -> evals (env_of st) shape = Some dims ->
  forall o st', runs I (only (expand_transpose (default_perm (List.length shape)) x y shape vs)) st o st' ->
  forall j, index_of dims j -> st' y (rev j) = st x j.
Proof.
  intros I x y shape vs dims st H0 HF Hxy Hd o st' R j Hj.
  destruct (C40_transpose_partial I (default_perm (List.length shape)) x y shape vs dims st) as [_ C]; auto using default_perm_rev.
  destruct (C o st' R) as (_ & V & _). rewrite <- (V j Hj).
  assert (L : List.length shape = List.length j).
  { rewrite <- (evals_length _ _ _ Hd). clear -Hj. induction Hj; cbn; auto. }
  rewrite L, permute_default. auto.
Qed.
(** Full claim without [x <> y]: validate() accepts a transpose onto its own
    input, and the expansion then overwrites elements it still has to read. *)
Definition sq : store := fun x j => if String.eqb x "A" then match j with [a; b] => 10 * a + b | _ => 0 end else 0.
Definition Icopy (c : nat) (l : list Z) : option Z := match c, l with O, [v] => Some v | _, _ => None end.
Theorem C40_transpose_in_place_refuted :
  exists st', runs Icopy (only (expand_transpose [1; 0]%nat "A" "A" [EInt 2; EInt 2] ["i"; "j"])) sq ONorm st' /\
    index_of [2; 2] [0; 1] /\ st' "A" (permute 0 [1; 0]%nat [1; 0]) <> sq "A" [1; 0].
Proof.
  destruct (xseq Icopy 60 (only (expand_transpose [1; 0]%nat "A" "A" [EInt 2; EInt 2] ["i"; "j"])) sq) as [[o st']|] eqn:E.
  2: { exfalso. revert E. vm_compute. discriminate. }
  assert (Ho : o = ONorm /\ st' "A" [0; 1] = 1).
  { assert (K : match xseq Icopy 60 (only (expand_transpose [1; 0]%nat "A" "A" [EInt 2; EInt 2] ["i"; "j"])) sq with
                | Some (ONorm, s) => s "A" [0; 1] = 1 | _ => False end) by (vm_compute; reflexivity).
    rewrite E in K. destruct o; auto; contradiction. }
  destruct Ho as [-> Ho]. exists st'. split; [|split].
  - eapply xseq_runs; eauto.
  - repeat (apply Forall2_cons; [lia|]). apply Forall2_nil.
  - cbn. rewrite Ho. cbn. lia.
Qed.

(** NumPy broadcasting: dimensions are matched from the right; an input
    dimension of size 1 is repeated. *)
Definition np_index (in_dims j : list Z) : list Z :=
  map (fun p => if fst p =? 1 then 0 else snd p) (combine in_dims (skipn (List.length j - List.length in_dims) j)).
Definition broadcastable (in_dims out_dims : list Z) : Prop :=
  (List.length in_dims <= List.length out_dims)%nat /\
  Forall2 (fun a b => a = b \/ a = 1) in_dims (skipn (List.length out_dims - List.length in_dims) out_dims).
Definition C40_broadcast_full : Prop := forall I x y in_shape shape vs in_dims dims st,
  (forall v, I 0%nat [v] = Some v) ->
  fresh_vars vs shape y [x] -> x <> y ->
  evals (env_of st) in_shape = Some in_dims -> evals (env_of st) shape = Some dims -> broadcastable in_dims dims ->
  computes I (expand_broadcast false x y in_shape shape vs) vs y (fun j => j) (fun j => st x (np_index in_dims j)) dims st.

(** Proved: equal ranks, and every repeated dimension is the literal 1. *)
Theorem C40_broadcast_partial : forall I x y in_shape shape vs in_dims dims st,
  (forall v, I 0%nat [v] = Some v) ->
  fresh_vars vs shape y [x] -> x <> y ->
  evals (env_of st) in_shape = Some in_dims -> evals (env_of st) shape = Some dims ->
  List.length in_shape = List.length shape ->
  Forall2 (fun e b => e = EInt 1 \/ eval (env_of st) e = Some b) in_shape dims ->
  computes I (expand_broadcast false x y in_shape shape vs) vs y (fun j => j) (fun j => st x (np_index in_dims j)) dims st.
Proof.
  intros I x y in_shape shape vs in_dims dims st H0 HF Hxy Hi Hd HL HB. apply computes_intro.
  destruct (broadcast_run I false x y in_shape shape vs dims st H0 HF Hxy Hd) as (st' & R & S1 & S2).
  exists st'. split; auto. split; auto. intros j Hj. rewrite S1 by auto. f_equal.
  assert (Lj : List.length j = List.length in_dims).
  { rewrite (box_length _ _ Hj), (evals_length _ _ _ Hd), (evals_length _ _ _ Hi). auto. }
  unfold np_index. rewrite Lj, Nat.sub_diag. cbn [skipn].
  apply box_In in Hj. clear -Hi HB Hj. revert in_dims Hi j Hj.
  induction HB as [|e b in_shape dims He HB IH]; intros in_dims Hi j Hj.
  - injection Hi as <-. inversion Hj; auto.
  - inversion Hj as [|? v ? j' Hv Hj']; subst. cbn in Hi.
    destruct (eval (env_of st) e) as [a|] eqn:Ea; [|discriminate].
    destruct (evals (env_of st) in_shape) as [r|] eqn:Er; [|discriminate].
    injection Hi as <-. cbn [bcast_idx combine map fst snd]. rewrite (IH r eq_refl j' Hj'). f_equal.
    destruct (expr_eqb e (EInt 1)) eqn:E1.
    + apply expr_eqb_eq in E1. subst e. cbn in Ea. injection Ea as <-. auto.
    + destruct He as [->|He]; [discriminate|]. injection He as ->.
      destruct (Z.eqb_spec b 1); lia.
Qed.
Lemma refute_computes I p hid y f dims st fuel j v :
  match xseq I fuel p st with Some (ONorm, s) => s y j = v | _ => False end ->
  index_of dims j -> v <> f j -> ~ computes I p hid y (fun j => j) f dims st.
Proof.
  intros K Hj Hv [_ C]. destruct (xseq I fuel p st) as [[o s]|] eqn:E; [|contradiction].
  destruct o; try contradiction. apply xseq_runs in E. destruct (C _ _ E) as (_ & V & _).
  specialize (V j Hj). cbn in V. congruence.
Qed.
(** A row vector of 3 broadcast to 2 x 3 is indexed by the row instead of the column. *)
Definition vec : store := fun x j => if String.eqb x "X" then match j with [a] => a + 1 | _ => 0 end
  else if String.eqb x "n" then 1 else 0.
Ltac sidec := repeat match goal with
  | |- NoDup _ => repeat constructor; cbn; intuition congruence
  | |- ~ In _ _ => cbn; intuition congruence
  | |- _ => idtac end.
Lemma fresh_dec vs shape y ins : NoDup vs -> List.length vs = List.length shape -> ~ In y vs ->
  Forall (fun x => ~ In x vs) ins -> Forall (fun e => Forall (fun x => x <> y /\ ~ In x vs) (atoms e)) shape ->
  fresh_vars vs shape y ins.
Proof.
  intros A B C D E. rewrite Forall_forall in D, E. repeat split; auto; intros.
  - specialize (E e H). rewrite Forall_forall in E. apply E; auto.
  - specialize (E e H). rewrite Forall_forall in E. apply E; auto.
Qed.
Ltac fresh_tac := apply fresh_dec; [repeat constructor; cbn; intuition congruence | reflexivity | cbn; intuition congruence
  | repeat constructor; cbn; intuition congruence | repeat constructor; cbn; intuition congruence].
Theorem C40_broadcast_rank_refuted : ~ C40_broadcast_full.
Proof.
  intros H.
  assert (C : computes Icopy (expand_broadcast false "X" "Y" [EInt 3] [EInt 2; EInt 3] ["i"; "j"]) ["i"; "j"] "Y"
    (fun j => j) (fun j => vec "X" (np_index [3] j)) [2; 3] vec).
  { apply H; auto; try reflexivity; try discriminate; [fresh_tac|].
    split; [cbn; lia|]. cbn. apply Forall2_cons; [auto|apply Forall2_nil]. }
  revert C. apply refute_computes with (fuel := 80%nat) (j := [0; 2]) (v := 1).
  - vm_compute. reflexivity.
  - repeat (apply Forall2_cons; [lia|]). apply Forall2_nil.
  - cbn. lia.
Qed.
(** A symbolic dimension that is 1 at run time is not repeated. *)
Theorem C40_broadcast_symbolic_refuted : ~ C40_broadcast_full.
Proof.
  intros H.
  assert (C : computes Icopy (expand_broadcast false "X" "Y" [ESym "n"] [EInt 3] ["i"]) ["i"] "Y"
    (fun j => j) (fun j => vec "X" (np_index [1] j)) [3] vec).
  { apply H; auto; try reflexivity; try discriminate; [fresh_tac|].
    split; [cbn; lia|]. cbn. apply Forall2_cons; [auto|apply Forall2_nil]. }
  revert C. apply refute_computes with (fuel := 80%nat) (j := [2]) (v := 3).
  - vm_compute. reflexivity.
  - repeat (apply Forall2_cons; [lia|]). apply Forall2_nil.
  - cbn. lia.
Qed.
(** A broadcast scalar: rank 0 input. *)
Theorem C40_broadcast_scalar : forall I x y in_shape shape vs dims st,
  (forall v, I 0%nat [v] = Some v) ->
  fresh_vars vs shape y [x] -> x <> y -> evals (env_of st) shape = Some dims ->
  computes I (expand_broadcast true x y in_shape shape vs) vs y (fun j => j) (fun _ => st x []) dims st.
Proof.
  intros I x y in_shape shape vs dims st H0 HF Hxy Hd. apply computes_intro.
  apply (broadcast_run I true x y in_shape shape vs dims st H0 HF Hxy Hd).
Qed.

(** A concrete 2 x 3 addition with a symbolic dimension meets the hypotheses. *)
Definition Iarith (c : nat) (l : list Z) : option Z :=
  match c, l with O, [v] => Some v | 1%nat, [a; b] => Some (a + b) | 2%nat, [a; b] => if b =? 0 then None else Some (Z.quot a b)
  | 3%nat, [a; b] => Some (Z.max a b) | _, _ => None end.
Theorem C40_nonvacuous : exists f,
  computes Iarith (only (expand_elementwise 1 [ATensor "X"; AScalar "n"] "X" [EInt 2; sadd (ESym "n") (EInt 2)] ["i"; "j"]))
    ["i"; "j"] "X" (fun j => j) f [2; 3] vec /\ f [1; 2] = 1.
Proof.
  exists (fun j => vec "X" j + 1). split; [|reflexivity].
  apply C40_elementwise; try reflexivity.
  - fresh_tac.
  - intros x [K|[K|[]]]; [discriminate|]. injection K as <-. discriminate.
Qed.

(* ======================= C41 ======================= *)
(** The input indices that contribute to output index [o], in row-major order:
    [drop] removes the reduced dimensions (or sets them to 0). *)
Definition is_reduced (rank : nat) (axes : list Z) (i : nat) : Prop :=
  exists a, In a axes /\ (Z.of_nat i = a \/ Z.of_nat i = Z.of_nat rank + a).
Definition axes_valid (rank : nat) (axes : list Z) : Prop :=
  forall a, In a axes -> - Z.of_nat rank <= a < Z.of_nat rank.
Definition contributes (kd : bool) (fl : list bool) (dims o : list Z) : list (list Z) :=
  filter (fun j => idx_eqb (keep 0 kd fl j) o) (box dims).

Lemma norm_axes_spec rank axes ax : norm_axes rank axes = Some ax ->
  axes_valid rank axes /\ (forall i, (i < rank)%nat -> (existsb (Nat.eqb i) ax = true <-> is_reduced rank axes i)).
Proof.
  revert ax. induction axes as [|a axes IH]; intros ax H; cbn in H.
  - injection H as <-. split; [intros a []|]. intros i _. cbn. split; [discriminate|]. intros (a & [] & _).
  - destruct (norm_axis rank a) as [x|] eqn:Ea; [|discriminate].
    destruct (norm_axes rank axes) as [r|]; [|discriminate]. injection H as <-.
    destruct (IH r eq_refl) as [V S]. unfold norm_axis in Ea.
    assert (Hx : - Z.of_nat rank <= a < Z.of_nat rank /\ Z.of_nat x = (if a <? 0 then Z.of_nat rank + a else a)).
    { destruct (a <? 0) eqn:Es; destruct ((_ <? 0) || _) eqn:Er; try discriminate;
        apply orb_false_iff in Er as [E1 E2]; apply Z.ltb_ge in E1; apply Z.leb_gt in E2; injection Ea as <-;
        apply Z.ltb_lt in Es || apply Z.ltb_ge in Es; lia. }
    destruct Hx as [Hr Hx]. split.
    + intros b [<-|Hb]; auto.
    + intros i Hi. cbn. rewrite orb_true_iff, Nat.eqb_eq, (S i Hi). unfold is_reduced. split.
      * intros [->|(b & Hb & K)]; [exists a|exists b]; split; auto; [left; auto| |right; auto].
        destruct (a <? 0); lia.
      * intros (b & [<-|Hb] & K); [|right; exists b; auto].
        destruct (a <? 0) eqn:Es; [apply Z.ltb_lt in Es|apply Z.ltb_ge in Es]; destruct K as [K|K]; try lia.
Qed.
Lemma flags_nth rank ax i : (i < rank)%nat -> nth i (flags rank ax) false = existsb (Nat.eqb i) ax.
Proof.
  intros H. unfold flags. rewrite nth_indep with (d' := existsb (Nat.eqb 0) ax).
  2: { rewrite map_length, seq_length. auto. }
  rewrite (map_nth (fun i => existsb (Nat.eqb i) ax)), seq_nth by auto. auto.
Qed.

(** Reduction node, for every rank, every set of axes (negative axes count from
    the end) and both settings of keepdims: the result at [o] is the fold of
    the op-code over the input elements that project to [o], in row-major
    order, from the identity; axes out of range are rejected. *)
Theorem C41_reduce_partial : forall I code g ident axes kd x y shape vs ws dims n st,
  expand_reduce_node code ident axes kd x y shape vs ws = Some n ->
  (forall v, I 0%nat [v] = Some v) -> (forall a b, I code [a; b] = Some (g a b)) ->
  evals (env_of st) shape = Some dims -> x <> y ->
  exists fl,
    List.length fl = List.length shape /\ axes_valid (List.length shape) axes /\
    (forall i, (i < List.length shape)%nat -> (nth i fl false = true <-> is_reduced (List.length shape) axes i)) /\
    (fresh_vars vs shape y [x] -> fresh_vars ws (keep (EInt 1) kd fl shape) y [x] ->
     (forall e z, In e shape -> In z (atoms e) -> ~ In z ws) ->
     (exists o st', run I n st o st') /\
     forall oc st', run I n st oc st' -> oc = ONorm /\
       (forall o, index_of (keep 1 kd fl dims) o ->
          st' y o = fold_left (fun acc j => g (st x j) acc) (contributes kd fl dims o) ident) /\
       (forall z k, ~ In z (vs ++ ws) -> (z <> y \/ ~ index_of (keep 1 kd fl dims) k) -> st' z k = st z k)).
Proof.
  intros I code g ident axes kd x y shape vs ws dims n st E H0 HI Hd Hxy. unfold expand_reduce_node in E.
  destruct (norm_axes (List.length shape) axes) as [ax|] eqn:Ea; [|discriminate]. injection E as <-.
  destruct (norm_axes_spec _ _ _ Ea) as [V S].
  exists (flags (List.length shape) ax).
  assert (Lf : List.length (flags (List.length shape) ax) = List.length shape).
  { unfold flags. rewrite map_length, seq_length. auto. }
  split; [auto|]. split; [auto|]. split.
  { intros i Hi. rewrite flags_nth by auto. apply S; auto. }
  intros (N1 & L1 & Y1 & X1 & A1) (N2 & L2 & Y2 & X2 & A2) A3.
  destruct (reduce_run I code g ident (flags (List.length shape) ax) kd x y shape vs ws dims st) as (st' & R & Val & Fr); auto.
  - rewrite in_app_iff. tauto.
  - specialize (X1 x (or_introl eq_refl)). specialize (X2 x (or_introl eq_refl)). rewrite in_app_iff. tauto.
  - intros e z He Hz. destruct (A1 e z He Hz). split; auto. rewrite in_app_iff. intros [K|K]; [auto|]. apply (A3 e z); auto.
  - split; [exists ONorm, st'; auto|]. intros oc s2 R2. destruct (run_det I _ _ _ _ _ _ R R2) as [<- <-].
    split; [auto|]. split; auto.
Qed.
(** keepdims puts a 0 (size 1) at the reduced dimensions; without it they are
    omitted: [keep] dimension by dimension. *)
Theorem C41_keepdims_shape : forall (fl : list bool) (dims : list Z), List.length fl = List.length dims ->
  keep 1 true fl dims = map (fun p : bool * Z => if fst p then 1 else snd p) (combine fl dims) /\
  keep 1 false fl dims = map snd (filter (fun p => negb (fst p)) (combine fl dims)).
Proof.
  induction fl as [|c fl IH]; intros [|d dims] H; cbn in *; try discriminate; auto.
  injection H as H. destruct (IH dims H) as [A B]. destruct c; cbn; rewrite A, B; auto.
Qed.

(** In place: validate() does not reject equal input and output containers; the
    initialisation then destroys the input. *)
Definition row : store := fun x j => if String.eqb x "X" then match j with [a; b] => 10 * a + b + 1 | [a] => a + 1 | _ => 0 end else 0.
Theorem C41_reduce_in_place_refuted :
  exists n st', expand_reduce_node 1 0 [0] true "X" "X" [EInt 3] ["i"] ["w"] = Some n /\
    run Iarith n row ONorm st' /\
    st' "X" [0] <> fold_left (fun acc j => row "X" j + acc) (contributes true [true] [3] [0]) 0.
Proof.
  destruct (expand_reduce_node 1 0 [0] true "X" "X" [EInt 3] ["i"] ["w"]) as [n|] eqn:En; [|discriminate].
  destruct (xnode Iarith 60 n row) as [[o st']|] eqn:E.
  2: { exfalso. vm_compute in En. injection En as <-. revert E. vm_compute. discriminate. }
  assert (K : match xnode Iarith 60 n row with Some (ONorm, s) => s "X" [0] = 5 | _ => False end).
  { vm_compute in En. injection En as <-. vm_compute. reflexivity. }
  rewrite E in K. destruct o; try contradiction.
  exists n, st'. split; [auto|]. split; [eapply xnode_run; eauto|]. rewrite K. vm_compute. discriminate.
Qed.
Theorem C41_nonvacuous : exists n fl, expand_reduce_node 1 0 [-1] false "X" "Y" [EInt 2; EInt 3] ["i"; "k"] ["w"] = Some n /\
  fl = [false; true] /\ fresh_vars ["i"; "k"] [EInt 2; EInt 3] "Y" ["X"] /\
  fresh_vars ["w"] (keep (EInt 1) false fl [EInt 2; EInt 3]) "Y" ["X"] /\
  contributes false fl [2; 3] [1] = [[1; 0]; [1; 1]; [1; 2]] /\
  fold_left (fun acc j => row "X" j + acc) (contributes false fl [2; 3] [1]) 0 = 36.
Proof.
  eexists. exists [false; true]. split; [reflexivity|]. split; [reflexivity|].
  split; [fresh_tac|]. split; [fresh_tac|]. split; vm_compute; reflexivity.
Qed.
