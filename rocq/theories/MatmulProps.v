(** C45: matrix multiplication of tensors. *)
From Verif Require Import Matmul TensorProps BlasProps TypesProofs SymFacts SymProofs1.
Open Scope string_scope.
Open Scope Z_scope.
Import ListNotations.

(* ------------------------------------------------------------------ *)
(** Specification: NumPy matmul.  The leading (batch) dimensions are broadcast. *)
Fixpoint bcast_rev (a b : list Z) : list Z :=
  match a, b with [], l => l | l, [] => l | x :: a', y :: b' => (if x =? 1 then y else x) :: bcast_rev a' b' end.
Definition np_broadcast (a b : list Z) : list Z := rev (bcast_rev (rev a) (rev b)).
(** The element of an operand with batch dimensions [bd], strides [sz] and offset
    [o] that the batch index [bs] of the result and the matrix index [i, j] select. *)
Definition element (mem : list Z -> Z) (bd sz : list Z) (o : Z) (bs : list Z) (i j : Z) : Z :=
  mem [o + dot (np_index bd bs ++ [i; j]) sz].
Definition mm_spec (fma : Z -> Z -> Z -> Z) (zero : Z) (memA memB : list Z -> Z) (ba bb sa sb : list Z) (oa ob K : Z) (idx : list Z) : Z :=
  let r := (List.length idx - 2)%nat in
  let bs := firstn r idx in let i := nth r idx 0 in let j := nth (S r) idx 0 in
  fold_left (fun s c => fma (element memA ba sa oa bs i c) (element memB bb sb ob bs c j) s) (zrange K) zero.

(** The helpers are fresh, the result is not an operand, and writing it does not
    change a shape, stride or offset. *)
Definition mm_names (A B : operand_t) (Y : string) (v : mm_vars) : Prop :=
  NoDup (mm_hid v) /\ (forall z, In z [op_x A; op_x B; Y] -> ~ In z (mm_hid v)) /\ ~ In Y [op_x A; op_x B] /\
  (forall e z, In e (op_exprs A ++ op_exprs B) -> In z (atoms e) -> z <> Y /\ ~ In z (mm_hid v)) /\
  List.length (mm_va v) = List.length (op_shape A) /\ List.length (mm_vb v) = List.length (op_shape B) /\
  List.length (mm_b v) = Nat.max (List.length (op_shape A) - 2) (List.length (op_shape B) - 2).
(** Shapes (batch dimensions, then rows and columns), strides and offset in numbers. *)
Definition mm_operand (s : env) (A : operand_t) (bd : list Z) (r c : Z) (sz : list Z) (o : Z) : Prop :=
  evals s (op_shape A) = Some (bd ++ [r; c])%list /\ evals s (op_strides A) = Some sz /\
  List.length (op_strides A) = List.length (op_shape A) /\ eval s (op_off A) = Some o.

Definition C45_matmul_full : Prop := forall I p fmac fma mulc mul addc add zero one A B Y v nd ba bb sa sb oa ob M N K st,
  (forall a, I 0%nat [a] = Some a) -> (forall a b c, I fmac [a; b; c] = Some (fma a b c)) ->
  (forall a b, I mulc [a; b] = Some (mul a b)) -> (forall a b, I addc [a; b] = Some (add a b)) ->
  (forall x c, add (mul x one) (mul c zero) = x) ->
  mm_names A B Y v ->
  mm_operand (env_of st) A ba M K sa oa -> mm_operand (env_of st) B bb K N sb ob ->
  broadcastable ba (np_broadcast ba bb) -> broadcastable bb (np_broadcast ba bb) ->
  expand_matmul p fmac mulc addc zero one A B Y v = Some nd ->
  computes I (only nd) (mm_hid v) Y (fun j => [rank (np_broadcast ba bb ++ [M; N]) j])
    (mm_spec fma zero (st (op_x A)) (st (op_x B)) ba bb sa sb oa ob K) (np_broadcast ba bb ++ [M; N])%list st.

(** Proved: plain matrices (no batch dimension); an operand that is not in C
    order has offset 0.  [add (mul x one) (mul c zero) = x] leaves out an output
    that holds a NaN or an infinity before. *)
Theorem C45_matmul_partial : forall I p fmac fma mulc mul addc add zero one A B Y v nd sa sb oa ob M N K st,
  (forall a, I 0%nat [a] = Some a) -> (forall a b c, I fmac [a; b; c] = Some (fma a b c)) ->
  (forall a b, I mulc [a; b] = Some (mul a b)) -> (forall a b, I addc [a; b] = Some (add a b)) ->
  (forall x c, add (mul x one) (mul c zero) = x) ->
  mm_names A B Y v ->
  mm_operand (env_of st) A [] M K sa oa -> mm_operand (env_of st) B [] K N sb ob ->
  op_strides A = strides_from_shape (op_shape A) \/ oa = 0 -> op_strides B = strides_from_shape (op_shape B) \/ ob = 0 ->
  expand_matmul p fmac mulc addc zero one A B Y v = Some nd ->
  computes I (only nd) (mm_hid v) Y (fun j => [rank [M; N] j])
    (mm_spec fma zero (st (op_x A)) (st (op_x B)) [] [] sa sb oa ob K) [M; N] st.
Proof.
  intros I p fmac fma mulc mul addc add zero one A B Y v nd sa sb oa ob M N K st H0 HF HM HA Hone
    (N1 & N2 & N3 & N4 & N5 & N6 & N7) (A1 & A2 & A3 & A4) (B1 & B2 & B3 & B4) Ca Cb Hx.
  cbn [app] in A1, B1.
  assert (Two : forall s l x y, evals s l = Some [x; y] -> exists e f, l = [e; f] /\ eval s e = Some x /\ eval s f = Some y).
  { intros s l x y H. apply evals_evl in H. inversion H as [|e ? ? ? E1 H2]; subst. inversion H2 as [|f ? ? ? E2 H3]; subst. inversion H3; subst. eauto 6. }
  destruct (Two _ _ _ _ A1) as (m & k & Sa & Em & Ek). destruct (Two _ _ _ _ B1) as (k2 & n & Sb & Ek2 & En).
  rewrite Sa in N5. rewrite Sb in N6. rewrite Sa, Sb in N7. cbn [List.length Nat.sub Nat.max] in *.
  assert (Vw : forall shape strides (o : Z), strides = strides_from_shape shape \/ o = 0 -> is_view shape strides = true -> o = 0).
  { intros shape strides o [->|Ho0] Hvw; auto. unfold is_view in Hvw. apply negb_true_iff in Hvw.
    assert (X : list_eqb expr_eqb (strides_from_shape shape) (strides_from_shape shape) = true) by (apply TypesProofs2.exprs_eqb_eq; auto). congruence. }
  destruct (matmul_run I p fmac fma mulc mul addc add zero one A B Y v m k k2 n M N K sa sb oa ob nd st) as (st' & R & S1 & S2); auto.
  - rewrite A3, Sa. auto.
  - rewrite B3, Sb. auto.
  - destruct (mm_b v); [auto|discriminate].
  - cbn [evals]. rewrite Em, Ek, Ek2, En. auto.
  - apply Vw; auto.
  - apply Vw; auto.
  - apply computes_intro. exists st'. split.
    + apply R_cons with (st1 := st') (st2 := st'); [auto|reflexivity|apply R_nil].
    + split; auto. intros j Hj. rewrite S1 by auto. destruct (box2 _ _ _ Hj) as (a & b & -> & _). reflexivity.
Qed.
(** Other element types are left unexpanded. *)
Theorem C45_matmul_types : forall p fmac mulc addc zero one A B Y v nd,
  expand_matmul p fmac mulc addc zero one A B Y v = Some nd -> p = Half \/ p = Float \/ p = Double.
Proof. intros p fmac mulc addc zero one A B Y v nd H. destruct p; try discriminate; auto. Qed.

(* ------------------------------------------------------------------ *)
Definition mv (va vb b : list string) : mm_vars := {| mm_ca := "ca"; mm_va := va; mm_cb := "cb"; mm_vb := vb; mm_b := b;
  mm_ra := "ra"; mm_rb := "rb"; mm_rc := "rc"; mm_g := gv |}.
Definition opn (x : string) (shape strides : list Z) (off : Z) : operand_t :=
  {| op_x := x; op_shape := map EInt shape; op_strides := map EInt strides; op_off := EInt off |}.
Definition mma : store := fun z j => match j with [a] => if String.eqb z "A" then a + 1 else if String.eqb z "B" then 10 else 0 | _ => 0 end.
Lemma opn_exprs x sh sz o : Forall (fun e => atoms e = []) (op_exprs (opn x sh sz o)).
Proof.
  unfold op_exprs, opn. cbn [op_off op_shape op_strides]. constructor; [auto|]. apply Forall_app. split; apply Forall_forall; intros e He; apply in_map_iff in He as (z & <- & _); auto.
Qed.
Lemma opn_operand s x bd r c sz o : List.length sz = List.length (bd ++ [r; c]) -> mm_operand s (opn x (bd ++ [r; c]) sz o) bd r c sz o.
Proof.
  intros H. unfold mm_operand, opn. cbn [op_off op_shape op_strides]. rewrite !map_length.
  assert (E : forall l, evals s (map EInt l) = Some l) by (induction l as [|z l IH]; cbn; [auto|rewrite IH; auto]).
  rewrite !E. auto.
Qed.
Lemma mm_names_ex sha sza oa shb szb ob va vb b :
  NoDup (mm_hid (mv va vb b)) -> (forall z, In z ["A"; "B"; "Y"] -> ~ In z (mm_hid (mv va vb b))) ->
  List.length va = List.length sha -> List.length vb = List.length shb -> List.length b = Nat.max (List.length sha - 2) (List.length shb - 2) ->
  mm_names (opn "A" sha sza oa) (opn "B" shb szb ob) "Y" (mv va vb b).
Proof.
  intros H1 H2 H3 H4 H5. split; [auto|]. split; [auto|]. split; [cbn; intuition congruence|]. split.
  - intros e z He Hz. apply in_app_iff in He. exfalso.
    destruct He as [He|He]; eapply Forall_forall in He; try apply opn_exprs; cbn beta in He; rewrite He in Hz; contradiction.
  - cbn [op_shape opn mm_va mm_vb mm_b mv]. rewrite !map_length. auto.
Qed.
(** Two batches of 1 x 1 matrices: the reference to the operands of a batch is
    taken before the loop over the batches sets its variable, so both rounds work
    on batch 0 and the second result is never written. *)
Theorem C45_matmul_batch_refuted : ~ C45_matmul_full.
Proof.
  intros H.
  destruct (expand_matmul Double 1 2 3 0 1 (opn "A" [2; 1; 1] [1; 1; 1] 0) (opn "B" [2; 1; 1] [1; 1; 1] 0) "Y"
    (mv ["a0"; "a1"; "a2"] ["b0"; "b1"; "b2"] ["b"])) as [nd|] eqn:E; [|vm_compute in E; discriminate].
  pose proof E as E2.
  apply (H Ifma Double 1%nat fmaZ 2%nat Z.mul 3%nat Z.add 0 1 (opn "A" [2; 1; 1] [1; 1; 1] 0) (opn "B" [2; 1; 1] [1; 1; 1] 0) "Y"
    (mv ["a0"; "a1"; "a2"] ["b0"; "b1"; "b2"] ["b"]) nd [2] [2] [1; 1; 1] [1; 1; 1] 0 0 1 1 1 mma) in E; try reflexivity; auto.
  - vm_compute in E2. injection E2 as <-. revert E. apply refute_computes_at with (fuel := 200%nat) (j := [1; 0; 0]) (v := 0).
    + vm_compute. reflexivity.
    + unfold index_of. cbn. repeat (apply Forall2_cons; [lia|]). apply Forall2_nil.
    + vm_compute. discriminate.
  - intros. lia.
  - apply mm_names_ex; auto; [repeat constructor; cbn; intuition congruence|]. intros z Hz. cbn in Hz. cbn. clear -Hz. intuition congruence.
  - apply (opn_operand _ "A" [2]). auto.
  - apply (opn_operand _ "B" [2]). auto.
  - split; [cbn; lia|]. cbn. apply Forall2_cons; [auto|apply Forall2_nil].
  - split; [cbn; lia|]. cbn. apply Forall2_cons; [auto|apply Forall2_nil].
Qed.
(** A strided view that starts at element 1: it is copied, and then the offset
    is added once more to the copy. *)
Theorem C45_matmul_view_offset_refuted : ~ C45_matmul_full.
Proof.
  intros H.
  destruct (expand_matmul Double 1 2 3 0 1 (opn "A" [1; 2] [4; 2] 1) (opn "B" [2; 1] [1; 1] 0) "Y"
    (mv ["a0"; "a1"] ["b0"; "b1"] [])) as [nd|] eqn:E; [|vm_compute in E; discriminate].
  pose proof E as E2.
  apply (H Ifma Double 1%nat fmaZ 2%nat Z.mul 3%nat Z.add 0 1 (opn "A" [1; 2] [4; 2] 1) (opn "B" [2; 1] [1; 1] 0) "Y"
    (mv ["a0"; "a1"] ["b0"; "b1"] []) nd [] [] [4; 2] [1; 1] 1 0 1 1 2 mma) in E; try reflexivity; auto.
  - vm_compute in E2. injection E2 as <-. revert E. apply refute_computes_at with (fuel := 200%nat) (j := [0; 0]) (v := 40).
    + vm_compute. reflexivity.
    + unfold index_of. cbn. repeat (apply Forall2_cons; [lia|]). apply Forall2_nil.
    + vm_compute. discriminate.
  - intros. lia.
  - apply mm_names_ex; auto; [repeat constructor; cbn; intuition congruence|]. intros z Hz. cbn in Hz. cbn. clear -Hz. intuition congruence.
  - apply (opn_operand _ "A" []). auto.
  - apply (opn_operand _ "B" []). auto.
  - split; [cbn; lia|]. cbn. apply Forall2_nil.
  - split; [cbn; lia|]. cbn. apply Forall2_nil.
Qed.
(** A transposed A (2 x 3) times a C-order B at offset 5. *)
Theorem C45_nonvacuous : exists nd,
  expand_matmul Float 1 2 3 0 1 (opn "A" [2; 3] [1; 2] 0) (opn "B" [3; 2] [2; 1] 5) "Y" (mv ["a0"; "a1"] ["b0"; "b1"] []) = Some nd /\
  computes Ifma (only nd) (mm_hid (mv ["a0"; "a1"] ["b0"; "b1"] [])) "Y" (fun j => [rank [2; 2] j])
    (mm_spec fmaZ 0 (mma "A") (mma "B") [] [] [1; 2] [2; 1] 0 5 3) [2; 2] mma /\
  mm_spec fmaZ 0 (mma "A") (mma "B") [] [] [1; 2] [2; 1] 0 5 3 [1; 0] = (2 + 4 + 6) * 10.
Proof.
  destruct (expand_matmul Float 1 2 3 0 1 (opn "A" [2; 3] [1; 2] 0) (opn "B" [3; 2] [2; 1] 5) "Y" (mv ["a0"; "a1"] ["b0"; "b1"] [])) as [nd|] eqn:E;
    [|vm_compute in E; discriminate].
  exists nd. split; [auto|]. split; [|vm_compute; reflexivity].
  apply (C45_matmul_partial Ifma Float 1%nat fmaZ 2%nat Z.mul 3%nat Z.add 0 1 (opn "A" [2; 3] [1; 2] 0) (opn "B" [3; 2] [2; 1] 5)); try reflexivity; auto.
  - intros. lia.
  - apply mm_names_ex; auto; [repeat constructor; cbn; intuition congruence|]. intros z Hz. cbn in Hz. cbn. clear -Hz. intuition congruence.
  - apply (opn_operand _ "A" []). auto.
  - apply (opn_operand _ "B" []). auto.
Qed.
