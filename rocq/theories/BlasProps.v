(** C44: the BLAS nodes dot and gemm. *)
From Verif Require Import Blas TensorProps SymFacts SymProofs1.
Open Scope string_scope.
Open Scope Z_scope.
Import ListNotations.

(* ======================= C44: dot ======================= *)
(** The reference BLAS puts element [v] of a strided vector of length [n] at this
    index: a negative increment walks backwards from the far end. *)
Definition blas_at (n inc v : Z) : Z := if inc <? 0 then (v + 1 - n) * inc else v * inc.
(** [dot] of the vectors in [x], [y]: products accumulated from [zero]. *)
Definition dot_product (fma : Z -> Z -> Z -> Z) (zero : Z) (X Y : Z -> Z) (n : Z) : Z :=
  fold_left (fun acc v => fma (X v) (Y v) acc) (zrange n) zero.

(** Running the expanded node always ends normally with [res = v], and nothing
    but [res] and the loop variable changes. *)
Definition yields (I : nat -> list Z -> option Z) (p : node) (i res : string) (v : Z) (st : store) : Prop :=
  (exists o st', run I p st o st') /\
  forall o st', run I p st o st' -> o = ONorm /\ st' res [] = v /\ (forall z k, z <> i -> (z <> res \/ k <> []) -> st' z k = st z k).
Definition dot_names (x y res i : string) (n incx incy : expr) : Prop :=
  x <> res /\ y <> res /\ x <> i /\ y <> i /\ res <> i /\
  (forall z, In z (atoms n ++ atoms incx ++ atoms incy) -> z <> i /\ z <> res).

Definition C44_dot_full : Prop := forall I fmac fma zero x y res n incx incy i N X Y st,
  (forall a b c, I fmac [a; b; c] = Some (fma a b c)) -> dot_names x y res i n incx incy ->
  evals (env_of st) [n; incx; incy] = Some [N; X; Y] ->
  yields I (expand_dot fmac x y res n incx incy i) i res
    (dot_product fma zero (fun v => st x [blas_at N X v]) (fun v => st y [blas_at N Y v]) N) st.

(** Proved: when the result container holds zero before, and no increment is negative. *)
Theorem C44_dot_partial : forall I fmac fma zero x y res n incx incy i N X Y st,
  (forall a b c, I fmac [a; b; c] = Some (fma a b c)) -> dot_names x y res i n incx incy ->
  evals (env_of st) [n; incx; incy] = Some [N; X; Y] ->
  st res [] = zero -> 0 <= X -> 0 <= Y ->
  yields I (expand_dot fmac x y res n incx incy i) i res
    (dot_product fma zero (fun v => st x [blas_at N X v]) (fun v => st y [blas_at N Y v]) N) st.
Proof.
  intros I fmac fma zero x y res n incx incy i N X Y st HI (H1 & H2 & H3 & H4 & H5 & H6) Ev Hz HX HY.
  cbn [evals] in Ev.
  destruct (eval (env_of st) n) eqn:En; [|discriminate]. destruct (eval (env_of st) incx) eqn:Ex; [|discriminate].
  destruct (eval (env_of st) incy) eqn:Ey; [|discriminate]. injection Ev as -> -> ->.
  destruct (dot_run I fmac fma x y res n incx incy i N X Y st) as (st' & R & V & F); auto.
  split; [exists ONorm, st'; auto|]. intros o s R2. destruct (run_det I _ _ _ _ _ _ R R2) as [<- <-].
  split; [auto|split; [|auto]]. rewrite V, Hz. unfold dot_product, blas_at.
  assert (E1 : (X <? 0) = false) by (apply Z.ltb_ge; auto). assert (E2 : (Y <? 0) = false) by (apply Z.ltb_ge; auto).
  rewrite E1, E2. reflexivity.
Qed.

Definition Ifma (c : nat) (l : list Z) : option Z :=
  match c, l with O, [v] => Some v | 1%nat, [a; b; c] => Some (a * b + c) | 2%nat, [a; b] => Some (a * b) | 3%nat, [a; b] => Some (a + b)
  | _, _ => None end.
Definition fmaZ (a b c : Z) : Z := a * b + c.
(** x[i] = i + 1, y[i] = i + 2; the old result is 100. *)
Definition vecs : store := fun z j => match j with
  | [a] => if String.eqb z "x" then a + 1 else if String.eqb z "y" then a + 2 else 0
  | [] => if String.eqb z "r" then 100 else 0 | _ => 0 end.
Definition fresh0 : store := fun z j => if String.eqb z "r" then 0 else vecs z j.
Lemma dot_names_ex : forall n X Y, dot_names "x" "y" "r" "i" (EInt n) (EInt X) (EInt Y).
Proof. intros. unfold dot_names. repeat split; try discriminate; contradiction. Qed.
Lemma refute_yields I p i res fuel st v w :
  match xseq I fuel (only p) st with Some (ONorm, s) => s res [] = w | _ => False end -> v <> w -> ~ yields I p i res v st.
Proof.
  intros K Hv [(o0 & s0 & R0) C]. destruct (xseq I fuel (only p) st) as [[o s]|] eqn:E; [|contradiction].
  destruct o; try contradiction. apply xseq_runs in E. destruct (C _ _ R0) as (-> & V & _).
  assert (R1 : runs I (only p) st ONorm s0) by (apply R_cons with (st1 := s0) (st2 := s0); [auto|reflexivity|apply R_nil]).
  destruct (runs_det I _ _ _ _ _ _ R1 E) as [_ <-]. congruence.
Qed.
(** The old value of the result is added to the dot product. *)
Theorem C44_dot_uninitialised_refuted : ~ C44_dot_full.
Proof.
  intros H. specialize (H Ifma 1%nat fmaZ 0 "x" "y" "r" (EInt 2) (EInt 1) (EInt 1) "i" 2 1 1 vecs
    (fun a b c => eq_refl) (dot_names_ex _ _ _) eq_refl).
  revert H. apply refute_yields with (fuel := 40%nat) (w := 108).
  - vm_compute. reflexivity.
  - vm_compute. discriminate.
Qed.
(** With a negative increment the expansion reads in front of the vector. *)
Theorem C44_dot_negative_increment_refuted :
  ~ yields Ifma (expand_dot 1 "x" "y" "r" (EInt 2) (EInt (-1)) (EInt 1) "i") "i" "r"
      (dot_product fmaZ 0 (fun v => fresh0 "x" [blas_at 2 (-1) v]) (fun v => fresh0 "y" [blas_at 2 1 v]) 2) fresh0.
Proof.
  apply refute_yields with (fuel := 40%nat) (w := 2).
  - vm_compute. reflexivity.
  - vm_compute. discriminate.
Qed.
Theorem C44_dot_nonvacuous :
  yields Ifma (expand_dot 1 "x" "y" "r" (EInt 3) (EInt 2) (EInt 1) "i") "i" "r" (1 * 2 + 3 * 3 + 5 * 4) fresh0.
Proof.
  apply (C44_dot_partial Ifma 1%nat fmaZ 0 "x" "y" "r" (EInt 3) (EInt 2) (EInt 1) "i" 3 2 1 fresh0);
    try reflexivity; try lia. apply dot_names_ex.
Qed.

(* ======================= C44: gemm ======================= *)
(** Element [i, j] of a matrix stored in [layout] with leading dimension [ld]. *)
Definition at_layout (lay : layout) (ld i j : Z) : Z := match lay with RowMajor => ld * i + j | ColMajor => i + ld * j end.
(** alpha * (A B)[i, j] + beta * C[i, j], the products accumulated from [zero] by [fma]. *)
Definition gemm_value (fma : Z -> Z -> Z -> Z) (mul add : Z -> Z -> Z) (zero : Z) (Am Bm Cm : Z -> Z -> Z) (al be K i j : Z) : Z :=
  add (mul (fold_left (fun s c => fma (Am i c) (Bm c j) s) (zrange K) zero) al) (mul (Cm i j) be).
Definition gemm_hid (v : gemm_vars) : list string := [g_i v; g_j v; g_k v; g_sum v; g_ts v; g_ti v].
Definition gemm_names (A B Cin Cout : string) (alpha beta : earg) (m n k lda ldb ldc : expr) (v : gemm_vars) : Prop :=
  NoDup (gemm_hid v) /\
  (forall z, In z (A :: B :: Cin :: Cout :: earg_names alpha ++ earg_names beta) -> ~ In z (gemm_hid v)) /\
  ~ In Cout (A :: B :: earg_names alpha ++ earg_names beta) /\
  (forall a, In a [alpha; beta] -> match a with ATensor _ => False | _ => True end) /\
  (forall e z, In e [m; n; k; lda; ldb; ldc] -> In z (atoms e) -> z <> Cout /\ ~ In z (gemm_hid v)).
Definition C44_gemm_full : Prop := forall I fmac fma mulc mul addc add zero lay A B Cin Cout alpha beta m n k lda ldb ldc v M N K LA LB LC p st,
  (forall a, I 0%nat [a] = Some a) -> (forall a b c, I fmac [a; b; c] = Some (fma a b c)) ->
  (forall a b, I mulc [a; b] = Some (mul a b)) -> (forall a b, I addc [a; b] = Some (add a b)) ->
  gemm_names A B Cin Cout alpha beta m n k lda ldb ldc v ->
  evals (env_of st) [m; n; k; lda; ldb; ldc] = Some [M; N; K; LA; LB; LC] ->
  match lay with RowMajor => N <= LC | ColMajor => M <= LC end ->
  expand_gemm lay false false fmac mulc addc zero (plain A) (plain B) (plain Cin) (plain Cout) alpha beta m n k lda ldb ldc v = Some p ->
  computes I (only p) (gemm_hid v) Cout
    (fun j => match j with [a; b] => [at_layout lay LC a b] | _ => [] end)
    (fun j => match j with [a; b] =>
       gemm_value fma mul add zero (fun i c => st A [at_layout lay LA i c]) (fun c j => st B [at_layout lay LB c j])
         (fun i j => st Cin [at_layout lay LC i j]) (earg_val st [] alpha) (earg_val st [] beta) K a b | _ => 0 end) [M; N] st.
(** Proved for row-major matrices; C may be updated in place (Cin = Cout). *)
Theorem C44_gemm_partial : forall I fmac fma mulc mul addc add zero A B Cin Cout alpha beta m n k lda ldb ldc v M N K LA LB LC p st,
  (forall a, I 0%nat [a] = Some a) -> (forall a b c, I fmac [a; b; c] = Some (fma a b c)) ->
  (forall a b, I mulc [a; b] = Some (mul a b)) -> (forall a b, I addc [a; b] = Some (add a b)) ->
  gemm_names A B Cin Cout alpha beta m n k lda ldb ldc v ->
  evals (env_of st) [m; n; k; lda; ldb; ldc] = Some [M; N; K; LA; LB; LC] -> N <= LC ->
  expand_gemm RowMajor false false fmac mulc addc zero (plain A) (plain B) (plain Cin) (plain Cout) alpha beta m n k lda ldb ldc v = Some p ->
  computes I (only p) (gemm_hid v) Cout
    (fun j => match j with [a; b] => [at_layout RowMajor LC a b] | _ => [] end)
    (fun j => match j with [a; b] =>
       gemm_value fma mul add zero (fun i c => st A [at_layout RowMajor LA i c]) (fun c j => st B [at_layout RowMajor LB c j])
         (fun i j => st Cin [at_layout RowMajor LC i j]) (earg_val st [] alpha) (earg_val st [] beta) K a b | _ => 0 end) [M; N] st.
Proof.
  intros I fmac fma mulc mul addc add zero A B Cin Cout alpha beta m n k lda ldb ldc v M N K LA LB LC p st H0 HF HM HA
    (Hnd & Hp & Ho & Hs & Hat) Ev HN Hx.
  unfold expand_gemm in Hx. cbn [orb] in Hx. assert (Hp2 : p = NSeq (nest (maps [g_i v; g_j v] [m; n])
    (gemm_body fmac mulc addc zero (plain A) (plain B) (plain Cin) (plain Cout) alpha beta k lda ldb ldc v))) by congruence.
  subst p. apply computes_intro.
  destruct (gemm_run I fmac fma mulc mul addc add zero (plain A) (plain B) (plain Cin) (plain Cout) alpha beta m n k lda ldb ldc v M N K LA LB LC st)
    as (st' & R & S1 & S2); auto; try (cbn [b_mem base_names b_ref plain]; rewrite ?app_nil_r; assumption).
  exists st'. split; [apply only_seq; auto|]. split.
  - intros j Hj. specialize (S1 j Hj). apply box_In in Hj.
    inversion Hj as [|? a ? r Ha Hr]; subst. inversion Hr as [|? b ? r2 Hb Hr2]; subst. inversion Hr2; subst. exact S1.
  - intros z i Hz K1. apply S2; auto.
Qed.
(** A transposed operand is not expanded at all, so nothing is lost. *)
Theorem C44_gemm_transposed : forall lay ta tb fmac mulc addc zero A B Cin Cout alpha beta m n k lda ldb ldc v,
  ta = true \/ tb = true ->
  expand_gemm lay ta tb fmac mulc addc zero A B Cin Cout alpha beta m n k lda ldb ldc v = None.
Proof. intros lay ta tb; intros. unfold expand_gemm. destruct H as [-> | ->]; [auto|rewrite orb_true_r; auto]. Qed.

Definition gv : gemm_vars := {| g_i := "i"; g_j := "j"; g_k := "k"; g_sum := "s"; g_ts := "ts"; g_ti := "ti" |}.
(** A holds a + 1, B holds a * a + 1 at address a; C holds 10 everywhere. *)
Definition mats : store := fun z j => match j with
  | [a] => if String.eqb z "A" then a + 1 else if String.eqb z "B" then a * a + 1 else if String.eqb z "C" then 10 else 0
  | _ => 0 end.
Lemma gemm_names_ex lda ldb ldc m n k : gemm_names "A" "B" "C" "C" (AConst 1) (AConst 1) (EInt m) (EInt n) (EInt k) (EInt lda) (EInt ldb) (EInt ldc) gv.
Proof.
  unfold gemm_names. repeat split.
  - cbn. repeat constructor; cbn; intuition congruence.
  - intros z Hz. cbn in Hz. cbn. clear -Hz. intuition congruence.
  - cbn. intuition congruence.
  - intros a [<-|[<-|[]]]; auto.
  - intros ->. cbn in H. repeat (destruct H as [<-|H]; [contradiction|]). contradiction.
  - intros K. cbn in H. repeat (destruct H as [<-|H]; [contradiction|]). contradiction.
Qed.
Lemma refute_computes_at I p hid y g f dims st fuel j v :
  match xseq I fuel p st with Some (ONorm, s) => s y (g j) = v | _ => False end ->
  index_of dims j -> v <> f j -> ~ computes I p hid y g f dims st.
Proof.
  intros K Hj Hv [_ C]. destruct (xseq I fuel p st) as [[o s]|] eqn:E; [|contradiction].
  destruct o; try contradiction. apply xseq_runs in E. destruct (C _ _ E) as (_ & V & _).
  specialize (V j Hj). congruence.
Qed.
(** A column-major gemm is expanded as if it were row-major. *)
Theorem C44_gemm_column_major_refuted : ~ C44_gemm_full.
Proof.
  intros H.
  specialize (H Ifma 1%nat fmaZ 2%nat Z.mul 3%nat Z.add 0 ColMajor "A" "B" "C" "C" (AConst 1) (AConst 1)
    (EInt 2) (EInt 3) (EInt 2) (EInt 2) (EInt 2) (EInt 2) gv 2 3 2 2 2 2 _ mats
    (fun a => eq_refl) (fun a b c => eq_refl) (fun a b => eq_refl) (fun a b => eq_refl) (gemm_names_ex _ _ _ _ _ _)
    eq_refl ltac:(cbn; lia) eq_refl).
  revert H. apply refute_computes_at with (fuel := 200%nat) (j := [0; 0]) (v := 21).
  - vm_compute. reflexivity.
  - repeat (apply Forall2_cons; [lia|]); apply Forall2_nil.
  - vm_compute. discriminate.
Qed.
Theorem C44_gemm_nonvacuous : exists p, computes Ifma (only p) (gemm_hid gv) "C"
  (fun j => match j with [a; b] => [2 * a + b] | _ => [] end)
  (fun j => match j with [a; b] => (mats "A" [3 * a] * mats "B" [b] + mats "A" [3 * a + 1] * mats "B" [2 + b] + mats "A" [3 * a + 2] * mats "B" [4 + b]) * 1 + 10 * 1 | _ => 0 end)
  [2; 2] mats.
Proof.
  eexists. pose proof (C44_gemm_partial Ifma 1%nat fmaZ 2%nat Z.mul 3%nat Z.add 0 "A" "B" "C" "C" (AConst 1) (AConst 1)
    (EInt 2) (EInt 2) (EInt 3) (EInt 3) (EInt 2) (EInt 2) gv 2 2 3 3 2 2 _ mats
    (fun a => eq_refl) (fun a b c => eq_refl) (fun a b => eq_refl) (fun a b => eq_refl) (gemm_names_ex _ _ _ _ _ _)
    eq_refl ltac:(lia) eq_refl) as [X C].
  split; [exact X|]. intros o st' R. destruct (C o st' R) as (H1 & H2 & H3). split; [auto|split; [|exact H3]].
  intros j Hj. specialize (H2 j Hj). inversion Hj as [|? a ? r Ha Hr]; subst. inversion Hr as [|? b ? r2 Hb Hr2]; subst. inversion Hr2; subst.
  cbn [at_layout] in H2. rewrite H2. unfold gemm_value, fmaZ. cbn [at_layout earg_val].
  change (zrange 3) with [0; 1; 2]. cbn [fold_left].
  replace (3 * a + 0) with (3 * a) by lia. replace (2 * 0 + b) with b by lia. replace (2 * 1 + b) with (2 + b) by lia.
  replace (2 * 2 + b) with (4 + b) by lia.
  assert (Ec : mats "C" [2 * a + b] = 10) by reflexivity. rewrite Ec. lia.
Qed.
