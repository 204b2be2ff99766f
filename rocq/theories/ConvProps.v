(** C46: convolution. *)
From Verif Require Import Conv TensorProps BlasProps SymFacts SymProofs1.
Open Scope string_scope.
Open Scope Z_scope.
Import ListNotations.

(* ------------------------------------------------------------------ *)
(** Specification: the ONNX Conv operator. *)
(** The number of output positions: floor((in + pads - dilation*(kernel-1) - 1) / stride) + 1. *)
Definition conv_dim (d : cdim Z) : Z := (c_in d + c_b d + c_e d - c_d d * (c_k d - 1) - 1) / c_s d + 1.
(** The input position that kernel element [k] meets at output position [o]. *)
Definition position (o k : Z) (d : cdim Z) : Z := o * c_s d + k * c_d d - c_b d.
Fixpoint positions (os ks : list Z) (l : list (cdim Z)) : list Z :=
  match os, ks, l with o :: os', k :: ks', d :: l' => position o k d :: positions os' ks' l' | _, _, _ => [] end.
Fixpoint inside (ps : list Z) (l : list (cdim Z)) : bool :=
  match ps, l with p :: ps', d :: l' => (0 <=? p) && (p <? c_in d) && inside ps' l' | _, _ => true end.
(** Products over the input channels of the group of [oc] and the kernel, the
    input continued by zeros, accumulated from [zero] in index order; then the bias. *)
Definition conv_spec (fma : Z -> Z -> Z -> Z) (add : Z -> Z -> Z) (zero : Z) (Xf Wf : list Z -> Z) (Bf : option (Z -> Z))
    (Ci Co G : Z) (ds : list (cdim Z)) (j : list Z) : Z :=
  match j with
  | n :: oc :: os =>
      let g := oc / (Co / G) in
      let s := fold_left (fun a q => match q with
          | ic :: ks => let ps := positions os ks ds in
                        fma (if inside ps ds then Xf (n :: (g * (Ci / G) + ic) :: ps) else zero) (Wf (oc :: ic :: ks)) a
          | [] => a end) (box (Ci / G :: map c_k ds)) zero in
      match Bf with Some b => add s (b oc) | None => s end
  | _ => 0 end.

Definition opt_list (B : option string) : list string := match B with Some b => [b] | None => [] end.
(** Fresh helper variables; the output is not an input; it does not overwrite the node's symbols. *)
Definition conv_names (X W Y : string) (B : option string) (es : list expr) (sd : nat) (v : conv_vars) : Prop :=
  NoDup (conv_hid v) /\ List.length (v_od v) = sd /\ List.length (v_k v) = sd /\
  (forall z, In z (Y :: X :: W :: opt_list B) -> ~ In z (conv_hid v)) /\ ~ In Y (X :: W :: opt_list B) /\
  (forall e z, In e es -> In z (atoms e) -> z <> Y /\ ~ In z (conv_hid v)).
(** The parameters of every dimension evaluate to [ds] (missing ones have their defaults). *)
Definition conv_params (s : env) (shape kernel strides pads dils : list expr) (ds : list (cdim Z)) : Prop :=
  List.length ds = List.length kernel /\
  forall i d, nth_error ds i = Some d ->
    eval s (nth i kernel (EInt 0)) = Some (c_k d) /\ eval s (nth i strides (EInt 1)) = Some (c_s d) /\
    eval s (nth i pads (EInt 0)) = Some (c_b d) /\ eval s (nth (List.length kernel + i) pads (EInt 0)) = Some (c_e d) /\
    eval s (nth i dils (EInt 1)) = Some (c_d d) /\ eval s (nth (2 + i) shape (EInt 0)) = Some (c_in d).

Definition C46_conv_full : Prop := forall I fmac fma addc add zero X W Y B shape kernel strides pads dils cout group v p N Co Ci G ds st,
  (forall a, I 0%nat [a] = Some a) -> (forall a b c, I fmac [a; b; c] = Some (fma a b c)) -> (forall a b, I addc [a; b] = Some (add a b)) ->
  conv_names X W Y B (shape ++ kernel ++ strides ++ pads ++ dils ++ [cout]) (List.length kernel) v ->
  evals (env_of st) [nth 0 shape (EInt 0); cout; nth 1 shape (EInt 0); group] = Some [N; Co; Ci; G] ->
  conv_params (env_of st) shape kernel strides pads dils ds ->
  Forall (fun d => 1 <= c_k d /\ 1 <= c_s d /\ 0 <= c_b d /\ 0 <= c_e d /\ 1 <= c_d d) ds ->
  1 <= G -> (G | Ci) -> (G | Co) ->
  expand_conv fmac addc zero X W Y B shape kernel strides pads dils cout group v = Some p ->
  computes I (only p) (conv_hid v) Y (fun j => j)
    (conv_spec fma add zero (st X) (st W) (option_map (fun b oc => st b [oc]) B) Ci Co G ds) (N :: Co :: map conv_dim ds) st.

Lemma dims_eval s f : forall ds m a, List.length ds = m ->
  (forall i d, nth_error ds i = Some d -> cdim_eval s (f (a + i)%nat) d) -> Forall2 (cdim_eval s) (map f (List.seq a m)) ds.
Proof.
  induction ds as [|d ds IH]; intros m a LD HP; destruct m; try discriminate; cbn [List.seq map]; constructor.
  - specialize (HP 0%nat d eq_refl). rewrite Nat.add_0_r in HP. exact HP.
  - apply IH; [cbn in LD; lia|]. intros i d' Hi. specialize (HP (S i) d' Hi). rewrite Nat.add_succ_r in HP. exact HP.
Qed.
Lemma nth_atoms z i l d : In z (atoms (nth i l (EInt d))) -> In (nth i l (EInt d)) l.
Proof. intros H. destruct (nth_in_or_default i l (EInt d)) as [K|K]; auto. rewrite K in H. contradiction. Qed.
Lemma fold_ext_in {B} (f g : Z -> B -> Z) l : (forall a q, In q l -> f a q = g a q) -> forall i, fold_left f l i = fold_left g l i.
Proof.
  induction l as [|b l IH]; intros H i; cbn; auto. rewrite (H i b) by (left; auto). apply IH. intros a q Hq. apply H. right; auto.
Qed.
Lemma windows_inside : forall ds os ks,
  Forall (fun d => 1 <= c_k d /\ 1 <= c_s d /\ c_b d = 0 /\ c_e d = 0 /\ 1 <= c_d d /\ c_d d * (c_k d - 1) + 1 <= c_in d) ds ->
  Forall2 (fun d v => 0 <= v < d) (map conv_dim ds) os -> Forall2 (fun d v => 0 <= v < d) (map c_k ds) ks ->
  windows os ks ds = positions os ks ds /\ inside (positions os ks ds) ds = true.
Proof.
  induction ds as [|d ds IH]; intros os ks HF Ho Hk; cbn [map] in *.
  - inversion Ho; subst. inversion Hk; subst. auto.
  - inversion Ho as [|? o ? os' Hoo Ho2]; subst. inversion Hk as [|? k ? ks' Hkk Hk2]; subst. inversion HF as [|? ? Hd HF2]; subst.
    destruct (IH os' ks' HF2 Ho2 Hk2) as [E1 E2]. cbn [windows positions inside]. rewrite E1, E2. split.
    + f_equal. unfold window, position. lia.
    + rewrite andb_true_r. apply andb_true_iff. unfold position, conv_dim in *. destruct Hd as (H1 & H2 & H3 & H4 & H5 & H6). rewrite H3, H4 in Hoo. rewrite H3.
      assert (Q : o * c_s d <= c_in d + 0 + 0 - c_d d * (c_k d - 1) - 1).
      { assert (Q1 : o <= (c_in d + 0 + 0 - c_d d * (c_k d - 1) - 1) / c_s d) by lia.
        pose proof (Z.mul_div_le (c_in d + 0 + 0 - c_d d * (c_k d - 1) - 1) (c_s d) ltac:(lia)). nia. }
      split; [apply Z.leb_le|apply Z.ltb_lt]; nia.
Qed.

(** Proved: one group, no padding, and a kernel that fits into the input. *)
Theorem C46_conv_partial : forall I fmac fma addc add zero X W Y B shape kernel strides pads dils cout group v p N Co Ci G ds st,
  (forall a, I 0%nat [a] = Some a) -> (forall a b c, I fmac [a; b; c] = Some (fma a b c)) -> (forall a b, I addc [a; b] = Some (add a b)) ->
  conv_names X W Y B (shape ++ kernel ++ strides ++ pads ++ dils ++ [cout]) (List.length kernel) v ->
  evals (env_of st) [nth 0 shape (EInt 0); cout; nth 1 shape (EInt 0); group] = Some [N; Co; Ci; G] ->
  conv_params (env_of st) shape kernel strides pads dils ds ->
  Forall (fun d => 1 <= c_k d /\ 1 <= c_s d /\ c_b d = 0 /\ c_e d = 0 /\ 1 <= c_d d /\ c_d d * (c_k d - 1) + 1 <= c_in d) ds -> G = 1 ->
  expand_conv fmac addc zero X W Y B shape kernel strides pads dils cout group v = Some p ->
  computes I (only p) (conv_hid v) Y (fun j => j)
    (conv_spec fma add zero (st X) (st W) (option_map (fun b oc => st b [oc]) B) Ci Co G ds) (N :: Co :: map conv_dim ds) st.
Proof.
  intros I fmac fma addc add zero X W Y B shape kernel strides pads dils cout group v p N Co Ci G ds st H0 HF HA
    (Hnd & L1 & L2 & Hpub & Hout & Hat) Ev (LD & HP) Hd -> Hx.
  unfold expand_conv in Hx. destruct kernel as [|k0 kr] eqn:Ekn; [discriminate|]. rewrite <- Ekn in *.
  destruct (List.length shape <? 2 + List.length kernel)%nat eqn:Ls; [discriminate|]. apply Nat.ltb_ge in Ls.
  set (cds := conv_dims shape kernel strides pads dils) in *.
  destruct (conv_outs cds) as [outs|] eqn:Eo; [|discriminate].
  assert (Hp : p = NSeq (nest (maps (v_n v :: v_oc v :: v_od v) (nth 0 shape (EInt 0) :: cout :: outs))
        (conv_body fmac addc zero X W Y B (nth 1 shape (EInt 0)) cds v))) by congruence. subst p. clear Hx.
  assert (Lc : List.length cds = List.length kernel) by (unfold cds, conv_dims; rewrite map_length, seq_length; auto).
  assert (HD : Forall2 (cdim_eval (env_of st)) cds ds).
  { unfold cds, conv_dims. apply dims_eval; [auto|]. intros i d Hi. exact (HP i d Hi). }
  cbn [evals] in Ev. destruct (eval (env_of st) (nth 0 shape (EInt 0))) as [?|] eqn:E1; [|discriminate].
  destruct (eval (env_of st) cout) as [?|] eqn:E2; [|discriminate]. destruct (eval (env_of st) (nth 1 shape (EInt 0))) as [?|] eqn:E3; [|discriminate].
  destruct (eval (env_of st) group) as [?|]; [|discriminate]. injection Ev as -> -> -> _.
  apply computes_intro.
  destruct (conv_run I fmac fma addc add zero X W Y B (nth 0 shape (EInt 0)) cout (nth 1 shape (EInt 0)) cds outs v N Co Ci ds st)
    as (st' & R & S1 & S2); auto; try congruence.
  - intros e z He Hz. apply (Hat e z); auto. rewrite !in_app_iff.
    destruct He as [<-|[<-|[<-|He]]].
    + left. eapply nth_atoms; eauto.
    + cbn. auto 8.
    + left. eapply nth_atoms; eauto.
    + apply in_flat_map in He as (c & Hc & He). unfold cds, conv_dims in Hc. apply in_map_iff in Hc as (i & <- & Hi).
      cbn [cdim_exprs c_k c_s c_b c_e c_d c_in In] in He.
      destruct He as [<-|[<-|[<-|[<-|[<-|[<-|[]]]]]]]; apply nth_atoms in Hz; auto 8.
  - cbn [evals]. rewrite E1, E2, E3. auto.
  - revert Hd. apply Forall_impl. intros d Hd. lia.
  - assert (Ed : map out_size ds = map conv_dim ds).
    { clear -Hd. induction Hd as [|d ds Hd HF IH]; [auto|]. cbn. rewrite IH. f_equal. unfold out_size, conv_dim.
      rewrite Z.quot_div_nonneg by lia. f_equal. f_equal. lia. }
    rewrite Ed in *. exists st'. split; [apply only_seq; auto|]. split; [|auto].
    intros j Hj. rewrite S1 by auto. apply box_In in Hj.
    inversion Hj as [|? n ? r Hn Hr]; subst. inversion Hr as [|? oc ? os Hoc Hos]; subst.
    unfold conv_value, conv_spec. rewrite !Z.div_1_r, (Z.div_small oc Co) by lia.
    assert (E : fold_left (fun a q => match q with ic :: ks => fma (st X (n :: ic :: windows os ks ds)) (st W (oc :: ic :: ks)) a | [] => a end) (box (Ci :: map c_k ds)) zero =
      fold_left (fun a q => match q with
          | ic :: ks => let ps := positions os ks ds in
                        fma (if inside ps ds then st X (n :: (0 * Ci + ic) :: ps) else zero) (st W (oc :: ic :: ks)) a
          | [] => a end) (box (Ci :: map c_k ds)) zero).
    { apply fold_ext_in. intros a q Hq. apply box_In in Hq. inversion Hq as [|? ic ? ks Hic Hks]; subst.
      cbv zeta. destruct (windows_inside ds os ks Hd Hos Hks) as [-> ->]. rewrite Z.mul_0_l, Z.add_0_l. auto. }
    rewrite E. destruct B; auto.
Qed.

(* ------------------------------------------------------------------ *)
Definition cv1 : conv_vars := {| v_n := "n"; v_oc := "oc"; v_od := ["od0"]; v_acc := "acc"; v_ic := "ic"; v_k := ["k0"] |}.
(** X[n, c, d] = 100 c + d + 1 everywhere, W = 1. *)
Definition cst : store := fun z j =>
  if String.eqb z "X" then match j with [_; c; d] => 100 * c + d + 1 | _ => 0 end else if String.eqb z "W" then 1 else 0.
Definition dim1 (k s b e d i : Z) : cdim Z := {| c_k := k; c_s := s; c_b := b; c_e := e; c_d := d; c_in := i |}.
Definition conv1 (k s b e d i ci co g : Z) : option node :=
  expand_conv 1 3 0 "X" "W" "Y" None [EInt 1; EInt ci; EInt i] [EInt k] [EInt s] [EInt b; EInt e] [EInt d] (EInt co) (EInt g) cv1.
Lemma conv_names1 es : Forall (fun e => atoms e = []) es -> conv_names "X" "W" "Y" None es 1 cv1.
Proof.
  intros H. unfold conv_names. split; [cbn; repeat constructor; cbn; intuition congruence|]. split; [auto|]. split; [auto|].
  split; [intros z Hz; cbn in Hz; cbn; clear -Hz; intuition congruence|]. split; [cbn; intuition congruence|].
  intros e z He Hz. rewrite Forall_forall in H. rewrite (H e He) in Hz. contradiction.
Qed.
Lemma conv_params1 k s b e d i ci : conv_params (env_of cst) [EInt 1; EInt ci; EInt i] [EInt k] [EInt s] [EInt b; EInt e] [EInt d] [dim1 k s b e d i].
Proof.
  split; [auto|]. intros [|[|j]] dd H; cbn in H; try discriminate. injection H as <-. cbn. auto 8.
Qed.
Lemma conv_instance k s b e d i ci co g p : C46_conv_full ->
  1 <= k -> 1 <= s -> 0 <= b -> 0 <= e -> 1 <= d -> 1 <= g -> (g | ci) -> (g | co) ->
  conv1 k s b e d i ci co g = Some p ->
  computes Ifma (only p) (conv_hid cv1) "Y" (fun j => j) (conv_spec fmaZ Z.add 0 (cst "X") (cst "W") None ci co g [dim1 k s b e d i])
    [1; co; conv_dim (dim1 k s b e d i)] cst.
Proof.
  intros H Hk Hs Hb He Hd Hg H1 H2 Hp.
  apply (H Ifma 1%nat fmaZ 3%nat Z.add 0 "X" "W" "Y" None [EInt 1; EInt ci; EInt i] [EInt k] [EInt s] [EInt b; EInt e] [EInt d] (EInt co) (EInt g) cv1 p 1 co ci g
    [dim1 k s b e d i] cst); try reflexivity; auto using conv_params1.
  - apply conv_names1. repeat constructor.
  - repeat constructor; cbn; lia.
Qed.
(** With padding the expansion reads outside the input: here X[0, 0, -1]. *)
Theorem C46_conv_padding_refuted : ~ C46_conv_full.
Proof.
  intros H. destruct (conv1 3 1 1 1 1 3 1 1 1) as [p|] eqn:E; [|vm_compute in E; discriminate].
  apply (conv_instance 3 1 1 1 1 3 1 1 1 p H) in E as C; try lia; try apply Z.divide_1_l.
  vm_compute in E. injection E as <-. revert C.
  apply refute_computes_at with (fuel := 200%nat) (j := [0; 0; 2]) (v := 9).
  - vm_compute. reflexivity.
  - repeat (apply Forall2_cons; [vm_compute; intuition congruence|]); apply Forall2_nil.
  - vm_compute. discriminate.
Qed.
(** With two groups every output channel still sums over all input channels. *)
Theorem C46_conv_groups_refuted : ~ C46_conv_full.
Proof.
  intros H. destruct (conv1 1 1 0 0 1 1 2 2 2) as [p|] eqn:E; [|vm_compute in E; discriminate].
  apply (conv_instance 1 1 0 0 1 1 2 2 2 p H) in E as C; try lia; try apply Z.divide_refl.
  vm_compute in E. injection E as <-. revert C.
  apply refute_computes_at with (fuel := 200%nat) (j := [0; 0; 0]) (v := 102).
  - vm_compute. reflexivity.
  - repeat (apply Forall2_cons; [vm_compute; intuition congruence|]); apply Forall2_nil.
  - vm_compute. discriminate.
Qed.
(** A kernel one larger than the input: there is no output position, but with
    stride 2 the division rounds towards zero and Y[0, 0, 0] is written. *)
Theorem C46_conv_rounding_refuted : ~ C46_conv_full.
Proof.
  intros H. destruct (conv1 3 2 0 0 1 2 1 1 1) as [p|] eqn:E; [|vm_compute in E; discriminate].
  apply (conv_instance 3 2 0 0 1 2 1 1 1 p H) in E as C; try lia; try apply Z.divide_1_l.
  vm_compute in E. injection E as <-. destruct C as [_ C].
  match type of C with forall o s, runs ?I ?p ?st o s -> _ =>
    assert (K : match xseq I 200 p st with Some (ONorm, s) => s "Y" [0; 0; 0] = 6 | _ => False end) by (vm_compute; reflexivity);
    destruct (xseq I 200 p st) as [[o s]|] eqn:X; [|contradiction] end.
  destruct o; try contradiction. apply xseq_runs in X. destruct (C _ _ X) as (_ & _ & F).
  specialize (F "Y" [0; 0; 0]). rewrite K in F. enough (6 = 0) by discriminate. apply F.
  - vm_compute. intuition congruence.
  - right. intros j Hj. inversion Hj as [|? a ? r Ha Hr]; subst. inversion Hr as [|? b ? r2 Hb Hr2]; subst.
    inversion Hr2 as [|? c ? r3 Hc Hr3]; subst. exfalso. change (conv_dim (dim1 3 2 0 0 1 2)) with 0 in Hc. lia.
Qed.
(** Two input channels, kernel 2, stride 2, dilation 2, with a bias. *)
Definition cv2 : conv_vars := {| v_n := "n"; v_oc := "oc"; v_od := ["od0"; "od1"]; v_acc := "acc"; v_ic := "ic"; v_k := ["k0"; "k1"] |}.
Theorem C46_nonvacuous : exists p,
  expand_conv 1 3 0 "X" "W" "Y" (Some "Bias") [EInt 2; EInt 2; EInt 5; EInt 4] [EInt 2; EInt 1] [EInt 2] [] [EInt 2] (EInt 3) (EInt 1) cv2 = Some p /\
  computes Ifma (only p) (conv_hid cv2) "Y" (fun j => j)
    (conv_spec fmaZ Z.add 0 (cst "X") (cst "W") (Some (fun oc => cst "Bias" [oc])) 2 3 1 [dim1 2 2 0 0 2 5; dim1 1 1 0 0 1 4])
    [2; 3; 2; 4] cst.
Proof.
  destruct (expand_conv 1 3 0 "X" "W" "Y" (Some "Bias") [EInt 2; EInt 2; EInt 5; EInt 4] [EInt 2; EInt 1] [EInt 2] [] [EInt 2] (EInt 3) (EInt 1) cv2) as [p|] eqn:E;
    [|vm_compute in E; discriminate].
  exists p. split; auto.
  eapply (C46_conv_partial Ifma 1%nat fmaZ 3%nat Z.add 0 "X" "W" "Y" (Some "Bias") _ _ _ _ _ _ _ cv2 p 2 3 2 1
    [dim1 2 2 0 0 2 5; dim1 1 1 0 0 1 4] cst) in E; try reflexivity; auto.
  - unfold conv_names. split; [cbn; repeat constructor; cbn; intuition congruence|]. split; [auto|]. split; [auto|].
    split; [intros z Hz; cbn in Hz; cbn; clear -Hz; intuition congruence|]. split; [cbn; intuition congruence|].
    intros e z He Hz. exfalso. cbn in He. clear -He Hz. intuition subst; contradiction.
  - split; [auto|]. intros [|[|[|j]]] dd Hj; cbn in Hj; try discriminate; injection Hj as <-; cbn; auto 8.
  - repeat constructor; cbn; lia.
Qed.
