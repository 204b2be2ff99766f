(** Expansion of the matrix multiplication node.

    Models sdfg/src/data_flow/library_nodes/math/tensor/matmul_node.cpp:195-527. *)
From Verif Require Export Blas Types.
From Verif Require Import SymFuns SymFacts SymProofs1 TypesProofs TypesProofs2 Skew.
Open Scope string_scope.
Open Scope Z_scope.
Import ListNotations.

(** copy_if_view, matmul_node.cpp:195-262: the container to use from now on and
    the code that fills it.  The read goes through the tensor type of the node,
    the write through a C-order type with offset 0.  Simplifications: malloc and
    free (the copy is a container of its own and is not used afterwards). *)
Definition is_view (shape strides : list expr) : bool := negb (list_eqb expr_eqb strides (strides_from_shape shape)).
Definition copy_if_view (p : prim) (name copy : string) (shape strides : list expr) (off : expr) (vs : list string) : option (string * seq) :=
  if is_view shape strides then
    match linearize {| t_elem := p; t_shape := shape; t_strides := strides; t_offset := off |} (syms vs), linearize (mk_tensor p shape) (syms vs) with
    | Some r, Some w => Some (copy, nest (maps vs shape) (single [{| o_code := 0; o_ins := [ORead name [r]]; o_out := copy; o_sub := [w] |}]))
    | _, _ => None
    end
  else Some (name, SNil).

(** matmul_node.cpp:338-360: the bound of batch dimension [i]; when both operands have it, A's is taken. *)
Definition batch_bound (sa sb : list expr) (i : nat) : expr :=
  let bda := (List.length sa - 2)%nat in let bdb := (List.length sb - 2)%nat in let mb := Nat.max bda bdb in
  if (mb - i <=? bda)%nat then nth (i - (mb - bda)) sa (EInt 0) else nth (i - (mb - bdb)) sb (EInt 0).
(** matmul_node.cpp:378-392 *)
Definition batch_offset (off : expr) (bvars : list string) (mb : nat) (shape strides : list expr) : expr :=
  let bd := (List.length shape - 2)%nat in
  fold_left (fun acc i => sadd acc (smul (ESym (nth (mb - bd + i) bvars "")) (nth i strides (EInt 0)))) (List.seq 0 bd) off.
(** matmul_node.cpp:394-410 *)
Definition c_stride (sa sb : list expr) (m n : expr) (mb i : nat) : expr :=
  let bda := (List.length sa - 2)%nat in let bdb := (List.length sb - 2)%nat in
  fold_left (fun acc j => if (j <? bda)%nat then smul acc (nth j sa (EInt 0))
                          else if (j - bda <? bdb)%nat then smul acc (nth (j - bda) sb (EInt 0)) else acc)
    (List.seq (S i) (mb - S i)) (smul m n).
Definition c_offset (sa sb : list expr) (m n : expr) (bvars : list string) (mb : nat) : expr :=
  fold_left (fun acc i => sadd acc (smul (ESym (nth i bvars "")) (c_stride sa sb m n mb i))) (List.seq 0 mb) (EInt 0).

Record mm_vars := { mm_ca : string; mm_va : list string; mm_cb : string; mm_vb : list string; mm_b : list string;
                    mm_ra : string; mm_rb : string; mm_rc : string; mm_g : gemm_vars }.
(** The operand: container, shape, strides, offset. *)
Record operand_t := { op_x : string; op_shape : list expr; op_strides : list expr; op_off : expr }.

(** matmul_node.cpp:282-527.  The references are taken in a block in front of
    the batch loops (:336, 455-463): they are modelled as assignments to scalars
    holding the offset.  The GEMM node is expanded in place. *)
Definition expand_matmul (p : prim) (fmac mulc addc : nat) (zero one : Z) (A B : operand_t) (Y : string) (v : mm_vars) : option node :=
  match p with
  | Half | Float | Double =>
      let sa := op_shape A in let sb := op_shape B in
      let m := nth (List.length sa - 2) sa (EInt 0) in let k := nth (List.length sa - 1) sa (EInt 0) in let n := nth (List.length sb - 1) sb (EInt 0) in
      let ta := strides_from_shape sa in let tb := strides_from_shape sb in
      let mb := Nat.max (List.length sa - 2) (List.length sb - 2) in
      match copy_if_view p (op_x A) (mm_ca v) sa (op_strides A) (op_off A) (mm_va v),
            copy_if_view p (op_x B) (mm_cb v) sb (op_strides B) (op_off B) (mm_vb v) with
      | Some (xa, ca), Some (xb, cb) =>
          match expand_gemm RowMajor false false fmac mulc addc zero
                  {| b_mem := xa; b_ref := Some (mm_ra v) |} {| b_mem := xb; b_ref := Some (mm_rb v) |}
                  {| b_mem := Y; b_ref := Some (mm_rc v) |} {| b_mem := Y; b_ref := Some (mm_rc v) |} (AConst one) (AConst zero)
                  m n k (nth (List.length sa - 2) ta (EInt 0)) (nth (List.length sb - 2) tb (EInt 0)) n (mm_g v) with
          | Some g =>
              Some (NSeq (sapp ca (sapp cb
                (SCons (NBlock []) [(mm_ra v, batch_offset (op_off A) (mm_b v) mb sa ta); (mm_rb v, batch_offset (op_off B) (mm_b v) mb sb tb);
                                    (mm_rc v, c_offset sa sb m n (mm_b v) mb)]
                (nest (maps (mm_b v) (map (batch_bound sa sb) (List.seq 0 mb))) (SCons g [] SNil))))))
          | None => None
          end
      | _, _ => None
      end
  | _ => None
  end.

(* ------------------------------------------------------------------ *)
Lemma evals_evl s l v : evals s l = Some v <-> Forall2 (fun e z => eval s e = Some z) l v.
Proof.
  revert v. induction l as [|e l IH]; intros v; cbn.
  - split; [intros H; injection H as <-; constructor|intros H; inversion H; auto].
  - split.
    + destruct (eval s e) eqn:E; [|discriminate]. destruct (evals s l) as [vs|] eqn:E2; [|discriminate]. intros H. injection H as <-.
      constructor; auto. apply IH; auto.
    + intros H. inversion H as [|? z ? vs E H2]; subst. rewrite E. apply IH in H2. rewrite H2. auto.
Qed.

(** After the copy (if any) the element [j] of the operand is at [off + rank j]
    in the container used from now on. *)
Lemma copy_run I p name copy shape strides off vs dims szs o x cp (st : store) :
  (forall a, I 0%nat [a] = Some a) ->
  copy_if_view p name copy shape strides off vs = Some (x, cp) ->
  frame vs shape copy [name] -> name <> copy ->
  (forall e z, In e (off :: strides) -> In z (atoms e) -> z <> copy /\ ~ In z vs) ->
  evals (env_of st) shape = Some dims -> evals (env_of st) strides = Some szs -> eval (env_of st) off = Some o ->
  List.length strides = List.length shape ->
  (is_view shape strides = true -> o = 0) ->
  (x = name \/ x = copy) /\
  exists st', runs I cp st ONorm st' /\
    (forall j, In j (box dims) -> st' x [o + rank dims j] = st name [o + dot j szs]) /\
    (forall z i, z <> copy -> ~ In z vs -> st' z i = st z i).
Proof.
  intros H0 Hc HF Hnc Hat Ed Es Eo HL Hv. unfold copy_if_view in Hc.
  destruct (is_view shape strides) eqn:Iv.
  - set (t := {| t_elem := p; t_shape := shape; t_strides := strides; t_offset := off |}) in *.
    destruct (linearize t (syms vs)) as [r|] eqn:Er; [|discriminate].
    destruct (linearize (mk_tensor p shape) (syms vs)) as [w|] eqn:Ew; [|discriminate].
    injection Hc as <- <-. split; [auto|]. specialize (Hv eq_refl). subst o.
    destruct HF as (Hnd & Hlen & Hy & Hxs & Ha).
    assert (Ad := proj1 (evals_evl _ _ _) Ed). assert (As := proj1 (evals_evl _ _ _) Es).
    destruct (scatter_maps I [{| o_code := 0; o_ins := [ORead name [r]]; o_out := copy; o_sub := [w] |}] vs shape dims copy [name]
       (fun j => [rank dims j]) (fun j => st name [0 + dot j szs]) st) as (st' & R & S1 & S2); auto.
    + repeat split; auto; intros; apply (Ha e x); auto.
    + intros j j' Hj Hj' E. injection E as E. apply box_In in Hj, Hj'. eapply rank_inj; eauto.
    + intros done idx rest s Hbox [S1 S2] Hvv Hs.
      assert (G : forall e z, In e (off :: strides ++ shape) -> eval (env_of st) e = Some z -> eval (env_of s) e = Some z).
      { intros e z He Ez. rewrite <- Ez. apply eval_eqx with (D := fun q => q = copy \/ In q vs).
        - intros q Hq i. apply S2; [intros K; apply Hq; auto|left; intros ->; apply Hq; auto].
        - intros q Hq K. assert (q <> copy /\ ~ In q vs) as [K1 K2].
          { destruct He as [<-|He]; [apply (Hat off q); cbn; auto|]. apply in_app_iff in He as [He|He]; [apply (Hat e q); cbn; auto|apply (Ha e q); auto]. }
          destruct K; auto. }
      assert (GL : forall l v, incl l (strides ++ shape) -> Forall2 (fun e z => eval (env_of st) e = Some z) l v -> Forall2 (fun e z => eval (env_of s) e = Some z) l v).
      { intros l v Hi HF. induction HF as [|e z l v He HF IH]; constructor.
        - apply G; auto. right. apply Hi. left. auto.
        - apply IH. intros q Hq. apply Hi. right. auto. }
      assert (Gs : Forall2 (fun e z => eval (env_of s) e = Some z) (syms vs) idx) by (apply evals_evl; auto).
      assert (Lsy : List.length (syms vs) = List.length shape) by (unfold syms; rewrite map_length; auto).
      assert (Tr : eval (env_of s) r = Some (0 + dot idx szs)).
      { eapply (linearize_ok (env_of s) t dims szs 0); eauto. repeat split; cbn.
        - apply GL; auto. intros q Hq; apply in_or_app; auto.
        - apply GL; auto. intros q Hq; apply in_or_app; auto.
        - apply G; cbn; auto.
        - apply F2_len in Ad, As. congruence. }
      assert (Tw : eval (env_of s) w = Some (0 + dot idx (rm dims))).
      { eapply (linearize_ok (env_of s) (mk_tensor p shape) dims (rm dims) 0); eauto. repeat split; cbn.
        - apply GL; auto. intros q Hq; apply in_or_app; auto.
        - apply eval_strides. apply GL; auto. intros q Hq; apply in_or_app; auto.
        - rewrite rm_length. auto. }
      exists (wr s copy [rank dims idx] (st name [0 + dot idx szs])). split; [|split].
      * cbn [exec_block]. unfold exec_op. cbn [o_ins o_code o_out o_sub reads_in read_in evals]. rewrite Tr, Tw, H0.
        rewrite dot_rm, Z.add_0_l. rewrite (S2 name) by (try apply Hxs; cbn; auto). rewrite Z.add_0_l. reflexivity.
      * apply wr_same.
      * intros z k K. apply IRFacts.wr_other. destruct K; auto.
    + exists st'. split; auto.
  - injection Hc as <- <-. split; [auto|]. exists st. split; [apply R_nil|]. split; [|auto].
    intros j Hj. unfold is_view in Iv. apply negb_false_iff in Iv. apply exprs_eqb_eq in Iv. subst strides.
    assert (szs = rm dims).
    { assert (A1 := proj1 (evals_evl _ _ _) Es). assert (A2 := eval_strides _ _ _ (proj1 (evals_evl _ _ _) Ed)).
      apply evals_evl in A1, A2. congruence. }
    subst szs. rewrite dot_rm. auto.
Qed.

Definition mm_hid (v : mm_vars) : list string :=
  mm_ca v :: mm_va v ++ mm_cb v :: mm_vb v ++ mm_b v ++ [mm_ra v; mm_rb v; mm_rc v] ++
  [g_i (mm_g v); g_j (mm_g v); g_k (mm_g v); g_sum (mm_g v); g_ts (mm_g v); g_ti (mm_g v)].
Definition op_exprs (A : operand_t) : list expr := op_off A :: op_shape A ++ op_strides A.

Lemma NoDup_app_l {A} (l m : list A) : NoDup (l ++ m) -> NoDup l.
Proof. induction l as [|a l IH]; intros H; [constructor|]. inversion H; subst. constructor; [rewrite in_app_iff in *; tauto|auto]. Qed.
Lemma NoDup_app_r {A} (l m : list A) : NoDup (l ++ m) -> NoDup m.
Proof. induction l as [|a l IH]; intros H; [auto|]. inversion H; auto. Qed.
Lemma NoDup_app_disj {A} (l m : list A) : NoDup (l ++ m) -> forall z, In z l -> ~ In z m.
Proof.
  induction l as [|a l IH]; intros H z Hz; [contradiction|]. inversion H as [|? ? Ha Hl]; subst.
  destruct Hz as [<-|Hz]; [intros K; apply Ha, in_or_app; auto|apply IH; auto].
Qed.
Lemma fold_ext {B} (f g : Z -> B -> Z) l : (forall a q, In q l -> f a q = g a q) -> forall i, fold_left f l i = fold_left g l i.
Proof.
  induction l as [|b l IH]; intros H i; cbn; auto. rewrite (H i b) by (left; auto). apply IH. intros a q Hq. apply H. right; auto.
Qed.
Lemma box2 M N j : In j (box [M; N]) -> exists a b, j = [a; b] /\ 0 <= a < M /\ 0 <= b < N.
Proof.
  intros Hj. apply box_In in Hj. inversion Hj as [|? a ? r Ha Hr]; subst. inversion Hr as [|? b ? r2 Hb Hr2]; subst. inversion Hr2; subst. eauto.
Qed.
(** Two matrices (no batch dimension). *)
Lemma matmul_run I p fmac fma mulc mul addc add zero one A B Y v m k k2 n M N K sa sb oa ob nd (st : store) :
  (forall a, I 0%nat [a] = Some a) -> (forall a b c, I fmac [a; b; c] = Some (fma a b c)) ->
  (forall a b, I mulc [a; b] = Some (mul a b)) -> (forall a b, I addc [a; b] = Some (add a b)) ->
  (forall x c, add (mul x one) (mul c zero) = x) ->
  NoDup (mm_hid v) ->
  (forall z, In z [op_x A; op_x B; Y] -> ~ In z (mm_hid v)) -> ~ In Y [op_x A; op_x B] ->
  (forall e z, In e (op_exprs A ++ op_exprs B) -> In z (atoms e) -> z <> Y /\ ~ In z (mm_hid v)) ->
  op_shape A = [m; k] -> op_shape B = [k2; n] -> List.length (op_strides A) = 2%nat -> List.length (op_strides B) = 2%nat ->
  List.length (mm_va v) = 2%nat -> List.length (mm_vb v) = 2%nat -> mm_b v = [] ->
  evals (env_of st) [m; k; k2; n] = Some [M; K; K; N] ->
  evals (env_of st) (op_strides A) = Some sa -> evals (env_of st) (op_strides B) = Some sb ->
  eval (env_of st) (op_off A) = Some oa -> eval (env_of st) (op_off B) = Some ob ->
  (is_view (op_shape A) (op_strides A) = true -> oa = 0) -> (is_view (op_shape B) (op_strides B) = true -> ob = 0) ->
  expand_matmul p fmac mulc addc zero one A B Y v = Some nd ->
  exists st', run I nd st ONorm st' /\
    scattered (mm_hid v) Y (fun j => [rank [M; N] j])
      (fun j => fold_left (fun s c => fma (st (op_x A) [oa + dot [nth 0 j 0; c] sa]) (st (op_x B) [ob + dot [c; nth 1 j 0] sb]) s) (zrange K) zero)
      st (box [M; N]) st'.
Proof.
  intros H0 HF HM HA Hone Hnd Hpub HY Hat Sa Sb La Lb Lva Lvb Hb Ev Esa Esb Eoa Eob Va Vb Hx.
  unfold expand_matmul in Hx. rewrite Sa, Sb, Hb in Hx. cbn [List.length Nat.sub Nat.max nth List.seq map maps combine nest strides_from_shape hd batch_offset c_offset fold_left] in Hx.
  assert (Hx2 : match copy_if_view p (op_x A) (mm_ca v) [m; k] (op_strides A) (op_off A) (mm_va v),
            copy_if_view p (op_x B) (mm_cb v) [k2; n] (op_strides B) (op_off B) (mm_vb v) with
      | Some (xa, ca), Some (xb, cb) =>
          match expand_gemm RowMajor false false fmac mulc addc zero
                  {| b_mem := xa; b_ref := Some (mm_ra v) |} {| b_mem := xb; b_ref := Some (mm_rb v) |}
                  {| b_mem := Y; b_ref := Some (mm_rc v) |} {| b_mem := Y; b_ref := Some (mm_rc v) |} (AConst one) (AConst zero)
                  m n k (smul (EInt 1) k) (smul (EInt 1) n) n (mm_g v) with
          | Some g => Some (NSeq (sapp ca (sapp cb
                (SCons (NBlock []) [(mm_ra v, op_off A); (mm_rb v, op_off B); (mm_rc v, EInt 0)] (SCons g [] SNil)))))
          | None => None end
      | _, _ => None end = Some nd).
  { destruct p; try discriminate; exact Hx. }
  clear Hx. 
  destruct (copy_if_view p (op_x A) (mm_ca v) [m; k] (op_strides A) (op_off A) (mm_va v)) as [[xa ca]|] eqn:Ca; [|discriminate].
  destruct (copy_if_view p (op_x B) (mm_cb v) [k2; n] (op_strides B) (op_off B) (mm_vb v)) as [[xb cb]|] eqn:Cb; [|discriminate].
  unfold expand_gemm in Hx2. cbn [orb] in Hx2.
  set (bA := {| b_mem := xa; b_ref := Some (mm_ra v) |}) in *. set (bB := {| b_mem := xb; b_ref := Some (mm_rb v) |}) in *.
  set (bY := {| b_mem := Y; b_ref := Some (mm_rc v) |}) in *.
  assert (Hnd2 : nd = NSeq (sapp ca (sapp cb
                (SCons (NBlock []) [(mm_ra v, op_off A); (mm_rb v, op_off B); (mm_rc v, EInt 0)] (SCons
      (NSeq (nest (maps [g_i (mm_g v); g_j (mm_g v)] [m; n]) (gemm_body fmac mulc addc zero bA bB bY bY (AConst one) (AConst zero) k (smul (EInt 1) k) (smul (EInt 1) n) n (mm_g v))))
      [] SNil))))) by congruence. subst nd. clear Hx2.
  (* names *)
  set (G := [g_i (mm_g v); g_j (mm_g v); g_k (mm_g v); g_sum (mm_g v); g_ts (mm_g v); g_ti (mm_g v)]) in *.
  assert (Hh : mm_hid v = (mm_ca v :: mm_va v ++ mm_cb v :: mm_vb v ++ [mm_ra v; mm_rb v; mm_rc v] ++ G)%list) by (unfold mm_hid; rewrite Hb; reflexivity).
  assert (Hin : forall z, In z (mm_hid v) <-> z = mm_ca v \/ In z (mm_va v) \/ z = mm_cb v \/ In z (mm_vb v) \/ In z [mm_ra v; mm_rb v; mm_rc v] \/ In z G).
  { intros z. rewrite Hh. cbn [In]. rewrite in_app_iff. cbn [In]. rewrite !in_app_iff. cbn [In]. clear. intuition congruence. }
  rewrite Hh in Hnd. apply NoDup_cons_iff in Hnd as [N1 Hnd].
  assert (Nva : NoDup (mm_va v)) by (apply NoDup_app_l in Hnd; auto).
  assert (Nva2 : forall z, In z (mm_va v) -> ~ In z (mm_cb v :: mm_vb v ++ [mm_ra v; mm_rb v; mm_rc v] ++ G)) by (apply NoDup_app_disj; auto).
  apply NoDup_app_r in Hnd. apply NoDup_cons_iff in Hnd as [N2 Hnd].
  assert (Nvb : NoDup (mm_vb v)) by (apply NoDup_app_l in Hnd; auto).
  assert (Nvb2 : forall z, In z (mm_vb v) -> ~ In z ([mm_ra v; mm_rb v; mm_rc v] ++ G)) by (apply NoDup_app_disj; auto).
  apply NoDup_app_r in Hnd.
  assert (Nr2 : forall z, In z [mm_ra v; mm_rb v; mm_rc v] -> ~ In z G) by (apply NoDup_app_disj; auto).
  assert (Nr := NoDup_app_l _ _ Hnd). apply NoDup_app_r in Hnd.
  cbn [evals] in Ev. destruct (eval (env_of st) m) as [?|] eqn:Em; [|discriminate]. destruct (eval (env_of st) k) as [?|] eqn:Ek; [|discriminate].
  destruct (eval (env_of st) k2) as [?|] eqn:Ek2; [|discriminate]. destruct (eval (env_of st) n) as [?|] eqn:En; [|discriminate].
  injection Ev as -> -> -> ->.
  assert (Eq : forall (s : store), (forall z i, ~ In z (mm_hid v) -> s z i = st z i) ->
    forall e, In e (op_exprs A ++ op_exprs B) -> eval (env_of s) e = eval (env_of st) e).
  { intros s Hs e He. apply eval_eqx with (D := fun z => In z (mm_hid v)).
    - intros z Hz i. apply Hs; auto.
    - intros z Hz. apply (Hat e z); auto. }
  assert (EqL : forall (s : store), (forall z i, ~ In z (mm_hid v) -> s z i = st z i) ->
    forall l, incl l (op_exprs A ++ op_exprs B) -> evals (env_of s) l = evals (env_of st) l).
  { intros s Hs l Hl. induction l as [|e l IH]; [auto|]. cbn. rewrite (Eq s Hs e) by (apply Hl; left; auto).
    rewrite IH by (intros q Hq; apply Hl; right; auto). auto. }
  assert (IA : In (op_off A) (op_exprs A) /\ In m (op_exprs A) /\ In k (op_exprs A) /\ incl (op_strides A) (op_exprs A)).
  { unfold op_exprs. rewrite Sa. cbn. repeat split; auto. intros q Hq; cbn; auto. }
  assert (IB : In (op_off B) (op_exprs B) /\ In k2 (op_exprs B) /\ In n (op_exprs B) /\ incl (op_strides B) (op_exprs B)).
  { unfold op_exprs. rewrite Sb. cbn. repeat split; auto. intros q Hq; cbn; auto. }
  destruct IA as (IA1 & IA2 & IA3 & IA4). destruct IB as (IB1 & IB2 & IB3 & IB4).
  assert (InA : forall e, In e (op_exprs A) -> In e (op_exprs A ++ op_exprs B)) by (intros; apply in_or_app; auto).
  assert (InB : forall e, In e (op_exprs B) -> In e (op_exprs A ++ op_exprs B)) by (intros; apply in_or_app; auto).
  assert (PA : ~ In (op_x A) (mm_hid v)) by (apply Hpub; cbn; auto). assert (PB : ~ In (op_x B) (mm_hid v)) by (apply Hpub; cbn; auto).
  assert (PY : ~ In Y (mm_hid v)) by (apply Hpub; cbn; auto).
  assert (NotIn : forall z, ~ In z (mm_hid v) -> z <> mm_ca v /\ ~ In z (mm_va v) /\ z <> mm_cb v /\ ~ In z (mm_vb v) /\ ~ In z [mm_ra v; mm_rb v; mm_rc v] /\ ~ In z G).
  { intros z Hz. rewrite Hin in Hz. clear -Hz. tauto. }
  (* copy of A *)
  destruct (copy_run I p (op_x A) (mm_ca v) [m; k] (op_strides A) (op_off A) (mm_va v) [M; K] sa oa xa ca st) as (Xa & s1 & R1 & V1 & F1); auto.
  { destruct (NotIn _ PA) as (P1 & P2 & _). repeat split; auto.
    - intros Hq. apply N1. apply in_or_app; auto.
    - intros x [<-|[]]. auto.
    - intros ->. destruct (Hat e (mm_ca v)) as [_ Q]; auto; [apply InA; cbn in H; destruct H as [<-|[<-|[]]]; auto|]. apply Q, Hin. auto.
    - intros Hq. destruct (Hat e x) as [_ Q]; auto; [apply InA; cbn in H; destruct H as [<-|[<-|[]]]; auto|]. apply Q, Hin. auto. }
  { intros E. apply PA. rewrite E. apply Hin. auto. }
  { intros e z He Hz. destruct (Hat e z) as [_ Q]; auto.
    - apply InA. destruct He as [<-|He]; auto.
    - destruct (NotIn _ Q) as (P1 & P2 & _). auto. }
  { cbn [evals]. rewrite Em, Ek. auto. }
  { rewrite <- Sa. auto. }
  assert (A1 : forall z i, ~ In z (mm_hid v) -> s1 z i = st z i).
  { intros z i Hz. destruct (NotIn _ Hz) as (P1 & P2 & _). apply F1; auto. }
  (* copy of B *)
  destruct (copy_run I p (op_x B) (mm_cb v) [k2; n] (op_strides B) (op_off B) (mm_vb v) [K; N] sb ob xb cb s1) as (Xb & s2 & R2 & V2 & F2); auto.
  { destruct (NotIn _ PB) as (_ & _ & P3 & P4 & _). repeat split; auto.
    - intros Hq. apply N2. apply in_or_app; auto.
    - intros x [<-|[]]. auto.
    - intros ->. destruct (Hat e (mm_cb v)) as [_ Q]; auto; [apply InB; cbn in H; destruct H as [<-|[<-|[]]]; auto|]. apply Q, Hin. auto.
    - intros Hq. destruct (Hat e x) as [_ Q]; auto; [apply InB; cbn in H; destruct H as [<-|[<-|[]]]; auto|]. apply Q, Hin. auto 6. }
  { intros E. apply PB. rewrite E. apply Hin. auto. }
  { intros e z He Hz. destruct (Hat e z) as [_ Q]; auto.
    - apply InB. destruct He as [<-|He]; auto.
    - destruct (NotIn _ Q) as (_ & _ & P3 & P4 & _). auto. }
  { cbn [evals]. rewrite !(Eq s1 A1) by auto. rewrite Ek2, En. auto. }
  { rewrite (EqL s1 A1); auto. intros q Hq; auto. }
  { rewrite (Eq s1 A1); auto. }
  { rewrite <- Sb. auto. }
  assert (A2 : forall z i, ~ In z (mm_hid v) -> s2 z i = st z i).
  { intros z i Hz. destruct (NotIn _ Hz) as (_ & _ & P3 & P4 & _). rewrite F2; auto. }
  assert (Cab : mm_ca v <> mm_cb v /\ ~ In (mm_ca v) (mm_vb v)).
  { split; [intros E; apply N1; rewrite E|intros E; apply N1]; apply in_or_app; right; [left; auto|right; apply in_or_app; auto]. }
  assert (A2a : forall i, s2 xa i = s1 xa i).
  { intros i. destruct Cab as [Cab1 Cab2]. destruct Xa as [-> | ->]; [|apply F2; auto].
    destruct (NotIn _ PA) as (_ & _ & P3 & P4 & _). apply F2; auto. }
  (* the references *)
  set (s3 := wr (wr (wr s2 (mm_ra v) [] oa) (mm_rb v) [] ob) (mm_rc v) [] 0).
  set (refs := [mm_ra v; mm_rb v; mm_rc v]) in *.
  assert (A3 : forall z i, ~ In z refs -> s3 z i = s2 z i).
  { intros z i Hz. unfold s3, refs in *. cbn [In] in Hz. rewrite !IRFacts.wr_other; auto; left; clear -Hz; intuition congruence. }
  assert (A3h : forall z i, ~ In z (mm_hid v) -> s3 z i = st z i).
  { intros z i Hz. destruct (NotIn _ Hz) as (_ & _ & _ & _ & P5 & _). rewrite A3; auto. }
  assert (Nrr : mm_ra v <> mm_rb v /\ mm_ra v <> mm_rc v /\ mm_rb v <> mm_rc v).
  { clear -Nr. unfold refs in Nr. repeat (apply NoDup_cons_iff in Nr as [? Nr]). cbn [In] in *. intuition congruence. }
  destruct Nrr as (Nr1 & Nr3 & Nr4).
  assert (Ba : s3 (mm_ra v) [] = oa) by (unfold s3; rewrite !IRFacts.wr_other by auto; apply wr_same).
  assert (Bb : s3 (mm_rb v) [] = ob) by (unfold s3; rewrite !IRFacts.wr_other by auto; apply wr_same).
  assert (Bc : s3 (mm_rc v) [] = 0) by (unfold s3; apply wr_same).
  assert (Easg : exec_assigns s2 [(mm_ra v, op_off A); (mm_rb v, op_off B); (mm_rc v, EInt 0)] = Some s3).
  { cbn [exec_assigns]. rewrite (Eq s2 A2), Eoa by auto.
    assert (A2' : forall z i, ~ In z (mm_hid v) -> wr s2 (mm_ra v) [] oa z i = st z i).
    { intros z i Hz. rewrite IRFacts.wr_other; auto. left. intros E. apply Hz, Hin. unfold refs. cbn. auto 8. }
    rewrite (Eq _ A2'), Eob by auto. reflexivity. }
  assert (Xah : ~ In xa G /\ ~ In xa refs /\ xa <> Y).
  { destruct Xa as [-> | ->].
    - destruct (NotIn _ PA) as (_ & _ & _ & _ & P5 & P6). split; [auto|split; [auto|]]. intros E. apply HY. rewrite <- E. left; auto.
    - split; [|split].
      + intros E. apply N1. rewrite !in_app_iff. cbn [In]. rewrite !in_app_iff. auto 8.
      + intros E. apply N1. rewrite !in_app_iff. cbn [In]. rewrite !in_app_iff. auto 8.
      + intros E. apply PY, Hin. auto. }
  assert (Xbh : ~ In xb G /\ ~ In xb refs /\ xb <> Y).
  { destruct Xb as [-> | ->].
    - destruct (NotIn _ PB) as (_ & _ & _ & _ & P5 & P6). split; [auto|split; [auto|]]. intros E. apply HY. rewrite <- E. right; left; auto.
    - split; [|split].
      + intros E. apply N2. rewrite !in_app_iff. auto 8.
      + intros E. apply N2. rewrite !in_app_iff. auto 8.
      + intros E. apply PY, Hin. auto. }
  destruct Xah as (Xa1 & Xa2 & Xa3). destruct Xbh as (Xb1 & Xb2 & Xb3).
  destruct (gemm_run I fmac fma mulc mul addc add zero bA bB bY bY (AConst one) (AConst zero) m n k (smul (EInt 1) k) (smul (EInt 1) n) n (mm_g v) M N K K N N s3)
    as (s4 & R4 & S1 & S2); auto.
  { fold G. intros z Hz. cbn [b_mem bA bB bY base_names b_ref earg_names app In] in Hz.
    destruct (NotIn _ PY) as (_ & _ & _ & _ & _ & P6).
    assert (Nrg : forall q, In q refs -> ~ In q G) by auto. unfold refs in Nrg. cbn [In] in Nrg.
    destruct Hz as [<-|[<-|[<-|[<-|[<-|[<-|[<-|[<-|[]]]]]]]]]; auto. }
  { cbn [b_mem bA bB bY base_names b_ref earg_names app In]. intros Hz.
    destruct (NotIn _ PY) as (_ & _ & _ & _ & P5 & _). unfold refs in P5. cbn [In] in P5. clear -Hz Xa3 Xb3 P5. intuition congruence. }
  { intros a [<-|[<-|[]]]; auto. }
  { fold G. intros e z He Hz.
    assert (Q : z <> Y /\ ~ In z (mm_hid v)).
    { cbn [In] in He. destruct He as [<-|[<-|[<-|[<-|[<-|[<-|[]]]]]]]; try solve [eapply Hat; [|exact Hz]; auto].
      - apply atoms_smul in Hz as [[]|Hz]. eapply Hat; [|exact Hz]; auto.
      - apply atoms_smul in Hz as [[]|Hz]. eapply Hat; [|exact Hz]; auto. }
    destruct Q as [Q1 Q2]. destruct (NotIn _ Q2) as (_ & _ & _ & _ & _ & P6). auto. }
  { assert (Tm : eval (env_of s3) m = Some M) by (rewrite (Eq s3 A3h); auto). assert (Tn : eval (env_of s3) n = Some N) by (rewrite (Eq s3 A3h); auto).
    assert (Tk : eval (env_of s3) k = Some K) by (rewrite (Eq s3 A3h); auto).
    cbn [evals]. rewrite Tm, Tn, Tk, (eval_mul _ _ _ 1 K), (eval_mul _ _ _ 1 N) by auto. rewrite !Z.mul_1_l. auto. }
  { lia. }
  fold G in S1, S2. cbn [b_mem bY] in S1, S2.
  exists s4. split.
  - apply R_seq. eapply runs_sapp; [exact R1|]. eapply runs_sapp; [exact R2|].
    apply R_cons with (st1 := s2) (st2 := s3); [apply R_block; reflexivity|exact Easg|].
    apply R_cons with (st1 := s4) (st2 := s4); [apply R_seq; exact R4|reflexivity|apply R_nil].
  - assert (BV : base_val s3 bY = 0) by exact Bc.
    assert (Rk : forall a b, rank [M; N] [a; b] = N * a + b) by (intros; cbn; lia).
    split.
    + intros j Hj. specialize (S1 j Hj). destruct (box2 _ _ _ Hj) as (a & b & Ej & Ha & Hb2). rewrite Ej in S1 |- *. clear j Hj Ej.
      rewrite Rk. rewrite BV, Z.add_0_l in S1. rewrite S1. cbn [factor_val earg_val]. rewrite Hone. cbn [nth].
      apply fold_ext. intros s c Hc. apply zrange_In in Hc.
      assert (Q1 : s3 (b_mem bA) [base_val s3 bA + (K * a + c)] = st (op_x A) [oa + dot [a; c] sa]).
      { cbn [b_mem bA]. unfold base_val. cbn [b_ref bA]. rewrite Ba, A3, A2a by auto.
        replace (K * a + c) with (rank [M; K] [a; c]) by (cbn; lia). apply V1. apply box_In. repeat (apply Forall2_cons; [lia|]). apply Forall2_nil. }
      assert (Q2 : s3 (b_mem bB) [base_val s3 bB + (N * c + b)] = st (op_x B) [ob + dot [c; b] sb]).
      { cbn [b_mem bB]. unfold base_val. cbn [b_ref bB]. rewrite Bb, A3 by auto.
        replace (N * c + b) with (rank [K; N] [c; b]) by (cbn; lia). rewrite V2, A1; auto. apply box_In. repeat (apply Forall2_cons; [lia|]). apply Forall2_nil. }
      rewrite Q1, Q2. auto.
    + intros z i Hz Kz. destruct (NotIn _ Hz) as (_ & _ & _ & _ & _ & P6). rewrite S2; auto.
      destruct Kz as [Kz|Kz]; [auto|]. right. intros j Hj. specialize (Kz j Hj). destruct (box2 _ _ _ Hj) as (a & b & Ej & Ha & Hb2). rewrite Ej in Kz |- *.
      rewrite BV, Z.add_0_l, <- Rk. auto.
Qed.
