(** Properties of types and tensor views (C11, C27-C31, C36-C38).

    Specification side (TypesProofs.v): [inrange sh idx], [dot], [rank] (row-major
    position), [tev s t sh st o] (the numbers a tensor type denotes in valuation
    [s]), [view ... f] (each in-range index of the view addresses the element
    [f idx] of the original; [f] is a bijection between the index ranges). *)
From Coq Require Import Lia Permutation.
From Verif Require Import Sym SymFacts SymFuns SymProofs1 SymProofs2 Types TypesProofs TypesProofs2.
Local Open Scope string_scope.
Local Open Scope Z_scope.

(* ======================= C11 (rest) ======================= *)
(** The bounds created from a type hold for every value of that type; they
    exist exactly for the integer types (and pointers). *)
Theorem C11_type_bounds : forall (p : prim) (a : assumption) (v : Z) (s : env),
  prim_assum p = Some a -> representable p v ->
  xle (ev s (lb_dep a)) (Fin v) /\ xle (Fin v) (ev s (ub_dep a)) /\
  (forall b, In b (lbs a) -> xle (ev s b) (Fin v)) /\ (forall b, In b (ubs a) -> xle (Fin v) (ev s b)).
Proof. intros p a v s H R. exact (prim_assum_ok p a v H R s). Qed.
Theorem C11_type_bounds_defined : forall p : prim, (exists a, prim_assum p = Some a) <-> is_integer p = true.
Proof. intros []; simpl; split; intros H; try discriminate; eauto; destruct H; discriminate. Qed.
Example C11_nonvacuous : representable UInt64 18446744073709551615 /\ representable Int8 (-128) /\ ~ representable Int8 128.
Proof. cbv -[Z.le Z.lt]. lia. Qed.

(* ======================= C27 ======================= *)
(** A tensor access is lowered to a flat subscript whose value is the
    element's address. *)
Theorem C27_lowered_access : forall s t sh st o sub idx e,
  tev s t sh st o -> Forall2 (fun e z => eval s e = Some z) sub idx -> length sub = length (t_shape t) ->
  linearize t sub = Some e -> eval s e = Some (o + dot idx st).
Proof. exact linearize_ok. Qed.
Theorem C27_newaxis : forall s t sh st o ax t', tev s t sh st o -> newaxis ax t = Some t' ->
  exists sh' st', tev s t' sh' st' o /\ view sh st o sh' st' o (erase_at ax).
Proof. intros. destruct (newaxis_ok s t sh st o ax t') as [A B]; eauto. Qed.
Theorem C27_flip : forall s t sh st o ax t', tev s t sh st o -> flip ax t = Some t' ->
  exists st' o', tev s t' sh st' o' /\ view sh st o sh st' o' (fun idx => set_at ax (nth ax sh 0 - 1 - nth ax idx 0) idx).
Proof. exact flip_ok. Qed.
Theorem C27_squeeze_axis : forall s t sh st o ax t', tev s t sh st o -> squeeze_axis ax t = Some t' ->
  exists sh' st', tev s t' sh' st' o /\ view sh st o sh' st' o (insert_at ax 0).
Proof. intros. destruct (squeeze_axis_ok s t sh st o ax t') as [A B]; eauto. Qed.
Theorem C27_squeeze : forall s t sh st o, tev s t sh st o ->
  exists sh' st', tev s (squeeze t) sh' st' o /\ view sh st o sh' st' o (unsq (t_shape t)).
Proof. exact squeeze_ok. Qed.
Definition t23 : tensor := mk_tensor Float [ESym "n"; EInt 3; EInt 1].
Example C27_nonvacuous : tev (fun _ => 2) t23 [2; 3; 1] [3; 1; 1] 0 /\
  (exists t', flip 0 t23 = Some t') /\ (exists t', newaxis 3 t23 = Some t') /\ (exists t', squeeze_axis 2 t23 = Some t') /\
  linearize t23 [EInt 1; ESym "k"; EInt 0] <> None.
Proof.
  split; [repeat split; repeat constructor|]. split; [eexists; reflexivity|]. split; [eexists; reflexivity|].
  split; [eexists; reflexivity|]. vm_compute. discriminate.
Qed.

(* ======================= C28 ======================= *)
(** Same row-major position, same element. *)
Definition same_order (sh st : list Z) (o : Z) (sh' st' : list Z) (o' : Z) : Prop :=
  forall idx j, inrange sh' idx -> inrange sh j -> rank sh j = rank sh' idx -> o' + dot idx st' = o + dot j st.
Definition C28_full : Prop := forall s t sh st o new nsh t' st' o',
  tev s t sh st o -> reshape new t = Some t' -> tev s t' nsh st' o' -> same_order sh st o nsh st' o'.
(** Holds when the tensor's strides are the row-major strides of its shape. *)
Theorem C28_reshape_partial : forall s t sh st o new nsh t' st' o',
  tev s t sh st o -> reshape new t = Some t' -> tev s t' nsh st' o' -> t_strides t = strides_from_shape (t_shape t) ->
  same_order sh st o nsh st' o'.
Proof.
  intros s t sh st o new nsh t' st' o' T R T' E idx j Hi Hj Q.
  assert (t_shape t' = new) as En by (unfold reshape in R; destruct (expr_eqb _ _); [injection R as <-; auto|discriminate]).
  destruct T' as (T1' & T2' & T3' & T4'). rewrite En in T1'.
  destruct (reshape_eval s t sh st o new nsh t' T R T1') as [(A1 & A2 & A3 & A4) P].
  assert (forall es zs zs', Forall2 (fun e z => eval s e = Some z) es zs -> Forall2 (fun e z => eval s e = Some z) es zs' -> zs = zs') as U.
  { intros es zs zs' F. revert zs'. induction F; intros zs' F'; inversion F'; subst; auto. f_equal; [congruence|auto]. }
  rewrite (U _ _ _ T2' A2). rewrite T3' in A3. injection A3 as ->.
  destruct T as (T1 & T2 & T3 & T4). rewrite E in T2. rewrite (U _ _ _ T2 (eval_strides _ _ _ T1)), !dot_rm. lia.
Qed.
(** A flipped tensor reshaped to one dimension is read in the wrong order and
    starting past the buffer's first element. *)
Theorem C28_reshape_refuted : ~ C28_full.
Proof.
  intros F. set (t := {| t_elem := Float; t_shape := [EInt 2; EInt 3]; t_strides := [EInt (-3); EInt 1]; t_offset := EInt 3 |}).
  assert (tev (fun _ => 0) t [2; 3] [-3; 1] 3) as T by (repeat split; repeat constructor).
  assert (exists t', reshape [EInt 6] t = Some t' /\ tev (fun _ => 0) t' [6] [1] 3) as (t' & R & T').
  { eexists; split; [reflexivity|]. repeat split; repeat constructor. }
  assert (inrange [6] [3]) as I1 by (constructor; [lia|constructor]).
  assert (inrange [2; 3] [1; 0]) as I2 by (constructor; [lia|constructor; [lia|constructor]]).
  specialize (F _ _ _ _ _ _ _ _ _ _ T R T' [3] [1; 0] I1 I2 eq_refl). vm_compute in F. discriminate.
Qed.
Example C28_nonvacuous : exists t', reshape [EInt 3; ESym "n"] (mk_tensor Float [ESym "n"; EInt 3]) = Some t'.
Proof. eexists. vm_compute. reflexivity. Qed.

(* ======================= C29 ======================= *)
(** The default strides of a shape: distinct in-range indices have distinct
    positions, and the positions are exactly 0 .. (number of elements) - 1. *)
Theorem C29_row_major : forall s p shE sh, Forall2 (fun e z => eval s e = Some z) shE sh ->
  exists st n, tev s (mk_tensor p shE) sh st 0 /\ eval s (total_elements (mk_tensor p shE)) = Some n /\
    (forall idx, inrange sh idx -> 0 <= dot idx st < n) /\
    (forall i j, inrange sh i -> inrange sh j -> dot i st = dot j st -> i = j) /\
    (Forall (fun d => 0 <= d) sh -> forall k, 0 <= k < n -> exists idx, inrange sh idx /\ dot idx st = k).
Proof.
  intros s p shE sh H. exists (rm sh), (zprodr sh). split; [|split; [|split; [|split]]].
  - repeat split; simpl; auto using eval_strides. rewrite rm_length; auto.
  - apply eval_prod_exprs; auto.
  - intros idx Hi. rewrite dot_rm. apply rank_range; auto.
  - intros i j Hi Hj E. rewrite !dot_rm in E. eapply rank_inj; eauto.
  - intros Hd k Hk. exists (unrank sh k). rewrite dot_rm. apply unrank_ok; auto.
Qed.
Example C29_nonvacuous : dot [1; 2; 3] [12; 4; 1] = 23 /\ inrange [2; 3; 4] [1; 2; 3].
Proof. split; [reflexivity|]. repeat constructor; lia. Qed.

(* ======================= C30 ======================= *)
(** Primitive types: the fewest bytes holding the bit width; no size for void. *)
Theorem C30_primitive_size : forall (a : attrs) (p : prim) (f : ty -> expr) (c : bool),
  (type_size f c (TScalar a p) = None <-> p = Void) /\
  forall e, type_size f c (TScalar a p) = Some e -> exists z, e = EInt z /\ 0 < z /\ bit_width p <= 8 * z < bit_width p + 8.
Proof.
  intros a p f c. simpl. pose proof (prim_size_ok p) as Q. destruct (prim_size p) as [e|] eqn:E.
  - split; [split; [discriminate|intros ->; discriminate]|]. intros e' [= <-]. destruct e; try tauto. exists z. tauto.
  - split; [tauto|]. discriminate.
Qed.
(** Arrays: count times element; tensors: element times all extents. *)
Theorem C30_array_size : forall s f c a t n e,
  type_size f c (TArray a t n) = Some e ->
  exists e', type_size f c t = Some e' /\ forall v k, eval s e' = Some v -> eval s n = Some k -> eval s e = Some (v * k).
Proof.
  intros s f c a t n e H. simpl in H. destruct (type_size f c t) as [e'|]; [|discriminate]. injection H as <-.
  exists e'. split; auto. intros. apply eval_smul; auto.
Qed.
Theorem C30_tensor_size : forall s f c a p sh st o e zs,
  type_size f c (TTensor a p sh st o) = Some e -> Forall2 (fun e z => eval s e = Some z) sh zs ->
  exists z, prim_size p = Some (EInt z) /\ eval s e = Some (z * fold_right Z.mul 1 zs).
Proof.
  intros s f c a p sh st o e zs H F. simpl in H. pose proof (prim_size_ok p) as Q. destruct (prim_size p) as [e'|]; [|discriminate].
  injection H as <-. destruct e'; try tauto. exists z. split; auto. apply eval_smul; [reflexivity|]. apply (eval_prod_exprs s sh zs F).
Qed.
(** Sizes are positive when all extents are. *)
Theorem C30_positive : forall s f c t e, dims_pos s f t -> type_size f c t = Some e -> exists v, eval s e = Some v /\ 0 < v.
Proof. intros. eapply type_size_pos; eauto. Qed.
Definition at0 : attrs := {| a_storage := {| s_value := "CPU_Stack"; s_size := None; s_arg1 := None; s_alloc := false; s_dealloc := false |}; a_align := 0; a_init := "" |}.
Example C30_nonvacuous : type_size (fun _ => EInt 1) false (TArray at0 (TScalar at0 X86_FP80) (ESym "n")) = Some (EMul [EInt 10; ESym "n"])
  /\ dims_pos (fun _ => 4) (fun _ => EInt 1) (TArray at0 (TScalar at0 X86_FP80) (ESym "n")).
Proof. split; [reflexivity|]. split; [exists 4; split; [reflexivity|lia]|exact Logic.I]. Qed.

(* ======================= C31 ======================= *)
Theorem C31_roundtrip : forall p : prim, prim_from_string (prim_to_string p) = Some p.
Proof. exact prim_roundtrip. Qed.
(** No other string denotes a type. *)
Theorem C31_names_unique : forall (e : string) (p : prim), prim_from_string e = Some p -> prim_to_string p = e.
Proof. exact prim_from_to. Qed.
(** Every non-void type is integer or floating point, not both; integers other
    than Bool are signed or unsigned, not both; sign conversion keeps the width,
    reaches the other sign, and is undone by the other conversion. *)
Theorem C31_classification : forall p : prim,
  (p <> Void -> xorb (is_integer p) (is_floating_point p) = true) /\ (is_integer Void = false /\ is_floating_point Void = false) /\
  (is_integer p = true -> p <> Bool -> xorb (is_signed p) (is_unsigned p) = true) /\
  bit_width (as_signed p) = bit_width p /\ bit_width (as_unsigned p) = bit_width p /\
  is_unsigned (as_signed p) = false /\ is_signed (as_unsigned p) = false /\
  (is_unsigned p = true -> is_signed (as_signed p) = true /\ as_unsigned (as_signed p) = p) /\
  (is_signed p = true -> is_unsigned (as_unsigned p) = true /\ as_signed (as_unsigned p) = p) /\
  (is_signed p = false -> is_unsigned p = false -> as_signed p = p /\ as_unsigned p = p).
Proof. intros []; cbv; intuition congruence. Qed.

(* ======================= C36: MLIR TensorInfo ======================= *)
Theorem C36_transpose : forall t perm, length (i_shape t) = length (i_strides t) -> Permutation perm (seq 0 (length (i_shape t))) ->
  (forall idx, inrange (i_shape t) idx ->
     inrange (i_shape (ti_transpose perm t)) (gather perm idx) /\
     i_offset (ti_transpose perm t) + dot (gather perm idx) (i_strides (ti_transpose perm t)) = i_offset t + dot idx (i_strides t)) /\
  (forall j, inrange (i_shape (ti_transpose perm t)) j -> exists idx, inrange (i_shape t) idx /\ gather perm idx = j).
Proof. intros t perm L P. split; [apply transpose_ok; auto|]. apply gather_surj; auto. Qed.
Theorem C36_flip : forall axes t, length (i_strides t) = length (i_shape t) -> NoDup axes ->
  (forall a, In a axes -> (a < length (i_shape t))%nat) ->
  view (i_shape t) (i_strides t) (i_offset t) (i_shape (ti_flip axes t)) (i_strides (ti_flip axes t)) (i_offset (ti_flip axes t))
    (flip_spec axes (i_shape t)).
Proof. exact ti_flip_ok. Qed.
(** Unlike Tensor::reshape, the reshape check is sufficient. *)
Theorem C36_reshape : forall t sh, is_reshape_valid sh t = true ->
  same_order (i_shape t) (i_strides t) (i_offset t) sh (i_strides (ti_reshape sh t)) (i_offset (ti_reshape sh t)).
Proof. intros t sh H idx j. apply ti_reshape_ok; auto. Qed.
(** ... and every element of the new shape has a counterpart. *)
Theorem C36_reshape_total : forall t sh idx, is_reshape_valid sh t = true -> Forall (fun d => 0 <= d) (i_shape t) -> inrange sh idx ->
  exists j, inrange (i_shape t) j /\ rank (i_shape t) j = rank sh idx.
Proof.
  intros t sh idx H F Hi. apply rank_onto; auto. unfold is_reshape_valid in H. apply andb_true_iff in H as [H _].
  apply Z.eqb_eq in H. rewrite !zprod_r in H. auto.
Qed.
(** An axis listed twice is flipped once but its offset is added twice. *)
Theorem C36_flip_duplicate_refuted : exists t axes, length (i_strides t) = length (i_shape t) /\
  (forall a, In a axes -> (a < length (i_shape t))%nat) /\
  forall f, ~ view (i_shape t) (i_strides t) (i_offset t) (i_shape (ti_flip axes t)) (i_strides (ti_flip axes t)) (i_offset (ti_flip axes t)) f.
Proof.
  exists {| i_shape := [3]; i_strides := [1]; i_offset := 0 |}, [0%nat; 0%nat]. split; [reflexivity|].
  split; [intros a [<-|[<-|[]]]; simpl; lia|]. intros f (V1 & _ & _).
  destruct (V1 [0]) as [H E]; [repeat constructor; lia|]. simpl in H.
  change (4 + dot [0] [-1] = 0 + dot (f [0]) [1]) in E.
  destruct (f [0]) as [|k [|k' l]]; inversion H as [|? ? ? ? K1 K2]; subst; [|inversion K2].
  cbn [dot] in E. lia.
Qed.
Example C36_nonvacuous : is_reshape_valid [6; 4] {| i_shape := [2; 3; 4]; i_strides := [12; 4; 1]; i_offset := 5 |} = true.
Proof. reflexivity. Qed.

(* ======================= C37: type equality ======================= *)
Theorem C37_equivalence : (forall t, ty_eqb t t = true) /\ (forall t u, ty_eqb t u = true -> ty_eqb u t = true) /\
  (forall t u v, ty_eqb t u = true -> ty_eqb u v = true -> ty_eqb t v = true).
Proof. split; [exact ty_eqb_refl|]. split; [exact ty_eqb_sym|exact ty_eqb_trans]. Qed.
(** Equal types have the same size, primitive type and symbol-ness, and the same
    inferred element types for every subscript. *)
Theorem C37_interchangeable : forall t u, ty_eqb t u = true ->
  primitive_type t = primitive_type u /\ is_symbol t = is_symbol u /\
  (forall f c, (forall a b n, f (TStruct a n) = f (TStruct b n)) -> type_size f c t = type_size f c u) /\
  (forall defs sub, opt_eqb (infer_type defs t sub) (infer_type defs u sub)).
Proof.
  intros t u H. destruct (ty_eqb_prim t u H). repeat split; auto.
  - intros. apply ty_eqb_size; auto.
  - intros. apply infer_type_eq; auto.
Qed.
(** Storage, alignment and initializer are ignored. *)
Example C37_nonvacuous : let b := {| a_storage := {| s_value := "CPU_Heap"; s_size := Some (EInt 8); s_arg1 := None; s_alloc := true; s_dealloc := true |}; a_align := 16; a_init := "0" |} in
  ty_eqb (TPointer at0 (Some (TScalar at0 Int8))) (TPointer b (Some (TScalar b Int8))) = true /\
  ty_eqb (TPointer at0 None) (TPointer at0 (Some (TScalar at0 Int8))) = false.
Proof. split; reflexivity. Qed.

(* ======================= C38: subscripts compose ======================= *)
(** Applying subscripts in two steps infers the same type as applying them at
    once; failures also agree. *)
Theorem C38_subscripts_compose : forall defs t s1 s2 u, infer_type_internal defs t s1 = Some u ->
  infer_type_internal defs t (s1 ++ s2) = infer_type_internal defs u s2.
Proof. intros. apply infer_compose; auto. Qed.
(** A pointer is followed only by the first subscript. *)
Theorem C38_pointer_once : forall defs a p s1 s2 u, s1 <> [] ->
  infer_type defs (TPointer a (Some p)) s1 = Some u ->
  infer_type defs (TPointer a (Some p)) (s1 ++ s2) = infer_type_internal defs u s2.
Proof. intros defs a p [|i s1] s2 u N H; [congruence|]. simpl in *. apply infer_compose; auto. Qed.
Example C38_nonvacuous : infer_type (fun n => if String.eqb n "S" then Some [TScalar at0 Int8; TArray at0 (TScalar at0 Float) (EInt 4)] else None)
    (TPointer at0 (Some (TArray at0 (TStruct at0 "S") (ESym "n")))) [EInt 0; ESym "i"; EInt 1; ESym "j"] = Some (TScalar at0 Float).
Proof. reflexivity. Qed.

Print Assumptions C11_type_bounds.
Print Assumptions C27_squeeze.
Print Assumptions C28_reshape_partial.
Print Assumptions C28_reshape_refuted.
Print Assumptions C29_row_major.
Print Assumptions C30_positive.
Print Assumptions C31_classification.
Print Assumptions C36_transpose.
Print Assumptions C36_flip.
Print Assumptions C37_interchangeable.
Print Assumptions C38_subscripts_compose.
