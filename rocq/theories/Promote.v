(** * SymbolPromotion (passes/symbolic/symbol_promotion.cpp) *)
From Coq Require Import ZArith List Bool String Lia.
From Verif Require Import Sym SymFacts SymFuns SymProofs1 SymProofs4 IR IRFacts IRRefine Types TypesProofs.
Import ListNotations.
Local Open Scope string_scope.
Local Open Scope list_scope.
Local Open Scope Z_scope.

(** data_flow/tasklet.h: the codes the pass knows; [TOther] stands for all others
    (floating-point and unsigned operations, comparisons, library calls). *)
Inductive tcode := TAssign | TAdd | TSub | TMul | TSdiv | TSrem | TSmin | TSmax | TAbs | TAshr | TShl | TAnd | TOr | TXor | TOther.
(** An input edge: the access or constant node with its subset, the primitive type the
    node is declared with, and the primitive type of the memlet's base type
    ([IType::primitive_type] is that of the element for arrays and pointers). *)
Record edge := Edge { g_node : operand; g_decl : prim; g_base : prim }.
Record task := Task { t_code : tcode; t_in : list edge; t_out : string; t_osub : list expr; t_odecl : prim; t_obase : prim }.

Definition no_subset (g : edge) : bool := match g_node g with ORead _ (_ :: _) => false | _ => true end.
Definition const_of (g : edge) : option Z := match g_node g with OConst z => Some z | _ => None end.
(** Tasklet::is_zext, tasklet.cpp:94-113, is_trunc 136-158 *)
Definition is_zext (i o : prim) : bool := is_unsigned i && is_unsigned o && (bit_width i <? bit_width o).
Definition is_trunc (i o : prim) : bool := is_integer i && is_integer o && Bool.eqb (is_unsigned i) (is_unsigned o) && (bit_width o <? bit_width i).
(** is_safe_constant_assign, symbol_promotion.cpp:207-256 *)
Definition safe_constant (t : task) : bool :=
  match t_code t, t_in t with
  | TAssign, [g] => match const_of g with
      | Some z => is_unsigned (g_base g) && is_unsigned (t_obase t) && is_signed (t_odecl t) && (match t_osub t with [] => true | _ => false end) &&
                  (0 <=? z) && (z <=? 2 ^ (bit_width (t_obase t) - 1) - 1)
      | None => false end
  | _, _ => false
  end.
Definition signed_int (p : prim) : bool := is_integer p && negb (is_unsigned p).
(** can_be_applied, symbol_promotion.cpp:27-205, for a block with this tasklet only *)
Definition special (t : task) : bool :=
  match t_code t, t_in t with
  | TAssign, [g] => safe_constant t
      || (is_trunc (g_base g) (t_obase t) && prim_eqb (g_base g) UInt64 && prim_eqb (t_obase t) UInt32)
      || (is_zext (g_base g) (t_obase t) && prim_eqb (g_base g) UInt32 && prim_eqb (t_obase t) UInt64)
  | _, _ => false
  end.
Definition all_bool (t : task) : bool := forallb (fun g => prim_eqb (g_base g) Bool) (t_in t) && prim_eqb (t_obase t) Bool.
Definition accept (t : task) : bool :=
  special t ||
  (forallb (fun g => no_subset g && signed_int (g_base g) && prim_eqb (g_decl g) (g_base g)) (t_in t) &&
   (match t_osub t with [] => true | _ => false end) && signed_int (t_obase t) && prim_eqb (t_odecl t) (t_obase t) &&
   match t_code t with
   | TAssign | TAdd | TSub | TMul | TSdiv | TSrem | TSmin | TSmax | TAbs => true
   | TAshr | TShl => match t_in t with [_; g] => match const_of g with Some _ => true | None => false end | _ => false end
   | TAnd | TOr => all_bool t
   | TXor => all_bool t || existsb (fun g => match const_of g with Some z => z =? -1 | None => false end) (t_in t)
   | TOther => false
   end).

(** as_symbol, symbol_promotion.cpp:11-25: the subset is ignored *)
Definition as_symbol (g : edge) : expr := match g_node g with OConst z => EInt z | ORead x _ => ESym x end.
Inductive rhs := RExpr (e : expr) | RCond (c : cond).
Definition is_true (g : edge) : cond := CEq (as_symbol g) (EInt 1).
(** apply, symbol_promotion.cpp:258-395; [None]: an exception or a null expression.
    symbolic::__true__() is compared as 1. *)
Definition promoted (t : task) : option rhs :=
  match t_code t, t_in t with
  | TAssign, [g] => Some (RExpr (if is_zext (g_base g) (t_obase t) then EZext (as_symbol g) else if is_trunc (g_base g) (t_obase t) then ETrunc (as_symbol g) else as_symbol g))
  | TAdd, [a; b] => Some (RExpr (sadd (as_symbol a) (as_symbol b)))
  | TSub, [a; b] => Some (RExpr (ssub (as_symbol a) (as_symbol b)))
  | TMul, [a; b] => Some (RExpr (smul (as_symbol a) (as_symbol b)))
  | TSdiv, [a; b] => option_map RExpr (sym_div (as_symbol a) (as_symbol b))
  | TSrem, [a; b] => option_map RExpr (sym_mod (as_symbol a) (as_symbol b))
  | TSmin, [a; b] => Some (RExpr (smin (as_symbol a) (as_symbol b)))
  | TSmax, [a; b] => Some (RExpr (smax (as_symbol a) (as_symbol b)))
  | TAbs, [a] => Some (RExpr (EIabs (as_symbol a)))
  | TAshr, [a; b] => match const_of b with Some k => if k <? 0 then None else option_map RExpr (sym_div (as_symbol a) (EInt (2 ^ k))) | None => None end
  | TShl, [a; b] => match const_of b with Some k => if k <? 0 then None else Some (RExpr (smul (as_symbol a) (EInt (2 ^ k)))) | None => None end
  | TAnd, [a; b] => Some (RCond (CAnd [is_true a; is_true b]))
  | TOr, [a; b] => Some (RCond (COr [is_true a; is_true b]))
  | TXor, [a; b] =>
      if all_bool t then Some (RCond (CAnd [COr [is_true a; is_true b]; CNot (CAnd [is_true a; is_true b])]))
      else match const_of a, const_of b with
           | _, None => Some (RExpr (sadd (smul (as_symbol b) (EInt (-1))) (EInt (-1))))
           | None, Some _ => Some (RExpr (sadd (smul (as_symbol a) (EInt (-1))) (EInt (-1))))
           | Some _, Some _ => None
           end
  | _, _ => None
  end.

(** ** What a generated tasklet computes *)
(** C conversion to an integer type (C17 6.3.1.2, 6.3.1.3; out-of-range conversions to
    a signed type wrap, as gcc and clang define it); c_language_extension.cpp:12-60. *)
Definition conv (p : prim) (z : Z) : Z :=
  if is_unsigned p then z mod 2 ^ bit_width p
  else if prim_eqb p Bool then (if z =? 0 then 0 else 1)
  else swrap (bit_width p) z.
Definition in_range (p : prim) (z : Z) : Prop :=
  if is_unsigned p then 0 <= z < 2 ^ bit_width p
  else if prim_eqb p Bool then 0 <= z <= 1
  else - 2 ^ (bit_width p - 1) <= z < 2 ^ (bit_width p - 1).
(** Integer promotion: operations of narrower operands are done in 32 bits. *)
Definition op_width (ps : list prim) : Z := fold_right (fun p w => Z.max (bit_width p) w) 32 ps.
Definition checked (w z : Z) : option Z := if (- 2 ^ (w - 1) <=? z) && (z <? 2 ^ (w - 1)) then Some z else None.
(** c_language_extension.cpp:252-300 on signed operands; [None]: undefined behaviour *)
Definition c_op (c : tcode) (w : Z) (vs : list Z) : option Z :=
  match c, vs with
  | TAssign, [a] => Some a
  | TAdd, [a; b] => checked w (a + b)
  | TSub, [a; b] => checked w (a - b)
  | TMul, [a; b] => checked w (a * b)
  | TSdiv, [a; b] => if b =? 0 then None else checked w (Z.quot a b)
  | TSrem, [a; b] => if b =? 0 then None else match checked w (Z.quot a b) with Some _ => Some (Z.rem a b) | None => None end
  | TSmin, [a; b] => Some (if a <? b then a else b)
  | TSmax, [a; b] => Some (if b <? a then a else b)
  | TAbs, [a] => checked w (if a <? 0 then - a else a)
  | TAshr, [a; b] => if (0 <=? b) && (b <? w) then Some (Z.shiftr a b) else None
  | TShl, [a; b] => if (0 <=? b) && (b <? w) then checked w (a * 2 ^ b) else None
  | TAnd, [a; b] => Some (Z.land a b)
  | TOr, [a; b] => Some (Z.lor a b)
  | TXor, [a; b] => Some (Z.lxor a b)
  | _, _ => None
  end.
Fixpoint map2 (gs : list edge) (vs : list Z) : list Z :=
  match gs, vs with g :: gs', v :: vs' => conv (g_base g) v :: map2 gs' vs' | _, _ => [] end.
(** dispatch_tasklet, block_dispatcher.cpp:219-290: load every input into a local of the
    memlet's type, compute into a local of the output memlet's type, store to the container. *)
Definition c_task (t : task) (vs : list Z) : option Z :=
  match c_op (t_code t) (op_width (map g_base (t_in t))) (map2 (t_in t) vs) with
  | Some r => Some (conv (t_odecl t) (conv (t_obase t) r))
  | None => None
  end.
(** The value of the new assignment's right-hand side. *)
Definition rhs_value (s : env) (r : rhs) : option Z :=
  match r with RExpr e => eval s e | RCond c => match cev s c with Some b => Some (if b then 1 else 0) | None => None end end.
Definition task_value (t : task) (st : store) : option Z :=
  match reads_in st (map g_node (t_in t)) with Some vs => c_task t vs | None => None end.

Lemma pow2_pos n : 0 <= n -> 0 < 2 ^ n.
Proof. intros; apply Z.pow_pos_nonneg; lia. Qed.
Lemma width_pos p : is_integer p = true -> 1 <= bit_width p.
Proof. destruct p; simpl; intros; try discriminate; lia. Qed.
Lemma swrap_id w z : 1 <= w -> - 2 ^ (w - 1) <= z < 2 ^ (w - 1) -> swrap w z = z.
Proof.
  intros W H. unfold swrap. assert (E : 2 ^ w = 2 * 2 ^ (w - 1)).
  { replace w with (1 + (w - 1)) at 1 by lia. rewrite Z.pow_add_r by lia. reflexivity. }
  rewrite Z.mod_small; lia.
Qed.
Lemma swrap_range w z : 1 <= w -> - 2 ^ (w - 1) <= swrap w z < 2 ^ (w - 1).
Proof.
  intros W. unfold swrap. assert (E : 2 ^ w = 2 * 2 ^ (w - 1)).
  { replace w with (1 + (w - 1)) at 1 by lia. rewrite Z.pow_add_r by lia. reflexivity. }
  pose proof (pow2_pos (w - 1) ltac:(lia)). pose proof (Z.mod_pos_bound (z + 2 ^ (w - 1)) (2 ^ w) ltac:(lia)). lia.
Qed.
Lemma conv_id p z : is_integer p = true -> in_range p z -> conv p z = z.
Proof.
  intros W H. pose proof (width_pos p W). unfold conv, in_range in *.
  destruct (is_unsigned p). { apply Z.mod_small; lia. }
  destruct (prim_eqb p Bool). { destruct (Z.eqb_spec z 0); lia. }
  apply swrap_id; auto.
Qed.
Lemma conv_range p z : is_integer p = true -> in_range p (conv p z).
Proof.
  intros W. pose proof (width_pos p W). unfold conv, in_range in *.
  destruct (is_unsigned p). { apply Z.mod_pos_bound, pow2_pos; lia. }
  destruct (prim_eqb p Bool). { destruct (Z.eqb_spec z 0); lia. }
  apply swrap_range; auto.
Qed.
Lemma conv_idem p z : is_integer p = true -> conv p (conv p z) = conv p z.
Proof. intros W. apply conv_id; auto. apply conv_range; auto. Qed.

(** When the promotion is faithful for input values [vs] (the pass does not check these). *)
Definition faithful (t : task) (vs : list Z) : Prop :=
  forallb no_subset (t_in t) = true /\
  match t_code t, t_in t, vs with
  | TAssign, [g], [v] =>
      if is_trunc (g_base g) (t_obase t)
      then in_int64 v = true /\ ((in_range Int32 v /\ in_range (t_obase t) v) \/ (bit_width (t_odecl t) <= 32 /\ t_obase t <> Bool /\ t_odecl t <> Bool))
      else is_unsigned (g_base g) = true -> in_range (g_base g) v /\ in_int64 v = true
  | TAshr, _, a :: _ => 0 <= a
  | _, _, _ => True
  end.

Lemma wrap_mod a b w w' : 0 <= w' <= w -> a mod 2 ^ w = b mod 2 ^ w -> a mod 2 ^ w' = b mod 2 ^ w'.
Proof.
  intros W E. assert (Q : 2 ^ w = 2 ^ w' * 2 ^ (w - w')) by (rewrite <- Z.pow_add_r by lia; f_equal; lia).
  pose proof (pow2_pos w' ltac:(lia)). pose proof (pow2_pos (w - w') ltac:(lia)).
  rewrite <- (Z.mod_mod a (2 ^ w')), <- (Z.mod_mod b (2 ^ w')) by lia. rewrite !Z.mod_mod by lia.
  assert (R : forall z, z mod 2 ^ w' = (z mod 2 ^ w) mod 2 ^ w').
  { intros z. rewrite Q. rewrite Z.rem_mul_r by lia. rewrite Z.mul_comm, Z.add_comm. rewrite Z.mul_comm. symmetry. rewrite Z.add_comm.
    rewrite Z.mul_comm. rewrite Z.mod_add by lia. apply Z.mod_mod; lia. }
  rewrite (R a), (R b), E. reflexivity.
Qed.
Lemma swrap_mod w z : 1 <= w -> swrap w z mod 2 ^ w = z mod 2 ^ w.
Proof.
  intros W. unfold swrap. pose proof (pow2_pos w ltac:(lia)). rewrite Zminus_mod, Z.mod_mod, <- Zminus_mod by lia. f_equal. lia.
Qed.
Lemma swrap_cong w a b : 1 <= w -> a mod 2 ^ w = b mod 2 ^ w -> swrap w a = swrap w b.
Proof.
  intros W E. unfold swrap. pose proof (pow2_pos w ltac:(lia)). f_equal. rewrite Z.add_mod, E, <- Z.add_mod by lia. reflexivity.
Qed.
Lemma conv_mod p z : is_integer p = true -> p <> Bool -> conv p z mod 2 ^ bit_width p = z mod 2 ^ bit_width p.
Proof.
  intros W N. pose proof (width_pos p W). unfold conv. destruct (is_unsigned p) eqn:U. { apply Z.mod_mod. pose proof (pow2_pos (bit_width p)); lia. }
  replace (prim_eqb p Bool) with false by (destruct p; try reflexivity; congruence). apply swrap_mod; auto.
Qed.
Lemma conv_cong p a b : is_integer p = true -> p <> Bool -> a mod 2 ^ bit_width p = b mod 2 ^ bit_width p -> conv p a = conv p b.
Proof.
  intros W N E. pose proof (width_pos p W). unfold conv. destruct (is_unsigned p) eqn:U; auto.
  replace (prim_eqb p Bool) with false by (destruct p; try reflexivity; congruence). apply swrap_cong; auto.
Qed.

Lemma no_sub_read st g v : no_subset g = true -> read_in st (g_node g) = Some v -> eval (env_of st) (as_symbol g) = Some v.
Proof.
  unfold no_subset, as_symbol. destruct (g_node g) as [z|x [|e l]]; simpl; intros N H; try discriminate; auto.
Qed.

Lemma reads_two st gs vs : reads_in st (map g_node gs) = Some vs -> Forall2 (fun g v => read_in st (g_node g) = Some v) gs vs.
Proof.
  revert vs; induction gs as [|g gs IH]; cbn [map reads_in]; intros vs H; [inversion H; constructor|].
  destruct (read_in st (g_node g)) eqn:E; [|discriminate]. destruct (reads_in st (map g_node gs)); [|discriminate]. inversion H; subst. constructor; auto.
Qed.
Lemma prim_same a b : prim_eqb a b = true -> a = b.
Proof. destruct a, b; simpl; intros; congruence. Qed.
Lemma checked_some w z r : checked w z = Some r -> r = z.
Proof. unfold checked. destruct (_ && _); congruence. Qed.
Lemma ev_of s e v : eval s e = Some v -> ev s e = Fin v.
Proof. intros; apply eval_ev; auto. Qed.
Lemma boolean v : in_range Bool v -> v = 0 \/ v = 1.
Proof. unfold in_range; simpl. lia. Qed.
Lemma cev_true s g v : eval s (as_symbol g) = Some v -> cev s (is_true g) = Some (v =? 1).
Proof.
  intros H. unfold is_true. simpl. rewrite (ev_of _ _ _ H). reflexivity.
Qed.

Lemma two_cons {A B} (R : A -> B -> Prop) a l vs : Forall2 R (a :: l) vs -> exists v vs', vs = v :: vs' /\ R a v /\ Forall2 R l vs'.
Proof. intros H; inversion H; subst; eauto. Qed.
Lemma two_nil {A B} (R : A -> B -> Prop) vs : Forall2 R [] vs -> vs = [].
Proof. intros H; inversion H; auto. Qed.
(** The raw (unconverted) value of the tasklet and that of the right-hand side, when no
    cast is involved. *)
Lemma op_value t r vs s z w :
  promoted t = Some r -> t_code t <> TAssign -> Forall2 (fun g v => eval s (as_symbol g) = Some v) (t_in t) vs ->
  (t_code t = TAnd \/ t_code t = TOr -> all_bool t = true) ->
  (t_code t = TXor -> all_bool t = true \/ existsb (fun g => match const_of g with Some z => z =? -1 | None => false end) (t_in t) = true) ->
  (all_bool t = true -> Forall (in_range Bool) vs) ->
  (t_code t = TAshr -> match vs with a :: _ => 0 <= a | _ => True end) ->
  c_op (t_code t) w vs = Some z -> rhs_value s r = Some z.
Proof.
  intros P N F A X B SH C. unfold promoted in P.
  destruct (t_code t) eqn:TC; try congruence; destruct (t_in t) as [|ga [|gb [|gc l]]] eqn:IN; try discriminate;
    apply two_cons in F; destruct F as (va & vs1 & -> & Ea & F1);
    try (apply two_cons in F1; destruct F1 as (vb & vs2 & -> & Eb & F1)); apply two_nil in F1; subst; cbn [c_op] in C; try discriminate.
  - inversion P; subst. apply checked_some in C. subst z. simpl. apply eval_ev. rewrite ev_sadd, (ev_of _ _ _ Ea), (ev_of _ _ _ Eb). reflexivity.
  - inversion P; subst. apply checked_some in C. subst z. simpl. apply eval_ev. rewrite ev_ssub, (ev_of _ _ _ Ea), (ev_of _ _ _ Eb). reflexivity.
  - inversion P; subst. apply checked_some in C. subst z. simpl. apply eval_ev. rewrite ev_smul, (ev_of _ _ _ Ea), (ev_of _ _ _ Eb). reflexivity.
  - destruct (sym_div _ _) eqn:D; inversion P; subst. destruct (Z.eqb_spec vb 0); [discriminate|]. apply checked_some in C. subst z. simpl. eapply div_value; eauto.
  - destruct (sym_mod _ _) eqn:D; inversion P; subst. destruct (Z.eqb_spec vb 0); [discriminate|]. destruct (checked w (va ÷ vb)) eqn:Q; [|discriminate]. inversion C; subst z. simpl. eapply mod_value; eauto.
  - inversion P; subst. inversion C; subst. simpl. apply eval_ev. rewrite ev_smin, (ev_of _ _ _ Ea), (ev_of _ _ _ Eb). simpl. apply f_equal. destruct (Z.ltb_spec va vb); lia.
  - inversion P; subst. inversion C; subst. simpl. apply eval_ev. rewrite ev_smax, (ev_of _ _ _ Ea), (ev_of _ _ _ Eb). simpl. apply f_equal. destruct (Z.ltb_spec vb va); lia.
  - inversion P; subst. apply checked_some in C. subst z. simpl. apply eval_ev. simpl. rewrite (ev_of _ _ _ Ea). simpl. apply f_equal. destruct (Z.ltb_spec va 0); lia.
  - destruct (const_of gb) as [k|] eqn:K; [|discriminate]. destruct (Z.ltb_spec k 0); [discriminate|].
    destruct (sym_div _ _) eqn:D; inversion P; subst. assert (vb = k). { unfold const_of, as_symbol in *. destruct (g_node gb); try discriminate. inversion K; subst. inversion Eb; auto. } subst vb.
    destruct ((0 <=? k) && (k <? w)); [|discriminate]. inversion C; subst z. simpl. pose proof (pow2_pos k ltac:(lia)).
    rewrite Z.shiftr_div_pow2 by lia. rewrite <- Z.quot_div_nonneg by (specialize (SH eq_refl); simpl in SH; lia). eapply div_value; [exact D|exact Ea|reflexivity|lia].
  - destruct (const_of gb) as [k|] eqn:K; [|discriminate]. destruct (Z.ltb_spec k 0); [discriminate|].
    inversion P; subst. assert (vb = k). { unfold const_of, as_symbol in *. destruct (g_node gb); try discriminate. inversion K; subst. inversion Eb; auto. } subst vb.
    destruct ((0 <=? k) && (k <? w)); [|discriminate]. apply checked_some in C. subst z. simpl. apply eval_ev. rewrite ev_smul, (ev_of _ _ _ Ea). reflexivity.
  - inversion P; subst. inversion C; subst. specialize (B (A (or_introl eq_refl))). inversion B as [|? ? B1 B2]; subst. inversion B2 as [|? ? B3 B4]; subst.
    unfold is_true. simpl. rewrite (ev_of _ _ _ Ea), (ev_of _ _ _ Eb). simpl.
    destruct (boolean _ B1), (boolean _ B3); subst; reflexivity.
  - inversion P; subst. inversion C; subst. specialize (B (A (or_intror eq_refl))). inversion B as [|? ? B1 B2]; subst. inversion B2 as [|? ? B3 B4]; subst.
    unfold is_true. simpl. rewrite (ev_of _ _ _ Ea), (ev_of _ _ _ Eb). simpl.
    destruct (boolean _ B1), (boolean _ B3); subst; reflexivity.
  - destruct (all_bool t) eqn:AB.
    + inversion P; subst. inversion C; subst. specialize (B eq_refl). inversion B as [|? ? B1 B2]; subst. inversion B2 as [|? ? B3 B4]; subst.
      unfold is_true. simpl. rewrite (ev_of _ _ _ Ea), (ev_of _ _ _ Eb). simpl.
      destruct (boolean _ B1), (boolean _ B3); subst; reflexivity.
    + destruct (X eq_refl) as [Q|Q]; [discriminate|]. cbn [existsb] in Q. inversion C; subst z.
      assert (L : forall a, Z.lxor a (-1) = a * -1 + -1) by (intros a; rewrite Z.lxor_m1_r; unfold Z.lnot; lia).
      destruct (const_of ga) as [ka|] eqn:Ka, (const_of gb) as [kb|] eqn:Kb; try discriminate; inversion P; subst; simpl; apply eval_ev; rewrite ev_sadd, ev_smul.
      * assert (ka = -1) by (destruct (Z.eqb_spec ka (-1)); [auto|discriminate]). assert (va = -1). { unfold const_of, as_symbol in *. destruct (g_node ga); try discriminate. inversion Ka; subst. inversion Ea; auto. } subst.
        rewrite (ev_of _ _ _ Eb). rewrite Z.lxor_comm, L. reflexivity.
      * assert (kb = -1) by (destruct (Z.eqb_spec kb (-1)); [auto|discriminate]). assert (vb = -1). { unfold const_of, as_symbol in *. destruct (g_node gb); try discriminate. inversion Kb; subst. inversion Eb; auto. } subst.
        rewrite (ev_of _ _ _ Ea). rewrite L. reflexivity.
Qed.

Lemma convs_id gs vs : Forall2 (fun g v => is_integer (g_base g) = true /\ in_range (g_base g) v) gs vs -> map2 gs vs = vs.
Proof. induction 1 as [|g v gs vs [A B] F IH]; cbn [map2]; auto. rewrite (conv_id _ _ A B), IH. reflexivity. Qed.
Lemma syms_of st gs vs : forallb no_subset gs = true -> Forall2 (fun g v => read_in st (g_node g) = Some v) gs vs ->
  Forall2 (fun g v => eval (env_of st) (as_symbol g) = Some v) gs vs.
Proof.
  intros N F; induction F as [|g v gs vs A F IH]; constructor; cbn [forallb] in N; apply andb_true_iff in N; destruct N as [N1 N2]; auto.
  apply no_sub_read; auto.
Qed.
Lemma trunc_value s e v : eval s e = Some v -> in_int64 v = true -> eval s (ETrunc e) = Some (swrap 32 v).
Proof. intros H R. apply eval_ev. simpl. rewrite (ev_of _ _ _ H). simpl. unfold ctrunc. rewrite R. reflexivity. Qed.
Lemma zext_value s e v : eval s e = Some v -> in_int64 v = true -> eval s (EZext e) = Some v.
Proof. intros H R. apply eval_ev. simpl. rewrite (ev_of _ _ _ H). simpl. unfold czext. rewrite R. reflexivity. Qed.
Lemma signed_int_ok p : signed_int p = true -> is_integer p = true /\ is_unsigned p = false.
Proof. unfold signed_int. destruct (is_integer p), (is_unsigned p); simpl; auto. Qed.

Lemma assign_value t g r v s :
  t_code t = TAssign -> t_in t = [g] -> accept t = true -> promoted t = Some r -> faithful t [v] ->
  is_integer (t_odecl t) = true -> in_range (g_decl g) v -> eval s (as_symbol g) = Some v ->
  exists z, rhs_value s r = Some z /\ conv (t_odecl t) z = conv (t_odecl t) (conv (t_obase t) (conv (g_base g) v)).
Proof.
  intros TC IN A P [_ FF] WO RG E. unfold promoted in P. rewrite TC, IN in P. inversion P; subst r; clear P. cbn [rhs_value]. rewrite TC, IN in FF.
  unfold accept in A. apply orb_true_iff in A.
  assert (K : (is_unsigned (g_base g) = true /\ is_unsigned (t_obase t) = true /\
               (safe_constant t = true \/ (g_base g = UInt64 /\ t_obase t = UInt32) \/ (g_base g = UInt32 /\ t_obase t = UInt64))) \/
              (signed_int (g_base g) = true /\ signed_int (t_obase t) = true /\ g_decl g = g_base g /\ t_odecl t = t_obase t)).
  { destruct A as [A|A].
    - left. unfold special in A. rewrite TC, IN in A. apply orb_true_iff in A. destruct A as [A|A]; [apply orb_true_iff in A; destruct A as [A|A]|].
      + assert (SC := A). unfold safe_constant in A. rewrite TC, IN in A. destruct (const_of g); [|discriminate].
        destruct (is_unsigned (g_base g)); [|discriminate]. destruct (is_unsigned (t_obase t)); [|discriminate]. repeat split; left; exact SC.
      + apply andb_true_iff in A; destruct A as [A A3]; apply andb_true_iff in A; destruct A as [A A2]. apply prim_same in A2, A3. rewrite A2, A3. split; [reflexivity|split; [reflexivity|right; auto]].
      + apply andb_true_iff in A; destruct A as [A A3]; apply andb_true_iff in A; destruct A as [A A2]. apply prim_same in A2, A3. rewrite A2, A3. split; [reflexivity|split; [reflexivity|right; auto]].
    - right. rewrite IN, TC in A. cbn [forallb] in A. repeat (apply andb_true_iff in A; destruct A as [A ?]).
      repeat match goal with H : prim_eqb _ _ = true |- _ => apply prim_same in H end.
      repeat match goal with H : (_ && _) = true |- _ => apply andb_true_iff in H; destruct H end.
      repeat match goal with H : prim_eqb _ _ = true |- _ => apply prim_same in H end. auto. }
  destruct K as [(U1 & U2 & K)|(S1 & S2 & D1 & D2)].
  - assert (I1 : is_integer (g_base g) = true) by (destruct (g_base g); simpl in *; congruence).
    assert (I2 : is_integer (t_obase t) = true) by (destruct (t_obase t); simpl in *; congruence).
    unfold is_zext, is_trunc in *. rewrite U1, U2, I1, I2 in *. cbn [andb Bool.eqb] in *.
    destruct (Z.ltb_spec (bit_width (g_base g)) (bit_width (t_obase t))) as [L|L].
    + assert (Z1 : (bit_width (t_obase t) <? bit_width (g_base g)) = false) by (apply Z.ltb_ge; lia). rewrite Z1 in FF. destruct (FF eq_refl) as [FR F64]. clear FF.
      rewrite (conv_id _ _ I1 FR). exists v. split; [apply zext_value; auto|].
      apply f_equal. symmetry. apply conv_id; auto. unfold in_range in *. rewrite U1 in FR. rewrite U2.
      pose proof (Z.pow_le_mono_r 2 (bit_width (g_base g)) (bit_width (t_obase t)) ltac:(lia) ltac:(lia)). lia.
    + destruct (Z.ltb_spec (bit_width (t_obase t)) (bit_width (g_base g))) as [L'|L'].
      * destruct FF as [F64 FF]. exists (swrap 32 v). split; [apply trunc_value; auto|]. destruct FF as [[F32 FO]|(W & NB & NB')].
        -- unfold in_range in F32; simpl in F32. rewrite swrap_id by (simpl; lia). apply f_equal. rewrite (conv_id (g_base g)); auto.
           ++ symmetry; apply conv_id; auto.
           ++ unfold in_range in FO |- *. rewrite U2 in FO. rewrite U1. pose proof (Z.pow_le_mono_r 2 (bit_width (t_obase t)) (bit_width (g_base g)) ltac:(lia) ltac:(lia)). lia.
        -- apply conv_cong; auto. apply wrap_mod with (w := 32); [pose proof (width_pos _ WO); lia|]. rewrite swrap_mod by lia.
           destruct K as [K|[[K1 K2]|[K1 K2]]].
           ++ unfold safe_constant in K. rewrite TC, IN in K. destruct (const_of g) as [z|] eqn:Kz; [|discriminate].
              assert (z = v). { unfold const_of, as_symbol in *. destruct (g_node g); try discriminate. inversion Kz; subst. inversion E; auto. } subst z.
              apply andb_true_iff in K; destruct K as [K KB]; apply andb_true_iff in K; destruct K as [K KA]. apply Z.leb_le in KA, KB.
              assert (R2 : in_range (t_obase t) v).
              { unfold in_range. rewrite U2. pose proof (width_pos _ I2). pose proof (Z.pow_le_mono_r 2 (bit_width (t_obase t) - 1) (bit_width (t_obase t)) ltac:(lia) ltac:(lia)). lia. }
              rewrite (conv_id (g_base g)); [rewrite conv_id; auto|auto|].
              unfold in_range in R2 |- *. rewrite U2 in R2. rewrite U1. pose proof (Z.pow_le_mono_r 2 (bit_width (t_obase t)) (bit_width (g_base g)) ltac:(lia) ltac:(lia)). lia.
           ++ rewrite K1, K2. unfold conv. cbn [is_unsigned bit_width]. rewrite Z.mod_mod by lia. apply wrap_mod with (w := 64); [lia|]. symmetry; apply Z.mod_mod; lia.
           ++ rewrite K1, K2 in L'. simpl in L'. lia.
      * destruct (FF eq_refl) as [FR F64]. exists v. split; auto. apply f_equal. rewrite (conv_id _ _ I1 FR). symmetry; apply conv_id; auto.
        unfold in_range in *. rewrite U1 in FR. rewrite U2. replace (bit_width (t_obase t)) with (bit_width (g_base g)) by lia. exact FR.
  - destruct (signed_int_ok _ S1) as [I1 U1]. destruct (signed_int_ok _ S2) as [I2 U2].
    unfold is_zext, is_trunc in *. rewrite U1, U2, I1, I2 in *. cbn [andb Bool.eqb] in *. rewrite D1 in RG. rewrite (conv_id _ _ I1 RG). rewrite D2.
    destruct (Z.ltb_spec (bit_width (t_obase t)) (bit_width (g_base g))) as [L'|L'].
    + destruct FF as [F64 FF]. exists (swrap 32 v). split; [apply trunc_value; auto|]. rewrite conv_idem by auto. destruct FF as [[F32 FO]|(W & NB & NB')].
      * unfold in_range in F32; simpl in F32. rewrite swrap_id by (simpl; lia). reflexivity.
      * apply conv_cong; auto. rewrite D2 in W. apply wrap_mod with (w := 32); [pose proof (width_pos _ I2); lia|]. apply swrap_mod; lia.
    + exists v. split; auto. rewrite conv_idem; auto.
Qed.

Lemma special_assign t : special t = true -> t_code t = TAssign.
Proof. unfold special. destruct (t_code t); congruence. Qed.
Lemma value_kept t r st vs v :
  accept t = true -> promoted t = Some r -> is_integer (t_odecl t) = true ->
  reads_in st (map g_node (t_in t)) = Some vs -> Forall2 (fun g u => in_range (g_decl g) u) (t_in t) vs -> faithful t vs ->
  c_task t vs = Some v ->
  exists z, rhs_value (env_of st) r = Some z /\ conv (t_odecl t) z = v.
Proof.
  intros A P WO RD RG FF C. pose proof (reads_two _ _ _ RD) as F2. pose proof (syms_of _ _ _ (proj1 FF) F2) as SY. unfold c_task in C.
  destruct (c_op (t_code t) _ _) as [x|] eqn:CO; [|discriminate]. inversion C; subst v; clear C.
  assert (D : t_code t = TAssign \/ t_code t <> TAssign) by (destruct (t_code t); (left; reflexivity) || (right; discriminate)).
  destruct D as [TC|TC].
  - assert (IN : exists g, t_in t = [g]). { unfold promoted in P. rewrite TC in P. destruct (t_in t) as [|g [|]]; try discriminate. eauto. }
    destruct IN as [g IN]. rewrite IN in RG, SY. apply two_cons in RG. destruct RG as (u & vs' & -> & RG & F). apply two_nil in F; subst vs'.
    apply two_cons in SY. destruct SY as (u' & vs' & Q & E & _). inversion Q; subst u' vs'.
    rewrite TC, IN in CO. cbn [map2 c_op] in CO. inversion CO; subst x.
    eapply assign_value; eauto.
  - unfold accept in A. apply orb_true_iff in A. destruct A as [A|A]; [apply special_assign in A; contradiction|].
    apply andb_true_iff in A; destruct A as [A AC]. apply andb_true_iff in A; destruct A as [A D2]. apply andb_true_iff in A; destruct A as [A S2]. apply andb_true_iff in A; destruct A as [A OS].
    apply prim_same in D2. destruct (signed_int_ok _ S2) as [I2 _].
    assert (BR : Forall2 (fun g v => is_integer (g_base g) = true /\ in_range (g_base g) v) (t_in t) vs).
    { clear - A RG. induction RG as [|g u gs us R RG IH]; constructor; cbn [forallb] in A; apply andb_true_iff in A; destruct A as [A1 A2]; auto.
      apply andb_true_iff in A1; destruct A1 as [A1 A3]. apply andb_true_iff in A1; destruct A1 as [_ A1]. apply prim_same in A3. rewrite A3 in R. destruct (signed_int_ok _ A1); auto. }
    rewrite (convs_id _ _ BR) in CO. exists x. split; [|rewrite D2, conv_idem; auto].
    eapply op_value; try eassumption.
    + intros [Q|Q]; rewrite Q in AC; exact AC.
    + intros Q; rewrite Q in AC. apply orb_true_iff in AC; exact AC.
    + intros Q. unfold all_bool in Q. apply andb_true_iff in Q; destruct Q as [Q _]. clear - Q BR.
      induction BR as [|g u gs us [_ R] RG IH]; constructor; cbn [forallb] in Q; apply andb_true_iff in Q; destruct Q as [A1 A2]; auto. apply prim_same in A1. rewrite A1 in R. exact R.
    + intros Q. destruct FF as [_ FF]. rewrite Q in FF. destruct vs; auto.
Qed.

(** ** The pass *)
Section Pass.
  (** [typing o]: the tasklet of a block with its types; the graph of the block is the op itself. *)
  Variable typing : op -> option task.
  (** can_be_applied and apply on a block. Blocks of more than one tasklet are not touched.
      Boolean results (And/Or/Xor of booleans) are left alone in this model of the whole
      program, whose transitions hold integer expressions only; their value is covered by
      [value_kept]. *)
  Definition promotes (b : block) : option (string * expr) :=
    match b with
    | [o] => match typing o with
             | Some t => if accept t then match promoted t with Some (RExpr e) => Some (t_out t, e) | _ => None end else None
             | None => None
             end
    | _ => None
    end.
  (** run_pass, symbol_promotion.cpp:403-445, and add_block_before + clear_node (393-394):
      an empty block carrying the assignment, then the emptied block with its transition. *)
  Fixpoint promN (n : node) : node :=
    match n with
    | NSeq s => NSeq (promS s)
    | NIf bs => NIf (promB bs)
    | NWhile s => NWhile (promS s)
    | NLoop k i e c u s => NLoop k i e c u (promS s)
    | n => n
    end
  with promS (s : seq) : seq :=
    match s with
    | SNil => SNil
    | SCons n a r =>
        match n with
        | NBlock b => match promotes b with
                      | Some xe => SCons (NBlock []) [xe] (SCons (NBlock []) a (promS r))
                      | None => SCons (NBlock b) a (promS r)
                      end
        | _ => SCons (promN n) a (promS r)
        end
    end
  with promB (b : brs) : brs :=
    match b with BNil => BNil | BCons c s r => BCons c (promS s) (promB r) end.

  Variable I : nat -> list Z -> option Z.
  Hypothesis typed : forall o t, typing o = Some t -> o_ins o = map g_node (t_in t) /\ o_out o = t_out t /\ o_sub o = t_osub t.
  Hypothesis faith : forall o t e st vs v, typing o = Some t -> accept t = true -> promoted t = Some (RExpr e) ->
    reads_in st (o_ins o) = Some vs -> I (o_code o) vs = Some v -> eval (env_of st) e = Some v /\ t_osub t = [].

  Lemma promotes_run b x e st st' : promotes b = Some (x, e) -> exec_block I st b = Some st' -> exec_assigns st [(x, e)] = Some st'.
  Proof.
    unfold promotes. destruct b as [|o [|o' b]]; try discriminate. destruct (typing o) as [t|] eqn:T; [|discriminate].
    destruct (accept t) eqn:A; [|discriminate]. destruct (promoted t) as [[e'|]|] eqn:P; try discriminate. intros Q; inversion Q; subst.
    cbn [exec_block]. unfold exec_op. destruct (reads_in st (o_ins o)) as [vs|] eqn:R; [|discriminate]. destruct (evals (env_of st) (o_sub o)) as [j|] eqn:J; [|discriminate].
    destruct (I (o_code o) vs) as [v|] eqn:V; [|discriminate]. destruct (faith _ _ _ _ _ _ T A P R V) as [E O]. destruct (typed _ _ T) as (_ & X & S).
    rewrite S, O in J. cbn [evals] in J. inversion J; subst. intros Q'; inversion Q'; subst. cbn [exec_assigns]. rewrite E, X. reflexivity.
  Qed.

  Lemma prom_block st st' b a r p o st2 st'' : run I (NBlock b) st p st' -> p = ONorm -> exec_assigns st' a = Some st2 -> runs I (promS r) st2 o st'' ->
    runs I (promS (SCons (NBlock b) a r)) st o st''.
  Proof.
    intros R N A S. cbn [promS]. destruct (promotes b) as [[x e]|] eqn:P.
    - inversion R; subst. eapply R_cons; [apply R_block; reflexivity|eapply promotes_run; eauto|]. eapply R_cons; [apply R_block; reflexivity|exact A|exact S].
    - subst p. eapply R_cons; eauto.
  Qed.
  Lemma promS_other n a r : (forall b, n <> NBlock b) -> promS (SCons n a r) = SCons (promN n) a (promS r).
  Proof. destruct n; intros H; try reflexivity. exfalso; apply (H b); reflexivity. Qed.
  Lemma block_dec n : (exists b, n = NBlock b) \/ (forall b, n <> NBlock b).
  Proof. destruct n; try (right; intros ?; discriminate). left; eauto. Qed.

  Lemma prom_sim :
    (forall n st o st', run I n st o st' -> run I (promN n) st o st') /\
    (forall s st o st', runs I s st o st' -> runs I (promS s) st o st') /\
    (forall b st o st', runb I b st o st' -> runb I (promB b) st o st') /\
    (forall s st o st', runw I s st o st' -> runw I (promS s) st o st') /\
    (forall i c u s st o st', runl I i c u s st o st' -> runl I i c u (promS s) st o st').
  Proof.
    apply run_mind; intros; try solve [econstructor; eassumption].
    - destruct (block_dec n) as [[b ->]|N]; [eapply prom_block; eauto|]. rewrite promS_other by auto. econstructor; eassumption.
    - destruct (block_dec n) as [[b ->]|N]; [exfalso; match goal with H : run I (NBlock b) _ ?o _, N : ?o <> ONorm |- _ => inversion H; subst; apply N; reflexivity end|]. rewrite promS_other by auto. apply R_exit; assumption.
  Qed.
End Pass.
