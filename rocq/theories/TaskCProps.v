(** * C57: the C code generated for a tasklet computes the operation named by its code *)
From Coq Require Import ZArith List Bool Lia.
From Verif Require Import Sym Types Promote TaskC.
Import ListNotations.
Local Open Scope list_scope.
Local Open Scope Z_scope.

(** All the inputs have type [p]; the output has the same type, or any integer
    type when the result is a truth value or a sign.  When the C code runs without undefined
    behaviour, the value stored is the meaning of the code, converted to the output's type. *)
Theorem C57_integer_tasklet_partial : forall ch c p q vs r m,
  is_integer p = true -> p <> Bool ->
  q = p \/ (small_code c = true /\ is_integer q = true) ->
  (signed_code c = true -> is_signed p = true) ->
  (un_code c = true -> ch = true -> bit_width p <> 8) ->
  run_tasklet ch c (repeat p (length vs)) q vs = Some r -> meaning c (bit_width p) vs = Some m ->
  r = conv q m.
Proof.
  intros ch c p q vs r m IP NB Q SG UN E M. assert (W8 : 8 <= bit_width p) by (destruct p; try discriminate; try congruence; cbn; lia).
  assert (IQ : is_integer q = true) by (destruct Q as [->|[_ ?]]; auto).
  assert (NQ : q = p -> q <> Bool) by congruence.
  destruct (load_val ch c p 0 IP NB) as (s & CE & _).
  assert (LV : forall v, load ch c p v = read_as s (bit_width p) v).
  { intros v. destruct (load_val ch c p v IP NB) as (s0 & C0 & L0). assert (s0 = s) by congruence. subst s0. exact L0. }
  assert (SS : signed_code c = true -> s = true).
  { intros H. specialize (SG H). assert (un_code c = false) as UF by (destruct c; try discriminate H; reflexivity). unfold conn in CE. rewrite UF in CE. destruct p; try discriminate SG; cbn in CE; inversion CE; reflexivity. }
  assert (US : un_code c = true -> s = false).
  { intros H. specialize (UN H). unfold conn in CE. rewrite H in CE. destruct p; try discriminate IP; try congruence; cbn in CE, UN; inversion CE; try reflexivity; destruct s; auto; exfalso; apply UN; congruence. }
  unfold run_tasklet in E.
  assert (FIN : forall r', (r' mod 2 ^ bit_width p = m mod 2 ^ bit_width p /\ (small_code c = true -> r' = m)) -> Some (conv q (cconv (c_of ch q) (cconv (c_of ch (conn c q)) r'))) = Some r -> r = conv q m).
  { intros r' [R1 R2] H. inversion H as [H']. rewrite finish_conv by auto. destruct Q as [->|[SM _]]; [apply conv_cong; auto|rewrite R2; auto]. }
  destruct vs as [|a [|b [|d vs]]]; try discriminate M; cbn [length repeat combine map fst snd] in E; rewrite CE in E.
  - destruct c; try discriminate M. rewrite LV, (SS eq_refl) in E. cbn [meaning] in M. inversion M; subst m.
    destruct (ceval _ _ _) as [z|] eqn:EV; [|discriminate]. cbn [obind] in E. apply abs_val in EV; [|auto|apply (read_range true); lia]. subst z. refine (FIN _ _ E). split; [reflexivity|discriminate].
  - rewrite !LV in E. destruct (ceval _ _ _) as [z|] eqn:EV; [|discriminate]. cbn [obind] in E. refine (FIN z _ E). eapply binary_code; eauto.
Qed.

(** The C code of comparisons, minimum, maximum, bitwise operations, right shifts and unsigned
    division has no undefined behaviour on operands for which the operation is defined. *)
Theorem C57_defined : forall ch c p q a b m,
  is_integer p = true -> p <> Bool ->
  total_code c = true -> (un_code c = true -> ch = true -> bit_width p <> 8) ->
  meaning c (bit_width p) [a; b] = Some m -> run_tasklet ch c [p; p] q [a; b] <> None.
Proof.
  intros ch c p q a b m IP NB T UN M. assert (W8 : 8 <= bit_width p) by (destruct p; try discriminate; try congruence; cbn; lia).
  destruct (load_val ch c p a IP NB) as (s & CE & L1). destruct (load_val ch c p b IP NB) as (s0 & C0 & L2). assert (s0 = s) by congruence. subst s0.
  assert (US : un_code c = true -> s = false).
  { intros H. specialize (UN H). unfold conn in CE. rewrite H in CE. destruct p; try discriminate IP; try congruence; cbn in CE, UN; inversion CE; try reflexivity; destruct s; auto; exfalso; apply UN; congruence. }
  destruct (total_ok c s (bit_width p) a b m W8 T US M) as (r & E).
  unfold run_tasklet. cbn [combine map fst snd]. rewrite CE, L1, L2, E. discriminate.
Qed.

(** Hypotheses are met by every code: e.g. unsigned division of an Int32 container holding -1. *)
Theorem C57_hypotheses :
  run_tasklet true Iudiv [Int32; Int32] Int32 [-1; 2] = Some 2147483647 /\ meaning Iudiv 32 [-1; 2] = Some 2147483647 /\
  run_tasklet true Isdiv [Int16; Int16] Int16 [-7; 2] = Some (-3) /\ meaning Isdiv 16 [-7; 2] = Some (-3) /\
  run_tasklet true Iadd [UInt64; UInt64] UInt64 [2 ^ 64 - 1; 2] = Some 1 /\
  run_tasklet true Iadd [Int8; Int8] Int8 [127; 1] = Some (-128) /\
  run_tasklet true Ilshr [Int64; Int64] Int64 [-1; 60] = Some 15 /\
  run_tasklet true Iucmp [Int32; Int32] Int8 [-1; 1] = Some 1 /\
  run_tasklet true Iabs [Int32] Int32 [-5] = Some 5 /\ run_tasklet true Iult [Int32; Int32] Bool [1; -1] = Some 1.
Proof. repeat (split; [vm_compute; reflexivity|]). vm_compute; reflexivity. Qed.

(** UInt8 is printed as plain [char]: where [char] is signed, the unsigned operations on 8-bit
    operands use signed values. *)
Theorem C57_uint8_refuted :
  exists q r m, run_tasklet true Iudiv [UInt8; UInt8] q [200; 2] = Some r /\ meaning Iudiv 8 [200; 2] = Some m /\ r <> conv q m /\
  (exists r', run_tasklet true Iult [UInt8; UInt8] Bool [200; 100] = Some r' /\ meaning Iult 8 [200; 100] = Some 0 /\ r' = 1) /\
  (exists r', run_tasklet true Ilshr [Int8; Int8] Int8 [-128; 1] = Some r' /\ meaning Ilshr 8 [-128; 1] = Some 64 /\ r' = -64).
Proof.
  exists UInt8, 228, 100. split; [vm_compute; reflexivity|]. split; [vm_compute; reflexivity|]. split; [vm_compute; discriminate|].
  split; eexists; (split; [vm_compute; reflexivity|]); (split; vm_compute; reflexivity).
Qed.
(** Signed operations on unsigned containers are computed unsigned (there is no cast to the signed type). *)
Theorem C57_signed_code_on_unsigned_refuted :
  (exists r m, run_tasklet false Islt [UInt32; UInt32] Bool [2 ^ 32 - 1; 0] = Some r /\ meaning Islt 32 [2 ^ 32 - 1; 0] = Some m /\ r <> conv Bool m) /\
  (exists r m, run_tasklet false Isdiv [UInt64; UInt64] UInt64 [2 ^ 64 - 6; 2] = Some r /\ meaning Isdiv 64 [2 ^ 64 - 6; 2] = Some m /\ r <> conv UInt64 m) /\
  (exists r m, run_tasklet false Iashr [UInt32; UInt32] UInt32 [2 ^ 31; 1] = Some r /\ meaning Iashr 32 [2 ^ 31; 1] = Some m /\ r <> conv UInt32 m).
Proof.
  repeat split; (do 2 eexists; split; [vm_compute; reflexivity|]; split; [vm_compute; reflexivity|vm_compute; discriminate]).
Qed.
(** The inputs of a tasklet need not have the same type (tasklet.cpp:20-59); then C converts a signed
    operand to unsigned. *)
Theorem C57_mixed_types_refuted : run_tasklet false Islt [Int32; UInt32] Bool [-1; 1] = Some 0 /\ (-1 < 1).
Proof. split; [vm_compute; reflexivity|lia]. Qed.
(** Signed overflow is undefined in the C code although the bit-pattern operation is defined; so is the
    product of two 16-bit unsigned values. *)
Theorem C57_overflow_refuted :
  run_tasklet false Iadd [Int32; Int32] Int32 [2147483647; 1] = None /\ meaning Iadd 32 [2147483647; 1] = Some 2147483648 /\
  run_tasklet false Imul [UInt16; UInt16] UInt16 [65535; 65535] = None /\ meaning Imul 16 [65535; 65535] = Some (65535 * 65535).
Proof. repeat (split; [vm_compute; reflexivity|]). vm_compute; reflexivity. Qed.

(** Floating-point comparisons: for every type of values with an IEEE comparison. *)
Theorem C57_float_comparison_partial : forall (F : Type) (cmp : F -> F -> option comparison) (isnan : F -> bool),
  (forall x y, cmp x y = None <-> isnan x = true \/ isnan y = true) ->
  forall c a b, c <> Fone -> c <> Ford -> feval F cmp isnan [a; b] (ftext c) = Some (fmeaning c (cmp a b)).
Proof. intros F cmp isnan N c a b H1 H2. apply float_code; auto. Qed.
(** integers with a NaN *)
Definition zcmp (a b : option Z) : option comparison := match a, b with Some x, Some y => Some (x ?= y) | _, _ => None end.
Definition znan (a : option Z) : bool := match a with None => true | _ => false end.
Theorem C57_float_hypotheses : forall x y, zcmp x y = None <-> znan x = true \/ znan y = true.
Proof. intros [x|] [y|]; cbn; split; auto; try discriminate; intros [|]; discriminate. Qed.
(** fp_ord is printed as "both operands are NaN" and fp_one as [!=], which is true on NaN. *)
Theorem C57_fp_ord_refuted : forall (F : Type) (cmp : F -> F -> option comparison) (isnan : F -> bool),
  (forall x y, cmp x y = None <-> isnan x = true \/ isnan y = true) ->
  forall a b, feval F cmp isnan [a; b] (ftext Ford) = Some true -> fmeaning Ford (cmp a b) = false.
Proof.
  intros F cmp isnan N a b H. cbn in H. destruct (isnan a) eqn:A; [|discriminate]. rewrite (proj2 (N a b)); auto.
Qed.
Theorem C57_fp_one_refuted : forall (F : Type) (cmp : F -> F -> option comparison) (isnan : F -> bool),
  (forall x y, cmp x y = None <-> isnan x = true \/ isnan y = true) ->
  forall a b, isnan a = true -> feval F cmp isnan [a; b] (ftext Fone) = Some true /\ fmeaning Fone (cmp a b) = false.
Proof.
  intros F cmp isnan N a b H. cbn. rewrite (proj2 (N a b)) by auto. auto.
Qed.

(** Powers in symbolic expressions: with wrap-around 32-bit multiplication the result is the power
    modulo 2^32; without overflow it is the power. *)
Theorem C57_power : forall base exp, - 2 ^ 31 <= base < 2 ^ 31 -> 0 <= exp < 2 ^ 31 ->
  (exists z, sym_pow mul_wrap base exp = Some z /\ z = swrap 32 (base ^ exp)) /\
  (forall z, sym_pow mul_checked base exp = Some z -> z = base ^ exp).
Proof.
  intros base exp B E. unfold sym_pow. rewrite (swrap_id 32 exp), (swrap_id 32 base) by (cbn; lia). destruct exp as [|e|e]; [| |lia].
  - split; [exists 1; split; reflexivity|]. intros z H; inversion H; reflexivity.
  - split.
    + destruct (pow_loop_wrap e base 1) as (z & -> & M & Z). exists z. split; auto. rewrite Z. apply swrap_cong; [lia|]. rewrite M. f_equal. lia.
    + intros z H. apply pow_loop_checked in H. lia.
Qed.
(** The function takes ints: 64-bit arguments are truncated, and squaring after the last step can overflow
    although the result does not. *)
Theorem C57_power_refuted :
  sym_pow mul_wrap (2 ^ 32 + 2) 3 = Some 8 /\ sym_pow mul_wrap 2 (2 ^ 32 + 3) = Some 8 /\
  sym_pow mul_wrap 65536 3 = Some 0 /\ sym_pow mul_checked 65536 1 = None.
Proof. repeat (split; [vm_compute; reflexivity|]). vm_compute; reflexivity. Qed.
