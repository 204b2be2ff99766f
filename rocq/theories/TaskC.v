(** * The C code of a tasklet (codegen/language_extensions/c_language_extension.cpp,
      codegen/dispatchers/block_dispatcher.cpp) *)
From Coq Require Import ZArith List Bool Lia.
From Verif Require Import Sym Types Promote.
Import ListNotations.
Local Open Scope list_scope.
Local Open Scope Z_scope.

(** TaskletCode, data_flow/tasklet.h:90-153 *)
Inductive icode := Iadd | Isub | Imul | Isdiv | Isrem | Iudiv | Iurem | Iand | Ior | Ixor | Ishl | Iashr | Ilshr
  | Ismin | Ismax | Iscmp | Iumin | Iumax | Iucmp | Ieq | Ine | Isge | Isgt | Isle | Islt | Iuge | Iugt | Iule | Iult | Iabs.
Inductive fcode := Foeq | Fone | Foge | Fogt | Fole | Folt | Ford | Fueq | Fune | Fugt | Fuge | Fult | Fule | Funo.
(** is_unsigned, tasklet.h:235-251 *)
Definition un_code (c : icode) : bool :=
  match c with Iudiv | Iurem | Ilshr | Iumin | Iumax | Iucmp | Iuge | Iugt | Iule | Iult => true | _ => false end.

(** ** C expressions over the connectors *)
Inductive cbin := Badd | Bsub | Bmul | Bdiv | Brem | Band | Bor | Bxor | Bshl | Bshr | Blt | Bgt | Ble | Bge | Beq | Bne | Bland | Blor.
Inductive cexp := CV (i : nat) | CNum (z : Z) | CBin (o : cbin) (a b : cexp) | CMinus (a : cexp) | CTern (c a b : cexp) | CIsnan (a : cexp).
(** CLanguageExtension::tasklet, c_language_extension.cpp:196-334, as parsed by C *)
Definition two (o : cbin) : cexp := CBin o (CV 0) (CV 1).
Definition pick (o : cbin) : cexp := CTern (two o) (CV 0) (CV 1).
Definition three_way : cexp := CTern (two Blt) (CMinus (CNum 1)) (CTern (two Bgt) (CNum 1) (CNum 0)).
Definition text (c : icode) : cexp :=
  match c with
  | Iadd => two Badd | Isub => two Bsub | Imul => two Bmul
  | Isdiv | Iudiv => two Bdiv | Isrem | Iurem => two Brem
  | Iand => two Band | Ior => two Bor | Ixor => two Bxor
  | Ishl => two Bshl | Iashr | Ilshr => two Bshr
  | Ismin | Iumin => pick Blt | Ismax | Iumax => pick Bgt
  | Iscmp | Iucmp => three_way
  | Ieq => two Beq | Ine => two Bne
  | Isge | Iuge => two Bge | Isgt | Iugt => two Bgt | Isle | Iule => two Ble | Islt | Iult => two Blt
  | Iabs => CTern (CBin Blt (CV 0) (CNum 0)) (CMinus (CV 0)) (CV 0)
  end.
Definition unord (o : cbin) : cexp := CBin Blor (CBin Blor (CIsnan (CV 0)) (CIsnan (CV 1))) (two o).
Definition ftext (c : fcode) : cexp :=
  match c with
  | Foeq => two Beq | Fone => two Bne | Fogt => two Bgt | Foge => two Bge | Folt => two Blt | Fole => two Ble
  | Ford => CBin Bland (CIsnan (CV 0)) (CIsnan (CV 1))
  | Fueq => unord Beq | Fune => unord Bne | Fugt => unord Bgt | Fuge => unord Bge | Fult => unord Blt | Fule => unord Ble
  | Funo => CBin Blor (CIsnan (CV 0)) (CIsnan (CV 1))
  end.

(** ** Integer types of C (C17 6.3.1) *)
Inductive cty := TB | TI (sg : bool) (w : Z).
(** primitive_type, c_language_extension.cpp:13-56: UInt8 is plain "char", whose signedness
    [ch] the implementation chooses (signed on x86). *)
Definition c_of (ch : bool) (p : prim) : cty :=
  match p with
  | Bool => TB
  | UInt8 => TI ch 8
  | _ => TI (negb (is_unsigned p)) (bit_width p)
  end.
Definition promo (t : cty) : cty := match t with TB => TI true 32 | TI s w => if w <? 32 then TI true 32 else TI s w end.
Definition wide (t1 t2 : cty) : cty :=
  match t1, t2 with
  | TI s1 w1, TI s2 w2 => if w1 =? w2 then TI (s1 && s2) w1 else if w1 <? w2 then t2 else t1
  | _, _ => TI true 32
  end.
Definition common (t1 t2 : cty) : cty := wide (promo t1) (promo t2).
Definition cconv (t : cty) (z : Z) : Z :=
  match t with TB => if z =? 0 then 0 else 1 | TI true w => swrap w z | TI false w => z mod 2 ^ w end.
(** arithmetic in a promoted type; [None]: undefined behaviour *)
Definition arith (t : cty) (z : Z) : option Z :=
  match t with TB => None | TI true w => checked w z | TI false w => Some (z mod 2 ^ w) end.
Definition b2z (b : bool) : Z := if b then 1 else 0.
Fixpoint ctyp (g : list cty) (e : cexp) : cty :=
  match e with
  | CV i => nth i g (TI true 32)
  | CNum _ => TI true 32
  | CBin (Bshl | Bshr) a _ => promo (ctyp g a)
  | CBin (Badd | Bsub | Bmul | Bdiv | Brem | Band | Bor | Bxor) a b => common (ctyp g a) (ctyp g b)
  | CBin _ _ _ => TI true 32
  | CMinus a => promo (ctyp g a)
  | CTern _ a b => common (ctyp g a) (ctyp g b)
  | CIsnan _ => TI true 32
  end.
Definition obind {A B} (a : option A) (f : A -> option B) : option B := match a with Some x => f x | None => None end.
(** one operation on operands [x], [y] already converted to type [t] *)
Definition bin_val (o : cbin) (t : cty) (x y : Z) : option Z :=
  match o with
  | Badd => arith t (x + y) | Bsub => arith t (x - y) | Bmul => arith t (x * y)
  | Bdiv => if y =? 0 then None else arith t (Z.quot x y)
  | Brem => if y =? 0 then None else obind (arith t (Z.quot x y)) (fun _ => Some (Z.rem x y))
  | Band => Some (Z.land x y) | Bor => Some (Z.lor x y) | Bxor => Some (Z.lxor x y)
  | Blt => Some (b2z (x <? y)) | Bgt => Some (b2z (y <? x)) | Ble => Some (b2z (x <=? y)) | Bge => Some (b2z (y <=? x))
  | Beq => Some (b2z (x =? y)) | Bne => Some (b2z (negb (x =? y)))
  | _ => None
  end.
Definition width_of (t : cty) : Z := match t with TB => 32 | TI _ w => w end.
Definition shift_val (o : cbin) (t : cty) (x y : Z) : option Z :=
  if (0 <=? y) && (y <? width_of t) then
    match o, t with
    | Bshl, TI false w => Some ((x * 2 ^ y) mod 2 ^ w)
    | Bshl, TI true w => if x <? 0 then None else checked w (x * 2 ^ y)
    | Bshr, _ => Some (Z.shiftr x y)
    | _, _ => None
    end
  else None.
Fixpoint ceval (g : list cty) (vs : list Z) (e : cexp) : option Z :=
  match e with
  | CV i => nth_error vs i
  | CNum z => Some z
  | CBin Bland a b => obind (ceval g vs a) (fun x => if x =? 0 then Some 0 else obind (ceval g vs b) (fun y => Some (b2z (negb (y =? 0)))))
  | CBin Blor a b => obind (ceval g vs a) (fun x => if x =? 0 then obind (ceval g vs b) (fun y => Some (b2z (negb (y =? 0)))) else Some 1)
  | CBin ((Bshl | Bshr) as o) a b =>
      obind (ceval g vs a) (fun x => obind (ceval g vs b) (fun y =>
        shift_val o (promo (ctyp g a)) (cconv (promo (ctyp g a)) x) (cconv (promo (ctyp g b)) y)))
  | CBin o a b =>
      let t := common (ctyp g a) (ctyp g b) in
      obind (ceval g vs a) (fun x => obind (ceval g vs b) (fun y => bin_val o t (cconv t x) (cconv t y)))
  | CMinus a => obind (ceval g vs a) (fun x => arith (promo (ctyp g a)) (- cconv (promo (ctyp g a)) x))
  | CTern c a b => obind (ceval g vs c) (fun x => obind (if x =? 0 then ceval g vs b else ceval g vs a) (fun y => Some (cconv (common (ctyp g a) (ctyp g b)) y)))
  | CIsnan _ => None
  end.
(** dispatch_tasklet, block_dispatcher.cpp:219-290: the inputs are loaded into connectors
    (of the unsigned type for unsigned operations), the result goes through the output
    connector to the container.  [vs]: the values of the containers, in the range of their types. *)
Definition conn (c : icode) (p : prim) : prim := if un_code c then as_unsigned p else p.
Definition load (ch : bool) (c : icode) (p : prim) (v : Z) : Z := cconv (c_of ch (conn c p)) (cconv (c_of ch p) v).
Definition run_tasklet (ch : bool) (c : icode) (ps : list prim) (q : prim) (vs : list Z) : option Z :=
  obind (ceval (map (fun p => c_of ch (conn c p)) ps) (map (fun pv => load ch c (fst pv) (snd pv)) (combine ps vs)) (text c))
        (fun r => Some (conv q (cconv (c_of ch q) (cconv (c_of ch (conn c q)) r)))).

(** ** Specification: what the codes mean on bit patterns of [w] bits (tasklet.h:90-153) *)
Definition sv (w z : Z) : Z := swrap w z.
Definition uv (w z : Z) : Z := z mod 2 ^ w.
Definition cmp3 (x y : Z) : Z := if x <? y then -1 else if y <? x then 1 else 0.
Definition meaning (c : icode) (w : Z) (vs : list Z) : option Z :=
  match vs with
  | [a] => match c with Iabs => Some (Z.abs (sv w a)) | _ => None end
  | [a; b] =>
      match c with
      | Iadd => Some (a + b) | Isub => Some (a - b) | Imul => Some (a * b)
      | Isdiv => if sv w b =? 0 then None else Some (Z.quot (sv w a) (sv w b))
      | Isrem => if sv w b =? 0 then None else Some (Z.rem (sv w a) (sv w b))
      | Iudiv => if uv w b =? 0 then None else Some (uv w a / uv w b)
      | Iurem => if uv w b =? 0 then None else Some (uv w a mod uv w b)
      | Iand => Some (Z.land a b) | Ior => Some (Z.lor a b) | Ixor => Some (Z.lxor a b)
      | Ishl => if uv w b <? w then Some (a * 2 ^ uv w b) else None
      | Iashr => if uv w b <? w then Some (Z.shiftr (sv w a) (uv w b)) else None
      | Ilshr => if uv w b <? w then Some (Z.shiftr (uv w a) (uv w b)) else None
      | Ismin => Some (Z.min (sv w a) (sv w b)) | Ismax => Some (Z.max (sv w a) (sv w b))
      | Iumin => Some (Z.min (uv w a) (uv w b)) | Iumax => Some (Z.max (uv w a) (uv w b))
      | Iscmp => Some (cmp3 (sv w a) (sv w b)) | Iucmp => Some (cmp3 (uv w a) (uv w b))
      | Ieq => Some (b2z (uv w a =? uv w b)) | Ine => Some (b2z (negb (uv w a =? uv w b)))
      | Isge => Some (b2z (sv w b <=? sv w a)) | Isgt => Some (b2z (sv w b <? sv w a))
      | Isle => Some (b2z (sv w a <=? sv w b)) | Islt => Some (b2z (sv w a <? sv w b))
      | Iuge => Some (b2z (uv w b <=? uv w a)) | Iugt => Some (b2z (uv w b <? uv w a))
      | Iule => Some (b2z (uv w a <=? uv w b)) | Iult => Some (b2z (uv w a <? uv w b))
      | Iabs => None
      end
  | _ => None
  end.
(** codes that read their operands as signed *)
Definition signed_code (c : icode) : bool :=
  match c with Isdiv | Isrem | Iashr | Ismin | Ismax | Iscmp | Isge | Isgt | Isle | Islt | Iabs => true | _ => false end.
(** codes whose result is a truth value or a sign *)
Definition small_code (c : icode) : bool :=
  match c with Iscmp | Iucmp | Ieq | Ine | Isge | Isgt | Isle | Islt | Iuge | Iugt | Iule | Iult => true | _ => false end.

(** ** Facts *)
Definition trange (t : cty) (z : Z) : Prop :=
  match t with TB => 0 <= z <= 1 | TI true w => - 2 ^ (w - 1) <= z < 2 ^ (w - 1) | TI false w => 0 <= z < 2 ^ w end.
Lemma cconv_id t z : (match t with TI _ w => 1 <= w | TB => True end) -> trange t z -> cconv t z = z.
Proof.
  destruct t as [|[|] w]; intros W H; unfold cconv, trange in *.
  - destruct (Z.eqb_spec z 0); lia.
  - apply swrap_id; auto.
  - apply Z.mod_small; auto.
Qed.
Lemma cconv_range t z : (match t with TI _ w => 1 <= w | TB => True end) -> trange t (cconv t z).
Proof.
  destruct t as [|[|] w]; intros W; unfold cconv, trange.
  - destruct (z =? 0); lia.
  - apply swrap_range; auto.
  - apply Z.mod_pos_bound, pow2_pos; lia.
Qed.
Lemma cconv_mod s w z : 1 <= w -> cconv (TI s w) z mod 2 ^ w = z mod 2 ^ w.
Proof.
  intros W. destruct s; unfold cconv; [apply swrap_mod; auto|]. apply Z.mod_mod. pose proof (pow2_pos w); lia.
Qed.
Lemma arith_mod s w z r : 1 <= w -> arith (TI s w) z = Some r -> r mod 2 ^ w = z mod 2 ^ w.
Proof.
  intros W. destruct s; cbn [arith]; intros E; [apply checked_some in E; congruence|]. inversion E; subst. apply Z.mod_mod. pose proof (pow2_pos w); lia.
Qed.
(** the promoted type of a connector type *)
Lemma promo_wider s w : 1 <= w -> exists s' w', promo (TI s w) = TI s' w' /\ w <= w' /\ 32 <= w' /\ (s' = false -> s = false /\ w' = w) /\ (s' = true -> s = true \/ w < w').
Proof.
  intros W. unfold promo. destruct (Z.ltb_spec w 32).
  - exists true, 32. repeat split; try lia; discriminate || auto.
  - exists s, w. repeat split; auto; lia.
Qed.
Lemma common_self s w : 1 <= w -> common (TI s w) (TI s w) = promo (TI s w).
Proof.
  intros W. unfold common, promo, wide. destruct (w <? 32); rewrite Z.eqb_refl, ?andb_diag; reflexivity.
Qed.
Lemma pow_le a b : 0 <= a <= b -> 2 ^ a <= 2 ^ b.
Proof. intros; apply Z.pow_le_mono_r; lia. Qed.
Lemma promo_range s w z : 1 <= w -> trange (TI s w) z -> trange (promo (TI s w)) z.
Proof.
  intros W H. unfold promo. destruct (Z.ltb_spec w 32); [|exact H]. unfold trange in *. destruct s.
  - pose proof (pow_le (w - 1) (32 - 1) ltac:(lia)). lia.
  - pose proof (pow_le w (32 - 1) ltac:(lia)). lia.
Qed.
Lemma promo_conv s w z : 1 <= w -> trange (TI s w) z -> cconv (promo (TI s w)) z = z.
Proof.
  intros W H. apply cconv_id; [|apply promo_range; auto]. destruct (promo_wider s w W) as (s' & w' & -> & ? & ? & _). lia.
Qed.
Lemma land_mod w a b a' b' : 0 <= w -> a mod 2 ^ w = a' mod 2 ^ w -> b mod 2 ^ w = b' mod 2 ^ w ->
  Z.land a b mod 2 ^ w = Z.land a' b' mod 2 ^ w /\ Z.lor a b mod 2 ^ w = Z.lor a' b' mod 2 ^ w /\ Z.lxor a b mod 2 ^ w = Z.lxor a' b' mod 2 ^ w.
Proof.
  intros W EA EB.
  assert (BA : forall n, 0 <= n < w -> Z.testbit a n = Z.testbit a' n) by (intros n Hn; rewrite <- (Z.mod_pow2_bits_low a w n), <- (Z.mod_pow2_bits_low a' w n), EA by lia; reflexivity).
  assert (BB : forall n, 0 <= n < w -> Z.testbit b n = Z.testbit b' n) by (intros n Hn; rewrite <- (Z.mod_pow2_bits_low b w n), <- (Z.mod_pow2_bits_low b' w n), EB by lia; reflexivity).
  repeat split; apply Z.bits_inj'; intros n Hn; (destruct (Z.ltb_spec n w); [rewrite !Z.mod_pow2_bits_low by lia|rewrite !Z.mod_pow2_bits_high by lia; reflexivity]);
    rewrite ?Z.land_spec, ?Z.lor_spec, ?Z.lxor_spec, BA, BB by lia; reflexivity.
Qed.
Lemma add_cong w a b a' b' : 0 <= w -> a mod 2 ^ w = a' mod 2 ^ w -> b mod 2 ^ w = b' mod 2 ^ w -> (a + b) mod 2 ^ w = (a' + b') mod 2 ^ w /\ (a - b) mod 2 ^ w = (a' - b') mod 2 ^ w /\ (a * b) mod 2 ^ w = (a' * b') mod 2 ^ w.
Proof.
  intros W EA EB. pose proof (pow2_pos w W).
  repeat split; [rewrite Z.add_mod, EA, EB, <- Z.add_mod by lia|rewrite Zminus_mod, EA, EB, <- Zminus_mod by lia|rewrite Z.mul_mod, EA, EB, <- Z.mul_mod by lia]; reflexivity.
Qed.
Lemma mod_le w w' a b : 0 <= w <= w' -> a mod 2 ^ w' = b mod 2 ^ w' -> a mod 2 ^ w = b mod 2 ^ w.
Proof.
  intros W E. pose proof (pow2_pos w ltac:(lia)). pose proof (pow2_pos (w' - w) ltac:(lia)).
  assert (D : forall z, z mod 2 ^ w = (z mod 2 ^ w') mod 2 ^ w).
  { intros z. replace (2 ^ w') with (2 ^ w * 2 ^ (w' - w)) by (rewrite <- Z.pow_add_r by lia; f_equal; lia).
    rewrite Z.rem_mul_r, Z.mul_comm, Z.mod_add, Z.mod_mod by lia. reflexivity. }
  rewrite (D a), (D b), E. reflexivity.
Qed.
Lemma c_of_shape ch p : is_integer p = true -> p <> Bool -> exists s, c_of ch p = TI s (bit_width p).
Proof. destruct p; try discriminate; try congruence; intros _ _; cbn; eexists; reflexivity. Qed.
Lemma conn_int c p : is_integer p = true -> p <> Bool -> is_integer (conn c p) = true /\ conn c p <> Bool /\ bit_width (conn c p) = bit_width p.
Proof. destruct p; try discriminate; try congruence; intros _ _; unfold conn; destruct (un_code c); cbn; repeat split; discriminate. Qed.
(** what ends up in the output container *)
Lemma finish_conv ch c q z : is_integer q = true -> conv q (cconv (c_of ch q) (cconv (c_of ch (conn c q)) z)) = conv q z.
Proof.
  intros IQ. assert (DB : q = Bool \/ q <> Bool) by (destruct q; auto; right; discriminate). destruct DB as [-> |NB].
  - unfold conn; destruct (un_code c); cbn; destruct (z =? 0); reflexivity.
  - pose proof (width_pos q IQ) as W. destruct (conn_int c q IQ NB) as (CI & CB & CW).
    destruct (c_of_shape ch q IQ NB) as (s & ->). destruct (c_of_shape ch (conn c q) CI CB) as (s' & ->). rewrite CW.
    apply conv_cong; auto. rewrite !cconv_mod; auto.
Qed.
(** the value of a connector: the value of the container read as signed or as unsigned *)
Definition read_as (s : bool) (w z : Z) : Z := if s then sv w z else uv w z.
Lemma load_val ch c p v : is_integer p = true -> p <> Bool ->
  exists s, c_of ch (conn c p) = TI s (bit_width p) /\ load ch c p v = read_as s (bit_width p) v.
Proof.
  intros IP NB. pose proof (width_pos p IP) as W. destruct (conn_int c p IP NB) as (CI & CB & CW).
  destruct (c_of_shape ch p IP NB) as (s & E). destruct (c_of_shape ch (conn c p) CI CB) as (s' & E').
  exists s'. unfold load. rewrite E, E', CW. split; auto. unfold read_as, sv, uv. pose proof (cconv_mod s (bit_width p) v W) as M.
  destruct s'; cbn [cconv]; [apply swrap_cong; auto|exact M].
Qed.
Lemma read_mod s w z : 1 <= w -> read_as s w z mod 2 ^ w = z mod 2 ^ w.
Proof. intros W. destruct s; unfold read_as, sv, uv; [apply swrap_mod; auto|]. apply Z.mod_mod. pose proof (pow2_pos w); lia. Qed.
Lemma read_range s w z : 1 <= w -> trange (TI s w) (read_as s w z).
Proof. intros W. destruct s; unfold read_as, sv, uv, trange; [apply swrap_range; auto|]. apply Z.mod_pos_bound, pow2_pos; lia. Qed.
Lemma read_eq s w a b : 1 <= w -> (read_as s w a =? read_as s w b) = (uv w a =? uv w b).
Proof.
  intros W. apply eq_true_iff_eq. rewrite !Z.eqb_eq. unfold uv. split; intros E.
  - rewrite <- (read_mod s w a), <- (read_mod s w b), E by auto. reflexivity.
  - destruct s; unfold read_as, sv, uv; [apply swrap_cong; auto|auto].
Qed.
Definition plain (o : cbin) : bool := match o with Bshl | Bshr | Bland | Blor => false | _ => true end.
Lemma two_val s w x y o : 1 <= w -> trange (TI s w) x -> trange (TI s w) y -> plain o = true ->
  ceval [TI s w; TI s w] [x; y] (two o) = bin_val o (promo (TI s w)) x y.
Proof.
  intros W X Y P. unfold two. destruct o; try discriminate P; cbn [ceval ctyp nth nth_error obind]; rewrite common_self, !promo_conv; auto.
Qed.
Lemma shift_two s w x y o : 1 <= w -> trange (TI s w) x -> trange (TI s w) y -> o = Bshl \/ o = Bshr ->
  ceval [TI s w; TI s w] [x; y] (two o) = shift_val o (promo (TI s w)) x y.
Proof.
  intros W X Y P. unfold two. destruct P as [-> | ->]; cbn [ceval ctyp nth nth_error obind]; rewrite !promo_conv; auto.
Qed.
Lemma pick_val s w x y o b : 1 <= w -> trange (TI s w) x -> trange (TI s w) y -> plain o = true -> bin_val o (promo (TI s w)) x y = Some (b2z b) ->
  ceval [TI s w; TI s w] [x; y] (pick o) = Some (if b then x else y).
Proof.
  intros W X Y P E. unfold pick. pose proof (two_val s w x y o W X Y P) as T. unfold pick. cbn [ceval]. 
  change (match o with | _ => ceval [TI s w; TI s w] [x; y] (two o) end) with (ceval [TI s w; TI s w] [x; y] (two o)) in *.
  rewrite T, E. cbn [obind ctyp nth nth_error]. destruct b; cbn [b2z Z.eqb obind]; rewrite common_self, promo_conv; auto.
Qed.
Lemma three_val s w x y : 1 <= w -> trange (TI s w) x -> trange (TI s w) y ->
  ceval [TI s w; TI s w] [x; y] three_way = Some (cmp3 x y).
Proof.
  intros W X Y. unfold three_way. pose proof (two_val s w x y Blt W X Y eq_refl) as T1. pose proof (two_val s w x y Bgt W X Y eq_refl) as T2.
  cbn [bin_val] in T1, T2. cbn [ceval ctyp] in *. rewrite T1, T2. unfold cmp3. cbn [obind].
  destruct (x <? y); [reflexivity|]. destruct (y <? x); reflexivity.
Qed.
Lemma abs_val w x r : 8 <= w -> trange (TI true w) x -> ceval [TI true w] [x] (text Iabs) = Some r -> r = Z.abs x.
Proof.
  intros W X. pose proof (promo_conv true w x ltac:(lia) X) as PC. cbn [text ceval ctyp nth nth_error obind].
  assert (C0 : forall t, 1 <= width_of t -> t <> TB -> cconv t 0 = 0).
  { intros [|[|] v] V N; cbn [cconv width_of] in *; [congruence| |apply Z.mod_0_l; pose proof (pow2_pos v); lia]. apply swrap_id; auto. pose proof (pow2_pos (v - 1)). lia. }
  assert (CM : common (TI true w) (TI true 32) = promo (TI true w)).
  { unfold common, promo, wide. destruct (Z.ltb_spec w 32); [reflexivity|]. cbn [Z.ltb Z.compare Pos.compare Pos.compare_cont]. destruct (Z.eqb_spec w 32); [subst; reflexivity|]. destruct (Z.ltb_spec w 32); [lia|reflexivity]. }
  assert (PT : exists v, promo (TI true w) = TI true v /\ 32 <= v).
  { unfold promo. destruct (Z.ltb_spec w 32); eexists; split; reflexivity || auto; lia. }
  destruct PT as (v & PT & V). rewrite CM, PT in *. rewrite PC, C0 by (cbn; try lia; discriminate).
  cbn [bin_val obind]. intros E.
  assert (CC : common (promo (TI true w)) (TI true w) = TI true v).
  { rewrite <- PT. unfold common. assert (PP : promo (promo (TI true w)) = promo (TI true w)) by (rewrite PT; unfold promo; destruct (Z.ltb_spec v 32); [lia|reflexivity]).
    rewrite PP, PT. unfold wide. rewrite Z.eqb_refl. reflexivity. }
  rewrite PT in CC. destruct (Z.ltb_spec x 0) as [L|L]; cbn [b2z Z.eqb obind] in E.
  - cbn [arith] in E. destruct (checked v (- x)) as [u|] eqn:K; [|discriminate]. cbn [obind] in E.
    assert (u = - x /\ - 2 ^ (v - 1) <= u < 2 ^ (v - 1)) as [-> R].
    { unfold checked in K. destruct (Z.leb_spec (- 2 ^ (v - 1)) (- x)); [|discriminate]. destruct (Z.ltb_spec (- x) (2 ^ (v - 1))); [|discriminate]. inversion K. lia. }
    rewrite CC in E. cbn [cconv] in E. rewrite swrap_id in E by lia. inversion E. lia.
  - rewrite CC, PC in E. inversion E. lia.
Qed.
Lemma shiftr_pos x y : 0 <= y -> Z.shiftr x y = x / 2 ^ y.
Proof. intros; apply Z.shiftr_div_pow2; auto. Qed.
Lemma small_amount s w b : 8 <= w -> uv w b < w -> read_as s w b = uv w b.
Proof.
  intros W L. destruct s; [|reflexivity]. unfold read_as, sv, uv in *. pose proof (Z.mod_pos_bound b (2 ^ w) ltac:(apply pow2_pos; lia)).
  rewrite <- (swrap_id w (b mod 2 ^ w)); [|lia|]. { apply swrap_cong; [lia|]. symmetry. apply Z.mod_mod. pose proof (pow2_pos w); lia. }
  assert (w <= 2 ^ (w - 1)). { pose proof (Z.pow_gt_lin_r 2 (w - 1) ltac:(lia) ltac:(lia)). lia. } lia.
Qed.
(** two operands of the same type *)
Lemma binary_code c s w a b r m : 8 <= w -> (signed_code c = true -> s = true) -> (un_code c = true -> s = false) ->
  ceval [TI s w; TI s w] [read_as s w a; read_as s w b] (text c) = Some r -> meaning c w [a; b] = Some m ->
  r mod 2 ^ w = m mod 2 ^ w /\ (small_code c = true -> r = m).
Proof.
  intros W SC UC E M. assert (W1 : 1 <= w) by lia. set (x := read_as s w a) in *. set (y := read_as s w b) in *.
  assert (X : trange (TI s w) x) by (apply read_range; auto). assert (Y : trange (TI s w) y) by (apply read_range; auto).
  assert (XM : x mod 2 ^ w = a mod 2 ^ w) by (apply read_mod; auto). assert (YM : y mod 2 ^ w = b mod 2 ^ w) by (apply read_mod; auto).
  pose proof (add_cong w x y a b ltac:(lia) XM YM) as (CA & CS & CM). pose proof (land_mod w x y a b ltac:(lia) XM YM) as (CAnd & COr & CXor).
  destruct (promo_wider s w W1) as (s' & w' & PE & WW & W32 & PU & PS).
  assert (AR : forall z, arith (promo (TI s w)) z = Some r -> r mod 2 ^ w = z mod 2 ^ w).
  { intros z H. rewrite PE in H. apply (mod_le w w'); [lia|]. eapply arith_mod; eauto. lia. }
  assert (SX : signed_code c = true -> x = sv w a /\ y = sv w b) by (intros H; unfold x, y; rewrite (SC H); auto).
  assert (UX : un_code c = true -> x = uv w a /\ y = uv w b) by (intros H; unfold x, y; rewrite (UC H); auto).
  assert (PR : forall z, arith (promo (TI s w)) z = Some r -> (0 <= z \/ s' = true) -> (s' = false -> z < 2 ^ w') -> r = z).
  { intros z H H1 H2. rewrite PE in H. cbn [arith] in H. destruct s'; [eapply checked_some; eauto|]. inversion H. apply Z.mod_small. destruct H1 as [H1|]; [|discriminate]. specialize (H2 eq_refl). lia. }
  assert (XD : x = read_as s w a) by reflexivity. assert (YD : y = read_as s w b) by reflexivity. clearbody x y.
  destruct c; cbn [signed_code un_code small_code] in *; cbn [text meaning] in *;
    try (destruct (SX eq_refl) as [SX1 SX2]; rewrite <- SX1 in M; try rewrite <- SX2 in M); try (destruct (UX eq_refl) as [UX1 UX2]; rewrite <- UX1, <- UX2 in M); clear SX UX.
  - rewrite two_val in E by auto. inversion M; subst m. apply AR in E. split; [congruence|discriminate].
  - rewrite two_val in E by auto. inversion M; subst m. apply AR in E. split; [congruence|discriminate].
  - rewrite two_val in E by auto. inversion M; subst m. apply AR in E. split; [congruence|discriminate].
  - (* sdiv *) rewrite two_val in E by auto. cbn [bin_val] in E. destruct (y =? 0); [discriminate|]. inversion M; subst m. apply AR in E. split; [auto|discriminate].
  - (* srem *) rewrite two_val in E by auto. cbn [bin_val] in E. destruct (y =? 0); [discriminate|]. destruct (arith _ _); [|discriminate]. cbn [obind] in E. inversion M; inversion E. split; [auto|discriminate].
  - (* udiv *) rewrite two_val in E by auto. cbn [bin_val] in E. destruct (Z.eqb_spec y 0); [discriminate|]. inversion M; subst m. apply AR in E. split; [|discriminate].
    rewrite E. f_equal. rewrite (UC eq_refl) in X, Y. unfold trange in X, Y. apply Z.quot_div_nonneg; lia.
  - (* urem *) rewrite two_val in E by auto. cbn [bin_val] in E. destruct (Z.eqb_spec y 0); [discriminate|]. destruct (arith _ _); [|discriminate]. cbn [obind] in E. inversion M; inversion E. split; [|discriminate].
    f_equal. rewrite (UC eq_refl) in X, Y. unfold trange in X, Y. apply Z.rem_mod_nonneg; lia.
  - rewrite two_val in E by auto. cbn [bin_val] in E. inversion M; inversion E; subst. split; [auto|discriminate].
  - rewrite two_val in E by auto. cbn [bin_val] in E. inversion M; inversion E; subst. split; [auto|discriminate].
  - rewrite two_val in E by auto. cbn [bin_val] in E. inversion M; inversion E; subst. split; [auto|discriminate].
  - (* shl *) destruct (Z.ltb_spec (uv w b) w) as [L|]; [|discriminate]. inversion M; subst m. rewrite shift_two in E by auto.
    assert (YE : y = uv w b) by (rewrite <- (small_amount s w b), YD; auto). rewrite <- YE in *. unfold shift_val in E. destruct (_ && _); [|discriminate]. rewrite PE in E.
    assert (MM : (x * 2 ^ y) mod 2 ^ w = (a * 2 ^ y) mod 2 ^ w). { pose proof (pow2_pos w ltac:(lia)). rewrite Z.mul_mod, XM, <- Z.mul_mod by lia. reflexivity. }
    split; [|discriminate]. destruct s'.
    + destruct (x <? 0); [discriminate|]. apply checked_some in E. congruence.
    + inversion E; subst r. rewrite <- MM. apply (mod_le w w'); [lia|]. apply Z.mod_mod. pose proof (pow2_pos w'); lia.
  - (* ashr *) destruct (Z.ltb_spec (uv w b) w) as [L|]; [|discriminate]. inversion M; subst m. rewrite shift_two in E by auto.
    assert (YE : y = uv w b) by (rewrite <- (small_amount s w b), YD; auto). rewrite <- YE in *. unfold shift_val in E. destruct (_ && _); [|discriminate]. split; [|discriminate]. destruct (promo _); inversion E; reflexivity.
  - (* lshr *) destruct (Z.ltb_spec y w) as [L|]; [|discriminate]. inversion M; subst m. rewrite shift_two in E by auto.
    unfold shift_val in E. destruct (_ && _); [|discriminate]. split; [|discriminate]. destruct (promo _); inversion E; reflexivity.
  - erewrite pick_val in E by (auto; reflexivity). inversion E; inversion M. split; [|discriminate]. f_equal. destruct (Z.ltb_spec x y); lia.
  - erewrite pick_val in E by (auto; reflexivity). inversion E; inversion M. split; [|discriminate]. f_equal. destruct (Z.ltb_spec y x); lia.
  - rewrite three_val in E by auto. inversion E; inversion M; subst. auto.
  - erewrite pick_val in E by (auto; reflexivity). inversion E; inversion M. split; [|discriminate]. f_equal. destruct (Z.ltb_spec x y); lia.
  - erewrite pick_val in E by (auto; reflexivity). inversion E; inversion M. split; [|discriminate]. f_equal. destruct (Z.ltb_spec y x); lia.
  - rewrite three_val in E by auto. inversion E; inversion M; subst. auto.
  - rewrite two_val in E by auto. cbn [bin_val] in E. rewrite XD, YD, read_eq in E by auto. inversion E; inversion M; subst. auto.
  - rewrite two_val in E by auto. cbn [bin_val] in E. rewrite XD, YD, read_eq in E by auto. inversion E; inversion M; subst. auto.
  - rewrite two_val in E by auto. cbn [bin_val] in E. inversion E; inversion M; subst. auto.
  - rewrite two_val in E by auto. cbn [bin_val] in E. inversion E; inversion M; subst. auto.
  - rewrite two_val in E by auto. cbn [bin_val] in E. inversion E; inversion M; subst. auto.
  - rewrite two_val in E by auto. cbn [bin_val] in E. inversion E; inversion M; subst. auto.
  - rewrite two_val in E by auto. cbn [bin_val] in E. inversion E; inversion M; subst. auto.
  - rewrite two_val in E by auto. cbn [bin_val] in E. inversion E; inversion M; subst. auto.
  - rewrite two_val in E by auto. cbn [bin_val] in E. inversion E; inversion M; subst. auto.
  - rewrite two_val in E by auto. cbn [bin_val] in E. inversion E; inversion M; subst. auto.
  - discriminate.
Qed.
(** codes without an undefined case of their own *)
Definition total_code (c : icode) : bool :=
  match c with Iand | Ior | Ixor | Ismin | Ismax | Iscmp | Iumin | Iumax | Iucmp | Ieq | Ine | Isge | Isgt | Isle | Islt | Iuge | Iugt | Iule | Iult | Iudiv | Iurem | Iashr | Ilshr => true | _ => false end.
Lemma total_ok c s w a b m : 8 <= w -> total_code c = true -> (un_code c = true -> s = false) -> meaning c w [a; b] = Some m ->
  exists r, ceval [TI s w; TI s w] [read_as s w a; read_as s w b] (text c) = Some r.
Proof.
  intros W T UC M. assert (W1 : 1 <= w) by lia. 
  pose proof (fun L => small_amount s w b W L) as SA. set (x := read_as s w a) in *. set (y := read_as s w b) in *.
  assert (X : trange (TI s w) x) by (apply read_range; auto). assert (Y : trange (TI s w) y) by (apply read_range; auto).
  assert (YD : y = read_as s w b) by reflexivity.
  destruct (promo_wider s w W1) as (s' & w' & PE & WW & W32 & PU & PS).
  assert (DV : un_code c = true -> y <> 0 -> exists r, arith (promo (TI s w)) (Z.quot x y) = Some r).
  { intros U N. rewrite PE. destruct s'; cbn [arith]; [|eauto]. exists (Z.quot x y). unfold checked.
    rewrite (UC U) in *. unfold trange in X, Y. destruct (PS eq_refl) as [|LT]; [discriminate|]. pose proof (Z.quot_le_upper_bound x y x ltac:(lia) ltac:(nia)). pose proof (Z.quot_pos x y ltac:(lia) ltac:(lia)).
    pose proof (pow_le w (w' - 1) ltac:(lia)). destruct (Z.leb_spec (- 2 ^ (w' - 1)) (Z.quot x y)); [|lia]. destruct (Z.ltb_spec (Z.quot x y) (2 ^ (w' - 1))); [reflexivity|lia]. }
  assert (SH : uv w b < w -> exists r, shift_val Bshr (promo (TI s w)) x y = Some r).
  { intros L. rewrite (SA L). unfold shift_val, uv. rewrite PE. cbn [width_of]. pose proof (Z.mod_pos_bound b (2 ^ w) ltac:(apply pow2_pos; lia)). unfold uv in L.
    destruct (Z.leb_spec 0 (b mod 2 ^ w)); [|lia]. destruct (Z.ltb_spec (b mod 2 ^ w) w'); [|lia]. cbn [andb]. eauto. }
  clearbody x y.
  destruct c; try discriminate T; cbn [text meaning un_code] in *.
  1, 2: destruct (Z.eqb_spec (uv w b) 0) as [|N]; [discriminate|]; rewrite (UC eq_refl) in YD; unfold read_as in YD; rewrite <- YD in N; rewrite two_val by auto; cbn [bin_val]; destruct (Z.eqb_spec y 0); [congruence|]; destruct (DV eq_refl N) as (r & ->); cbn [obind]; eauto.
  all: try (rewrite three_val by auto; eauto).
  all: try (erewrite pick_val by (auto; reflexivity); eauto).
  all: try (rewrite two_val by auto; cbn [bin_val]; eauto).
  all: destruct (Z.ltb_spec (uv w b) w) as [L|]; [|discriminate]; rewrite shift_two by auto; auto.
Qed.
(** ** Floating-point comparisons: [cmp a b = None] when [a] or [b] is NaN (IEEE 754).
    The C operators [==, <, >, <=, >=] are false on NaN, [!=] is the negation of [==]. *)
Section Float.
Variable F : Type.
Variable cmp : F -> F -> option comparison.
Variable isnan : F -> bool.
Definition fop (o : cbin) (a b : F) : option bool :=
  match o, cmp a b with
  | Beq, r => Some (match r with Some Eq => true | _ => false end)
  | Bne, r => Some (match r with Some Eq => false | _ => true end)
  | Blt, r => Some (match r with Some Lt => true | _ => false end)
  | Bgt, r => Some (match r with Some Gt => true | _ => false end)
  | Ble, r => Some (match r with Some Lt | Some Eq => true | _ => false end)
  | Bge, r => Some (match r with Some Gt | Some Eq => true | _ => false end)
  | _, _ => None
  end.
Fixpoint feval (vs : list F) (e : cexp) : option bool :=
  match e with
  | CBin Bland a b => obind (feval vs a) (fun x => if x then feval vs b else Some false)
  | CBin Blor a b => obind (feval vs a) (fun x => if x then Some true else feval vs b)
  | CBin o (CV i) (CV j) => match nth_error vs i, nth_error vs j with Some x, Some y => fop o x y | _, _ => None end
  | CIsnan (CV i) => obind (nth_error vs i) (fun x => Some (isnan x))
  | _ => None
  end.
(** Specification: the predicates of IEEE 754 / LLVM fcmp named by the codes.  [fmeaning] is over the
    four possible relations: less, equal, greater, unordered ([None]). *)
Definition fmeaning (c : fcode) (r : option comparison) : bool :=
  match c, r with
  | Foeq, Some Eq => true | Foeq, _ => false
  | Fone, Some (Lt | Gt) => true | Fone, _ => false
  | Fogt, Some Gt => true | Fogt, _ => false
  | Foge, Some (Gt | Eq) => true | Foge, _ => false
  | Folt, Some Lt => true | Folt, _ => false
  | Fole, Some (Lt | Eq) => true | Fole, _ => false
  | Ford, Some _ => true | Ford, None => false
  | Fueq, (None | Some Eq) => true | Fueq, _ => false
  | Fune, Some Eq => false | Fune, _ => true
  | Fugt, (None | Some Gt) => true | Fugt, _ => false
  | Fuge, Some Lt => false | Fuge, _ => true
  | Fult, (None | Some Lt) => true | Fult, _ => false
  | Fule, Some Gt => false | Fule, _ => true
  | Funo, None => true | Funo, Some _ => false
  end.
Lemma float_code c a b : (forall x y, cmp x y = None <-> isnan x = true \/ isnan y = true) -> c <> Fone -> c <> Ford ->
  feval [a; b] (ftext c) = Some (fmeaning c (cmp a b)).
Proof.
  intros N H1 H2. pose proof (N a b) as NAB. unfold ftext, unord, two. destruct c; try congruence; cbn [feval nth_error obind fop];
    destruct (cmp a b) as [[| |]|]; cbn [fmeaning]; try reflexivity;
    destruct (isnan a) eqn:A, (isnan b) eqn:B; cbn [obind]; try reflexivity; exfalso; destruct NAB as [N1 N2];
    try (discriminate (N2 (or_introl eq_refl))); try (discriminate (N2 (or_intror eq_refl))); destruct (N1 eq_refl); discriminate.
Qed.
End Float.

(** ** __daisy_sym_pow, rtl/include/daisy_rtl/daisy_rtl.h:136-150.  [mul]: multiplication of two ints. *)
Fixpoint pow_loop (mul : Z -> Z -> option Z) (e : positive) (base result : Z) : option Z :=
  match e with
  | xH => obind (mul result base) (fun r => obind (mul base base) (fun _ => Some r))
  | xO e => obind (mul base base) (fun b => pow_loop mul e b result)
  | xI e => obind (mul result base) (fun r => obind (mul base base) (fun b => pow_loop mul e b r))
  end.
(** the arguments are converted to int at the call *)
Definition sym_pow (mul : Z -> Z -> option Z) (base exp : Z) : option Z :=
  match swrap 32 exp with
  | Z0 => Some 1
  | Zpos e => pow_loop mul e (swrap 32 base) 1
  | Zneg _ => Some 0
  end.
Definition mul_wrap (a b : Z) : option Z := Some (swrap 32 (a * b)).
Definition mul_checked (a b : Z) : option Z := checked 32 (a * b).
Lemma mul_mod32 a b a' b' : a mod 2 ^ 32 = a' mod 2 ^ 32 -> b mod 2 ^ 32 = b' mod 2 ^ 32 -> (a * b) mod 2 ^ 32 = (a' * b') mod 2 ^ 32.
Proof. intros A B. apply (add_cong 32 a b a' b'); auto; lia. Qed.
Lemma pow_loop_wrap e : forall b r, exists z, pow_loop mul_wrap e b r = Some z /\ z mod 2 ^ 32 = (r * b ^ Zpos e) mod 2 ^ 32 /\ z = swrap 32 z.
Proof.
  induction e as [e IH|e IH|]; intros b r; cbn [pow_loop mul_wrap obind].
  - destruct (IH (swrap 32 (b * b)) (swrap 32 (r * b))) as (z & -> & M & Z). exists z. split; [reflexivity|]. split; [|exact Z]. rewrite M.
    replace (r * b ^ Z.pos e~1) with ((r * b) * (b * b) ^ Z.pos e).
    2:{ rewrite Pos2Z.inj_xI, Z.pow_add_r, Z.pow_mul_r, Z.pow_1_r by lia. replace (b ^ 2) with (b * b) by lia. ring. }
    apply mul_mod32; [apply swrap_mod; lia|]. generalize (Z.pos e) (Pos2Z.is_nonneg e). intros n Hn. revert n Hn. apply natlike_ind; [reflexivity|].
    intros n Hn Q. rewrite !Z.pow_succ_r by auto. apply mul_mod32; auto. apply swrap_mod; lia.
  - destruct (IH (swrap 32 (b * b)) r) as (z & -> & M & Z). exists z. split; [reflexivity|]. split; [|exact Z]. rewrite M.
    replace (r * b ^ Z.pos e~0) with (r * (b * b) ^ Z.pos e).
    2:{ rewrite Pos2Z.inj_xO, Z.pow_mul_r by lia. replace (b ^ 2) with (b * b) by lia. ring. }
    apply mul_mod32; [reflexivity|]. generalize (Z.pos e) (Pos2Z.is_nonneg e). intros n Hn. revert n Hn. apply natlike_ind; [reflexivity|].
    intros n Hn Q. rewrite !Z.pow_succ_r by auto. apply mul_mod32; auto. apply swrap_mod; lia.
  - eexists. split; [reflexivity|]. split; [rewrite swrap_mod, Z.pow_1_r by lia; reflexivity|]. symmetry. apply swrap_id; [lia|]. apply swrap_range; lia.
Qed.
Lemma pow_loop_checked e : forall b r z, pow_loop mul_checked e b r = Some z -> z = r * b ^ Zpos e.
Proof.
  induction e as [e IH|e IH|]; intros b r z E; cbn [pow_loop] in E; unfold mul_checked in E at 1.
  - destruct (checked 32 (r * b)) as [r'|] eqn:R; [|discriminate]. cbn [obind] in E. unfold mul_checked in E at 1. destruct (checked 32 (b * b)) as [b'|] eqn:B; [|discriminate]. cbn [obind] in E.
    apply checked_some in R. apply checked_some in B. apply IH in E. subst. rewrite Pos2Z.inj_xI, Z.pow_add_r, Z.pow_mul_r, Z.pow_1_r by lia. replace (b ^ 2) with (b * b) by lia. ring.
  - destruct (checked 32 (b * b)) as [b'|] eqn:B; [|discriminate]. cbn [obind] in E. apply checked_some in B. apply IH in E. subst.
    rewrite Pos2Z.inj_xO, Z.pow_mul_r by lia. replace (b ^ 2) with (b * b) by lia. ring.
  - destruct (checked 32 (r * b)) as [r'|] eqn:R; [|discriminate]. cbn [obind] in E. unfold mul_checked in E. destruct (checked 32 (b * b)) as [b'|] eqn:B; [|discriminate]. cbn [obind] in E.
    apply checked_some in R. inversion E. subst. rewrite Z.pow_1_r. reflexivity.
Qed.
