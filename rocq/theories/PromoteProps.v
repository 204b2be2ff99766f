(** C55: replacing a tasklet by an assignment on the transition (SymbolPromotion). *)
From Coq Require Import ZArith List Bool String Lia.
From Verif Require Import Sym SymFacts SymFuns SymProofs1 SymProofs4 IR IRFacts Types TypesProofs Promote.
Import ListNotations.
Local Open Scope string_scope.
Local Open Scope list_scope.
Local Open Scope Z_scope.

(** The values in memory have the types their containers are declared with. *)
Definition well_typed (t : task) (vs : list Z) : Prop := Forall2 (fun g v => in_range (g_decl g) v) (t_in t) vs.
(** What the container holds after the tasklet, and after the assignment that replaces it. *)
Definition after_tasklet (t : task) (st : store) (v : Z) : Prop :=
  exists vs, reads_in st (map g_node (t_in t)) = Some vs /\ well_typed t vs /\ c_task t vs = Some v.
Definition after_promotion (t : task) (st : store) (v : Z) : Prop :=
  exists r z, promoted t = Some r /\ rhs_value (env_of st) r = Some z /\ v = conv (t_odecl t) z.

(** Partial: the claim holds when no element of an array is read, a shifted value is not
    negative and the operand of a cast is in the range that the printed cast preserves
    ([faithful]); it is false of the pass otherwise, see below. *)
Theorem C55_symbol_promotion_partial : forall (t : task) (st : store) (v : Z),
  accept t = true -> promoted t <> None -> is_integer (t_odecl t) = true ->
  (forall vs, reads_in st (map g_node (t_in t)) = Some vs -> faithful t vs) ->
  after_tasklet t st v -> after_promotion t st v.
Proof.
  intros t st v A P W F (vs & R & T & C). destruct (promoted t) as [r|] eqn:Q; [|congruence].
  destruct (value_kept t r st vs v A Q W R T (F _ R) C) as (z & E & K). exists r, z. auto.
Qed.

(** A constant of an unsigned type that the pass takes for safe, and that fits the
    type it is written with, needs no condition on a cast: the bound it is compared
    with (the signed maximum of the target) is enough. Types of at most 64 bits; a
    narrowing ends in at most 32 bits. *)
Theorem C55_safe_constant : forall t g z st v,
  t_in t = [g] -> g_node g = OConst z -> safe_constant t = true -> in_range (g_base g) z -> is_integer (t_odecl t) = true ->
  bit_width (t_obase t) <= 64 -> (is_trunc (g_base g) (t_obase t) = true -> bit_width (t_obase t) <= 32) ->
  after_tasklet t st v -> after_promotion t st v.
Proof.
  intros t g z st v IN GN SC RG IO W64 W32 AT. pose proof SC as SC'. unfold safe_constant in SC. rewrite IN in SC. unfold const_of in SC. rewrite GN in SC.
  destruct (t_code t) eqn:TC; try discriminate. repeat (apply andb_true_iff in SC as [SC ?]). apply Z.leb_le in H, H0.
  assert (I2: is_integer (t_obase t) = true) by (destruct (t_obase t); cbn in *; congruence). pose proof (width_pos _ I2) as WP.
  assert (L64: 2 ^ (bit_width (t_obase t) - 1) <= 2 ^ 63) by (apply Z.pow_le_mono_r; lia). change (2 ^ 63) with 9223372036854775808 in L64. change (2 ^ 32) with 4294967296 in *.
  eapply C55_symbol_promotion_partial; [| |exact IO| |exact AT].
  - unfold accept, special. rewrite TC, IN, SC'. reflexivity.
  - unfold promoted. rewrite TC, IN. discriminate.
  - intros vs RV. rewrite IN in RV. cbn in RV. rewrite GN in RV. cbn in RV. injection RV as <-. split; [rewrite IN; cbn; unfold no_subset; rewrite GN; reflexivity|].
    rewrite TC, IN. assert (I64: in_int64 z = true) by (unfold in_int64; cbn; apply andb_true_iff; split; apply Z.leb_le; lia).
    destruct (is_trunc (g_base g) (t_obase t)) eqn:TR; [|auto]. specialize (W32 eq_refl). split; [exact I64|]. left.
    assert (L32: 2 ^ (bit_width (t_obase t) - 1) <= 2 ^ 31) by (apply Z.pow_le_mono_r; lia).
    split; [unfold in_range; cbn; lia|]. unfold in_range. assert (U: is_unsigned (t_obase t) = true) by assumption. rewrite U. pose proof (Z.pow_le_mono_r 2 (bit_width (t_obase t) - 1) (bit_width (t_obase t)) ltac:(lia) ltac:(lia)). lia.
Qed.
Example C55_safe_constant_used : exists t g, t_in t = [g] /\ g_node g = OConst 200 /\ safe_constant t = true /\ is_trunc (g_base g) (t_obase t) = true /\ t_odecl t = Int64 /\ after_tasklet t (fun _ _ => 0) 200.
Proof.
  exists (Task TAssign [Edge (OConst 200) UInt64 UInt64] "y" [] Int64 UInt32), (Edge (OConst 200) UInt64 UInt64). repeat split.
  exists [200]. split; [reflexivity|]. split; [constructor; [vm_compute; split; congruence|constructor]|vm_compute; reflexivity].
Qed.

(** The whole pass, on every block of a program. [exactly t vs v]: the tasklet gives [v]
    without any conversion changing a value. *)
Definition exactly (t : task) (vs : list Z) (v : Z) : Prop :=
  Forall2 (fun g u => in_range (g_decl g) u /\ in_range (g_base g) u /\ is_integer (g_base g) = true) (t_in t) vs /\
  c_op (t_code t) (op_width (map g_base (t_in t))) vs = Some v /\
  in_range (t_obase t) v /\ in_range (t_odecl t) v /\ in_range Int64 v /\
  (forall g, t_in t = [g] -> is_trunc (g_base g) (t_obase t) = true -> in_range Int32 v) /\
  forallb no_subset (t_in t) = true /\ t_osub t = [] /\
  (t_code t = TAshr -> match vs with a :: _ => 0 <= a | _ => True end).
Definition typed_program (typing : op -> option task) : Prop :=
  forall o t, typing o = Some t -> o_ins o = map g_node (t_in t) /\ o_out o = t_out t /\ o_sub o = t_osub t.
Definition executes (typing : op -> option task) (J : nat -> list Z -> option Z) : Prop :=
  forall o t vs v, typing o = Some t -> J (o_code o) vs = Some v -> exactly t vs v.

Lemma exact_value t e st vs v :
  accept t = true -> promoted t = Some (RExpr e) -> reads_in st (map g_node (t_in t)) = Some vs -> exactly t vs v ->
  eval (env_of st) e = Some v /\ t_osub t = [].
Proof.
  intros A P R (F & C & RO & RD & R64 & R32 & NS & OS & SH). split; auto.
  pose proof (syms_of _ _ _ NS (reads_two _ _ _ R)) as SY.
  assert (I64 : in_int64 v = true).
  { unfold in_range in R64; simpl in R64. unfold in_int64, int64_min, int64_max. apply andb_true_iff; split; apply Z.leb_le; lia. }
  assert (D : t_code t = TAssign \/ t_code t <> TAssign) by (destruct (t_code t); (left; reflexivity) || (right; discriminate)).
  destruct D as [TC|TC].
  - unfold promoted in P. rewrite TC in *. destruct (t_in t) as [|g [|]] eqn:IN; try discriminate.
    apply two_cons in SY. destruct SY as (u & vs' & -> & E & Q). apply two_nil in Q; subst vs'. cbn [c_op] in C. inversion C; subst u. inversion P; subst e.
    destruct (is_zext _ _); [apply zext_value; auto|]. destruct (is_trunc (g_base g) (t_obase t)) eqn:TR; [|exact E].
    specialize (R32 _ eq_refl TR). unfold in_range in R32; simpl in R32. rewrite <- (swrap_id 32 v) at 1 by (simpl; lia). apply trunc_value; auto.
  - assert (AC := A). unfold accept in A. apply orb_true_iff in A. destruct A as [A|A]; [apply special_assign in A; contradiction|].
    apply andb_true_iff in A; destruct A as [_ A].
    change (rhs_value (env_of st) (RExpr e) = Some v). eapply op_value; try eassumption.
    + intros [Q|Q]; rewrite Q in A; exact A.
    + intros Q; rewrite Q in A. apply orb_true_iff in A; exact A.
    + intros Q. unfold all_bool in Q. apply andb_true_iff in Q; destruct Q as [Q _]. clear - Q F.
      induction F as [|g u gs us [_ [R _]] RG IH]; constructor; cbn [forallb] in Q; apply andb_true_iff in Q; destruct Q as [A1 A2]; auto. apply prim_same in A1. rewrite A1 in R. exact R.
Qed.

Theorem C55_whole_program_partial : forall (typing : op -> option task) (J : nat -> list Z -> option Z) (p : seq),
  typed_program typing -> executes typing J ->
  forall st o st', runs J p st o st' -> runs J (promS typing p) st o st'.
Proof.
  intros typing J p T X. apply (prom_sim typing J T).
  intros o t e st vs v TO A P R V. destruct (T _ _ TO) as (IN & _ & _). rewrite IN in R. eapply exact_value; eauto.
Qed.

(** ** The claim is false of the pass in general *)
Definition refuted (t : task) (st : store) : Prop :=
  accept t = true /\ is_integer (t_odecl t) = true /\ exists v v', after_tasklet t st v /\ after_promotion t st v' /\ v <> v'.
Definition holds_ (l : list (string * Z)) : store := fun x i => match find (fun p => String.eqb (fst p) x) l with Some (_, z) => z | None => 0 end.
Ltac rng := repeat (apply Forall2_cons; [vm_compute; split; congruence|]); apply Forall2_nil.
Ltac refute v v' :=
  unfold refuted; split; [reflexivity|split; [reflexivity|exists v, v'; split; [eexists; split; [reflexivity|split; [unfold well_typed; cbn [t_in]; rng|vm_compute; reflexivity]]|
    split; [eexists; eexists; split; [vm_compute; reflexivity|split; [vm_compute; reflexivity|vm_compute; reflexivity]]|discriminate]]]].

Definition var (x : string) (p : prim) : edge := Edge (ORead x []) p p.
Definition num (z : Z) (p : prim) : edge := Edge (OConst z) p p.
(** y = x >> 1 becomes y = x / 2, which rounds towards zero: x = -3. *)
Theorem C55_ashr_refuted : exists t st, refuted t st /\ t_code t = TAshr.
Proof. exists (Task TAshr [var "x" Int64; num 1 Int64] "y" [] Int64 Int64), (holds_ [("x", -3)]). split; [refute (-2) (-1)|reflexivity]. Qed.
(** The zero-extension of a 32-bit value held in a signed container is printed as a sign
    extension: x = -1. *)
Theorem C55_zext_refuted : exists t st, refuted t st /\ forallb no_subset (t_in t) = true.
Proof. exists (Task TAssign [Edge (ORead "x" []) Int32 UInt32] "y" [] Int64 UInt64), (holds_ [("x", -1)]). split; [refute 4294967295 (-1)|reflexivity]. Qed.
(** Truncation to an unsigned 32-bit value kept in a 64-bit container: sign extension. *)
Theorem C55_trunc_refuted : exists t st, refuted t st /\ forallb no_subset (t_in t) = true.
Proof. exists (Task TAssign [Edge (ORead "x" []) Int64 UInt64] "y" [] Int64 UInt32), (holds_ [("x", 4294967295)]). split; [refute 4294967295 (-1)|reflexivity]. Qed.
(** Every narrowing is printed as trunc_i32, also one to 64 bits, and one to bool. *)
Theorem C55_narrowing_refuted : exists t st, refuted t st /\ t_obase t = Int64.
Proof. exists (Task TAssign [var "x" Int128] "y" [] Int64 Int64), (holds_ [("x", 2 ^ 40)]). split; [refute (2 ^ 40) 0|reflexivity]. Qed.
Theorem C55_bool_refuted : exists t st, refuted t st /\ t_obase t = Bool.
Proof. exists (Task TAssign [var "x" Int64] "y" [] Bool Bool), (holds_ [("x", 2 ^ 32)]). split; [refute 1 0|reflexivity]. Qed.
(** The casts are accepted for array elements, and the index is dropped. *)
Theorem C55_subset_refuted : exists t st, refuted t st /\ t_in t = [Edge (ORead "a" [ESym "i"]) UInt32 UInt32].
Proof.
  exists (Task TAssign [Edge (ORead "a" [ESym "i"]) UInt32 UInt32] "y" [] UInt64 UInt64), (fun x i => if String.eqb x "a" then match i with [1] => 7 | _ => 3 end else 1).
  split; [refute 7 3|reflexivity].
Qed.
(** -1 ^ 5 of two constants is accepted and then has no operand to build the result of. *)
Theorem C55_xor_refuted : exists t, accept t = true /\ promoted t = None /\ exists v, task_value t (fun _ _ => 0) = Some v.
Proof. exists (Task TXor [num (-1) Int32; num 5 Int32] "y" [] Int32 Int32). repeat split. eexists. vm_compute. reflexivity. Qed.

Example C55_hypotheses :
  let t := Task TAdd [var "i" Int64; num 4 Int64] "j" [] Int64 Int64 in
  let u := Task TAssign [Edge (ORead "x" []) Int32 UInt32] "y" [] Int64 UInt64 in
  let o := {| o_code := 5%nat; o_ins := map g_node (t_in t); o_out := "j"; o_sub := [] |} in
  let typing := fun o' => if Nat.eqb (o_code o') 5 then Some t else None in
  accept t = true /\ promoted t = Some (RExpr (EAdd [EInt 4; ESym "i"])) /\ faithful t [3; 4] /\ after_tasklet t (holds_ [("i", 3)]) 7 /\
  exactly t [3; 4] 7 /\
  accept u = true /\ promoted u = Some (RExpr (EZext (ESym "x"))) /\ faithful u [3] /\ after_tasklet u (holds_ [("x", 3)]) 3 /\
  promS typing (SCons (NLoop KFor "i" (EInt 0) (CLt (ESym "i") (ESym "n")) (sadd (ESym "i") (EInt 1)) (SCons (NBlock [o]) [("k", ESym "j")] SNil)) [] SNil) =
    SCons (NLoop KFor "i" (EInt 0) (CLt (ESym "i") (ESym "n")) (sadd (ESym "i") (EInt 1))
      (SCons (NBlock []) [("j", EAdd [EInt 4; ESym "i"])] (SCons (NBlock []) [("k", ESym "j")] SNil))) [] SNil.
Proof.
  cbv zeta.
  split; [reflexivity|]. split; [vm_compute; reflexivity|]. split; [split; [reflexivity|exact Logic.I]|].
  split; [exists [3; 4]; split; [reflexivity|split; [unfold well_typed; cbn [t_in]; rng|vm_compute; reflexivity]]|].
  split.
  { unfold exactly; cbn [t_in t_code t_obase t_odecl t_osub].
    split; [apply Forall2_cons; [split; [vm_compute; split; congruence|split; [vm_compute; split; congruence|reflexivity]]|apply Forall2_cons; [split; [vm_compute; split; congruence|split; [vm_compute; split; congruence|reflexivity]]|apply Forall2_nil]]|].
    split; [vm_compute; reflexivity|]. split; [vm_compute; split; congruence|]. split; [vm_compute; split; congruence|]. split; [vm_compute; split; congruence|].
    split; [intros g Q; discriminate|]. split; [reflexivity|]. split; [reflexivity|]. intros Q; discriminate. }
  split; [reflexivity|]. split; [vm_compute; reflexivity|]. split; [split; [reflexivity|intros _; split; [vm_compute; split; congruence|reflexivity]]|].
  split; [exists [3]; split; [reflexivity|split; [unfold well_typed; cbn [t_in]; rng|vm_compute; reflexivity]]|].
  vm_compute. reflexivity.
Qed.
