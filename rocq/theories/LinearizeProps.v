(** * C75: linear subsets address the same element *)
From Verif Require Import Sym SymFacts SymFuns SymProofs1 Linearize.
Open Scope Z_scope.

(** Layout of a C object: [words s t n] when a value of type [t] takes n elements;
    [offset s t l k]: for a pointer p to [t], p[l0][l1]... begins k elements after p. *)
Inductive words (s : env) : ty -> Z -> Prop :=
| W_scalar : words s TScalar 1
| W_array n t d w : eval s n = Some d -> words s t w -> words s (TArray n t) (d * w).
Inductive offset (s : env) : ty -> list expr -> Z -> Prop :=
| O_nil t : offset s t [] 0
| O_one t i z w : eval s i = Some z -> words s t w -> offset s t [i] (z * w)
| O_more n t i l z w k : eval s i = Some z -> words s (TArray n t) w -> offset s t l k -> offset s (TArray n t) (i :: l) (z * w + k).

Lemma words_innermost s t w : words s t w -> innermost t = TScalar.
Proof. intros W. induction W; [reflexivity|assumption]. Qed.
Lemma stride_words s t w : words s t w -> forall acc a, eval s acc = Some a -> eval s (stride acc (array_dims t)) = Some (a * w).
Proof.
  intros W. induction W as [|n t d w E W IH]; intros acc a A; cbn [array_dims stride].
  - rewrite Z.mul_1_r. exact A.
  - rewrite Z.mul_assoc. apply IH. apply eval_ev in A, E. apply eval_ev. rewrite ev_smul, A, E. reflexivity.
Qed.
Lemma linear_offset s t l k : offset s t l k -> forall acc a, eval s acc = Some a -> eval s (linear_index acc (array_dims t) l) = Some (a + k).
Proof.
  assert (S1 : forall t i z w acc a, eval s i = Some z -> words s t w -> eval s acc = Some a -> eval s (sadd acc (smul i (stride (EInt 1) (array_dims t)))) = Some (a + z * w)).
  { clear. intros t i z w acc a Ei W A. pose proof (stride_words s t w W (EInt 1) 1 eq_refl) as E. apply eval_ev in A, E, Ei. apply eval_ev.
    rewrite ev_sadd, ev_smul, A, E, Ei. cbn [xadd xmul]. f_equal. lia. }
  intros O. induction O as [t|t i z w Ei W|n t i l z w k Ei W O IH]; intros acc a A; cbn [linear_index].
  - rewrite Z.add_0_r. exact A.
  - apply S1; assumption.
  - cbn [array_dims tl]. rewrite (Z.add_assoc a). apply IH. apply (S1 (TArray n t)); assumption.
Qed.
(** The new memlet, to a pointer to scalars, has a single index with the offset of the
    old access, for whole elements and for rows. *)
Theorem C75_same_address s t l k t' l' : linearize t l = Some (t', l') -> offset s t l k -> t' = TScalar /\ offset s t' l' k.
Proof.
  intros L O. unfold linearize in L. destruct l as [|i l]; [discriminate|]. destruct (innermost t) eqn:Et; try discriminate.
  assert (L2 : (TScalar, [linear_index (EInt 0) (array_dims t) (i :: l)]) = (t', l')) by (destruct (array_dims t); [discriminate|]; injection L as <- <-; reflexivity).
  injection L2 as <- <-. split; [reflexivity|].
  replace k with ((0 + k) * 1) by lia. apply O_one; [|apply W_scalar]. apply (linear_offset s t (i :: l) k O (EInt 0) 0). reflexivity.
Qed.
(** Nothing else can be the address: offsets are determined by the values. *)
Lemma words_scalar s w : words s TScalar w -> w = 1.
Proof. intros W. inversion W. reflexivity. Qed.
Lemma words_array s n t w : words s (TArray n t) w -> exists d v, eval s n = Some d /\ words s t v /\ w = d * v.
Proof. intros W. inversion W; subst. eauto. Qed.
Lemma words_det s t : forall w w', words s t w -> words s t w' -> w = w'.
Proof.
  induction t as [|n t IH|]; intros w w' A B.
  - rewrite (words_scalar _ _ A), (words_scalar _ _ B). reflexivity.
  - apply words_array in A as (d & v & E & A & ->). apply words_array in B as (d' & v' & E' & B & ->). rewrite (IH _ _ A B). congruence.
  - inversion A.
Qed.
Lemma offset_nil s t k : offset s t [] k -> k = 0.
Proof. intros O. inversion O. reflexivity. Qed.
(** the first index, and the rest *)
Lemma offset_cons s t i l k : offset s t (i :: l) k -> exists z w k1, eval s i = Some z /\ words s t w /\ k = z * w + k1 /\
  match t with TArray _ u => offset s u l k1 | _ => l = [] /\ k1 = 0 end.
Proof.
  intros O. inversion O as [|? ? z w Ei W|? ? ? ? z w k1 Ei W O1]; subst.
  - exists z, w, 0. split; [exact Ei|]. split; [exact W|]. split; [lia|]. destruct t; auto. constructor.
  - exists z, w, k1. auto.
Qed.
Theorem C75_offset_unique s t l : forall k k', offset s t l k -> offset s t l k' -> k = k'.
Proof.
  revert t. induction l as [|i l IH]; intros t k k' A B.
  - apply offset_nil in A, B. congruence.
  - apply offset_cons in A as (z & w & k1 & E & W & -> & A). apply offset_cons in B as (z' & w' & k2 & E' & W' & -> & B).
    rewrite (words_det _ _ _ _ W W'). replace z' with z by congruence. f_equal. destruct t; [destruct A, B; congruence|eapply IH; eassumption|destruct A, B; congruence].
Qed.
(** Two full accesses within the bounds of the inner dimensions have the same linear
    index only if all their indices are equal: no two elements are merged. *)
Inductive inside (s : env) : ty -> list expr -> Prop :=
| I_last i z : eval s i = Some z -> inside s TScalar [i]
| I_more n t i l d z j : eval s n = Some d -> eval s i = Some z -> eval s (hd (EInt 0) l) = Some j -> 0 <= j < d -> inside s t l -> inside s (TArray n t) (i :: l).
Lemma inside_range s t l : inside s t l -> forall w k z, words s t w -> offset s t l k -> eval s (hd (EInt 0) l) = Some z -> 0 < w /\ z * w <= k < (z + 1) * w.
Proof.
  intros H. induction H as [i z Ei|n t i l d z j En Ei Ej Hj H IH]; intros w k z' W O Ez; cbn [hd] in Ez.
  - apply words_scalar in W. subst w. apply offset_cons in O as (z1 & w & k1 & E & W & -> & _ & ->). apply words_scalar in W. replace z' with z1 by congruence. lia.
  - apply offset_cons in O as (z1 & w2 & k1 & E & W2 & -> & O). rewrite (words_det _ _ _ _ W2 W). clear W2. replace z1 with z' by congruence.
    apply words_array in W as (d' & v & E' & W & ->). replace d' with d by congruence. destruct (IH v k1 j W O Ej) as (P & Q). split; nia.
Qed.
Theorem C75_injective s t l1 l2 k w : words s t w -> inside s t l1 -> inside s t l2 -> offset s t l1 k -> offset s t l2 k ->
  map (eval s) l1 = map (eval s) l2.
Proof.
  intros W H. revert w W l2 k. induction H as [i z Ei|n t i l d z j En Ei Ej Hj H IH]; intros w W l2 k H2 O1 O2.
  - apply words_scalar in W. subst w. inversion H2 as [i2 z2 Ei2|]; subst.
    apply offset_cons in O1 as (z1 & w1 & k1 & E1 & W1 & -> & _ & ->). apply offset_cons in O2 as (z3 & w3 & k3 & E3 & W3 & EQ & _ & ->).
    apply words_scalar in W1, W3. subst. cbn. rewrite E1, E3. f_equal. f_equal. lia.
  - inversion H2 as [|? ? i2 l2' d2 z2 j2 En2 Ei2 Ej2 Hj2 Hi2]; subst. replace d2 with d in * by congruence.
    apply offset_cons in O1 as (z1 & w1 & k1 & E1 & W1 & -> & O1). apply offset_cons in O2 as (z3 & w3 & k3 & E3 & W3 & EQ & O3).
    rewrite (words_det _ _ _ _ W1 W) in *. rewrite (words_det _ _ _ _ W3 W) in *. apply words_array in W as (d' & v & E' & W & ->). replace d' with d in * by congruence.
    destruct (inside_range _ _ _ H _ _ _ W O1 Ej) as (P1 & Q1). destruct (inside_range _ _ _ Hi2 _ _ _ W O3 Ej2) as (_ & Q2).
    assert (M : forall x, 0 <= x < d -> 0 <= x * v /\ (x + 1) * v <= d * v) by (intros x Hx; split; [apply Z.mul_nonneg_nonneg; lia|apply Z.mul_le_mono_nonneg_r; lia]).
    destruct (M j Hj) as (M1 & M2). destruct (M j2 Hj2) as (M3 & M4). clear M.
    assert (z1 = z3). { set (D := d * v) in *. assert (0 <= k1 < D) by lia. assert (0 <= k3 < D) by lia. nia. } subst z3. assert (k1 = k3) by lia. subst k3. cbn [map]. rewrite E1, E3, (IH v W l2' k1 Hi2 O1 O3). reflexivity.
Qed.
(** The hypotheses are met: a pointer A to double[N][3], A[i][2][j]; N = 5, i = 4, j = 1. *)
Definition c75_t : ty := TArray (ESym "N") (TArray (EInt 3) TScalar).
Definition c75_s : env := fun x => if String.eqb x "N" then 5 else if String.eqb x "i" then 4 else 1.
Theorem C75_hypotheses : exists l', linearize c75_t [ESym "i"; EInt 2; ESym "j"] = Some (TScalar, l') /\ offset c75_s c75_t [ESym "i"; EInt 2; ESym "j"] 67 /\
  inside c75_s c75_t [ESym "i"; EInt 2; ESym "j"] /\ offset c75_s c75_t [ESym "i"] 60 /\ words c75_s c75_t 15.
Proof.
  assert (W3 : words c75_s (TArray (EInt 3) TScalar) 3) by (apply (W_array c75_s (EInt 3) TScalar 3 1); [reflexivity|apply W_scalar]).
  assert (W : words c75_s c75_t 15) by (apply (W_array c75_s (ESym "N") _ 5 3); [reflexivity|exact W3]).
  eexists. split; [reflexivity|]. split; [|split; [|split; [|exact W]]].
  - apply (O_more c75_s _ _ _ _ 4 15 7); [reflexivity|exact W|]. apply (O_more c75_s _ _ _ _ 2 3 1); [reflexivity|exact W3|]. apply (O_one c75_s TScalar _ 1 1); [reflexivity|apply W_scalar].
  - eapply I_more; [reflexivity|reflexivity|reflexivity|cbn; lia|]. eapply I_more; [reflexivity|reflexivity|reflexivity|cbn; lia|]. eapply I_last; reflexivity.
  - apply (O_one c75_s c75_t _ 4 15); [reflexivity|exact W].
Qed.
