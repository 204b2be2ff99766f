(** Affine decomposition, loop-update and subscript monotonicity. *)
From Verif Require Import Sym SymFacts SymFuns SymProofs1 SymProofs2.

Lemma xadd_fin a b v : xadd a b = Fin v -> exists x y, a = Fin x /\ b = Fin y /\ v = x + y.
Proof. destruct a, b; simpl; try discriminate. intros [= <-]; eauto. Qed.
Lemma xmul_fin a b v : xmul a b = Fin v -> exists x y, a = Fin x /\ b = Fin y /\ v = x * y.
Proof.
  destruct a as [x| | |], b as [y| | |]; simpl; try discriminate;
    try (unfold xsgn_inf; repeat match goal with |- context[if ?b then _ else _] => destruct b end; discriminate).
  intros [= <-]; eauto.
Qed.

(** A pair (c,k) represents e as c*x + k with c,k independent of x. *)
Definition represents (x : string) (e : expr) (p : expr * expr) : Prop :=
  (forall s v, ev s e = Fin v ->
     exists c k, ev s (fst p) = Fin c /\ ev s (snd p) = Fin k /\ v = c * s x + k) /\
  (forall s w, ev (upd s x w) (fst p) = ev s (fst p)) /\
  (forall s w, ev (upd s x w) (snd p) = ev s (snd p)).

Lemma aff_mul_spec x a b pa pb p :
  represents x a pa -> represents x b pb -> aff_mul pa pb = Some p ->
  (forall s v w, ev s a = Fin v -> ev s b = Fin w ->
     exists c k, ev s (fst p) = Fin c /\ ev s (snd p) = Fin k /\ v * w = c * s x + k) /\
  (forall s w, ev (upd s x w) (fst p) = ev s (fst p)) /\
  (forall s w, ev (upd s x w) (snd p) = ev s (snd p)).
Proof.
  destruct pa as [c1 k1], pb as [c2 k2]. intros (A1 & A2 & A3) (B1 & B2 & B3) H. simpl in *.
  destruct (expr_eqb c1 (EInt 0)) eqn:E1.
  - apply expr_eqb_eq in E1; subst. injection H as <-. simpl. split; [|split].
    + intros s v w Hv Hw. destruct (A1 _ _ Hv) as (c & k & Hc & Hk & ->).
      destruct (B1 _ _ Hw) as (c' & k' & Hc' & Hk' & ->). simpl in Hc. injection Hc as <-.
      exists (k * c'), (k * k'). rewrite !ev_smul, Hk, Hc', Hk'. simpl. repeat split; auto. ring.
    + intros s w. rewrite !ev_smul, A3, B2; auto.
    + intros s w. rewrite !ev_smul, A3, B3; auto.
  - destruct (expr_eqb c2 (EInt 0)) eqn:E2; [|discriminate].
    apply expr_eqb_eq in E2; subst. injection H as <-. simpl. split; [|split].
    + intros s v w Hv Hw. destruct (A1 _ _ Hv) as (c & k & Hc & Hk & ->).
      destruct (B1 _ _ Hw) as (c' & k' & Hc' & Hk' & ->). simpl in Hc'. injection Hc' as <-.
      exists (c * k'), (k * k'). rewrite !ev_smul, Hk, Hc, Hk'. simpl. repeat split; auto. ring.
    + intros s w. rewrite !ev_smul, A2, B3; auto.
    + intros s w. rewrite !ev_smul, A3, B3; auto.
Qed.

Lemma affine_spec x e p : affine x e = Some p -> represents x e p.
Proof.
  assert (Const : forall e, uses e x = false -> represents x e (EInt 0, e)).
  { intros e0 H. split; [|split]; simpl; auto.
    - intros s v Hv. exists 0, v. repeat split; auto.
    - intros; apply uses_false_agree; auto. }
  revert p; induction e using expr_ind'; intros p Hp; cbn [affine] in Hp;
    try (destruct (uses _ x) eqn:U in Hp; [discriminate|]; injection Hp as <-; apply Const; auto; fail).
  - destruct (String.eqb_spec x x0) as [->|Hn]; injection Hp as <-.
    + split; [|split]; simpl; auto. intros s v [= <-]. exists 1, 0. repeat split; auto. lia.
    + apply Const. simpl. destruct (String.eqb_spec x x0); congruence.
  - (* Add *)
    revert p Hp; induction H as [|a l Ha Hl IH]; intros p Hp; cbn [fold_right] in Hp.
    + injection Hp as <-. split; [|split]; simpl; auto. intros s v [= <-]. exists 0, 0; auto.
    + destruct (affine x a) as [pa|] eqn:Ea; [|discriminate].
      destruct (fold_right _ _ l) as [pl|] eqn:El; [|discriminate]. injection Hp as <-.
      destruct (Ha _ eq_refl) as (A1 & A2 & A3). destruct (IH _ eq_refl) as (B1 & B2 & B3).
      unfold aff_add; split; [|split]; cbn [fst snd].
      * intros s v Hv. change (ev s (EAdd (a :: l))) with (xadd (ev s a) (ev s (EAdd l))) in Hv.
        apply xadd_fin in Hv as (u & w & Hu & Hw & ->).
        destruct (A1 _ _ Hu) as (c & k & Hc & Hk & ->). destruct (B1 _ _ Hw) as (c' & k' & Hc' & Hk' & ->).
        exists (c + c'), (k + k'). rewrite !ev_sadd, Hc, Hc', Hk, Hk'. repeat split; auto. ring.
      * intros s w. rewrite !ev_sadd, A2, B2; auto.
      * intros s w. rewrite !ev_sadd, A3, B3; auto.
  - (* Mul *)
    revert p Hp; induction H as [|a l Ha Hl IH]; intros p Hp; cbn [fold_right] in Hp.
    + injection Hp as <-. split; [|split]; simpl; auto. intros s v [= <-]. exists 0, 1; auto.
    + destruct (affine x a) as [pa|] eqn:Ea; [|discriminate].
      destruct (fold_right _ _ l) as [pl|] eqn:El; [|discriminate].
      destruct (aff_mul_spec x a (EMul l) pa pl p (Ha _ eq_refl) (IH _ eq_refl) Hp) as (M1 & M2 & M3).
      split; [|split]; auto. intros s v Hv.
      change (ev s (EMul (a :: l))) with (xmul (ev s a) (ev s (EMul l))) in Hv.
      apply xmul_fin in Hv as (u & w & Hu & Hw & ->). eauto.
Qed.

(** Recomposition in every valuation where e is defined. *)
Lemma affine_recompose x e c k s v :
  affine x e = Some (c, k) -> ev s e = Fin v ->
  exists cv kv, ev s c = Fin cv /\ ev s k = Fin kv /\ v = cv * s x + kv.
Proof. intros H Hv. destruct (affine_spec _ _ _ H) as (P & _). apply (P s v Hv). Qed.

Lemma inverse_spec x e f s v w :
  inverse x e = Some f -> ev s e = Fin v -> ev (upd s x v) f = Fin w -> w = s x.
Proof.
  unfold inverse. destruct (affine x e) as [[c k]|] eqn:Ea; [|discriminate].
  destruct (affine_spec _ _ _ Ea) as (P1 & P2 & P3). cbn [fst snd] in *.
  unfold affine_inverse; cbn [fst snd]. destruct (expr_eqb c (EInt 0)) eqn:E0; [discriminate|].
  intros Hf Hv Hw. destruct (P1 _ _ Hv) as (cv & kv & Hc & Hk & ->).
  set (s' := upd s x (cv * s x + kv)) in *.
  assert (Hc' : ev s' c = Fin cv) by (unfold s'; rewrite P2; auto).
  assert (Hl : ev s' (ssub (ESym x) k) = Fin (cv * s x)).
  { rewrite ev_ssub. unfold s'. rewrite P3, Hk. cbn [ev]. rewrite upd_same. cbn [xadd xmul]. f_equal. lia. }
  destruct (Z.eq_dec cv 0) as [Hz|Hz].
  - (* division by zero: undefined, contradiction *)
    exfalso. unfold sym_div in Hf.
    assert (B : ev s' (EIdiv (ssub (ESym x) k) c) = Bad).
    { cbn [ev]. rewrite Hl, Hc'. simpl. unfold cdiv. rewrite Hz. auto. }
    rewrite E0 in Hf.
    destruct (expr_eqb c (EInt 1)) eqn:E1.
    { apply expr_eqb_eq in E1; subst c. simpl in Hc'. congruence. }
    destruct (expr_eqb (ssub (ESym x) k) (EInt 0)) eqn:El.
    { apply expr_eqb_eq in El. pose proof (ev_ssub (upd s x (kv + 1)) (ESym x) k) as Q.
      rewrite El, P3, Hk in Q. cbn [ev] in Q. rewrite upd_same in Q. cbn [xadd xmul] in Q. injection Q as Q. clear - Q. destruct kv; lia. }
    destruct (ssub (ESym x) k) eqn:Es; try (injection Hf as <-; congruence).
    destruct c; try (injection Hf as <-; congruence).
    cbn [ev] in Hc'. injection Hc' as ->. subst. simpl in E0. discriminate.
  - rewrite (sym_div_ev s' _ _ f _ _ Hf Hl Hc' Hz) in Hw. injection Hw as <-.
    rewrite Z.mul_comm, Z.quot_mul; auto.
Qed.

(* ---------------------------------------------------------------- *)
Lemma minimum_sound s A e m v :
  sat_dep s A -> no_trunc_A A -> no_trunc e = true -> minimum [] A e = Some (EInt m) ->
  ev s e = Fin v -> m <= v.
Proof.
  unfold minimum. generalize max_depth. intros d HA HT He Hm Hv. destruct (minmax_dep_sound s A [] d HA HT e He) as [L _].
  specialize (L _ Hm). rewrite Hv in L. simpl in L. apply L; congruence.
Qed.

Lemma minimum_int ps A n : minimum ps A (EInt n) = Some (EInt n).
Proof. unfold minimum. assert (max_depth <> O) as N by discriminate. revert N. generalize max_depth. intros [|d] N; [congruence|reflexivity]. Qed.
Strategy opaque [max_depth].
Opaque minimum maximum.

(** trunc-freeness is inherited by the coefficients *)
Lemma no_trunc_split l : forallb no_trunc l = true -> forallb no_trunc (snd (split_ints l)) = true.
Proof.
  induction l as [|e l IH]; cbn [split_ints]; auto. cbn [forallb]. intros H.
  apply andb_true_iff in H as [H1 H2]. specialize (IH H2). destruct (split_ints l) as [zs r]. cbn [snd] in *.
  destruct e; cbn [snd forallb]; auto; rewrite IH, andb_true_r; auto.
Qed.
Lemma no_trunc_add_args l : forallb no_trunc l = true -> forallb no_trunc (concat (map add_args l)) = true.
Proof.
  induction l as [|e l IH]; simpl; auto. intros H. apply andb_true_iff in H as [H1 H2].
  rewrite forallb_app, IH, andb_true_r; auto. destruct e; simpl in *; rewrite ?H1; auto.
Qed.
Lemma no_trunc_mul_args l : forallb no_trunc l = true -> forallb no_trunc (concat (map mul_args l)) = true.
Proof.
  induction l as [|e l IH]; simpl; auto. intros H. apply andb_true_iff in H as [H1 H2].
  rewrite forallb_app, IH, andb_true_r; auto. destruct e; simpl in *; rewrite ?H1; auto.
Qed.
Lemma no_trunc_sadd a b : no_trunc a = true -> no_trunc b = true -> no_trunc (sadd a b) = true.
Proof.
  intros Ha Hb. unfold sadd, sadd_list.
  pose proof (no_trunc_split _ (no_trunc_add_args [a; b] ltac:(simpl; rewrite Ha, Hb; auto))) as H.
  destruct (split_ints (concat (map add_args [a; b]))) as [zs r]. cbn [snd] in H.
  destruct r as [|e [|e' r]]; auto.
  - simpl in H. rewrite andb_true_r in H. destruct (_ =? 0); simpl; rewrite ?H; auto.
  - destruct (_ =? 0); cbn [no_trunc forallb] in *; auto.
Qed.
Lemma no_trunc_smul a b : no_trunc a = true -> no_trunc b = true -> no_trunc (smul a b) = true.
Proof.
  intros Ha Hb. unfold smul, smul_list.
  pose proof (no_trunc_split _ (no_trunc_mul_args [a; b] ltac:(simpl; rewrite Ha, Hb; auto))) as H.
  destruct (split_ints (concat (map mul_args [a; b]))) as [zs r]. cbn [snd] in H.
  destruct r as [|e [|e' r]]; auto.
  - simpl in H. rewrite andb_true_r in H. destruct (_ =? 1); auto.
    destruct (_ && _); simpl; rewrite ?H; auto.
  - destruct (_ =? 1); auto. destruct (_ && _); cbn [no_trunc forallb] in *; auto.
Qed.

Lemma no_trunc_affine x e p : affine x e = Some p -> no_trunc e = true ->
  no_trunc (fst p) = true /\ no_trunc (snd p) = true.
Proof.
  revert p; induction e using expr_ind'; intros p Hp Hn; cbn [affine] in Hp;
    try (destruct (uses _ x) in Hp; [discriminate|]; injection Hp as <-; auto; fail).
  - destruct (String.eqb x x0); injection Hp as <-; auto.
  - cbn [no_trunc] in Hn. revert p Hp; induction H as [|a l Ha Hl IH]; intros p Hp; cbn [fold_right] in Hp.
    + injection Hp as <-; auto.
    + cbn [forallb] in Hn. apply andb_true_iff in Hn as [N1 N2].
      destruct (affine x a) as [pa|] eqn:Ea; [|discriminate].
      destruct (fold_right _ _ l) as [pl|] eqn:El; [|discriminate]. injection Hp as <-.
      destruct (Ha _ eq_refl N1), (IH N2 _ eq_refl). split; apply no_trunc_sadd; auto.
  - cbn [no_trunc] in Hn. revert p Hp; induction H as [|a l Ha Hl IH]; intros p Hp; cbn [fold_right] in Hp.
    + injection Hp as <-; auto.
    + cbn [forallb] in Hn. apply andb_true_iff in Hn as [N1 N2].
      destruct (affine x a) as [pa|] eqn:Ea; [|discriminate].
      destruct (fold_right _ _ l) as [pl|] eqn:El; [|discriminate].
      destruct (Ha _ eq_refl N1), (IH N2 _ eq_refl). destruct pa as [c1 k1], pl as [c2 k2]. simpl in *.
      destruct (expr_eqb c1 (EInt 0)).
      * injection Hp as <-. split; apply no_trunc_smul; auto.
      * destruct (expr_eqb c2 (EInt 0)); [|discriminate]. injection Hp as <-. split; apply no_trunc_smul; auto.
Qed.

Lemma affine_int_coeffs_sound e x A s m o v :
  affine_int_coeffs e x A = Some (m, o) -> sat_dep s A -> no_trunc_A A -> no_trunc e = true ->
  ev s e = Fin v -> exists c k, m <= c /\ o <= k /\ v = c * s x + k.
Proof.
  unfold affine_int_coeffs. destruct (affine x e) as [[c k]|] eqn:Ea; [|discriminate].
  intros H HA HT Hn Hv.
  destruct (minimum [] A c) as [[]|] eqn:Mc; try discriminate.
  destruct (minimum [] A k) as [[]|] eqn:Mk; try discriminate. injection H as -> ->.
  destruct (affine_recompose _ _ _ _ _ _ Ea Hv) as (cv & kv & Hc & Hk & ->).
  destruct (no_trunc_affine _ _ _ Ea Hn) as [N1 N2]. cbn [fst snd] in *.
  exists cv, kv. split; [|split]; auto.
  - exact (minimum_sound s A c _ cv HA HT N1 Mc Hc).
  - exact (minimum_sound s A k _ kv HA HT N2 Mk Hk).
Qed.

Lemma series_monotonic_affine_sound e x A s v :
  series_monotonic_affine e x A = true -> sat_dep s A -> no_trunc_A A -> no_trunc e = true ->
  ev s e = Fin v -> 0 <= s x -> s x < v.
Proof.
  unfold series_monotonic_affine. destruct (affine_int_coeffs e x A) as [[m o]|] eqn:E; [|discriminate].
  intros H HA HT Hn Hv Hx. destruct (as_int m) eqn:Em; [|discriminate]. destruct (as_int o) eqn:Eo; [|discriminate].
  apply as_int_id in Em, Eo; subst. apply andb_true_iff in H as [H1 H2].
  apply Z.ltb_lt in H1, H2.
  destruct (affine_int_coeffs_sound _ _ _ _ _ _ _ E HA HT Hn Hv) as (c & k & ? & ? & ->). nia.
Qed.

(** With coefficient literally 1 (no multiplication of the index) the update
    strictly increases for every value of the index. *)
Lemma series_monotonic_affine_unit e x A s v k :
  series_monotonic_affine e x A = true -> affine x e = Some (EInt 1, k) ->
  sat_dep s A -> no_trunc_A A -> no_trunc e = true -> ev s e = Fin v -> s x < v.
Proof.
  unfold series_monotonic_affine, affine_int_coeffs. intros H Ha HA HT Hn Hv. rewrite Ha in H.
  rewrite minimum_int in H.
  destruct (minimum [] A k) as [[]|] eqn:Mk; try discriminate.
  destruct (as_int 1) eqn:E1; [|discriminate]. destruct (as_int z) eqn:E2; [|discriminate].
  apply as_int_id in E1, E2; subst. apply andb_true_iff in H as [_ H]. apply Z.ltb_lt in H.
  destruct (affine_recompose _ _ _ _ _ _ Ha Hv) as (cv & kv & Hc & Hk & ->). simpl in Hc. injection Hc as <-.
  destruct (no_trunc_affine _ _ _ Ha Hn) as [_ N2]. cbn [snd] in N2.
  pose proof (minimum_sound _ _ _ _ _ HA HT N2 Mk Hk). lia.
Qed.

Lemma is_contiguous_literal e x A c k s v :
  is_contiguous e x A = true -> affine x e = Some (EInt c, EInt k) ->
  ev s e = Fin v -> v = s x + 1.
Proof.
  unfold is_contiguous, affine_int_coeffs. intros H Ha Hv. rewrite Ha, !minimum_int in H.
  destruct (as_int c) eqn:E1; [|discriminate]. destruct (as_int k) eqn:E2; [|discriminate].
  apply as_int_id in E1, E2; subst. apply andb_true_iff in H as [H1 H2]. apply Z.eqb_eq in H1, H2; subst.
  destruct (affine_recompose _ _ _ _ _ _ Ha Hv) as (cv & kv & Hc & Hk & ->).
  simpl in *. injection Hc as <-. injection Hk as <-. lia.
Qed.

(* ---------------------------------------------------------------- *)
Lemma maps_monotonic_affine_inj e x A s1 s2 v1 v2 :
  maps_monotonic_affine e x A = true -> no_trunc_A A -> no_trunc e = true ->
  sat_dep s1 A ->
  (forall y, In y (atoms e) -> y <> x -> s1 y = s2 y) -> s1 x <> s2 x ->
  ev s1 e = Fin v1 -> ev s2 e = Fin v2 -> v1 <> v2.
Proof.
  unfold maps_monotonic_affine. destruct (affine x e) as [[c k]|] eqn:Ea; [|discriminate].
  intros H HT Hn HA Hag Hx Hv1 Hv2.
  destruct (minimum [] A c) as [[m| | | | | | | | | | | | | |]|] eqn:Mc; try discriminate.
  destruct (as_int m) eqn:Em; [|discriminate]. apply as_int_id in Em; subst. apply Z.ltb_lt in H.
  destruct (affine_spec _ _ _ Ea) as (P1 & P2 & P3). cbn [fst snd] in *.
  destruct (no_trunc_affine _ _ _ Ea Hn) as [N1 N2]. cbn [fst snd] in *.
  (* evaluate e in s1 with x set as in s2: equals its value in s2 *)
  assert (E2 : ev (upd s1 x (s2 x)) e = Fin v2).
  { rewrite <- Hv2. apply ev_agree. intros y Hy. destruct (String.eqb_spec x y) as [<-|Hne].
    - apply upd_same.
    - rewrite upd_other; auto. }
  destruct (P1 _ _ Hv1) as (c1 & k1 & Hc1 & Hk1 & ->).
  destruct (P1 _ _ E2) as (c2 & k2 & Hc2 & Hk2 & ->).
  rewrite P2, Hc1 in Hc2. rewrite P3, Hk1 in Hk2. injection Hc2 as <-. injection Hk2 as <-.
  rewrite upd_same. pose proof (minimum_sound _ _ _ _ _ HA HT N1 Mc Hc1). nia.
Qed.

Lemma pow_inj_nonneg a b n : 0 <= a -> 0 <= b -> (0 < n)%nat ->
  a ^ Z.of_nat n = b ^ Z.of_nat n -> a = b.
Proof.
  intros Ha Hb Hn E. destruct (Z.lt_trichotomy a b) as [L|[L|L]]; auto; exfalso.
  - pose proof (Z.pow_lt_mono_l a b (Z.of_nat n)). lia.
  - pose proof (Z.pow_lt_mono_l b a (Z.of_nat n)). lia.
Qed.

Lemma monotonic_pow_inj n x A s1 s2 v1 v2 :
  monotonic_pow (EPow (ESym x) n) A = true -> no_trunc_A A -> sat_dep s1 A -> sat_dep s2 A ->
  s1 x <> s2 x -> ev s1 (EPow (ESym x) n) = Fin v1 -> ev s2 (EPow (ESym x) n) = Fin v2 -> v1 <> v2.
Proof.
  intros H HT H1 H2 Hx Hv1 Hv2. cbn [monotonic_pow] in H. destruct (Nat.leb_spec n 0); [discriminate|].
  destruct (minimum [] A (ESym x)) as [m|] eqn:M; [|discriminate].
  assert (B : forall s, sat_dep s A -> 0 <= s x).
  { intros s Hs. Transparent minimum. unfold minimum in M. clear - M Hs HT H. revert M. generalize max_depth. intros dp M. destruct (minmax_dep_sound s A [] dp Hs HT (ESym x) eq_refl) as [L _].
    specialize (L _ M). cbn [ev] in L.
    assert (exists z, m = EInt z /\ 0 <= z) as (z & -> & Hz).
    { destruct m; cbn in H; try discriminate; [|exfalso; cbn in L; apply L; congruence]. destruct (0 <=? z) eqn:Q; [|discriminate]. apply Z.leb_le in Q; eauto. }
    cbn in L. assert (z <= s x) by (apply L; congruence). lia. }
  cbn in Hv1, Hv2. injection Hv1 as <-. injection Hv2 as <-. intros E. apply Hx.
  eapply pow_inj_nonneg; eauto.
Qed.

(** Every constant-marked symbol keeps its value between the two iterations. *)
Definition agree_const (A : assumptions) (s1 s2 : env) : Prop :=
  forall y a, A y = Some a -> aconst a = true -> s1 y = s2 y.

Lemma can_analyze_spec e x A s1 s2 :
  can_analyze e x A = Some true -> agree_const A s1 s2 ->
  forall y, In y (atoms e) -> y <> x -> s1 y = s2 y.
Proof.
  unfold can_analyze. intros H Hag. revert H.
  assert (K : forall l acc, fold_left (fun acc y => match acc with
                          | Some true => match A y with
                                         | Some a => Some (aconst a || String.eqb y x)
                                         | None => None end
                          | _ => acc end) l acc = Some true ->
              acc = Some true /\ forall y, In y l -> y <> x -> s1 y = s2 y).
  { induction l as [|y l IH]; intros acc H; cbn [fold_left] in H; [split; auto; intros ? []|].
    apply IH in H as [H1 H2]. destruct acc as [[]|]; try discriminate.
    destruct (A y) as [a|] eqn:Ey; [|discriminate]. injection H1 as H1. split; auto.
    intros z [<-|Hz] Hn; auto. apply orb_true_iff in H1 as [H1|H1]; [eapply Hag; eauto|].
    apply String.eqb_eq in H1. congruence. }
  intros H. apply (K _ _ H).
Qed.

Lemma disjoint_monotonic_sound e1 e2 x A s1 s2 v1 v2 :
  is_disjoint_monotonic e1 e2 x A = Some true ->
  Forall (fun d => forall b n, d = EPow (ESym b) n -> b = x) e1 ->
  no_trunc_A A -> forallb no_trunc e1 = true ->
  sat_dep s1 A -> sat_dep s2 A -> agree_const A s1 s2 -> s1 x <> s2 x ->
  map (ev s1) e1 = map Fin v1 -> map (ev s2) e2 = map Fin v2 -> v1 <> v2.
Proof.
  intros H HP HT Hn HA1 HA2 Hag Hx. revert e2 v1 v2 H HP Hn.
  induction e1 as [|d1 e1 IH]; intros [|d2 e2] v1 v2 H HP Hn Hv1 Hv2 E; cbn [is_disjoint_monotonic] in H; try discriminate.
  destruct v1 as [|w1 v1]; [discriminate|]. destruct v2 as [|w2 v2]; [discriminate|].
  cbn [map] in Hv1, Hv2. injection Hv1 as Hd1 Hv1. injection Hv2 as Hd2 Hv2. injection E as Ew Ev.
  cbn [forallb] in Hn. apply andb_true_iff in Hn as [N1 N2]. apply Forall_cons_iff in HP as [P1 P2].
  assert (Rec : is_disjoint_monotonic e1 e2 x A = Some true -> False) by (intros R; eapply IH; eauto).
  destruct (expr_eqb d1 d2) eqn:Ed; [|auto]. apply expr_eqb_eq in Ed; subst d2.
  destruct (can_analyze d1 x A) as [[]|] eqn:Ec; [|auto|discriminate].
  unfold maps_is_monotonic in H. destruct (maps_monotonic_affine d1 x A) eqn:Ma.
  - apply (maps_monotonic_affine_inj d1 x A s1 s2 w1 w2); auto.
    intros y Hy Hne. eapply can_analyze_spec; eauto.
  - cbn [orb] in H. destruct (monotonic_pow d1 A) eqn:Mp; [|auto].
    destruct d1; try discriminate. destruct d1; try discriminate.
    specialize (P1 _ _ eq_refl); subst. eapply (monotonic_pow_inj n x A s1 s2); eauto.
Qed.

(* ---------------------------------------------------------------- *)
(** Assumption::lower_bound / upper_bound combine the individual bounds. *)
Lemma lower_bound_sound s A x a :
  A x = Some a -> sat_set s A -> sat_tight s A -> ev s (lower_bound a) <> Bad ->
  xle (ev s (lower_bound a)) (Fin (s x)).
Proof.
  intros Ha HS HT. destruct (HS _ _ Ha) as [S1 _]. destruct (HT _ _ Ha) as [T1 _].
  assert (L : forall l, (forall b, In b l -> xle (ev s b) (Fin (s x))) ->
     ev s (match l with [] => ENegInf | q :: l0 => smax_list (q :: l0) end) <> Bad ->
     xle (ev s (match l with [] => ENegInf | q :: l0 => smax_list (q :: l0) end)) (Fin (s x))).
  { intros l Hl N. destruct l as [|b l]; [simpl; auto|]. rewrite ev_smax_list in *.
    destruct (xmaxl_nb _ N) as (_ & _ & I & _). apply in_map_iff in I as (c & Ec & Ic). rewrite <- Ec. auto. }
  unfold lower_bound. destruct (tlb a) as [t|]; [|apply L; auto].
  destruct (expr_eqb _ ENegInf); [intros; apply T1; auto|].
  rewrite ev_smax. intros N. destruct (xmax_nb _ _ N) as [N1 N2].
  specialize (L _ S1 N2). specialize (T1 _ eq_refl).
  destruct (ev s t), (ev s (match lbs a with [] => ENegInf | q :: l0 => smax_list (q :: l0) end)); simpl in *; try tauto; lia.
Qed.
Lemma upper_bound_sound s A x a :
  A x = Some a -> sat_set s A -> sat_tight s A -> ev s (upper_bound a) <> Bad ->
  xle (Fin (s x)) (ev s (upper_bound a)).
Proof.
  intros Ha HS HT. destruct (HS _ _ Ha) as [_ S1]. destruct (HT _ _ Ha) as [_ T1].
  assert (L : forall l, (forall b, In b l -> xle (Fin (s x)) (ev s b)) ->
     ev s (match l with [] => EInf | q :: l0 => smin_list (q :: l0) end) <> Bad ->
     xle (Fin (s x)) (ev s (match l with [] => EInf | q :: l0 => smin_list (q :: l0) end))).
  { intros l Hl N. destruct l as [|b l]; [simpl; auto|]. rewrite ev_smin_list in *.
    destruct (xminl_nb _ N) as (_ & _ & I & _). apply in_map_iff in I as (c & Ec & Ic). rewrite <- Ec. auto. }
  unfold upper_bound. destruct (tub a) as [t|]; [|apply L; auto].
  destruct (expr_eqb _ EInf); [intros; apply T1; auto|].
  rewrite ev_smin. intros N. destruct (xmin_nb _ _ N) as [N1 N2].
  specialize (L _ S1 N2). specialize (T1 _ eq_refl).
  destruct (ev s t), (ev s (match ubs a with [] => EInf | q :: l0 => smin_list (q :: l0) end)); simpl in *; try tauto; lia.
Qed.
(** and exactly the strongest: every individual bound is implied by the combined one *)
Lemma lower_bound_tightest s a v :
  ev s (lower_bound a) <> Bad -> xle (ev s (lower_bound a)) (Fin v) ->
  (forall b, In b (lbs a) -> tlb a = None -> xle (ev s b) (Fin v)) /\ (forall b, tlb a = Some b -> xle (ev s b) (Fin v)).
Proof.
  intros N H. split.
  - intros b Hb Ht. unfold lower_bound in *. rewrite Ht in *. destruct (lbs a) as [|c l]; [destruct Hb|].
    rewrite ev_smax_list in *. destruct (xmaxl_nb _ N) as (_ & _ & _ & F). rewrite Forall_forall in F.
    eapply xle_trans; [apply F, in_map; eauto|auto].
  - intros b Ht. unfold lower_bound in *. rewrite Ht in *. destruct (expr_eqb _ ENegInf); auto.
    rewrite ev_smax in *. destruct (xmax_nb _ _ N).
    destruct (ev s b), (ev s (match lbs a with [] => ENegInf | q :: l0 => smax_list (q :: l0) end)); simpl in *; try tauto; try congruence; lia.
Qed.
