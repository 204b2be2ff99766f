(** Wrappers in terms of [eval], and counterexamples. *)
From Verif Require Import Sym SymFacts SymFuns SymProofs1 SymProofs2 SymProofs3.

Ltac tofin := repeat match goal with H : eval _ _ = Some _ |- _ => apply eval_ev in H
                                   | |- eval _ _ = Some _ => apply eval_ev end.

Lemma div_value s l r e a b :
  sym_div l r = Some e -> eval s l = Some a -> eval s r = Some b -> b <> 0 -> eval s e = Some (Z.quot a b).
Proof. intros; tofin; eapply sym_div_ev; eauto. Qed.
Lemma mod_value s l r e a b :
  sym_mod l r = Some e -> eval s l = Some a -> eval s r = Some b -> b <> 0 -> eval s e = Some (Z.rem a b).
Proof. intros; tofin; eapply sym_mod_ev; eauto. Qed.
Lemma div_mod_law s l r q m a b :
  sym_div l r = Some q -> sym_mod l r = Some m ->
  eval s l = Some a -> eval s r = Some b -> b <> 0 ->
  exists qv mv, eval s q = Some qv /\ eval s m = Some mv /\
    a = qv * b + mv /\ Z.abs mv < Z.abs b /\ 0 <= mv * a.
Proof.
  intros Hq Hm Ha Hb N. exists (Z.quot a b), (Z.rem a b).
  split; [eapply div_value; eauto|]. split; [eapply mod_value; eauto|].
  split; [rewrite Z.mul_comm; apply Z.quot_rem; auto|].
  split; [apply Z.rem_bound_abs; auto|]. rewrite Z.mul_comm. destruct (Z.eq_dec (Z.rem a b) 0) as [E|E].
  - rewrite E. lia.
  - pose proof (Z.rem_sign_nz a b N E) as S. destruct (Z.sgn_spec a) as [[]|[[]|[]]], (Z.sgn_spec (Z.rem a b)) as [[]|[[]|[]]]; nia.
Qed.
Lemma divide_ceil_value s a b e x y :
  divide_ceil a b = Some e -> eval s a = Some x -> eval s b = Some y -> 0 < y ->
  (atoms a = [] \/ 0 <= x) ->
  exists q, eval s e = Some q /\ (q - 1) * y < x <= q * y.
Proof. intros; tofin. destruct (divide_ceil_ev s a b e x y) as (q & Hq & C); auto. exists q; split; tofin; auto. Qed.
Lemma divide_ceil_neg_refuted :
  exists (s : env) (a b e : expr) (x y q : Z),
    divide_ceil a b = Some e /\ eval s a = Some x /\ eval s b = Some y /\ 0 < y /\
    eval s e = Some q /\ ~ ((q - 1) * y < x <= q * y).
Proof.
  exists (fun _ => -4), (ESym "n"), (EInt 2). eexists. exists (-4), 2, (-1).
  split; [reflexivity|]. repeat split; try reflexivity; lia.
Qed.
Lemma simplify_value s fuel e e' v :
  simplify fuel e = Some e' -> eval s e = Some v -> eval s e' = Some v.
Proof. intros H Hv; tofin. rewrite (simplify_ev s fuel e e' H); auto. rewrite Hv; split; congruence. Qed.

Definition no_inf_cond (c : cond) : bool :=
  match c with CLt a b | CLe a b => no_inf a && no_inf b | _ => true end.
Lemma simplify_cond_value s fuel c c' b :
  simplify_cond fuel c = Some c' -> no_inf_cond c = true -> cev s c = Some b -> cev s c' = Some b.
Proof.
  assert (L : forall e e', simplify fuel e = Some e' -> no_inf e = true -> ev s e <> Bad -> ev s e' = ev s e).
  { intros e e' H N B. eapply simplify_ev; eauto. destruct (no_inf_ev s e N); split; auto. }
  destruct c; cbn [simplify_cond]; intros H N B; try congruence.
  all: destruct (simplify fuel a) as [a'|] eqn:Ea; [|discriminate];
       destruct (simplify fuel b0) as [b'|] eqn:Eb; [|discriminate]; injection H as <-;
       cbn in N; apply andb_true_iff in N as [N1 N2].
  - apply cev_slt. cbn [cev] in *. rewrite (L _ _ Ea N1), (L _ _ Eb N2); auto; intros Q; rewrite Q in B; destruct (ev s a), (ev s b0); discriminate.
  - apply cev_sle. cbn [cev] in *. rewrite (L _ _ Ea N1), (L _ _ Eb N2); auto; intros Q; rewrite Q in B; destruct (ev s a), (ev s b0); discriminate.
Qed.

Lemma minimum_bound s A ps e m v b :
  sat_dep s A -> no_trunc_A A -> no_trunc e = true ->
  minimum ps A e = Some m -> eval s e = Some v -> eval s m = Some b -> b <= v.
Proof.
  Transparent minimum. unfold minimum. generalize max_depth. intros d HA HT He Hm Hv Hb; tofin. destruct (minmax_dep_sound s A ps d HA HT e He) as [L _].
  specialize (L _ Hm). rewrite Hv, Hb in L. simpl in L. apply L; congruence.
Qed.
Lemma maximum_bound s A ps e m v b :
  sat_dep s A -> no_trunc_A A -> no_trunc e = true ->
  maximum ps A e = Some m -> eval s e = Some v -> eval s m = Some b -> v <= b.
Proof.
  Transparent maximum. unfold maximum. generalize max_depth. intros d HA HT He Hm Hv Hb; tofin. destruct (minmax_dep_sound s A ps d HA HT e He) as [_ L].
  specialize (L _ Hm). rewrite Hv, Hb in L. simpl in L. apply L; congruence.
Qed.
Lemma minimum_new_bound s A ps (tight : bool) e m v b :
  (if tight then sat_tight s A else sat_set s A) -> no_trunc_A A -> no_trunc e = true ->
  minimum_new ps A tight e = Some m -> eval s e = Some v -> eval s m = Some b -> b <= v.
Proof.
  unfold minimum_new. generalize max_depth. intros d HA HT He Hm Hv Hb; tofin. destruct (minmax_new_sound s A ps tight d HA HT e He) as [L _].
  specialize (L _ Hm). rewrite Hv, Hb in L. simpl in L. apply L; congruence.
Qed.
Lemma maximum_new_bound s A ps (tight : bool) e m v b :
  (if tight then sat_tight s A else sat_set s A) -> no_trunc_A A -> no_trunc e = true ->
  maximum_new ps A tight e = Some m -> eval s e = Some v -> eval s m = Some b -> v <= b.
Proof.
  unfold maximum_new. generalize max_depth. intros d HA HT He Hm Hv Hb; tofin. destruct (minmax_new_sound s A ps tight d HA HT e He) as [_ L].
  specialize (L _ Hm). rewrite Hv, Hb in L. simpl in L. apply L; congruence.
Qed.

(** An assumption lo <= x <= hi. *)
Definition range (lo hi : Z) : assumption :=
  {| lb_dep := EInt lo; ub_dep := EInt hi; lbs := [EInt lo]; ubs := [EInt hi];
     tlb := Some (EInt lo); tub := Some (EInt hi); aconst := true; amap := None |}.
Definition vrange (lo hi : Z) : assumption :=
  {| lb_dep := EInt lo; ub_dep := EInt hi; lbs := [EInt lo]; ubs := [EInt hi];
     tlb := Some (EInt lo); tub := Some (EInt hi); aconst := false; amap := None |}.
Definition one_assum (x : string) (a : assumption) : assumptions :=
  fun y => if String.eqb y x then Some a else None.
Definition two_assum (x : string) (a : assumption) (y : string) (b : assumption) : assumptions :=
  fun z => if String.eqb z x then Some a else if String.eqb z y then Some b else None.

Lemma minimum_trunc_refuted :
  exists (s : env) (A : assumptions) (e m : expr) (v b : Z),
    sat_dep s A /\ minimum [] A e = Some m /\ eval s e = Some v /\ eval s m = Some b /\ v < b.
Proof.
  exists (fun _ => 2147483648), (one_assum "n" (range 0 4294967296)), (ETrunc (ESym "n")), (ETrunc (EInt 0)), (-2147483648), 0.
  split; [|repeat split; reflexivity].
  intros x a. unfold one_assum. destruct (String.eqb x "n"); [|discriminate]. intros [= <-]. cbn. lia.
Qed.

Lemma cnf_equiv s c N b :
  cnf c = Some N -> cev s c = Some b ->
  (b = true <-> forall cl, In cl N -> exists lit, In lit cl /\ cev s lit = Some true).
Proof.
  intros HN Hb. pose proof (cnf_fuel_sound s _ _ _ _ HN Hb) as V. unfold cnf_val in V.
  assert (D : forall cl, In cl N -> exists x, clause_val s cl = Some x).
  { intros cl H. apply in_split in H as (l1 & l2 & ->). rewrite map_app, oands_app in V. cbn [map oands] in V.
    destruct (clause_val s cl); eauto. destruct (oands (map (clause_val s) l1)); discriminate. }
  apply oands_some_iff in V as [V1 V2]. split.
  - intros -> cl Hcl. destruct (D cl Hcl) as [x Hx]. destruct x.
    + unfold clause_val in Hx. apply oors_some_iff in Hx as [I _]. destruct I as [I _]. specialize (I eq_refl).
      apply in_map_iff in I as (l & El & Il). eauto.
    + exfalso. assert (true = false); [|discriminate]. apply V1. apply in_map_iff. eauto.
  - intros H. destruct b; auto. destruct V1 as [V1 _]. specialize (V1 eq_refl).
    apply in_map_iff in V1 as (cl & Ecl & Icl). destruct (H cl Icl) as (lit & Il & Hl).
    unfold clause_val in Ecl. apply oors_some_iff in Ecl as [[_ I] _]. 
    assert (false = true); [|discriminate]. apply I. apply in_map_iff. eauto.
Qed.

Lemma affine_recompose_value x e c k s v :
  affine x e = Some (c, k) -> eval s e = Some v ->
  exists cv kv, eval s c = Some cv /\ eval s k = Some kv /\ v = cv * s x + kv
    /\ (forall w, eval (upd s x w) c = Some cv /\ eval (upd s x w) k = Some kv).
Proof.
  intros H Hv; tofin. destruct (affine_spec _ _ _ H) as (P1 & P2 & P3). cbn [fst snd] in *.
  destruct (P1 _ _ Hv) as (cv & kv & Hc & Hk & ->). exists cv, kv.
  repeat split; tofin; auto; rewrite ?P2, ?P3; auto.
Qed.
Lemma inverse_value x e f s v w :
  inverse x e = Some f -> eval s e = Some v -> eval (upd s x v) f = Some w -> w = s x.
Proof. intros; tofin; eapply inverse_spec; eauto. Qed.

Lemma sat_two s x lo1 hi1 y lo2 hi2 c1 c2 m1 m2 l1 u1 l2 u2 t1 t2 t3 t4 :
  lo1 <= s x <= hi1 -> lo2 <= s y <= hi2 ->
  sat_dep s (two_assum x {| lb_dep := EInt lo1; ub_dep := EInt hi1; lbs := l1; ubs := u1; tlb := t1; tub := t2; aconst := c1; amap := m1 |}
                       y {| lb_dep := EInt lo2; ub_dep := EInt hi2; lbs := l2; ubs := u2; tlb := t3; tub := t4; aconst := c2; amap := m2 |}).
Proof.
  intros H1 H2 z a. unfold two_assum. destruct (String.eqb_spec z x) as [->|].
  - intros [= <-]; cbn; lia.
  - destruct (String.eqb_spec z y) as [->|]; [|discriminate]. intros [= <-]; cbn; lia.
Qed.

Lemma contiguous_refuted :
  exists (e : expr) (x : string) (A : assumptions) (s : env) (v : Z),
    is_contiguous e x A = true /\ sat_dep s A /\ eval s e = Some v /\ v <> s x + 1.
Proof.
  exists (EAdd [ESym "i"; ESym "st"]), "i"%string, (two_assum "i" (vrange 0 100) "st" (range 1 4)),
    (fun y => if String.eqb y "st" then 3 else 0), 3.
  split; [reflexivity|]. split; [apply sat_two; cbn; lia|]. split; [reflexivity|]. cbn; lia.
Qed.
Lemma contiguous_literal e x A c k s v :
  is_contiguous e x A = true -> affine x e = Some (EInt c, EInt k) -> eval s e = Some v -> v = s x + 1.
Proof. intros; tofin; eapply is_contiguous_literal; eauto. Qed.
Lemma series_monotonic_refuted :
  exists (e : expr) (x : string) (A : assumptions) (s : env) (v : Z),
    series_is_monotonic e x A = true /\ sat_dep s A /\ eval s e = Some v /\ v <= s x.
Proof.
  exists (EAdd [EInt 1; EMul [EInt 2; ESym "i"]]), "i"%string, (two_assum "i" (vrange (-10) 100) "st" (range 1 4)),
    (fun y => if String.eqb y "i" then (-5) else 1), (-9).
  split; [reflexivity|]. split; [apply sat_two; cbn; lia|]. split; [reflexivity|]. cbn; lia.
Qed.
Lemma series_monotonic_nonneg e x A s v :
  series_monotonic_affine e x A = true -> sat_dep s A -> no_trunc_A A -> no_trunc e = true ->
  eval s e = Some v -> 0 <= s x -> s x < v.
Proof. intros; tofin; eapply series_monotonic_affine_sound; eauto. Qed.
Lemma series_monotonic_unit e x A s v k :
  series_monotonic_affine e x A = true -> affine x e = Some (EInt 1, k) ->
  sat_dep s A -> no_trunc_A A -> no_trunc e = true -> eval s e = Some v -> s x < v.
Proof. intros; tofin; eapply series_monotonic_affine_unit; eauto. Qed.
Lemma series_pow_refuted :
  exists (n : nat) (b x : string) (A : assumptions) (s : env) (v : Z),
    series_is_monotonic (EPow (ESym b) n) x A = true /\ sat_dep s A /\ 0 <= s x /\
    eval s (EPow (ESym b) n) = Some v /\ v <= s x.
Proof.
  exists 2%nat, "N"%string, "i"%string, (two_assum "i" (vrange 0 100) "N" (range 1 4)),
    (fun y => if String.eqb y "i" then 50 else 2), 4.
  split; [reflexivity|]. split; [apply sat_two; cbn; lia|]. split; [cbn; lia|]. split; [reflexivity|]. cbn; lia.
Qed.
Lemma map_eval_fin s l v : map (eval s) l = map Some v -> map (ev s) l = map Fin v.
Proof.
  revert v; induction l as [|e l IH]; intros [|z v] H; try discriminate; auto.
  cbn [map] in *. injection H as H1 H2. apply eval_ev in H1. f_equal; auto.
Qed.
Lemma disjoint_monotonic_value e1 e2 x A s1 s2 v1 v2 :
  is_disjoint_monotonic e1 e2 x A = Some true ->
  Forall (fun d => forall b n, d = EPow (ESym b) n -> b = x) e1 ->
  no_trunc_A A -> forallb no_trunc e1 = true ->
  sat_dep s1 A -> sat_dep s2 A -> agree_const A s1 s2 -> s1 x <> s2 x ->
  map (eval s1) e1 = map Some v1 -> map (eval s2) e2 = map Some v2 -> v1 <> v2.
Proof. intros H1 H2 H3 H4 H5 H6 H7 H8 H9 H10. exact (disjoint_monotonic_sound e1 e2 x A s1 s2 v1 v2 H1 H2 H3 H4 H5 H6 H7 H8 (map_eval_fin _ _ _ H9) (map_eval_fin _ _ _ H10)). Qed.
Lemma disjoint_refuted :
  exists (e : list expr) (x : string) (A : assumptions) (s1 s2 : env) (v : list Z),
    is_disjoint_monotonic e e x A = Some true /\ sat_dep s1 A /\ sat_dep s2 A /\
    agree_const A s1 s2 /\ s1 x <> s2 x /\
    map (eval s1) e = map Some v /\ map (eval s2) e = map Some v.
Proof.
  exists [EPow (ESym "N") 2], "i"%string, (two_assum "i" (vrange 0 100) "N" (range 1 4)),
    (fun y => if String.eqb y "i" then 50 else 2), (fun y => if String.eqb y "i" then 51 else 2), [4].
  split; [reflexivity|]. split; [apply sat_two; cbn; lia|]. split; [apply sat_two; cbn; lia|].
  split; [|cbn; repeat split; lia].
  intros y a. unfold two_assum. destruct (String.eqb_spec y "i") as [->|]; [intros [= <-]; discriminate|].
  destruct (String.eqb_spec y "N") as [->|]; [reflexivity|discriminate].
Qed.

Lemma lower_bound_value s A x a b :
  A x = Some a -> sat_set s A -> sat_tight s A -> eval s (lower_bound a) = Some b -> b <= s x.
Proof.
  intros Ha H1 H2 Hb; tofin. pose proof (lower_bound_sound s A x a Ha H1 H2) as L. rewrite Hb in L. apply L. congruence.
Qed.
Lemma upper_bound_value s A x a b :
  A x = Some a -> sat_set s A -> sat_tight s A -> eval s (upper_bound a) = Some b -> s x <= b.
Proof.
  intros Ha H1 H2 Hb; tofin. pose proof (upper_bound_sound s A x a Ha H1 H2) as L. rewrite Hb in L. apply L. congruence.
Qed.
Lemma no_trunc_two x lo1 hi1 y lo2 hi2 : no_trunc_A (two_assum x (range lo1 hi1) y (range lo2 hi2)).
Proof.
  intros z a. unfold two_assum. destruct (String.eqb z x); [|destruct (String.eqb z y); [|discriminate]];
  intros [= <-]; cbn; repeat split; auto; intros b [= <-]; auto.
Qed.
