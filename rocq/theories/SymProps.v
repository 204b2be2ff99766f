(** Properties of the symbolic layer (C01-C09, C11 part).  Only statements,
    one-line proofs from the Proofs files, and witnesses.

    Reading guide (specification side):
    - [eval s e = Some v]: under valuation [s] the C code printed for [e] runs
      without undefined behaviour and yields the integer [v];
    - [Z.quot]/[Z.rem]: C99 [/] and [%] (Coq standard library);
    - [cev s c = Some b]: the condition evaluates to [b]. *)
From Verif Require Import Sym SymFacts SymFuns SymProofs1 SymProofs2 SymProofs3 SymProofs4.

Definition env0 : env := fun _ => 0.
Definition set1 (x : string) (v : Z) : env := upd env0 x v.

(* ======================= C01 ======================= *)
Theorem C01_div_value : forall (s : env) (l r e : expr) (a b : Z),
  sym_div l r = Some e -> eval s l = Some a -> eval s r = Some b -> b <> 0 ->
  eval s e = Some (Z.quot a b).
Proof. exact div_value. Qed.

Theorem C01_mod_value : forall (s : env) (l r e : expr) (a b : Z),
  sym_mod l r = Some e -> eval s l = Some a -> eval s r = Some b -> b <> 0 ->
  eval s e = Some (Z.rem a b).
Proof. exact mod_value. Qed.

(** dividend = div * divisor + mod, the remainder smaller than the divisor and
    of the dividend's sign. *)
Theorem C01_div_mod_law : forall (s : env) (l r q m : expr) (a b : Z),
  sym_div l r = Some q -> sym_mod l r = Some m ->
  eval s l = Some a -> eval s r = Some b -> b <> 0 ->
  exists qv mv, eval s q = Some qv /\ eval s m = Some mv /\
    a = qv * b + mv /\ Z.abs mv < Z.abs b /\ 0 <= mv * a.
Proof. exact div_mod_law. Qed.

(** The call does not throw for literals that fit 64 bits (except LONG_MIN/-1). *)
Theorem C01_div_total : forall l r : expr,
  int_ok l = true -> int_ok r = true -> ~ (l = EInt int64_min /\ r = EInt (-1)) ->
  exists e, sym_div l r = Some e.
Proof. exact sym_div_total. Qed.

Example C01_nonvacuous :
  sym_div (EAdd [EInt 1; ESym "n"]) (EInt (-2)) = Some (EIdiv (EAdd [EInt 1; ESym "n"]) (EInt (-2)))
  /\ eval (set1 "n" 6) (EIdiv (EAdd [EInt 1; ESym "n"]) (EInt (-2))) = Some (-3)
  /\ (exists e, sym_mod (ESym "n") (EInt 4) = Some e /\ eval (set1 "n" (-7)) e = Some (-3)).
Proof. split; [reflexivity|]. split; [reflexivity|]. eexists; split; reflexivity. Qed.

(* ======================= C02 ======================= *)
(** [q] is the ceiling of a/b for b > 0: (q-1)*b < a <= q*b ([is_ceiling]).
    Missing from the full claim: a dividend that contains a symbol and is
    negative at run time (see the refutation). *)
Theorem C02_divide_ceil_partial : forall (s : env) (a b e : expr) (x y : Z),
  divide_ceil a b = Some e -> eval s a = Some x -> eval s b = Some y -> 0 < y ->
  (atoms a = [] \/ 0 <= x) ->
  exists q, eval s e = Some q /\ (q - 1) * y < x <= q * y.
Proof. exact divide_ceil_value. Qed.

(** The full claim is false of the code: with a symbolic dividend equal to -4
    and divisor 2 the result is -1, not -2. *)
Theorem C02_divide_ceil_refuted :
  exists (s : env) (a b e : expr) (x y q : Z),
    divide_ceil a b = Some e /\ eval s a = Some x /\ eval s b = Some y /\ 0 < y /\
    eval s e = Some q /\ ~ ((q - 1) * y < x <= q * y).
Proof. exact divide_ceil_neg_refuted. Qed.

Example C02_nonvacuous :
  exists e, divide_ceil (ESym "n") (EInt 4) = Some e /\ eval (set1 "n" 9) e = Some 3.
Proof. eexists; split; reflexivity. Qed.

(* ======================= C03 ======================= *)
Theorem C03_simplify_value : forall (s : env) (fuel : nat) (e e' : expr) (v : Z),
  simplify fuel e = Some e' -> eval s e = Some v -> eval s e' = Some v.
Proof. exact simplify_value. Qed.

Theorem C03_simplify_cond_value : forall (s : env) (fuel : nat) (c c' : cond) (b : bool),
  simplify_cond fuel c = Some c' -> no_inf_cond c = true -> cev s c = Some b -> cev s c' = Some b.
Proof. exact simplify_cond_value. Qed.

Example C03_nonvacuous :
  simplify 10 (EAdd [EInt 1; EMax [EInt 0; ESym "n"]])
    = Some (EMax [EInt 1; EAdd [EInt 1; ESym "n"]])
  /\ simplify 10 (EIdiv (EMul [EInt 4; ESym "n"]) (EInt 4)) = Some (ESym "n")
  /\ simplify 10 (EZext (EMax [EInt 0; ESym "n"])) = Some (EMax [EInt 0; ESym "n"]).
Proof. repeat split; reflexivity. Qed.

(* ======================= C04 ======================= *)
(** [minimum]/[maximum] (bounds stored in the deprecated fields) and
    [minimum_new]/[maximum_new] (bound sets, or tight bounds).  Missing from
    the full claim: expressions containing trunc_i32 (refuted below). *)
Theorem C04_minimum_sound_partial : forall (s : env) (A : assumptions) (ps : list string) (e m : expr) (v b : Z),
  sat_dep s A -> no_trunc_A A -> no_trunc e = true ->
  minimum ps A e = Some m -> eval s e = Some v -> eval s m = Some b -> b <= v.
Proof. exact minimum_bound. Qed.
Theorem C04_maximum_sound_partial : forall (s : env) (A : assumptions) (ps : list string) (e m : expr) (v b : Z),
  sat_dep s A -> no_trunc_A A -> no_trunc e = true ->
  maximum ps A e = Some m -> eval s e = Some v -> eval s m = Some b -> v <= b.
Proof. exact maximum_bound. Qed.
Theorem C04_minimum_new_sound_partial : forall (s : env) (A : assumptions) (ps : list string) (tight : bool) (e m : expr) (v b : Z),
  (if tight then sat_tight s A else sat_set s A) -> no_trunc_A A -> no_trunc e = true ->
  minimum_new ps A tight e = Some m -> eval s e = Some v -> eval s m = Some b -> b <= v.
Proof. exact minimum_new_bound. Qed.
Theorem C04_maximum_new_sound_partial : forall (s : env) (A : assumptions) (ps : list string) (tight : bool) (e m : expr) (v b : Z),
  (if tight then sat_tight s A else sat_set s A) -> no_trunc_A A -> no_trunc e = true ->
  maximum_new ps A tight e = Some m -> eval s e = Some v -> eval s m = Some b -> v <= b.
Proof. exact maximum_new_bound. Qed.

(** trunc_i32 is not monotone: the bounds computed through it are wrong. *)
Theorem C04_trunc_refuted :
  exists (s : env) (A : assumptions) (e m : expr) (v b : Z),
    sat_dep s A /\ minimum [] A e = Some m /\ eval s e = Some v /\ eval s m = Some b /\ v < b.
Proof. exact minimum_trunc_refuted. Qed.

Definition A_ij : assumptions := two_assum "i" (range (-3) 5) "j" (range (-2) 7).
Example C04_nonvacuous :
  minimum [] A_ij (EMul [ESym "i"; ESym "j"]) = Some (EInt (-21))
  /\ maximum [] A_ij (EMul [ESym "i"; ESym "j"]) = Some (EInt 35)
  /\ sat_dep (upd (set1 "i" (-3)) "j" 7) A_ij /\ no_trunc_A A_ij.
Proof. split; [reflexivity|]. split; [reflexivity|]. split; [apply sat_two; cbn; lia|apply no_trunc_two]. Qed.

(* ======================= C05 ======================= *)
(** The clauses, read as a conjunction of disjunctions ([cnf_val]), have the
    value of the condition. *)
Theorem C05_cnf_equivalent : forall (s : env) (c : cond) (N : list (list cond)) (b : bool),
  cnf c = Some N -> cev s c = Some b ->
  (b = true <-> forall cl, In cl N -> exists lit, In lit cl /\ cev s lit = Some true).
Proof. exact cnf_equiv. Qed.

Example C05_nonvacuous :
  cnf (COr [CAnd [CLt (ESym "i") (ESym "n"); CEq (ESym "k") (EInt 0)]; CNot (CLt (ESym "j") (EInt 3))])
  = Some [[CLt (ESym "i") (ESym "n"); CLe (EInt 3) (ESym "j")]; [CEq (ESym "k") (EInt 0); CLe (EInt 3) (ESym "j")]].
Proof. reflexivity. Qed.

(* ======================= C06 ======================= *)
Theorem C06_is_complete_sound : forall (conds : list cond) (s : env),
  is_complete conds = Some true -> (forall c, In c conds -> cev s c <> None) ->
  exists c, In c conds /\ cev s c = Some true.
Proof. exact is_complete_sound. Qed.

Example C06_nonvacuous :
  is_complete [CLt (ESym "i") (ESym "n"); CLe (ESym "n") (ESym "i")] = Some true
  /\ is_complete [CLt (ESym "i") (ESym "n"); CLt (ESym "n") (ESym "i")] = Some false.
Proof. split; reflexivity. Qed.

(* ======================= C07 ======================= *)
Theorem C07_affine_recompose : forall (x : string) (e c k : expr) (s : env) (v : Z),
  affine x e = Some (c, k) -> eval s e = Some v ->
  exists cv kv, eval s c = Some cv /\ eval s k = Some kv /\ v = cv * s x + kv
    /\ (forall w, eval (upd s x w) c = Some cv /\ eval (upd s x w) k = Some kv).
Proof. exact affine_recompose_value. Qed.

(** The inverse expression, fed with the value of [e], gives the index back. *)
Theorem C07_inverse : forall (x : string) (e f : expr) (s : env) (v w : Z),
  inverse x e = Some f -> eval s e = Some v -> eval (upd s x v) f = Some w -> w = s x.
Proof. exact inverse_value. Qed.

Example C07_nonvacuous :
  affine "i" (EAdd [EInt 3; EMul [ESym "n"; ESym "i"]]) = Some (ESym "n", EInt 3)
  /\ (exists f, inverse "i" (EAdd [EInt 3; EMul [ESym "n"; ESym "i"]]) = Some f
       /\ eval (upd (set1 "n" 5) "i" 38) f = Some 7).
Proof. split; [reflexivity|]. eexists; split; reflexivity. Qed.

(* ======================= C08 ======================= *)
(** is_contiguous uses the minimum of the offset, so a symbolic stride in
    [1,4] is called contiguous. *)
Theorem C08_contiguous_refuted :
  exists (e : expr) (x : string) (A : assumptions) (s : env) (v : Z),
    is_contiguous e x A = true /\ sat_dep s A /\ eval s e = Some v /\ v <> s x + 1.
Proof. exact contiguous_refuted. Qed.
(** Holds when the decomposition has literal coefficients. *)
Theorem C08_contiguous_literal_partial : forall (e : expr) (x : string) (A : assumptions) (c k : Z) (s : env) (v : Z),
  is_contiguous e x A = true -> affine x e = Some (EInt c, EInt k) -> eval s e = Some v -> v = s x + 1.
Proof. exact contiguous_literal. Qed.
(** The affine monotonicity test is wrong for negative indices (2*i+1 at -5). *)
Theorem C08_monotonic_refuted :
  exists (e : expr) (x : string) (A : assumptions) (s : env) (v : Z),
    series_is_monotonic e x A = true /\ sat_dep s A /\ eval s e = Some v /\ v <= s x.
Proof. exact series_monotonic_refuted. Qed.
Theorem C08_monotonic_nonneg_partial : forall (e : expr) (x : string) (A : assumptions) (s : env) (v : Z),
  series_monotonic_affine e x A = true -> sat_dep s A -> no_trunc_A A -> no_trunc e = true ->
  eval s e = Some v -> 0 <= s x -> s x < v.
Proof. exact series_monotonic_nonneg. Qed.
Theorem C08_monotonic_unit_partial : forall (e : expr) (x : string) (A : assumptions) (s : env) (v : Z) (k : expr),
  series_monotonic_affine e x A = true -> affine x e = Some (EInt 1, k) ->
  sat_dep s A -> no_trunc_A A -> no_trunc e = true -> eval s e = Some v -> s x < v.
Proof. exact series_monotonic_unit. Qed.
(** The power pattern of is_monotonic does not look at the loop variable: the
    update [N**2] of variable [i] is accepted. *)
Theorem C08_monotonic_pow_refuted :
  exists (n : nat) (b x : string) (A : assumptions) (s : env) (v : Z),
    series_is_monotonic (EPow (ESym b) n) x A = true /\ sat_dep s A /\ 0 <= s x /\
    eval s (EPow (ESym b) n) = Some v /\ v <= s x.
Proof. exact series_pow_refuted. Qed.

Definition A_i_st : assumptions := two_assum "i" (range 0 100) "st" (range 1 4).
Example C08_nonvacuous :
  series_monotonic_affine (EAdd [ESym "i"; ESym "st"]) "i" A_i_st = true
  /\ is_contiguous (EAdd [EInt 1; ESym "i"]) "i" A_i_st = true
  /\ affine "i" (EAdd [EInt 1; ESym "i"]) = Some (EInt 1, EInt 1)
  /\ sat_dep (upd (set1 "i" 3) "st" 2) A_i_st /\ no_trunc_A A_i_st.
Proof. split; [reflexivity|]. split; [reflexivity|]. split; [reflexivity|]. split; [apply sat_two; cbn; lia|apply no_trunc_two]. Qed.

(* ======================= C09 ======================= *)
(** The subscripts of two iterations: the same symbol values except for the
    loop index and symbols not marked constant ([agree_const]).  Missing from
    the full claim: power subscripts whose base is not the index. *)
Theorem C09_disjoint_monotonic_partial : forall (e1 e2 : list expr) (x : string) (A : assumptions) (s1 s2 : env) (v1 v2 : list Z),
  is_disjoint_monotonic e1 e2 x A = Some true ->
  Forall (fun d => forall b n, d = EPow (ESym b) n -> b = x) e1 ->
  no_trunc_A A -> forallb no_trunc e1 = true ->
  sat_dep s1 A -> sat_dep s2 A -> agree_const A s1 s2 -> s1 x <> s2 x ->
  map (eval s1) e1 = map Some v1 -> map (eval s2) e2 = map Some v2 -> v1 <> v2.
Proof. exact disjoint_monotonic_value. Qed.

Theorem C09_disjoint_refuted :
  exists (e : list expr) (x : string) (A : assumptions) (s1 s2 : env) (v : list Z),
    is_disjoint_monotonic e e x A = Some true /\ sat_dep s1 A /\ sat_dep s2 A /\
    agree_const A s1 s2 /\ s1 x <> s2 x /\
    map (eval s1) e = map Some v /\ map (eval s2) e = map Some v.
Proof. exact disjoint_refuted. Qed.

Example C09_nonvacuous :
  is_disjoint_monotonic [EInt 0; EAdd [EMul [EInt 2; ESym "i"]; ESym "st"]]
                        [EInt 0; EAdd [EMul [EInt 2; ESym "i"]; ESym "st"]] "i" A_i_st = Some true.
Proof. reflexivity. Qed.

(* ======================= C11 (bound combination) ======================= *)
(** The combined bound never excludes an admissible value ... *)
Theorem C11_lower_bound_sound : forall (s : env) (A : assumptions) (x : string) (a : assumption) (b : Z),
  A x = Some a -> sat_set s A -> sat_tight s A -> eval s (lower_bound a) = Some b -> b <= s x.
Proof. exact lower_bound_value. Qed.
Theorem C11_upper_bound_sound : forall (s : env) (A : assumptions) (x : string) (a : assumption) (b : Z),
  A x = Some a -> sat_set s A -> sat_tight s A -> eval s (upper_bound a) = Some b -> s x <= b.
Proof. exact upper_bound_value. Qed.

Print Assumptions C01_div_value.
Print Assumptions C01_mod_value.
Print Assumptions C01_div_mod_law.
Print Assumptions C01_div_total.
Print Assumptions C02_divide_ceil_partial.
Print Assumptions C02_divide_ceil_refuted.
Print Assumptions C03_simplify_value.
Print Assumptions C03_simplify_cond_value.
Print Assumptions C04_minimum_sound_partial.
Print Assumptions C04_maximum_sound_partial.
Print Assumptions C04_minimum_new_sound_partial.
Print Assumptions C04_maximum_new_sound_partial.
Print Assumptions C04_trunc_refuted.
Print Assumptions C05_cnf_equivalent.
Print Assumptions C06_is_complete_sound.
Print Assumptions C07_affine_recompose.
Print Assumptions C07_inverse.
Print Assumptions C08_contiguous_refuted.
Print Assumptions C08_contiguous_literal_partial.
Print Assumptions C08_monotonic_refuted.
Print Assumptions C08_monotonic_nonneg_partial.
Print Assumptions C08_monotonic_unit_partial.
Print Assumptions C08_monotonic_pow_refuted.
Print Assumptions C09_disjoint_monotonic_partial.
Print Assumptions C09_disjoint_refuted.
Print Assumptions C11_lower_bound_sound.
Print Assumptions C11_upper_bound_sound.
