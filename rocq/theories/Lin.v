(** Collection of like terms: what SymEngine's Add does (Add::dict_add_term,
    Add::coef_dict_add_term; a numeric coefficient is distributed over a sum).
    SymEngine itself is not part of /repo; symbolic::add/sub/mul
    (sdfg/src/symbolic/symbolic.cpp:84-120) delegate to it. *)
From Verif Require Import Sym SymFacts SymProofs1 SymProofs2 SymProofs3.

Definition term := (Z * expr)%type.
Definition scale (k : Z) (l : list term) : list term := map (fun t => (k * fst t, snd t)) l.
(** e = sum of coefficient * term; the constant part has term 1. *)
Fixpoint lin_terms (e : expr) : list term :=
  match e with
  | EInt z => [(z, EInt 1)]
  | EAdd l => concat (map lin_terms l)
  | EMul [EInt k; a] => if k =? 0 then [(1, e)] else scale k (lin_terms a)
  | _ => [(1, e)]
  end.
Fixpoint add_term (t : term) (l : list term) : list term :=
  match l with
  | [] => [t]
  | u :: l' => if expr_eqb (snd t) (snd u) then (fst t + fst u, snd u) :: l' else u :: add_term t l'
  end.
Definition collect (l : list term) : list term :=
  filter (fun t => negb (fst t =? 0)) (fold_right add_term [] l).
Definition term_expr (t : term) : expr :=
  if expr_eqb (snd t) (EInt 1) then EInt (fst t)
  else if fst t =? 1 then snd t else EMul [EInt (fst t); snd t].
Definition build (l : list term) : expr :=
  match l with [] => EInt 0 | [t] => term_expr t | _ => EAdd (map term_expr l) end.
Definition snorm (e : expr) : expr := build (collect (lin_terms e)).
Definition ssubn (a b : expr) : expr := snorm (EAdd [a; EMul [EInt (-1); b]]).
Definition saddn (a b : expr) : expr := snorm (EAdd [a; b]).

Definition tv (s : env) (t : term) : xv := xmul (Fin (fst t)) (ev s (snd t)).
Definition lval (s : env) (l : list term) : xv := xsum (map (tv s) l).

Lemma lval_app s l m : lval s (l ++ m) = xadd (lval s l) (lval s m).
Proof. unfold lval. rewrite map_app. apply xsum_app. Qed.
Lemma xmul_xadd_distr k a b : k <> 0 -> xmul (Fin k) (xadd a b) = xadd (xmul (Fin k) a) (xmul (Fin k) b).
Proof.
  intros Hk. destruct a, b; simpl; auto; unfold xsgn_inf; destruct (Z.eqb_spec k 0); try lia;
    destruct (0 <? k); simpl; auto; f_equal; ring.
Qed.
Lemma lval_scale s k l : k <> 0 -> lval s (scale k l) = xmul (Fin k) (lval s l).
Proof.
  intros Hk. unfold lval, scale. induction l as [|[c e] l IH]; simpl.
  - f_equal; lia.
  - rewrite xmul_xadd_distr by auto. simpl in IH. rewrite IH. f_equal. unfold tv. cbn [fst snd].
    rewrite (xmul_assoc (Fin k) (Fin c)). auto.
Qed.
Lemma lval_one s e : lval s [(1, e)] = ev s e.
Proof. unfold lval. cbn [map xsum fold_right]. rewrite xadd_0_r. unfold tv. cbn [fst snd]. apply xmul_1_l. Qed.
Lemma lval_lin s e : lval s (lin_terms e) = ev s e.
Proof.
  induction e using expr_ind'; cbn [lin_terms]; try apply lval_one.
  - unfold lval, tv; simpl. f_equal; lia.
  - cbn [ev]. induction H as [|a l Ha _ IH]; [reflexivity|]. cbn [map concat]. rewrite lval_app, Ha, IH. reflexivity.
  - destruct l as [|[] [|a [|]]]; try apply lval_one.
    destruct (Z.eqb_spec z 0) as [->|Hz]; [apply lval_one|].
    inversion H as [|? ? _ H']; subst. inversion H' as [|? ? Ha _]; subst. rewrite lval_scale, Ha by auto. simpl. rewrite xmul_1_r. auto.
Qed.

Lemma tv_merge s c d e : xadd (tv s (c, e)) (tv s (d, e)) <> Bad -> tv s (c + d, e) = xadd (tv s (c, e)) (tv s (d, e)).
Proof.
  unfold tv; cbn [fst snd]. destruct (ev s e); simpl; try congruence.
  - intros _. f_equal; ring.
  - unfold xsgn_inf. destruct (Z.eqb_spec c 0), (Z.eqb_spec d 0), (0 <? c) eqn:C, (0 <? d) eqn:D; simpl; try congruence; intros _;
    destruct (Z.eqb_spec (c + d) 0); try lia; destruct (0 <? c + d) eqn:F; auto; lia.
  - unfold xsgn_inf. destruct (Z.eqb_spec c 0), (Z.eqb_spec d 0), (0 <? c) eqn:C, (0 <? d) eqn:D; simpl; try congruence; intros _;
    destruct (Z.eqb_spec (c + d) 0); try lia; destruct (0 <? c + d) eqn:F; simpl; auto; lia.
Qed.
Lemma lval_add_term s t l : xadd (tv s t) (lval s l) <> Bad -> lval s (add_term t l) = xadd (tv s t) (lval s l).
Proof.
  induction l as [|u l IH]; intros Nb; [reflexivity|]. cbn [add_term]. change (lval s (u :: l)) with (xadd (tv s u) (lval s l)) in *.
  destruct (expr_eqb (snd t) (snd u)) eqn:E.
  - apply expr_eqb_eq in E. destruct t as [c e], u as [d f]; cbn [fst snd] in *; subst f.
    change (lval s ((c + d, e) :: l)) with (xadd (tv s (c + d, e)) (lval s l)).
    rewrite xadd_assoc in *. rewrite tv_merge; auto. intros B; rewrite B in Nb; auto.
  - change (lval s (u :: add_term t l)) with (xadd (tv s u) (lval s (add_term t l))).
    assert (xadd (tv s t) (xadd (tv s u) (lval s l)) = xadd (tv s u) (xadd (tv s t) (lval s l))) as Q
      by (rewrite !xadd_assoc, (xadd_comm (tv s t)); auto).
    rewrite Q in *. rewrite IH; auto. intros B; rewrite B in Nb. destruct (tv s u); auto.
Qed.
Lemma lval_collect s l : lval s l <> Bad -> lval s (collect l) = lval s l.
Proof.
  intros Nb. assert (lval s (fold_right add_term [] l) = lval s l) as Q.
  { induction l as [|t l IH]; [reflexivity|]. change (lval s (t :: l)) with (xadd (tv s t) (lval s l)) in *. cbn [fold_right].
    assert (lval s l <> Bad) by (intros B; rewrite B in Nb; destruct (tv s t); auto).
    rewrite lval_add_term; rewrite IH; auto. }
  unfold collect. rewrite <- Q in *. clear Q. generalize dependent (fold_right add_term [] l). clear l. intros l.
  induction l as [|t l IH]; intros Nb; [reflexivity|]. change (lval s (t :: l)) with (xadd (tv s t) (lval s l)) in *. cbn [filter].
  assert (lval s l <> Bad) by (intros B; rewrite B in Nb; destruct (tv s t); auto).
  destruct (Z.eqb_spec (fst t) 0); cbn [negb].
  - rewrite IH by auto. assert (tv s t = Fin 0) as ->; [|rewrite xadd_0_l; auto].
    unfold tv in *. rewrite e in *. destruct (ev s (snd t)), (lval s l); simpl in *; try congruence; auto.
  - change (lval s (t :: filter (fun t0 => negb (fst t0 =? 0)) l)) with (xadd (tv s t) (lval s (filter (fun t0 => negb (fst t0 =? 0)) l))).
    rewrite IH; auto.
Qed.
Lemma ev_term s t : ev s (term_expr t) = tv s t.
Proof.
  unfold term_expr, tv. destruct (expr_eqb (snd t) (EInt 1)) eqn:E.
  - apply expr_eqb_eq in E. rewrite E. simpl. f_equal; lia.
  - destruct (Z.eqb_spec (fst t) 1) as [->|]; [rewrite xmul_1_l; auto|]. simpl. rewrite xmul_1_r. auto.
Qed.
Lemma ev_build s l : ev s (build l) = lval s l.
Proof.
  assert (xsum (map (ev s) (map term_expr l)) = lval s l) as Q.
  { unfold lval. rewrite map_map. f_equal. apply map_ext. apply ev_term. }
  destruct l as [|t [|u l]]; [reflexivity| |exact Q]. simpl. rewrite ev_term. unfold lval. simpl. rewrite xadd_0_r. auto.
Qed.
Lemma ev_snorm s e : ev s e <> Bad -> ev s (snorm e) = ev s e.
Proof. intros Nb. unfold snorm. rewrite ev_build, lval_collect; rewrite lval_lin; auto. Qed.
Lemma ev_ssubn s a b : xadd (ev s a) (xmul (Fin (-1)) (ev s b)) <> Bad ->
  ev s (ssubn a b) = xadd (ev s a) (xmul (Fin (-1)) (ev s b)).
Proof.
  intros Nb. unfold ssubn. assert (ev s (EAdd [a; EMul [EInt (-1); b]]) = xadd (ev s a) (xmul (Fin (-1)) (ev s b))) as Q.
  { cbn [ev map xsum xprod fold_right]. rewrite xadd_0_r, xmul_1_r. auto. }
  rewrite ev_snorm; rewrite Q; auto.
Qed.
Lemma ev_ssubn_fin s a b x y : ev s a = Fin x -> ev s b = Fin y -> ev s (ssubn a b) = Fin (x - y).
Proof. intros Ha Hb. rewrite ev_ssubn; rewrite Ha, Hb; cbn [xmul xadd]; [f_equal; lia|congruence]. Qed.
Lemma ev_saddn_fin s a b x y : ev s a = Fin x -> ev s b = Fin y -> ev s (saddn a b) = Fin (x + y).
Proof. intros Ha Hb. unfold saddn. rewrite ev_snorm; simpl; rewrite Ha, Hb; simpl; [f_equal; lia|congruence]. Qed.
Lemma ssubn_int s a b z y : ssubn a b = EInt z -> ev s a <> Bad -> ev s b = Fin y -> ev s a = Fin (y + z).
Proof.
  intros E Nb Hb. pose proof (ev_ssubn s a b) as Q. rewrite E, Hb in Q. cbn [xmul ev] in Q.
  destruct (ev s a); cbn [xadd] in *; try congruence; try (specialize (Q ltac:(discriminate)); congruence).
  specialize (Q ltac:(discriminate)). assert (z = z0 + -1 * y) by congruence. f_equal. lia.
Qed.
