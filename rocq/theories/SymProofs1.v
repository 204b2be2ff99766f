(** Proofs about division, simplification, boolean normal forms. *)
From Verif Require Import Sym SymFacts SymFuns.

Lemma eval_ev s e v : eval s e = Some v <-> ev s e = Fin v.
Proof. unfold eval; destruct (ev s e); split; congruence. Qed.

Lemma long_div_quot a b q : long_div a b = Some q -> q = Z.quot a b.
Proof. unfold long_div. destruct (_ && _); congruence. Qed.
Lemma as_int_id a b : as_int a = Some b -> a = b.
Proof. unfold as_int. destruct (in_int64 a); congruence. Qed.

Lemma sym_div_ev s l r e a b :
  sym_div l r = Some e -> ev s l = Fin a -> ev s r = Fin b -> b <> 0 -> ev s e = Fin (Z.quot a b).
Proof.
  unfold sym_div; intros He Hl Hr Hb.
  assert (G : ev s (EIdiv l r) = Fin (Z.quot a b)).
  { simpl. rewrite Hl, Hr; simpl. unfold cdiv. destruct (Z.eqb_spec b 0); congruence. }
  destruct (expr_eqb r (EInt 0)); [congruence|].
  destruct (expr_eqb r (EInt 1)) eqn:E1.
  { apply expr_eqb_eq in E1; subst. injection He as <-. simpl in Hr. injection Hr as <-.
    rewrite Hl, Z.quot_1_r; auto. }
  destruct (expr_eqb l (EInt 0)) eqn:E0.
  { apply expr_eqb_eq in E0; subst. injection He as <-. simpl in *. injection Hl as <-.
    rewrite Z.quot_0_l; auto. }
  destruct l; try congruence; destruct r; try congruence.
  destruct (as_int z) eqn:Ea; [|discriminate]. destruct (as_int z0) eqn:Eb; [|discriminate].
  apply as_int_id in Ea, Eb; subst. destruct (long_div z1 z2) eqn:Eq; [|discriminate].
  apply long_div_quot in Eq; subst. injection He as <-. simpl in *. congruence.
Qed.

Lemma sym_mod_ev s l r e a b :
  sym_mod l r = Some e -> ev s l = Fin a -> ev s r = Fin b -> b <> 0 -> ev s e = Fin (Z.rem a b).
Proof.
  unfold sym_mod; intros He Hl Hr Hb. destruct (sym_div l r) as [d|] eqn:Ed; [|discriminate].
  injection He as <-. rewrite ev_ssub, ev_smul, (sym_div_ev s l r d a b), Hl, Hr; auto.
  cbn -[Z.mul]. f_equal. pose proof (Z.quot_rem a b Hb). lia.
Qed.

Definition int_ok (e : expr) : bool := match e with EInt z => in_int64 z | _ => true end.
Lemma sym_div_total l r :
  int_ok l = true -> int_ok r = true ->
  ~ (l = EInt int64_min /\ r = EInt (-1)) -> exists e, sym_div l r = Some e.
Proof.
  intros Hl Hr Hn. unfold sym_div.
  destruct (expr_eqb r (EInt 0)); eauto. destruct (expr_eqb r (EInt 1)); eauto.
  destruct (expr_eqb l (EInt 0)); eauto.
  destruct l; eauto; destruct r; eauto.
  simpl in Hl, Hr. unfold as_int; rewrite Hl, Hr. unfold long_div.
  destruct (Z.eqb_spec z int64_min), (Z.eqb_spec z0 (-1)); simpl; eauto.
  subst. destruct Hn; auto.
Qed.

(** q is the ceiling of a/b. *)
Definition is_ceiling (a b q : Z) : Prop := (q - 1) * b < a <= q * b.

Lemma ceil_div_spec a b : 0 < b -> is_ceiling a b (ceil_div a b).
Proof.
  intros Hb. unfold is_ceiling, ceil_div.
  pose proof (Z.div_mod (- a) b). pose proof (Z.mod_pos_bound (- a) b Hb). nia.
Qed.

Lemma divide_ceil_ev s a b e x y :
  divide_ceil a b = Some e -> ev s a = Fin x -> ev s b = Fin y -> 0 < y ->
  (atoms a = [] \/ 0 <= x) ->
  exists q, ev s e = Fin q /\ is_ceiling x y q.
Proof.
  unfold divide_ceil; intros He Ha Hb Hy Hor.
  assert (G : exists q, ev s (ECeilDiv a b) = Fin q /\ is_ceiling x y q).
  { exists (ceil_div x y). split; [|apply ceil_div_spec; auto]. simpl. rewrite Ha, Hb; simpl.
    unfold cceil. destruct (Z.eqb_spec y 0); auto; lia. }
  destruct (atoms a) as [|u us] eqn:Eat.
  - destruct a; try (injection He as <-; auto; fail).
    destruct b; try (injection He as <-; auto; fail).
    destruct (Z.eqb_spec z0 0).
    + injection He as <-; auto.
    + injection He as <-. simpl in Ha, Hb. injection Ha as <-. injection Hb as <-.
      eexists; split; [reflexivity|]. apply ceil_div_spec; auto.
  - destruct Hor as [|Hx]; [discriminate|].
    exists (Z.quot (x + y - 1) y). split.
    + apply (sym_div_ev s (sadd a (ssub b (EInt 1))) b); auto; try lia.
      rewrite ev_sadd, ev_ssub, Ha, Hb. cbn. f_equal. lia.
    + rewrite Z.quot_div_nonneg by lia. unfold is_ceiling.
      pose proof (Z.div_mod (x + y - 1) y). pose proof (Z.mod_pos_bound (x + y - 1) y Hy). nia.
Qed.

(* ---------------------------------------------------------------- *)
Lemma find_max_spec l pre r m post :
  find_max pre l = Some (r, m, post) -> pre ++ l = r ++ EMax m :: post.
Proof.
  revert pre; induction l as [|a l IH]; simpl; intros pre H; [discriminate|].
  destruct a; try (apply IH in H; rewrite <- app_assoc in H; simpl in H; exact H).
  injection H as <- <- <-; auto.
Qed.

Lemma xsum_fin_inv l v : xsum l = Fin v -> Forall (fun x => exists z, x = Fin z) l.
Proof.
  revert v; induction l as [|a l IH]; simpl; intros v H; constructor.
  - destruct a; eauto; destruct (xsum l); simpl in H; discriminate.
  - destruct a, (xsum l); try discriminate; eapply IH; eauto.
Qed.

Lemma xmax_list_add k l v : l <> [] ->
  xmaxl l = Fin v -> Forall (fun x => x <> PInf /\ x <> NInf) l ->
  xmaxl (map (xadd (Fin k)) l) = Fin (k + v).
Proof.
  intros Hne. destruct l as [|a l]; [congruence|]. clear Hne.
  revert a v; induction l as [|b l IH]; intros a v Hv Hf.
  - simpl in *; subst; auto.
  - inversion Hf as [|? ? Ha Hf']; subst.
    change (xmaxl (a :: b :: l)) with (xmax a (xmaxl (b :: l))) in Hv.
    change (xmaxl (map (xadd (Fin k)) (a :: b :: l)))
      with (xmax (xadd (Fin k) a) (xmaxl (map (xadd (Fin k)) (b :: l)))).
    destruct a as [x| | |]; try (destruct Ha; congruence); [|destruct (xmaxl (b::l)); discriminate].
    assert (E : exists w, xmaxl (b :: l) = Fin w).
    { destruct (xmaxl (b :: l)) eqn:E; simpl in Hv; try discriminate; eauto.
      exfalso. clear - E Hf'. revert b E Hf'. induction l as [|c l IH]; intros b E Hf'.
      - simpl in E; subst. inversion Hf' as [|? ? [? ?] ?]; congruence.
      - inversion Hf' as [|? ? Hb Hf'']; subst.
        change (xmaxl (b :: c :: l)) with (xmax b (xmaxl (c :: l))) in E.
        destruct b; try (destruct Hb; congruence);
          destruct (xmaxl (c::l)) eqn:E2; simpl in E; try discriminate; eauto. }
    destruct E as [w E]. rewrite E in Hv. simpl in Hv. injection Hv as <-.
    rewrite (IH b w E Hf'). cbn. f_equal. lia.
Qed.

Lemma ev_fold_smax s l a : ev s (fold_left smax l a) = fold_left xmax (map (ev s) l) (ev s a).
Proof. revert a; induction l as [|b l IH]; simpl; intros a; auto. rewrite IH, ev_smax; auto. Qed.
Lemma ev_fold_smin s l a : ev s (fold_left smin l a) = fold_left xmin (map (ev s) l) (ev s a).
Proof. revert a; induction l as [|b l IH]; simpl; intros a; auto. rewrite IH, ev_smin; auto. Qed.
Lemma ev_fold_sadd s l a : ev s (fold_left sadd l a) = fold_left xadd (map (ev s) l) (ev s a).
Proof. revert a; induction l as [|b l IH]; simpl; intros a; auto. rewrite IH, ev_sadd; auto. Qed.

Lemma xmax_assoc a b c : xmax a (xmax b c) = xmax (xmax a b) c.
Proof. destruct a, b, c; simpl; auto. f_equal; lia. Qed.
Lemma xmin_assoc a b c : xmin a (xmin b c) = xmin (xmin a b) c.
Proof. destruct a, b, c; simpl; auto. f_equal; lia. Qed.
Lemma fold_left_xmax l a : fold_left xmax l a = xmaxl (a :: l).
Proof.
  revert a; induction l as [|b l IH]; intros a; auto.
  cbn [fold_left]. rewrite IH. destruct l; auto.
  change (xmaxl (a :: b :: x :: l)) with (xmax a (xmax b (xmaxl (x :: l)))).
  change (xmaxl (xmax a b :: x :: l)) with (xmax (xmax a b) (xmaxl (x :: l))).
  rewrite xmax_assoc; auto.
Qed.
Lemma fold_left_xmin l a : fold_left xmin l a = xminl (a :: l).
Proof.
  revert a; induction l as [|b l IH]; intros a; auto.
  cbn [fold_left]. rewrite IH. destruct l; auto.
  change (xminl (a :: b :: x :: l)) with (xmin a (xmin b (xminl (x :: l)))).
  change (xminl (xmin a b :: x :: l)) with (xmin (xmin a b) (xminl (x :: l))).
  rewrite xmin_assoc; auto.
Qed.
Lemma ev_smax_list s l : ev s (smax_list l) = xmaxl (map (ev s) l).
Proof. destruct l as [|a l]; auto. cbn [smax_list map]. rewrite ev_fold_smax, fold_left_xmax; auto. Qed.
Lemma ev_smin_list s l : ev s (smin_list l) = xminl (map (ev s) l).
Proof. destruct l as [|a l]; auto. cbn [smin_list map]. rewrite ev_fold_smin, fold_left_xmin; auto. Qed.

Lemma drop_first_prod s c l r : drop_first c l = Some r ->
  xprod (map (ev s) l) = xmul (ev s c) (xprod (map (ev s) r)).
Proof.
  revert r; induction l as [|a l IH]; simpl; intros r H; [discriminate|].
  destruct (expr_eqb a c) eqn:E.
  - apply expr_eqb_eq in E; subst; injection H as <-; auto.
  - destruct (drop_first c l); [|discriminate]. injection H as <-. simpl.
    rewrite (IH _ eq_refl), !xmul_assoc, (xmul_comm (ev s a)); auto.
Qed.

Lemma xlift1_fin f x v : xlift1 f x = Fin v -> exists z, x = Fin z /\ f z = Fin v.
Proof. destruct x; simpl; try congruence; eauto. Qed.
Lemma xlift2_fin f x y v : xlift2 f x y = Fin v -> exists a b, x = Fin a /\ y = Fin b /\ f a b = Fin v.
Proof. destruct x, y; simpl; try congruence; eauto. Qed.
Lemma cdiv_fin a b v : cdiv a b = Fin v -> b <> 0 /\ v = Z.quot a b.
Proof. unfold cdiv; destruct (Z.eqb_spec b 0); intros; split; congruence. Qed.
Lemma cmod_fin a b v : cmod a b = Fin v -> b <> 0 /\ v = Z.rem a b.
Proof. unfold cmod; destruct (Z.eqb_spec b 0); intros; split; congruence. Qed.

(** A maximum with infinite arguments: excluded by [no_inf]. *)
Fixpoint no_inf (e : expr) : bool :=
  match e with
  | EInf | ENegInf => false
  | EInt _ | ESym _ => true
  | EAdd l | EMul l | EMax l | EMin l => forallb no_inf l
  | EPow a _ | EIabs a | EZext a | ETrunc a => no_inf a
  | EIdiv a b | EImod a b | ECeilDiv a b => no_inf a && no_inf b
  end.

Lemma xlift1_noinf f a : (forall z, f z <> PInf /\ f z <> NInf) -> xlift1 f a <> PInf /\ xlift1 f a <> NInf.
Proof. destruct a; simpl; auto; split; congruence. Qed.
Lemma xlift2_noinf f a b : (forall x y, f x y <> PInf /\ f x y <> NInf) -> xlift2 f a b <> PInf /\ xlift2 f a b <> NInf.
Proof. destruct a, b; simpl; auto; split; congruence. Qed.

Lemma no_inf_ev s e : no_inf e = true -> ev s e <> PInf /\ ev s e <> NInf.
Proof.
  induction e using expr_ind'; cbn [no_inf ev]; intros Hn; try discriminate;
    try (split; congruence);
    try (apply xlift1_noinf; intros; unfold czext, ctrunc; try (destruct (in_int64 _)); split; congruence);
    try (apply xlift2_noinf; intros; unfold cdiv, cmod, cceil; destruct (_ =? 0); split; congruence).
  - induction H as [|a l Ha Hl IH]; simpl in *; [split; congruence|].
    apply andb_true_iff in Hn as [H1 H2]. destruct (Ha H1), (IH H2).
    destruct (ev s a), (xsum (map (ev s) l)); simpl; try tauto; split; congruence.
  - induction H as [|a l Ha Hl IH]; simpl in *; [split; congruence|].
    apply andb_true_iff in Hn as [H1 H2]. destruct (Ha H1), (IH H2).
    destruct (ev s a), (xprod (map (ev s) l)); simpl; try tauto; split; congruence.
  - induction H as [|a l Ha Hl IH]; simpl in *; [split; congruence|].
    apply andb_true_iff in Hn as [H1 H2]. destruct (Ha H1), (IH H2).
    destruct l as [|b l]; simpl in *; [destruct (ev s a); split; congruence|].
    destruct (ev s a), (match map (ev s) l with [] => ev s b | _ => _ end); simpl; try tauto; split; congruence.
  - induction H as [|a l Ha Hl IH]; simpl in *; [split; congruence|].
    apply andb_true_iff in Hn as [H1 H2]. destruct (Ha H1), (IH H2).
    destruct l as [|b l]; simpl in *; [destruct (ev s a); split; congruence|].
    destruct (ev s a), (match map (ev s) l with [] => ev s b | _ => _ end); simpl; try tauto; split; congruence.
Qed.

(* ---------------------------------------------------------------- *)
(** simplify preserves finite (and minus-infinite) values. *)
Definition lowok (x : xv) : Prop := x <> PInf /\ x <> Bad.

Lemma xmaxl_lowok l : lowok (xmaxl l) -> Forall lowok l.
Proof.
  destruct l as [|a l]; [intros [_ H]; simpl in H; congruence|].
  revert a; induction l as [|b l IH]; intros a H; [constructor; auto|].
  change (xmaxl (a :: b :: l)) with (xmax a (xmaxl (b :: l))) in H.
  assert (Ha : lowok a /\ lowok (xmaxl (b :: l))).
  { unfold lowok in *. destruct a, (xmaxl (b :: l)); simpl in H; intuition congruence. }
  constructor; [tauto|]. apply IH; tauto.
Qed.
Lemma xmaxl_add k l : lowok k -> l <> [] -> lowok (xmaxl l) ->
  xmaxl (map (xadd k) l) = xadd k (xmaxl l).
Proof.
  intros Hk Hne. destruct l as [|a l]; [congruence|]. clear Hne.
  revert a; induction l as [|b l IH]; intros a H; auto.
  change (xmaxl (a :: b :: l)) with (xmax a (xmaxl (b :: l))) in *.
  change (xmaxl (map (xadd k) (a :: b :: l))) with (xmax (xadd k a) (xmaxl (map (xadd k) (b :: l)))).
  assert (Ha : lowok a /\ lowok (xmaxl (b :: l))).
  { unfold lowok in *. destruct a, (xmaxl (b :: l)); simpl in H; intuition congruence. }
  rewrite IH by tauto. destruct Ha as [Ha Hb]. unfold lowok in *.
  destruct k, a, (xmaxl (b :: l)); simpl; try (intuition congruence). f_equal; lia.
Qed.

Lemma existsb_nonneg_max s l v :
  existsb nonneg_int l = true -> xmaxl (map (ev s) l) = Fin v -> 0 <= v.
Proof.
  revert v; induction l as [|a l IH]; intros v He Hv; [discriminate|].
  simpl in He. apply orb_true_iff in He.
  destruct l as [|b l].
  - destruct He as [He|He]; [|discriminate]. destruct a; try discriminate.
    simpl in *. apply Z.leb_le in He. congruence.
  - change (xmaxl (map (ev s) (a :: b :: l))) with (xmax (ev s a) (xmaxl (map (ev s) (b :: l)))) in Hv.
    destruct He as [He|He].
    + destruct a; try discriminate. simpl in He. apply Z.leb_le in He.
      destruct (xmaxl (map (ev s) (b :: l))); simpl in Hv; try discriminate; injection Hv as <-; lia.
    + destruct (xmaxl (map (ev s) (b :: l))) eqn:E.
      * specialize (IH _ He eq_refl). destruct (ev s a); simpl in Hv; try discriminate; injection Hv as <-; lia.
      * destruct (ev s a); simpl in Hv; discriminate.
      * (* NInf: impossible, one argument is an integer *)
        exfalso. clear - He E. revert He E. generalize (b :: l). clear. intros l.
        induction l as [|a l IH]; intros He E; [discriminate|].
        simpl in He. apply orb_true_iff in He. destruct l as [|c l].
        { destruct He as [He|He]; [|discriminate]. destruct a; try discriminate. }
        change (xmaxl (map (ev s) (a :: c :: l))) with (xmax (ev s a) (xmaxl (map (ev s) (c :: l)))) in E.
        destruct He as [He|He].
        -- destruct a; try discriminate. cbn [ev] in E.
           destruct (xmaxl (map (ev s) (c :: l))); simpl in E; try discriminate.
        -- destruct (ev s a), (xmaxl (map (ev s) (c :: l))); simpl in E; try discriminate; auto.
      * destruct (ev s a); simpl in Hv; discriminate.
Qed.

Lemma simplify_ev s n e e' :
  simplify n e = Some e' -> lowok (ev s e) -> ev s e' = ev s e.
Proof.
  revert e e'; induction n as [|n IH]; intros e e' H Hok; [simpl in H; congruence|].
  destruct e; cbn [simplify] in H; try (injection H as <-; reflexivity).
  - (* Add *)
    destruct (find_max [] l) as [[[pre m] post]|] eqn:F; [|injection H as <-; auto].
    apply find_max_spec in F. simpl in F. subst l.
    set (rest := sadd_list (pre ++ post)) in *.
    set (go := (fix go (m : list expr) : option (list expr) :=
              match m with
              | [] => Some []
              | a :: m' => match simplify n (sadd rest a), go m' with
                           | Some x, Some y => Some (x :: y) | _, _ => None end
              end)) in H.
    destruct (go m) as [m'|] eqn:G; [|discriminate]. injection H as <-.
    assert (E : ev s (EAdd (pre ++ EMax m :: post)) = xadd (ev s rest) (xmaxl (map (ev s) m))).
    { unfold rest. rewrite ev_sadd_list, map_app, xsum_app. cbn [ev]. rewrite map_app, xsum_app.
      cbn [map ev]. change (xsum (?a :: ?b)) with (xadd a (xsum b)).
      rewrite <- !xadd_assoc. f_equal. apply xadd_comm. }
    rewrite E in *. rewrite ev_smax_list.
    assert (Hm : m <> []).
    { intros ->. simpl in Hok. destruct (ev s rest); simpl in Hok; destruct Hok as [_ Hb]; simpl in Hb; congruence. }
    assert (Hr : lowok (ev s rest) /\ lowok (xmaxl (map (ev s) m))).
    { unfold lowok in *. destruct (ev s rest), (xmaxl (map (ev s) m)); simpl in Hok; intuition congruence. }
    destruct Hr as [Hr Hmx]. rewrite <- xmaxl_add; auto; [|destruct m; simpl; congruence].
    f_equal. apply xmaxl_lowok in Hmx. clear E Hok Hm.
    revert m' G; induction m as [|a m IHm]; intros m' G; cbn in G; [injection G as <-; auto|].
    destruct (simplify n (sadd rest a)) as [x|] eqn:Ex; [|discriminate].
    fold go in G. destruct (go m) as [y|]; [|discriminate]. injection G as <-.
    simpl in Hmx. inversion Hmx; subst. cbn [map]. f_equal.
    + rewrite (IH _ _ Ex), ev_sadd; auto. rewrite ev_sadd.
      unfold lowok in *. destruct (ev s rest), (ev s a); simpl; intuition congruence.
    + apply IHm; auto.
  - (* idiv *)
    destruct (expr_eqb e2 (EInt 0)) eqn:E0; [injection H as <-; auto|].
    destruct e1; try (injection H as <-; auto; fail).
    + destruct e2; try (injection H as <-; auto; fail).
      destruct (as_int z) eqn:Ea; [|discriminate]. destruct (as_int z0) eqn:Eb; [|discriminate].
      apply as_int_id in Ea, Eb; subst. destruct (long_div z1 z2) eqn:Eq; [|discriminate].
      apply long_div_quot in Eq; subst. injection H as <-. simpl. unfold cdiv.
      destruct (Z.eqb_spec z2 0); auto. subst. simpl in E0. discriminate.
    + destruct e2; try (injection H as <-; auto; fail).
      destruct (drop_first (EInt z) l) as [rest|] eqn:D; [|injection H as <-; auto].
      injection H as <-. rewrite ev_smul_list.
      assert (Hz : z <> 0) by (intros ->; simpl in E0; discriminate).
      cbn [ev] in *. pose proof (drop_first_prod s _ _ _ D) as P. rewrite P in *. cbn [ev] in *.
      destruct (xprod (map (ev s) rest)) as [w| | |]; cbn -[Z.mul] in *; unfold cdiv in *.
      * destruct (Z.eqb_spec z 0); [congruence|]. f_equal. rewrite Z.mul_comm, Z.quot_mul; auto.
      * destruct Hok as [_ Hb]. unfold xsgn_inf in Hb. destruct (z =? 0), (0 <? z); simpl in Hb; congruence.
      * destruct Hok as [_ Hb]. unfold xsgn_inf in Hb. destruct (z =? 0), (0 <? z); simpl in Hb; congruence.
      * destruct Hok as [_ Hb]; congruence.
  - (* imod *)
    destruct e1; try (injection H as <-; auto; fail).
    destruct e2; try (injection H as <-; auto; fail).
    destruct (as_int z) eqn:Ea; [|discriminate]. destruct (as_int z0) eqn:Eb; [|discriminate].
    apply as_int_id in Ea, Eb; subst.
    destruct (Z.eqb_spec z2 0); [discriminate|]. cbn [orb] in H.
    destruct (_ && _); [discriminate|]. injection H as <-. simpl. unfold cmod.
    destruct (Z.eqb_spec z2 0); congruence.
  - (* zext *)
    destruct (simplify n e) as [sa|] eqn:Es; [|discriminate].
    assert (Hf : exists z, ev s e = Fin z /\ in_int64 z = true).
    { cbn [ev] in Hok. destruct (ev s e); simpl in Hok; try (destruct Hok; congruence).
      unfold czext in Hok. destruct (in_int64 z) eqn:I; [eauto|destruct Hok; congruence]. }
    destruct Hf as (z & Hz & Hi).
    assert (Hsa : ev s sa = Fin z).
    { rewrite (IH _ _ Es); auto. rewrite Hz; split; congruence. }
    assert (Hze : ev s (EZext e) = Fin z) by (cbn [ev]; rewrite Hz; simpl; unfold czext; rewrite Hi; auto).
    rewrite Hze.
    destruct (match sa with EInt z => 0 <=? z | EMax l => existsb nonneg_int l | _ => false end).
    + injection H as <-; auto.
    + destruct (expr_eqb e sa); injection H as <-; auto.
      cbn [ev]. rewrite Hsa. simpl. unfold czext; rewrite Hi; auto.
Qed.

(* ---------------------------------------------------------------- *)
(** Boolean connectives. *)
Fixpoint oands (l : list (option bool)) : option bool :=
  match l with [] => Some true | a :: l' => oandb a (oands l') end.
Fixpoint oors (l : list (option bool)) : option bool :=
  match l with [] => Some false | a :: l' => oorb a (oors l') end.
Lemma oands_fold l : fold_right oandb (Some true) l = oands l.
Proof. induction l; simpl; congruence. Qed.
Lemma oors_fold l : fold_right oorb (Some false) l = oors l.
Proof. induction l; simpl; congruence. Qed.

Lemma onegb_oands l : onegb (oands l) = oors (map onegb l).
Proof.
  induction l as [|a l IH]; simpl; auto. rewrite <- IH.
  destruct a as [[]|], (oands l) as [[]|]; simpl; auto.
Qed.
Lemma onegb_oors l : onegb (oors l) = oands (map onegb l).
Proof.
  induction l as [|a l IH]; simpl; auto. rewrite <- IH.
  destruct a as [[]|], (oors l) as [[]|]; simpl; auto.
Qed.
Lemma onegb_invol o : onegb (onegb o) = o.
Proof. destruct o as [[]|]; auto. Qed.

Lemma cev_snot s c : cev s (snot c) = onegb (cev s c).
Proof.
  induction c using cond_ind'; simpl; rewrite ?onegb_invol; auto.
  - rewrite oands_fold, oors_fold, onegb_oands, map_map, map_map. f_equal.
    apply map_ext_in. rewrite Forall_forall in H; auto.
  - rewrite oands_fold, oors_fold, onegb_oors, map_map, map_map. f_equal.
    apply map_ext_in. rewrite Forall_forall in H; auto.
Qed.

Lemma oors_some_iff l b : oors l = Some b ->
  (b = true <-> In (Some true) l) /\ ~ In None l.
Proof.
  revert b; induction l as [|a l IH]; simpl; intros b H; [injection H as <-; intuition congruence|].
  destruct a as [x|]; [|discriminate]. destruct (oors l) as [y|]; [|discriminate].
  destruct (IH y eq_refl) as [I1 I2]. injection H as <-. split.
  - rewrite orb_true_iff. rewrite I1. split; intros [H|H]; auto; left; congruence.
  - intros [H|H]; [congruence|auto].
Qed.
Lemma oors_defined l : ~ In None l -> exists b, oors l = Some b.
Proof.
  induction l as [|a l IH]; simpl; intros H; eauto.
  destruct a as [x|]; [|destruct H; auto]. destruct IH as [y ->]; [tauto|]. simpl; eauto.
Qed.
Lemma oors_app l m : oors (l ++ m) = oorb (oors l) (oors m).
Proof.
  induction l as [|a l IH]; simpl.
  - destruct (oors m); auto.
  - rewrite IH. destruct a, (oors l), (oors m); simpl; auto. rewrite orb_assoc; auto.
Qed.
Lemma oands_app l m : oands (l ++ m) = oandb (oands l) (oands m).
Proof.
  induction l as [|a l IH]; simpl.
  - destruct (oands m); auto.
  - rewrite IH. destruct a, (oands l), (oands m); simpl; auto. rewrite andb_assoc; auto.
Qed.

Lemma cev_or_args s c : oors (map (cev s) (or_args c)) = cev s c.
Proof.
  destruct c; simpl; rewrite ?oors_fold, ?oands_fold; auto;
  match goal with |- oorb ?x (Some false) = ?y => destruct x; simpl; rewrite ?orb_false_r; auto
  | |- _ => rewrite ?orb_false_r; auto end.
Qed.
Lemma cev_and_args s c : oands (map (cev s) (and_args c)) = cev s c.
Proof.
  destruct c; simpl; rewrite ?oors_fold, ?oands_fold; auto;
  match goal with |- oandb ?x (Some true) = ?y => destruct x; simpl; rewrite ?andb_true_r; auto
  | |- _ => rewrite ?andb_true_r; auto end.
Qed.

Lemma filter_false_oors s l :
  oors (map (cev s) (filter (fun c => negb (is_false c)) l)) = oors (map (cev s) l).
Proof.
  induction l as [|a l IH]; cbn [filter map oors]; auto.
  destruct (is_false a) eqn:E; cbn [negb map oors].
  - destruct a as [[]| | | | | | |]; try discriminate. simpl. rewrite IH. destruct (oors (map (cev s) l)); auto.
  - rewrite IH; auto.
Qed.
Lemma filter_true_oands s l :
  oands (map (cev s) (filter (fun c => negb (is_true c)) l)) = oands (map (cev s) l).
Proof.
  induction l as [|a l IH]; cbn [filter map oands]; auto.
  destruct (is_true a) eqn:E; cbn [negb map oands].
  - destruct a as [[]| | | | | | |]; try discriminate. simpl. rewrite IH. destruct (oands (map (cev s) l)); auto.
  - rewrite IH; auto.
Qed.

Lemma has_compl_spec l : has_compl l = true -> exists c, In c l /\ In (snot c) l.
Proof.
  unfold has_compl, cmem. rewrite existsb_exists. intros (c & Hc & Hm).
  apply existsb_exists in Hm as (d & Hd & He). apply cond_eqb_eq in He; subst. eauto.
Qed.

Lemma compl_or s l b : has_compl l = true -> oors (map (cev s) l) = Some b -> b = true.
Proof.
  intros H Ho. apply has_compl_spec in H as (c & H1 & H2).
  apply oors_some_iff in Ho as [I1 I2]. apply I1.
  apply in_map with (f := cev s) in H1, H2. rewrite cev_snot in H2.
  destruct (cev s c) as [[]|]; simpl in *; auto; contradiction.
Qed.

Lemma cev_sor s a b t : oorb (cev s a) (cev s b) = Some t -> cev s (sor a b) = Some t.
Proof.
  intros H. unfold sor.
  set (l := filter _ _).
  assert (E : oors (map (cev s) l) = Some t).
  { unfold l. rewrite filter_false_oors, map_app, oors_app, !cev_or_args; auto. }
  destruct (existsb is_true l) eqn:Et.
  - apply existsb_exists in Et as (c & Hc & Htc). destruct c as [[]| | | | | | |]; try discriminate.
    apply oors_some_iff in E as [I _]. simpl. f_equal. symmetry. apply I.
    apply in_map_iff. exists (CBool true); auto.
  - destruct (has_compl l) eqn:Ec; simpl.
    + f_equal. symmetry. eapply compl_or; eauto.
    + destruct l as [|c [|d l']]; auto.
      simpl in E. destruct (cev s c); simpl in E; try discriminate. rewrite orb_false_r in E; auto.
Qed.
Lemma oandb_negb a b : oandb a b = onegb (oorb (onegb a) (onegb b)).
Proof. destruct a as [[]|], b as [[]|]; auto. Qed.
Lemma oands_some_iff l b : oands l = Some b ->
  (b = false <-> In (Some false) l) /\ ~ In None l.
Proof.
  revert b; induction l as [|a l IH]; simpl; intros b H; [injection H as <-; intuition congruence|].
  destruct a as [x|]; [|discriminate]. destruct (oands l) as [y|]; [|discriminate].
  destruct (IH y eq_refl) as [I1 I2]. injection H as <-. split.
  - rewrite andb_false_iff. rewrite I1. split; intros [H|H]; auto; left; congruence.
  - intros [H|H]; [congruence|auto].
Qed.
Lemma cev_sand s a b t : oandb (cev s a) (cev s b) = Some t -> cev s (sand a b) = Some t.
Proof.
  intros H. unfold sand.
  set (l := filter _ _).
  assert (E : oands (map (cev s) l) = Some t).
  { unfold l. rewrite filter_true_oands, map_app, oands_app, !cev_and_args; auto. }
  destruct (existsb is_false l) eqn:Et.
  - apply existsb_exists in Et as (c & Hc & Htc). destruct c as [[]| | | | | | |]; try discriminate.
    apply oands_some_iff in E as [I _]. simpl. f_equal. symmetry. apply I.
    apply in_map_iff. exists (CBool false); auto.
  - destruct (has_compl l) eqn:Ec; simpl.
    + f_equal. symmetry. apply has_compl_spec in Ec as (c & H1 & H2).
      apply oands_some_iff in E as [I1 I2]. apply I1.
      apply in_map with (f := cev s) in H1, H2. rewrite cev_snot in H2.
      destruct (cev s c) as [[]|]; simpl in *; auto; contradiction.
    + destruct l as [|c [|d l']]; auto.
      simpl in E. destruct (cev s c); simpl in E; try discriminate. rewrite andb_true_r in E; auto.
Qed.

(** Meaning of a CNF: conjunction of disjunctions. *)
Definition clause_val (s : env) (cl : list cond) : option bool := oors (map (cev s) cl).
Definition cnf_val (s : env) (N : list (list cond)) : option bool := oands (map (clause_val s) N).

Lemma cnf_val_app s N M : cnf_val s (N ++ M) = oandb (cnf_val s N) (cnf_val s M).
Proof. unfold cnf_val. rewrite map_app, oands_app; auto. Qed.

Lemma cnf_val_map_app s c D b :
  clause_val s c = Some b ->
  forall d, cnf_val s D = Some d -> cnf_val s (map (fun x => c ++ x) D) = Some (b || d).
Proof.
  intros Hc. induction D as [|x D IH]; intros d Hd.
  - cbn in *. injection Hd as <-. rewrite orb_true_r; auto.
  - cbn [map]. unfold cnf_val in *. cbn [map oands] in *. unfold clause_val at 1.
    rewrite map_app, oors_app. fold (clause_val s c) (clause_val s x). rewrite Hc.
    destruct (clause_val s x) as [bx|]; [|discriminate].
    destruct (oands (map (clause_val s) D)) as [d'|]; [|discriminate].
    rewrite (IH d' eq_refl). simpl in *. injection Hd as <-. f_equal. destruct b, bx, d'; auto.
Qed.
Lemma cnf_val_distribute s C D c d :
  cnf_val s C = Some c -> cnf_val s D = Some d -> cnf_val s (distribute_or C D) = Some (c || d).
Proof.
  intros Hc Hd; revert c Hc; induction C as [|x C IH]; intros c Hc.
  - cbn in *; injection Hc as <-; auto.
  - unfold distribute_or. cbn [map concat]. rewrite cnf_val_app. fold (distribute_or C D).
    unfold cnf_val in Hc at 1. cbn [map oands] in Hc.
    destruct (clause_val s x) as [bx|] eqn:Ex; [|discriminate].
    fold (cnf_val s C) in Hc. destruct (cnf_val s C) as [c'|]; [|discriminate].
    rewrite (cnf_val_map_app s x D bx Ex d Hd), (IH c' eq_refl). simpl in *. injection Hc as <-.
    f_equal. destruct bx, c', d; auto.
Qed.

Lemma cnf_fuel_sound s n : forall c N b,
  cnf_fuel n c = Some N -> cev s c = Some b -> cnf_val s N = Some b.
Proof.
  induction n as [|n IH]; intros c N b HN Hb; [discriminate|].
  assert (Lit : forall c b, cev s c = Some b -> cnf_val s [[c]] = Some b).
  { intros c' b' H. unfold cnf_val, clause_val. cbn. rewrite H. simpl. rewrite orb_false_r, andb_true_r; auto. }
  destruct c; cbn [cnf_fuel] in HN;
    try (injection HN as <-; apply Lit; auto; fail).
  - (* And *)
    cbn [cev] in Hb. rewrite oands_fold in Hb.
    revert N b HN Hb; induction l as [|a l IHl]; intros N b HN Hb.
    + cbn in *. injection HN as <-. exact Hb.
    + cbn [fold_right] in HN. destruct (cnf_fuel n a) as [x|] eqn:Ex; [|discriminate].
      destruct (fold_right _ _ l) as [y|] eqn:Ey; [|discriminate]. injection HN as <-.
      cbn [map oands] in Hb. destruct (cev s a) as [ba|] eqn:Ea; [|discriminate].
      destruct (oands (map (cev s) l)) as [bl|]; [|discriminate].
      rewrite cnf_val_app, (IH _ _ _ Ex Ea), (IHl _ _ eq_refl eq_refl). auto.
  - (* Or *)
    cbn [cev] in Hb. rewrite oors_fold in Hb.
    destruct l as [|a l]; [discriminate|].
    destruct (cnf_fuel n a) as [x|] eqn:Ex.
    2:{ exfalso. clear - HN. induction l as [|c l IHl]; simpl in HN; [discriminate|auto]. }
    cbn [map oors] in Hb. destruct (cev s a) as [ba|] eqn:Ea; [|discriminate].
    apply (IH _ _ _ Ex) in Ea. clear Ex.
    revert x ba N b HN Ea Hb; induction l as [|c l IHl]; intros x ba N b HN Ea Hb.
    + simpl in *. injection HN as <-. rewrite orb_false_r in Hb. congruence.
    + cbn [fold_left] in HN. destruct (cnf_fuel n c) as [y|] eqn:Ey.
      2:{ exfalso. clear - HN. induction l as [|c' l IHl]; simpl in HN; [discriminate|auto]. }
      cbn [map oors] in Hb. destruct (cev s c) as [bc|] eqn:Ec; [|discriminate].
      destruct (oors (map (cev s) l)) as [bl|] eqn:El; [|discriminate].
      apply (IHl _ (ba || bc) _ b HN).
      * apply cnf_val_distribute; eauto.
      * simpl in *. rewrite <- Hb, orb_assoc; auto.
  - (* Not *)
    cbn [cev] in Hb. destruct c; try discriminate.
    + apply (IH _ _ _ HN); auto.
    + apply (IH _ _ _ HN). cbn [cev]. simpl in Hb. rewrite onegb_invol in Hb. auto.
    + apply (IH _ _ _ HN). cbn [cev]. simpl in Hb. rewrite onegb_invol in Hb. auto.
    + apply (IH _ _ _ HN). cbn [cev]. auto.
    + destruct l as [|a0 [|a1 [|? ?]]]; try discriminate.
      apply (IH _ _ _ HN). apply cev_sor. rewrite !cev_snot. cbn in Hb.
      destruct (cev s a0) as [[]|], (cev s a1) as [[]|]; simpl in *; auto.
    + destruct l as [|a0 [|a1 [|? ?]]]; try discriminate.
      apply (IH _ _ _ HN). apply cev_sand. rewrite !cev_snot. cbn in Hb.
      destruct (cev s a0) as [[]|], (cev s a1) as [[]|]; simpl in *; auto.
    + apply (IH _ _ _ HN). cbn [cev] in Hb. rewrite onegb_invol in Hb. auto.
Qed.

Lemma cev_fold_sor s l a t :
  oorb (cev s a) (oors (map (cev s) l)) = Some t -> cev s (fold_left sor l a) = Some t.
Proof.
  revert a; induction l as [|c l IH]; intros a H; cbn [fold_left map oors] in *.
  - destruct (cev s a); simpl in H; [rewrite orb_false_r in H; auto|discriminate].
  - apply IH. destruct (cev s a) as [x|] eqn:Ea; [|discriminate].
    destruct (cev s c) as [y|] eqn:Ec; [|discriminate].
    rewrite (cev_sor s a c (x || y)). 2:{ rewrite Ea, Ec; auto. }
    destruct (oors (map (cev s) l)); [|discriminate]. simpl in *. rewrite <- H, orb_assoc; auto.
Qed.

Lemma is_complete_sound conds s :
  is_complete conds = Some true ->
  (forall c, In c conds -> cev s c <> None) ->
  exists c, In c conds /\ cev s c = Some true.
Proof.
  unfold is_complete. intros H Hdef.
  destruct (cnf (fold_left sor conds (CBool false))) as [N|] eqn:EN; [|discriminate].
  injection H as H. rewrite forallb_forall in H.
  destruct (oors_defined (map (cev s) conds)) as [b Hb].
  { intros Hn. apply in_map_iff in Hn as (c & Hc & Hin). apply (Hdef c); auto. }
  assert (Hc : cev s (fold_left sor conds (CBool false)) = Some b).
  { apply cev_fold_sor. rewrite Hb. auto. }
  pose proof (cnf_fuel_sound s _ _ _ _ EN Hc) as HN.
  assert (b = true).
  { destruct b; auto. unfold cnf_val in HN. apply oands_some_iff in HN as [I1 I2].
    destruct I1 as [I1 _]. specialize (I1 eq_refl). apply in_map_iff in I1 as (cl & Hcl & Hin).
    specialize (H cl Hin). destruct (fold_left sor cl (CBool false)) as [[]| | | | | | |] eqn:E; try discriminate.
    unfold clause_val in Hcl. pose proof (cev_fold_sor s cl (CBool false) false) as F.
    rewrite Hcl, E in F. simpl in F. specialize (F eq_refl). discriminate. }
  subst b. apply oors_some_iff in Hb as [I _]. destruct I as [I _]. specialize (I eq_refl).
  apply in_map_iff in I as (c & Hc' & Hin). eauto.
Qed.
