(** Basic facts about expressions: induction, equality, substitution,
    the SymEngine constructors. *)
From Verif Require Import Sym.

Section ExprInd.
  Variable P : expr -> Prop.
  Hypothesis HInt : forall z, P (EInt z).
  Hypothesis HInf : P EInf.
  Hypothesis HNegInf : P ENegInf.
  Hypothesis HSym : forall x, P (ESym x).
  Hypothesis HAdd : forall l, Forall P l -> P (EAdd l).
  Hypothesis HMul : forall l, Forall P l -> P (EMul l).
  Hypothesis HPow : forall a n, P a -> P (EPow a n).
  Hypothesis HMax : forall l, Forall P l -> P (EMax l).
  Hypothesis HMin : forall l, Forall P l -> P (EMin l).
  Hypothesis HIdiv : forall a b, P a -> P b -> P (EIdiv a b).
  Hypothesis HImod : forall a b, P a -> P b -> P (EImod a b).
  Hypothesis HIabs : forall a, P a -> P (EIabs a).
  Hypothesis HZext : forall a, P a -> P (EZext a).
  Hypothesis HTrunc : forall a, P a -> P (ETrunc a).
  Hypothesis HCeil : forall a b, P a -> P b -> P (ECeilDiv a b).
  Fixpoint expr_ind' (e : expr) : P e :=
    let fix all (l : list expr) : Forall P l :=
      match l with
      | [] => Forall_nil P
      | a :: l' => Forall_cons a (expr_ind' a) (all l')
      end in
    match e with
    | EInt z => HInt z | EInf => HInf | ENegInf => HNegInf | ESym x => HSym x
    | EAdd l => HAdd l (all l) | EMul l => HMul l (all l)
    | EPow a n => HPow a n (expr_ind' a)
    | EMax l => HMax l (all l) | EMin l => HMin l (all l)
    | EIdiv a b => HIdiv a b (expr_ind' a) (expr_ind' b)
    | EImod a b => HImod a b (expr_ind' a) (expr_ind' b)
    | EIabs a => HIabs a (expr_ind' a)
    | EZext a => HZext a (expr_ind' a)
    | ETrunc a => HTrunc a (expr_ind' a)
    | ECeilDiv a b => HCeil a b (expr_ind' a) (expr_ind' b)
    end.
End ExprInd.

Section CondInd.
  Variable P : cond -> Prop.
  Hypothesis HBool : forall b, P (CBool b).
  Hypothesis HEq : forall a b, P (CEq a b).
  Hypothesis HNe : forall a b, P (CNe a b).
  Hypothesis HLt : forall a b, P (CLt a b).
  Hypothesis HLe : forall a b, P (CLe a b).
  Hypothesis HAnd : forall l, Forall P l -> P (CAnd l).
  Hypothesis HOr : forall l, Forall P l -> P (COr l).
  Hypothesis HNot : forall c, P c -> P (CNot c).
  Fixpoint cond_ind' (c : cond) : P c :=
    let fix all (l : list cond) : Forall P l :=
      match l with
      | [] => Forall_nil P
      | a :: l' => Forall_cons a (cond_ind' a) (all l')
      end in
    match c with
    | CBool b => HBool b | CEq a b => HEq a b | CNe a b => HNe a b
    | CLt a b => HLt a b | CLe a b => HLe a b
    | CAnd l => HAnd l (all l) | COr l => HOr l (all l)
    | CNot a => HNot a (cond_ind' a)
    end.
End CondInd.

Fixpoint list_eqb {A} (f : A -> A -> bool) (l m : list A) : bool :=
  match l, m with
  | [], [] => true
  | x :: l', y :: m' => f x y && list_eqb f l' m'
  | _, _ => false
  end.

Lemma list_eqb_eq_in {A} (f : A -> A -> bool) l :
  Forall (fun x => forall y, f x y = true <-> x = y) l ->
  forall m, list_eqb f l m = true <-> l = m.
Proof.
  induction 1 as [|x l Hx Hl IH]; intros [|y m]; simpl; try (split; congruence).
  rewrite andb_true_iff, Hx, IH. split; [intros [-> ->]|intros [= -> ->]]; auto.
Qed.

Lemma expr_eqb_eq : forall a b, expr_eqb a b = true <-> a = b.
Proof.
  assert (L : forall l m, (fix leq (l m : list expr) {struct l} : bool :=
    match l, m with
    | [], [] => true
    | x :: l', y :: m' => expr_eqb x y && leq l' m'
    | _, _ => false
    end) l m = list_eqb expr_eqb l m).
  { induction l as [|x l IH]; intros [|y m]; simpl; auto. rewrite IH; auto. }
  induction a using expr_ind'; intros b'; destruct b'; cbn [expr_eqb];
    try (split; congruence); rewrite ?L;
    rewrite ?Z.eqb_eq, ?String.eqb_eq, ?andb_true_iff, ?Nat.eqb_eq,
      ?(list_eqb_eq_in expr_eqb l H), ?IHa, ?IHa1, ?IHa2;
    split; try congruence; try (intros [= -> ->]; auto); try (intros [-> ->]; auto);
    try (intros [= ->]; auto).
Qed.

Lemma expr_eqb_refl a : expr_eqb a a = true.
Proof. apply expr_eqb_eq; auto. Qed.

Lemma cond_eqb_eq : forall a b, cond_eqb a b = true <-> a = b.
Proof.
  assert (L : forall l m, (fix leq (l m : list cond) {struct l} : bool :=
    match l, m with
    | [], [] => true
    | x :: l', y :: m' => cond_eqb x y && leq l' m'
    | _, _ => false
    end) l m = list_eqb cond_eqb l m).
  { induction l as [|x l IH]; intros [|y m]; simpl; auto. rewrite IH; auto. }
  induction a using cond_ind'; intros b'; destruct b'; cbn [cond_eqb];
    try (split; congruence); rewrite ?L;
    rewrite ?Bool.eqb_true_iff, ?andb_true_iff, ?expr_eqb_eq,
      ?(list_eqb_eq_in cond_eqb l H), ?IHa;
    split; try congruence; try (intros [= -> ->]; auto); try (intros [-> ->]; auto);
    try (intros [= ->]; auto).
Qed.
Lemma cond_eqb_refl a : cond_eqb a a = true.
Proof. apply cond_eqb_eq; auto. Qed.

(* ---------------------------------------------------------------- *)
Lemma upd_same s x v : upd s x v x = v.
Proof. unfold upd; rewrite String.eqb_refl; auto. Qed.
Lemma upd_other s x y v : x <> y -> upd s x v y = s y.
Proof. unfold upd; intros H; destruct (String.eqb_spec x y); congruence. Qed.

Definition agree_on (l : list string) (s t : env) : Prop := forall x, In x l -> s x = t x.

Lemma map_ev_ext s t (l : list expr) :
  Forall (fun e => agree_on (atoms e) s t -> ev s e = ev t e) l ->
  agree_on (concat (map atoms l)) s t -> map (ev s) l = map (ev t) l.
Proof.
  induction 1 as [|e l He Hl IH]; simpl; intros Ha; auto.
  f_equal; [apply He|apply IH]; intros x Hx; apply Ha, in_or_app; auto.
Qed.

(** Only the symbols of an expression influence its value. *)
Lemma ev_agree s t e : agree_on (atoms e) s t -> ev s e = ev t e.
Proof.
  induction e using expr_ind'; simpl; intros Ha; auto;
    try (rewrite (map_ev_ext s t l); auto; fail);
    try (rewrite IHe; auto; fail);
    try (rewrite IHe1, IHe2; auto; intros y Hy; apply Ha, in_or_app; auto).
  rewrite (Ha x); simpl; auto.
Qed.

Lemma existsb_false_in {A} (f : A -> bool) l : existsb f l = false <-> (forall x, In x l -> f x = false).
Proof.
  induction l as [|a l IH]; simpl; split; auto; intros H.
  - intros ? [].
  - apply orb_false_iff in H as [H1 H2]. intros x [<-|Hx]; auto. apply IH; auto.
  - apply orb_false_iff; split; [apply H; auto|apply IH; auto].
Qed.

Lemma uses_atoms e x : uses e x = true <-> In x (atoms e).
Proof.
  induction e using expr_ind'; simpl; try tauto;
    try (split; [congruence|intros []]; fail);
    rewrite ?orb_true_iff, ?in_app_iff, ?IHe1, ?IHe2; try tauto.
  - rewrite String.eqb_eq. split; intuition congruence.
  - induction H as [|a l Ha Hl IH]; simpl; [intuition congruence|].
    rewrite orb_true_iff, in_app_iff, Ha, IH; tauto.
  - induction H as [|a l Ha Hl IH]; simpl; [intuition congruence|].
    rewrite orb_true_iff, in_app_iff, Ha, IH; tauto.
  - induction H as [|a l Ha Hl IH]; simpl; [intuition congruence|].
    rewrite orb_true_iff, in_app_iff, Ha, IH; tauto.
  - induction H as [|a l Ha Hl IH]; simpl; [intuition congruence|].
    rewrite orb_true_iff, in_app_iff, Ha, IH; tauto.
Qed.

Lemma uses_false_agree e x s v : uses e x = false -> ev (upd s x v) e = ev s e.
Proof.
  intros H; apply ev_agree; intros y Hy. apply upd_other; intros ->.
  apply uses_atoms in Hy; congruence.
Qed.

Lemma cev_agree s t c : agree_on (catoms c) s t -> cev s c = cev t c.
Proof.
  induction c using cond_ind'; simpl; intros Ha; auto;
    try (rewrite (ev_agree s t a), (ev_agree s t b); auto;
         intros y Hy; apply Ha, in_or_app; auto; fail).
  - f_equal. induction H as [|c l Hc Hl IH]; simpl in *; auto.
    f_equal; [apply Hc|apply IH]; intros x Hx; apply Ha, in_or_app; auto.
  - f_equal. induction H as [|c l Hc Hl IH]; simpl in *; auto.
    f_equal; [apply Hc|apply IH]; intros x Hx; apply Ha, in_or_app; auto.
  - rewrite IHc; auto.
Qed.
Lemma cuses_catoms c x : cuses c x = true <-> In x (catoms c).
Proof.
  induction c using cond_ind'; simpl; try tauto;
    try (split; [congruence|intros []]; fail);
    rewrite ?orb_true_iff, ?in_app_iff, ?uses_atoms; try tauto.
  - induction H as [|a l Ha Hl IH]; simpl; [intuition congruence|].
    rewrite orb_true_iff, in_app_iff, Ha, IH; tauto.
  - induction H as [|a l Ha Hl IH]; simpl; [intuition congruence|].
    rewrite orb_true_iff, in_app_iff, Ha, IH; tauto.
Qed.
Lemma cuses_false_agree c x s v : cuses c x = false -> cev (upd s x v) c = cev s c.
Proof.
  intros H; apply cev_agree; intros y Hy. apply upd_other; intros ->.
  apply cuses_catoms in Hy; congruence.
Qed.

(** Substitution lemma. *)
Lemma ev_subs s e x r v : ev s r = Fin v -> ev s (subs e x r) = ev (upd s x v) e.
Proof.
  intros Hr; induction e using expr_ind'; simpl; auto;
    try (rewrite ?IHe, ?IHe1, ?IHe2; auto; fail);
    try (f_equal; rewrite map_map; apply map_ext_in; intros a Ha;
         rewrite Forall_forall in H; apply H; auto; fail).
  unfold upd. destruct (String.eqb_spec x x0); simpl; auto.
Qed.
Lemma cev_subs s c x r v : ev s r = Fin v -> cev s (csubs c x r) = cev (upd s x v) c.
Proof.
  intros Hr; induction c using cond_ind'; simpl; auto;
    try (rewrite !(ev_subs s _ x r v); auto; fail).
  - f_equal. rewrite map_map; apply map_ext_in; intros a Ha.
    rewrite Forall_forall in H; apply H; auto.
  - f_equal. rewrite map_map; apply map_ext_in; intros a Ha.
    rewrite Forall_forall in H; apply H; auto.
  - rewrite IHc; auto.
Qed.

Lemma subs_unused e x r : uses e x = false -> subs e x r = e.
Proof.
  induction e using expr_ind'; simpl; intros Hu; auto;
    try (apply orb_false_iff in Hu as [? ?]; rewrite ?IHe1, ?IHe2; auto; fail);
    try (rewrite IHe; auto; fail);
    try (f_equal; rewrite existsb_false_in in Hu; rewrite <- (map_id l) at 2;
         apply map_ext_in; intros a Ha; rewrite Forall_forall in H; apply H; auto; fail).
  rewrite Hu; auto.
Qed.

(* ---------------------------------------------------------------- *)
(** Algebra of extended values. *)
Lemma xadd_assoc a b c : xadd a (xadd b c) = xadd (xadd a b) c.
Proof. destruct a, b, c; simpl; auto. f_equal; lia. Qed.
Lemma xadd_0_l a : xadd (Fin 0) a = a.
Proof. destruct a; simpl; auto. Qed.
Lemma xadd_0_r a : xadd a (Fin 0) = a.
Proof. destruct a; simpl; auto. f_equal; lia. Qed.
Lemma xadd_comm a b : xadd a b = xadd b a.
Proof. destruct a, b; simpl; auto. f_equal; lia. Qed.

Lemma xmul_comm a b : xmul a b = xmul b a.
Proof. destruct a, b; simpl; auto. f_equal; lia. Qed.
Lemma xmul_1_l a : xmul (Fin 1) a = a.
Proof. destruct a; simpl; auto. destruct z; auto. Qed.
Lemma xmul_1_r a : xmul a (Fin 1) = a.
Proof. rewrite xmul_comm; apply xmul_1_l. Qed.
Lemma xsgn_pos x : 0 < x -> xsgn_inf x = PInf.
Proof. intros. unfold xsgn_inf. destruct (Z.eqb_spec x 0); try lia. destruct (Z.ltb_spec 0 x); auto; lia. Qed.
Lemma xsgn_neg x : x < 0 -> xsgn_inf x = NInf.
Proof. intros. unfold xsgn_inf. destruct (Z.eqb_spec x 0); try lia. destruct (Z.ltb_spec 0 x); auto; lia. Qed.
Lemma xsgn_zero x : x = 0 -> xsgn_inf x = Bad.
Proof. intros ->; reflexivity. Qed.
Ltac tri z := destruct (Z.lt_trichotomy z 0) as [?|[?|?]].
Ltac sgn := repeat first [rewrite xsgn_pos by nia | rewrite xsgn_neg by nia
                         | rewrite xsgn_zero by nia]; simpl.
Lemma xmul_assoc a b c : xmul a (xmul b c) = xmul (xmul a b) c.
Proof.
  destruct a as [x| | |], b as [y| | |], c as [w| | |]; simpl; auto;
    try (f_equal; lia); try (tri x); try (tri y); try (tri w); sgn; sgn; auto.
Qed.

Lemma xsum_app l m : xsum (l ++ m) = xadd (xsum l) (xsum m).
Proof.
  induction l as [|a l IH]; cbn [app]; [unfold xsum at 2; cbn [fold_right]; rewrite xadd_0_l; auto|].
  change (xsum (a :: l ++ m)) with (xadd a (xsum (l ++ m))). rewrite IH, xadd_assoc; auto.
Qed.
Lemma xprod_app l m : xprod (l ++ m) = xmul (xprod l) (xprod m).
Proof.
  induction l as [|a l IH]; cbn [app]; [unfold xprod at 2; cbn [fold_right]; rewrite xmul_1_l; auto|].
  change (xprod (a :: l ++ m)) with (xmul a (xprod (l ++ m))). rewrite IH, xmul_assoc; auto.
Qed.

Lemma ev_add_args s e : xsum (map (ev s) (add_args e)) = ev s e.
Proof. destruct e; auto; cbn [add_args map xsum fold_right]; apply xadd_0_r. Qed.
Lemma ev_mul_args s e : xprod (map (ev s) (mul_args e)) = ev s e.
Proof. destruct e; auto; cbn [mul_args map xprod fold_right]; apply xmul_1_r. Qed.

Lemma split_ints_sum s l :
  xsum (map (ev s) l) = xadd (Fin (zsum (fst (split_ints l)))) (xsum (map (ev s) (snd (split_ints l)))).
Proof.
  induction l as [|e l IH]; cbn [split_ints]; [reflexivity|].
  change (xsum (map (ev s) (e :: l))) with (xadd (ev s e) (xsum (map (ev s) l))).
  rewrite IH. destruct (split_ints l) as [zs r]; cbn [fst snd].
  assert (G : forall k, xadd (ev s e) (xadd (Fin k) (xsum (map (ev s) r)))
            = xadd (Fin k) (xadd (ev s e) (xsum (map (ev s) r)))).
  { intros k. rewrite !xadd_assoc, (xadd_comm (ev s e)); auto. }
  destruct e; cbn [fst snd]; try (apply G).
  cbn [ev]. rewrite xadd_assoc. reflexivity.
Qed.
Lemma split_ints_prod s l :
  xprod (map (ev s) l) = xmul (Fin (zprod (fst (split_ints l)))) (xprod (map (ev s) (snd (split_ints l)))).
Proof.
  induction l as [|e l IH]; cbn [split_ints]; [reflexivity|].
  change (xprod (map (ev s) (e :: l))) with (xmul (ev s e) (xprod (map (ev s) l))).
  rewrite IH. destruct (split_ints l) as [zs r]; cbn [fst snd].
  assert (G : forall k, xmul (ev s e) (xmul (Fin k) (xprod (map (ev s) r)))
            = xmul (Fin k) (xmul (ev s e) (xprod (map (ev s) r)))).
  { intros k. rewrite !xmul_assoc, (xmul_comm (ev s e)); auto. }
  destruct e; cbn [fst snd]; try (apply G).
  cbn [ev]. rewrite xmul_assoc. reflexivity.
Qed.

Lemma concat_map_add_args s l : xsum (map (ev s) (concat (map add_args l))) = xsum (map (ev s) l).
Proof.
  induction l as [|e l IH]; simpl; auto.
  rewrite map_app, xsum_app, ev_add_args, IH; auto.
Qed.
Lemma concat_map_mul_args s l : xprod (map (ev s) (concat (map mul_args l))) = xprod (map (ev s) l).
Proof.
  induction l as [|e l IH]; simpl; auto.
  rewrite map_app, xprod_app, ev_mul_args, IH; auto.
Qed.

Lemma ev_sadd_list s l : ev s (sadd_list l) = xsum (map (ev s) l).
Proof.
  rewrite <- concat_map_add_args, split_ints_sum. unfold sadd_list.
  destruct (split_ints (concat (map add_args l))) as [zs r]. cbn [fst snd].
  destruct r as [|e [|e' r]].
  - simpl. rewrite Z.add_0_r; auto.
  - destruct (Z.eqb_spec (zsum zs) 0) as [->|]; simpl; rewrite ?xadd_0_r, ?xadd_0_l; auto.
  - destruct (Z.eqb_spec (zsum zs) 0) as [->|]; [|reflexivity].
    rewrite xadd_0_l; reflexivity.
Qed.
Lemma ev_sadd s a b : ev s (sadd a b) = xadd (ev s a) (ev s b).
Proof. unfold sadd; rewrite ev_sadd_list; simpl; rewrite xadd_0_r; auto. Qed.

Lemma total_ev s e : total_expr e = true -> exists z, ev s e = Fin z.
Proof.
  induction e using expr_ind'; simpl; intros Ht; try congruence; eauto.
  - cut (exists z, xsum (map (ev s) l) = Fin z); auto.
    induction H as [|a l Ha Hl IH]; simpl in *; eauto.
    apply andb_true_iff in Ht as [H1 H2]. destruct (Ha H1) as [z ->], (IH H2) as [w ->]; simpl; eauto.
  - cut (exists z, xprod (map (ev s) l) = Fin z); auto.
    induction H as [|a l Ha Hl IH]; simpl in *; eauto.
    apply andb_true_iff in Ht as [H1 H2]. destruct (Ha H1) as [z ->], (IH H2) as [w ->]; simpl; eauto.
  - destruct (IHe Ht) as [z ->]; simpl; eauto.
  - apply andb_true_iff in Ht as [Hn Ht].
    destruct l as [|a l]; [discriminate|]. clear Hn.
    inversion H as [|? ? Ha Hl]; subst. simpl in Ht. apply andb_true_iff in Ht as [Hta Htl].
    revert a Ha Hta H. induction Hl as [|b l Hb Hl IH]; intros a Ha Hta H; simpl.
    + apply Ha; auto.
    + simpl in Htl. apply andb_true_iff in Htl as [Htb Htl].
      destruct (Ha Hta) as [z ->]. destruct (IH Htl b Hb Htb) as [w E].
      { constructor; auto. }
      simpl in E. rewrite E. simpl; eauto.
  - apply andb_true_iff in Ht as [Hn Ht].
    destruct l as [|a l]; [discriminate|]. clear Hn.
    inversion H as [|? ? Ha Hl]; subst. simpl in Ht. apply andb_true_iff in Ht as [Hta Htl].
    revert a Ha Hta H. induction Hl as [|b l Hb Hl IH]; intros a Ha Hta H; simpl.
    + apply Ha; auto.
    + simpl in Htl. apply andb_true_iff in Htl as [Htb Htl].
      destruct (Ha Hta) as [z ->]. destruct (IH Htl b Hb Htb) as [w E].
      { constructor; auto. }
      simpl in E. rewrite E. simpl; eauto.
  - destruct (IHe Ht) as [z ->]; simpl; eauto.
Qed.
Lemma total_xprod s l : forallb total_expr l = true -> exists z, xprod (map (ev s) l) = Fin z.
Proof. intros H. destruct (total_ev s (EMul l)) as [z Hz]; simpl; eauto. Qed.

Lemma ev_smul_list s l : ev s (smul_list l) = xprod (map (ev s) l).
Proof.
  rewrite <- concat_map_mul_args, split_ints_prod. unfold smul_list.
  destruct (split_ints (concat (map mul_args l))) as [zs r]. cbn [fst snd].
  destruct r as [|e [|e' r]].
  - simpl. rewrite Z.mul_1_r; auto.
  - destruct (Z.eqb_spec (zprod zs) 1) as [->|].
    { cbn [map]. unfold xprod at 1; cbn [fold_right]. rewrite xmul_1_r, xmul_1_l; auto. }
    destruct (Z.eqb_spec (zprod zs) 0) as [->|]; simpl; auto.
    destruct (total_expr e) eqn:E; simpl; auto.
    destruct (total_ev s e E) as [z ->]. simpl; auto.
  - destruct (Z.eqb_spec (zprod zs) 1) as [->|].
    { rewrite xmul_1_l; auto. }
    destruct (Z.eqb_spec (zprod zs) 0) as [->|]; cbn [andb]; auto.
    destruct (forallb total_expr (e :: e' :: r)) eqn:E; auto.
    destruct (total_xprod s _ E) as [z ->]. simpl; auto.
Qed.
Lemma ev_smul s a b : ev s (smul a b) = xmul (ev s a) (ev s b).
Proof. unfold smul; rewrite ev_smul_list; simpl; rewrite xmul_1_r; auto. Qed.
Lemma ev_ssub s a b : ev s (ssub a b) = xadd (ev s a) (xmul (Fin (-1)) (ev s b)).
Proof. unfold ssub; rewrite ev_sadd, ev_smul; auto. Qed.

Lemma ev_smax s a b : ev s (smax a b) = xmax (ev s a) (ev s b).
Proof.
  assert (G : ev s (if expr_eqb a b then a else EMax [a; b]) = xmax (ev s a) (ev s b)).
  { destruct (expr_eqb a b) eqn:E; simpl; auto. apply expr_eqb_eq in E; subst.
    destruct (ev s b); simpl; auto. f_equal; lia. }
  destruct a, b; simpl in *; auto.
Qed.
Lemma ev_smin s a b : ev s (smin a b) = xmin (ev s a) (ev s b).
Proof.
  assert (G : ev s (if expr_eqb a b then a else EMin [a; b]) = xmin (ev s a) (ev s b)).
  { destruct (expr_eqb a b) eqn:E; simpl; auto. apply expr_eqb_eq in E; subst.
    destruct (ev s b); simpl; auto. f_equal; lia. }
  destruct a, b; simpl in *; auto.
Qed.

Lemma xle_refl a : a <> Bad -> xle a a.
Proof. destruct a; simpl; auto; lia. Qed.
Lemma xle_trans a b c : xle a b -> xle b c -> xle a c.
Proof. destruct a, b, c; simpl; try tauto; lia. Qed.

Lemma cev_slt s a b t : cev s (CLt a b) = Some t -> cev s (slt a b) = Some t.
Proof.
  assert (G : cev s (CLt a b) = Some t ->
              cev s (if expr_eqb a b then CBool false else CLt a b) = Some t).
  { destruct (expr_eqb a b) eqn:E; auto. apply expr_eqb_eq in E; subst; simpl.
    destruct (ev s b); simpl; try congruence. rewrite Z.leb_refl; simpl; auto. }
  destruct a, b; auto. simpl. rewrite Z.ltb_antisym; auto.
Qed.
Lemma cev_sle s a b t : cev s (CLe a b) = Some t -> cev s (sle a b) = Some t.
Proof.
  assert (G : cev s (CLe a b) = Some t ->
              cev s (if expr_eqb a b then CBool true else CLe a b) = Some t).
  { destruct (expr_eqb a b) eqn:E; auto. apply expr_eqb_eq in E; subst; simpl.
    destruct (ev s b); simpl; try congruence. rewrite Z.leb_refl; simpl; auto. }
  destruct a, b; auto.
Qed.
