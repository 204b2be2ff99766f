(** C07 (polynomial division) and C10 (delinearization). *)
From Verif Require Import Sym SymFacts SymFuns SymProofs1 SymProofs2 SymProofs3 SymProofs4 SymProps Poly Delin.
Open Scope string_scope.
Open Scope Z_scope.

(* ======================= C07 ======================= *)
(** polynomial_div(offset, stride) = (q, r) satisfies offset = q*stride + r. *)
Theorem C07_polynomial_div : forall (quot : expr -> expr -> expr) (offset stride q r : expr) (s : env) (v w : Z),
  polynomial_div quot offset stride = Some (q, r) -> eval s offset = Some v -> eval s stride = Some w ->
  (exists z, eval s (quot offset stride) = Some z) ->
  exists qv rv, eval s q = Some qv /\ eval s r = Some rv /\ v = qv * w + rv.
Proof. exact polynomial_div_value. Qed.
Example C07_div_nonvacuous :
  exists q r, polynomial_div (fun a _ => a) (EAdd [EMul [EInt 7; ESym "n"; ESym "m"]; EMul [EInt 3; ESym "n"]; ESym "m"]) (EMul [EInt 2; ESym "n"]) = Some (q, r)
    /\ eval (set1 "m" 5) q = Some 16 /\ eval (upd (set1 "m" 5) "n" 2) r = Some 17.
Proof. do 2 eexists. split; [vm_compute; reflexivity|]. split; reflexivity. Qed.

(* ======================= C10 ======================= *)
(** the symbols a subscript varies with: not constant, or loop indices *)
Definition varies (A : assumptions) (y : string) : Prop := exists a, A y = Some a /\ (aconst a = false \/ amap a <> None).
(** what is assumed about the arrangement of a set and about SymEngine's
    quotient of non-polynomials: no symbol out of nowhere, no undefined value *)
Definition arranges (order : list string -> list string) : Prop := forall l, NoDup l -> NoDup (order l) /\ forall x, In x (order l) <-> In x l.
Definition quot_ok (quot : expr -> expr -> expr) : Prop := forall a c,
  (forall y, In y (atoms (quot a c)) -> In y (atoms a) \/ In y (atoms c)) /\
  (forall s v w, eval s a = Some v -> eval s c = Some w -> exists z, eval s (quot a c) = Some z).
(** two runs that agree on the symbols that do not vary *)
Definition same_fixed (A : assumptions) (e : expr) (s s' : env) : Prop := forall y, In y (atoms e) -> ~ varies A y -> s y = s' y.

Lemma varying_spec A ys l : varying A ys = Some l -> forall x, In x l <-> In x ys /\ varies A x.
Proof.
  revert l. induction ys as [|y ys IH]; cbn [varying]; intros l H x; [injection H as <-; cbn; tauto|].
  destruct (A y) as [a|] eqn:Ea; [|discriminate]. destruct (varying A ys) as [l'|]; [|discriminate]. injection H as <-. specialize (IH l' eq_refl x).
  assert (V: varies A y <-> negb (aconst a) || (match amap a with Some _ => true | None => false end) = true).
  { unfold varies. rewrite orb_true_iff, negb_true_iff. split.
    - intros (a' & E & H). assert (a' = a) by congruence. subst a'. destruct H as [H|H]; auto. right. destruct (amap a); [reflexivity|congruence].
    - intros H. exists a. split; auto. destruct H as [H|H]; auto. right. destruct (amap a); congruence. }
  destruct (negb (aconst a) || _) eqn:E.
  - cbn [In]. rewrite IH. split; [intros [<-|[H1 H2]]; [split; auto; apply V; auto|auto]|]. intros [[H|H] H2]; auto.
  - rewrite IH. cbn [In]. split; [tauto|]. intros [[H|H] H2]; auto. subst y. apply V in H2. congruence.
Qed.
Lemma varying_nodup A ys l : NoDup ys -> varying A ys = Some l -> NoDup l.
Proof.
  revert l. induction ys as [|y ys IH]; cbn [varying]; intros l N H; [injection H as <-; constructor|].
  destruct (A y) as [a|] eqn:Ea; [|discriminate]. destruct (varying A ys) as [l'|] eqn:V; [|discriminate]. injection H as <-. inversion N; subst.
  destruct (_ || _); auto. constructor; auto. intros C. apply (varying_spec A ys l' V) in C. tauto.
Qed.
Lemma evals_det s l a b : evals s l a -> evals s l b -> a = b.
Proof. intros H. revert b. induction H; intros b H'; inversion H'; subst; auto. f_equal; [congruence|auto]. Qed.
Lemma evals_length s l a : evals s l a -> List.length a = List.length l.
Proof. intros H. induction H; cbn; auto. Qed.
Lemma evals_same s s' l a : (forall e y, In e l -> In y (atoms e) -> s y = s' y) -> evals s l a -> evals s' l a.
Proof.
  intros G H. induction H; constructor; [|apply IHForall2; intros; eapply G; eauto; right; auto].
  unfold eval in *. rewrite <- (ev_agree s s' x); auto. intros y0 Hy. eapply G; eauto. left; auto.
Qed.

(** what a successful delinearization looks like *)
Lemma delinearize_cases order quot A e dims : arranges order -> quot_ok quot -> delinearize order quot A e = Some dims ->
  dims = [e] \/ exists xs l k ps, NoDup xs /\ (forall x, In x xs -> In x (atoms e) /\ varies A x) /\
    affines xs e = Some (l, k) /\ peel quot A (List.length l) l k = Peeled ps (EInt 0) /\ dims = map p_dim ps /\
    (forall p y, In p ps -> In y (atoms (p_stride p)) \/ In y (atoms (snd p)) -> In y (atoms e) /\ ~ varies A y) /\
    (forall y, In y (atoms k) -> In y (atoms e) /\ ~ varies A y).
Proof.
  intros Ho Hq H. unfold delinearize in H. destruct (varying A (nodup string_dec (atoms e))) as [ys|] eqn:V; [|discriminate]. cbv zeta in H.
  pose proof (varying_nodup A _ _ (NoDup_nodup _ _) V) as N. destruct (Ho ys N) as [N' X].
  assert (X' : forall x, In x (order ys) <-> In x (atoms e) /\ varies A x) by (intros x; rewrite X, (varying_spec A _ _ V x), nodup_In; tauto).
  destruct (order ys) as [|x0 xs0] eqn:Eo; [injection H as <-; auto|]. set (xs := x0 :: xs0) in *.
  unfold affine_coefficients in H. destruct (affines xs e) as [[l k]|] eqn:Ea; [|injection H as <-; auto].
  destruct (uses_any xs k || existsb (fun xc => uses_any xs (snd xc)) l) eqn:U; [injection H as <-; auto|].
  destruct (peel quot A (List.length l) l k) as [| |ps o] eqn:P; [discriminate|injection H as <-; auto|].
  destruct (expr_eqb o (EInt 0)) eqn:E0; [|injection H as <-; auto]. injection H as <-. apply expr_eqb_eq in E0. subst o.
  apply orb_false_iff in U as [U1 U2].
  assert (K: forall y, In y (atoms k) -> In y (atoms e) /\ ~ varies A y).
  { intros z Hz. assert (Hz' : In z (atoms e)) by (eapply affines_atoms; eauto). split; auto. intros Hv.
    assert (In z xs) by (apply X'; auto).
    assert (C: uses_any xs k = true); [|congruence]. unfold uses_any. apply existsb_exists. exists z. split; auto. apply uses_atoms; auto. }
  right. exists xs, l, k, ps. split; auto. split; [intros x Hx; apply X'; auto|]. split; [exact Ea|]. split; [exact P|]. split; [reflexivity|]. split; [|exact K].
  intros p y Hp Hy. apply (peel_atoms quot A _ _ _ _ _ (fun y => In y (atoms e) /\ ~ varies A y) P) with (p := p); auto.
  - intros a c z. apply (Hq a c).
  - intros c z Hc Hz. assert (Hz' : In z (atoms e)) by (eapply affines_atoms; eauto). split; auto. intros Hv.
    assert (In z xs) by (apply X'; auto). apply in_map_iff in Hc as (t & <- & Ht).
    assert (C: existsb (fun xc => uses_any xs (snd xc)) l = true); [|congruence]. apply existsb_exists. exists t. split; auto.
    unfold uses_any. apply existsb_exists. exists z. split; auto. apply uses_atoms; auto.
Qed.

(** The flat index is the dot product of the multi-dimensional index with strides
    that do not vary; so equal multi-dimensional indices give equal flat ones. *)
Theorem C10_value_preserving : forall order quot A e dims, arranges order -> quot_ok quot ->
  delinearize order quot A e = Some dims ->
  exists strides, List.length strides = List.length dims /\
    (forall c y, In c strides -> In y (atoms c) -> In y (atoms e) /\ ~ varies A y) /\
    (forall s v, eval s e = Some v -> exists cs ds, evals s strides cs /\ evals s dims ds /\ v = dot cs ds).
Proof.
  intros order quot A e dims Ho Hq H. destruct (delinearize_cases order quot A e dims Ho Hq H) as [->|(xs & l & k & ps & N & Xs & Ea & P & -> & At & Kf)].
  - exists [EInt 1]. split; auto. split; [intros c y [<-|[]] []|]. intros s v Hv. exists [1], [v]. split; [apply Forall2_cons; [reflexivity|apply Forall2_nil]|]. split; [apply Forall2_cons; [exact Hv|apply Forall2_nil]|]. cbn [dot]; lia.
  - exists (map p_stride ps). split; [rewrite !map_length; auto|]. split.
    + intros c y Hc Hy. apply in_map_iff in Hc as (p & <- & Hp). eapply At; eauto.
    + intros s v Hv. destruct (affines_val _ _ _ _ _ _ Ea Hv) as (F & cs & kv & E1 & E2 & ->).
      destruct (peel_val quot A _ l k ps (EInt 0) s (rest_val s l cs) kv P) as (cs' & ds & ov & G1 & G2 & G3 & G4); auto.
      * rewrite F. auto.
      * apply terms_evals. exact E1.
      * intros a c z w. apply (Hq a c).
      * exists cs', ds. repeat split; auto. injection G3 as <-. lia.
Qed.
Theorem C10_equal_indices_equal_flat : forall order quot A e dims, arranges order -> quot_ok quot ->
  delinearize order quot A e = Some dims ->
  forall s s' v v' ds, same_fixed A e s s' -> eval s e = Some v -> eval s' e = Some v' ->
    evals s dims ds -> evals s' dims ds -> v = v'.
Proof.
  intros order quot A e dims Ho Hq H s s' v v' ds Sf Hv Hv' D D'. destruct (C10_value_preserving order quot A e dims Ho Hq H) as (st & L & F & V).
  destruct (V s v Hv) as (cs & ds1 & E1 & E2 & ->). destruct (V s' v' Hv') as (cs' & ds2 & E3 & E4 & ->).
  rewrite (evals_det _ _ _ _ E2 D), (evals_det _ _ _ _ E4 D'). rewrite (evals_det s' st cs' cs); auto. eapply evals_same; [|exact E1]. intros c y Hc Hy. destruct (F c y Hc Hy). auto.
Qed.

(** Injective, as long as at every position the digits below add up to less than
    the stride (the check the code means to make; see the refutations). *)
Theorem C10_injective_partial : forall order quot A e dims, arranges order -> quot_ok quot -> no_trunc_A A -> no_trunc e = true ->
  delinearize order quot A e = Some dims ->
  dims = [e] \/ exists parts : list (expr * string), List.length parts = List.length dims /\
    (forall c x, In (c, x) parts -> varies A x /\ forall y, In y (atoms c) -> ~ varies A y) /\
    forall s s' v ds ds', sat_dep s A -> sat_dep s' A -> same_fixed A e s s' -> below s parts -> below s' parts ->
      eval s e = Some v -> eval s' e = Some v -> evals s dims ds -> evals s' dims ds' -> ds = ds'.
Proof.
  intros order quot A e dims Ho Hq HT HN H. destruct (delinearize_cases order quot A e dims Ho Hq H) as [->|(xs & l & k & ps & N & Xs & Ea & P & -> & At & Kf)]; auto.
  right. exists (map base ps). split; [rewrite !map_length; auto|]. split.
  - intros c x Hc. apply in_map_iff in Hc as (p & E & Hp). unfold base in E. split.
    + pose proof (peel_parts quot A _ _ _ _ _ P p Hp) as Hin. unfold p_sym, p_stride in Hin. rewrite E in Hin. cbn [fst snd] in Hin.
      assert (F: map fst l = xs). { clear - Ea. revert e l k Ea. induction xs as [|z zs IH]; cbn [affines]; intros e l k Ea; [injection Ea as <- <-; auto|].
        destruct (affine z e) as [[c k0]|]; [|discriminate]. destruct (affines zs k0) as [[l0 k1]|] eqn:Es; [|discriminate]. injection Ea as <- <-. cbn. f_equal. eauto. }
      apply Xs. rewrite <- F. apply in_map_iff. exists (x, c). auto.
    + intros y Hy. apply (At p y Hp). left. unfold p_stride. rewrite E. exact Hy.
  - intros s s' v ds ds' HA HA' Sf B B' Hv Hv' D D'.
    destruct (affines_val _ _ _ _ _ _ Ea Hv) as (F & c1 & k1 & E1 & E2 & Ev). destruct (affines_val _ _ _ _ _ _ Ea Hv') as (_ & c2 & k2 & E1' & E2' & Ev').
    assert (ND: NoDup (map fst l)) by (rewrite F; auto).
    assert (TC := affines_trunc _ _ _ _ Ea HN).
    destruct (peel_radix quot A _ l k ps _ s (rest_val s l c1) P ND (terms_evals _ _ _ E1) HA HT TC B) as (cs & G1 & G2 & G3).
    destruct (peel_radix quot A _ l k ps _ s' (rest_val s' l c2) P ND (terms_evals _ _ _ E1') HA' HT TC B') as (cs' & G1' & G2' & G3').
    assert (Q : forall z : env, forall a c y w, eval z a = Some y -> eval z c = Some w -> exists q, eval z (quot a c) = Some q) by (intros z a c; apply (Hq a c)).
    destruct (peel_val quot A _ l k ps _ s (rest_val s l c1) k1 P ND (terms_evals _ _ _ E1) E2 (Q s)) as (a1 & d1 & o1 & A1 & A2 & A3 & A4).
    destruct (peel_val quot A _ l k ps _ s' (rest_val s' l c2) k2 P ND (terms_evals _ _ _ E1') E2' (Q s')) as (a2 & d2 & o2 & B1 & B2 & B3 & B4).
    rewrite (evals_det _ _ _ _ D A2), (evals_det _ _ _ _ D' B2). injection A3 as <-. injection B3 as <-.
    (* the shares of the offset are the same in both *)
    assert (Sh : forall p, In p ps -> ev s (snd p) = ev s' (snd p)) by (intros p Hp; apply ev_agree; intros y Hy; destruct (At p y Hp (or_intror Hy)); auto).
    assert (Ecs : cs' = cs). { eapply evals_det; [exact G1'|]. eapply evals_same; [|exact G1]. intros c y Hc Hy. apply in_map_iff in Hc as (p & <- & Hp). destruct (At p y Hp (or_introl Hy)); auto. }
    subst cs'. assert (a1 = cs) by (eapply evals_det; eauto). assert (a2 = cs) by (eapply evals_det; eauto). subst a1 a2.
    (* digit = dimension - share *)
    assert (Dg : exists qs, List.length qs = List.length ps /\ d1 = map (fun xq => fst xq + snd xq) (combine (map (fun p => s (p_sym p)) ps) qs) /\ d2 = map (fun xq => fst xq + snd xq) (combine (map (fun p => s' (p_sym p)) ps) qs)).
    { clear - A2 B2 Sh. revert d1 d2 A2 B2. induction ps as [|p ps IH]; intros d1 d2 A2 B2; inversion A2; inversion B2; subst; [exists []; auto|].
      destruct (IH (fun p Hp => Sh p (or_intror Hp)) l' l'0) as (qs & L & -> & ->); auto.
      unfold p_dim in H1, H6. apply eval_ev in H1, H6. rewrite ev_sadd in H1, H6. rewrite <- (Sh p (or_introl eq_refl)) in H6. cbn [ev] in H1, H6.
      destruct (ev s (snd p)) as [q| | |]; cbn [xadd] in H1, H6; try discriminate. injection H1 as <-. injection H6 as <-.
      exists (q :: qs). cbn [List.length map combine fst snd]. repeat split; auto. }
    destruct Dg as (qs & Lq & -> & ->).
    assert (Eq : map (fun p => s (p_sym p)) ps = map (fun p => s' (p_sym p)) ps); [|rewrite Eq; auto].
    pose proof (evals_length _ _ _ G1) as L1. rewrite map_length in L1.
    apply (radix_inj cs); auto; try (rewrite map_length; auto).
    assert (Ek : k2 = k1). { clear Ev Ev' A4 B4. apply eval_ev in E2, E2'. rewrite (ev_agree s s' k) in E2; [congruence|]. intros y Hy. destruct (Kf y Hy). auto. }
    subst k2. lia.
Qed.

(** Literal strides and literal upper bounds: the box condition is enough. *)
Fixpoint top (A : assumptions) (parts : list (expr * string)) : option Z :=
  match parts with
  | [] => Some 0
  | (EInt z, x) :: r =>
      match A x, top A r with
      | Some a, Some t => match ub_dep a with EInt u => if 0 <=? z then Some (z * u + t) else None | _ => None end
      | _, _ => None
      end
  | _ => None
  end.
Fixpoint boxes (A : assumptions) (parts : list (expr * string)) : Prop :=
  match parts with [] => True | (c, x) :: r => (exists z t, c = EInt z /\ top A r = Some t /\ t < z) /\ boxes A r end.
Lemma top_bound A s parts : sat_dep s A -> forall t, top A parts = Some t ->
  exists cs, evals s (map fst parts) cs /\ dot cs (map (fun p => s (snd p)) parts) <= t.
Proof.
  intros HA. induction parts as [|[c x] r IH]; cbn [top]; intros t H; [injection H as <-; exists []; split; [constructor|cbn; lia]|].
  destruct c; try discriminate. destruct (A x) as [a|] eqn:Ax; [|discriminate]. destruct (top A r) as [t'|]; [|discriminate]. destruct (ub_dep a) as [u| | | | | | | | | | | | | |] eqn:U; try discriminate.
  destruct (Z.leb_spec 0 z); [|discriminate]. injection H as <-. destruct (IH t' eq_refl) as (cs & E & L). exists (z :: cs). split; [constructor; auto; reflexivity|]. cbn [map dot snd].
  destruct (HA x a Ax) as [_ B]. rewrite U in B. cbn in B. nia.
Qed.
Lemma boxes_below A s parts : sat_dep s A -> boxes A parts -> below s parts.
Proof.
  intros HA. induction parts as [|[c x] r IH]; cbn [boxes below]; auto. intros [(z & t & -> & T & L) B]. split; auto.
  destruct (top_bound A s r HA t T) as (cs & E & L'). exists z, cs. repeat split; auto. lia.
Qed.
Theorem C10_injective_boxes_partial : forall order quot A e dims, arranges order -> quot_ok quot -> no_trunc_A A -> no_trunc e = true ->
  delinearize order quot A e = Some dims ->
  dims = [e] \/ exists parts : list (expr * string), List.length parts = List.length dims /\
    (forall c x, In (c, x) parts -> varies A x /\ forall y, In y (atoms c) -> ~ varies A y) /\
    (boxes A parts -> forall s s' v ds ds', sat_dep s A -> sat_dep s' A -> same_fixed A e s s' ->
      eval s e = Some v -> eval s' e = Some v -> evals s dims ds -> evals s' dims ds' -> ds = ds').
Proof.
  intros order quot A e dims Ho Hq HT HN H. destruct (C10_injective_partial order quot A e dims Ho Hq HT HN H) as [->|(parts & L & F & G)]; auto.
  right. exists parts. split; auto. split; auto. intros B s s' v ds ds' HA HA'. intros. eapply (G s s'); eauto using boxes_below.
Qed.

(** Refutations: the code lets the largest remainder be equal to the stride, and
    compares the largest stride with the largest remainder. *)
Definition idx (l u : expr) : assumption := {| lb_dep := l; ub_dep := u; lbs := []; ubs := []; tlb := None; tub := None; aconst := false; amap := None |}.
Definition par (l u : expr) : assumption := {| lb_dep := l; ub_dep := u; lbs := []; ubs := []; tlb := None; tub := None; aconst := true; amap := None |}.
Definition box (l : list (string * assumption)) : assumptions := fun x => option_map snd (find (fun p => String.eqb x (fst p)) l).
Definition env2 (l : list (string * Z)) : env := fun x => match find (fun p => String.eqb x (fst p)) l with Some p => snd p | None => 0 end.
(** A collision: within the assumptions, equal flat index, different delinearized index. *)
Definition collides (A : assumptions) (e : expr) (s s' : env) : Prop :=
  exists dims ds ds' v, delinearize (fun l => l) (fun _ _ => EInt 0) A e = Some dims /\ sat_dep s A /\ sat_dep s' A /\ same_fixed A e s s' /\
    eval s e = Some v /\ eval s' e = Some v /\ evals s dims ds /\ evals s' dims ds' /\ ds <> ds'.
Lemma box_sat s l : Forall (fun p => xle (ev s (lb_dep (snd p))) (Fin (s (fst p))) /\ xle (Fin (s (fst p))) (ev s (ub_dep (snd p)))) l -> sat_dep s (box l).
Proof.
  intros F x a H. unfold box in H. destruct (find _ l) as [p|] eqn:E; [|discriminate]. apply find_some in E as [Hin E]. apply String.eqb_eq in E. subst x. injection H as <-.
  rewrite Forall_forall in F. exact (F p Hin).
Qed.
Lemma arranges_id : arranges (fun l => l). Proof. intros l H. split; auto. tauto. Qed.
Lemma quot_zero : quot_ok (fun _ _ => EInt 0). Proof. intros a c. split; [intros y []|]. intros. exists 0. reflexivity. Qed.

Theorem C10_off_by_one_refuted : exists A e s s', collides A e s s'.
Proof.
  exists (box [("i", idx (EInt 0) (EInt 10)); ("j", idx (EInt 0) (EInt 3))]), (EAdd [EMul [EInt 3; ESym "i"]; ESym "j"]), (env2 [("i", 0); ("j", 3)]), (env2 [("i", 1)]).
  exists [ESym "i"; ESym "j"], [0; 3], [1; 0], 3. split; [vm_compute; reflexivity|].
  split; [apply box_sat; repeat constructor; cbn; lia|]. split; [apply box_sat; repeat constructor; cbn; lia|].
  split; [intros y [<-|[<-|[]]] H; exfalso; apply H; eexists; (split; [reflexivity|left; reflexivity])|].
  repeat split; try reflexivity; try discriminate; apply Forall2_cons; auto; apply Forall2_cons; auto.
Qed.
Theorem C10_symbolic_stride_refuted : exists A e s s', collides A e s s'.
Proof.
  exists (box [("i", idx (EInt 0) (EInt 10)); ("j", idx (EInt 0) (EInt 99)); ("n", par (EInt 1) (EInt 100))]), (EAdd [EMul [ESym "n"; ESym "i"]; ESym "j"]), (env2 [("n", 10); ("j", 10)]), (env2 [("n", 10); ("i", 1)]).
  exists [ESym "i"; ESym "j"], [0; 10], [1; 0], 10. split; [vm_compute; reflexivity|].
  split; [apply box_sat; repeat constructor; cbn; lia|]. split; [apply box_sat; repeat constructor; cbn; lia|].
  split; [intros y [<-|[<-|[<-|[]]]] H; try reflexivity; exfalso; apply H; eexists; (split; [reflexivity|left; reflexivity])|].
  repeat split; try reflexivity; try discriminate; apply Forall2_cons; auto; apply Forall2_cons; auto.
Qed.
(** sizes without an upper bound: row length n, column index up to m *)
Theorem C10_unbounded_refuted : exists A e s s', collides A e s s'.
Proof.
  exists (box [("i", idx (EInt 0) EInf); ("j", idx (EInt 0) (ESym "m")); ("n", par (EInt 1) EInf); ("m", par (EInt 1) EInf)]), (EAdd [EMul [ESym "n"; ESym "i"]; ESym "j"]), (env2 [("n", 2); ("m", 5); ("j", 2)]), (env2 [("n", 2); ("m", 5); ("i", 1)]).
  exists [ESym "i"; ESym "j"], [0; 2], [1; 0], 2. split; [vm_compute; reflexivity|].
  split; [apply box_sat; repeat constructor; cbn; lia|]. split; [apply box_sat; repeat constructor; cbn; lia|].
  split; [intros y [<-|[<-|[<-|[]]]] H; try reflexivity; exfalso; apply H; eexists; (split; [reflexivity|left; reflexivity])|].
  repeat split; try reflexivity; try discriminate; apply Forall2_cons; auto; apply Forall2_cons; auto.
Qed.

(** 12*i + 4*j + k + 17 with k < 4, j < 3 becomes [i+1; j+1; k+1]. *)
Example C10_nonvacuous :
  let A := box [("i", idx (EInt 0) (EInt 10)); ("j", idx (EInt 0) (EInt 2)); ("k", idx (EInt 0) (EInt 3))] in
  let e := EAdd [EInt 17; EMul [EInt 12; ESym "i"]; EMul [EInt 4; ESym "j"]; ESym "k"] in
  arranges (fun l => l) /\ quot_ok (fun _ _ => EInt 0) /\
  (exists dims, delinearize (fun l => l) (fun _ _ => EInt 0) A e = Some dims /\ evals (env2 [("i", 5); ("k", 2)]) dims [6; 1; 3]) /\
  boxes A [(EInt 12, "i"); (EInt 4, "j"); (EInt 1, "k")] /\ no_trunc_A A /\ no_trunc e = true /\
  sat_dep (env2 [("i", 5); ("k", 2)]) A /\ below (env2 [("i", 5); ("k", 2)]) [(EInt 12, "i"); (EInt 4, "j"); (EInt 1, "k")].
Proof.
  cbv zeta. split; [apply arranges_id|]. split; [apply quot_zero|]. split; [eexists; split; [vm_compute; reflexivity|repeat (apply Forall2_cons; [reflexivity|]); apply Forall2_nil]|].
  assert (B: boxes (box [("i", idx (EInt 0) (EInt 10)); ("j", idx (EInt 0) (EInt 2)); ("k", idx (EInt 0) (EInt 3))]) [(EInt 12, "i"); (EInt 4, "j"); (EInt 1, "k")]).
  { cbn [boxes]. repeat split; do 2 eexists; (split; [reflexivity|split; [vm_compute; reflexivity|reflexivity]]). }
  assert (Sd: sat_dep (env2 [("i", 5); ("k", 2)]) (box [("i", idx (EInt 0) (EInt 10)); ("j", idx (EInt 0) (EInt 2)); ("k", idx (EInt 0) (EInt 3))])) by (apply box_sat; repeat constructor; cbn; lia).
  split; [exact B|]. split.
  { intros x a H. unfold box in H. cbn [find fst] in H. repeat (destruct (String.eqb x _); [injection H as <-; repeat split; try reflexivity; discriminate|]). discriminate. }
  split; [reflexivity|]. split; [exact Sd|]. eapply boxes_below; eauto.
Qed.

Print Assumptions C07_polynomial_div.
Print Assumptions C10_value_preserving.
Print Assumptions C10_equal_indices_equal_flat.
Print Assumptions C10_injective_partial.
Print Assumptions C10_injective_boxes_partial.
Print Assumptions C10_off_by_one_refuted.
Print Assumptions C10_symbolic_stride_refuted.
Print Assumptions C10_unbounded_refuted.
