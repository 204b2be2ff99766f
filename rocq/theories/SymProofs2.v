(** Soundness of the bound computations (extreme_values.cpp). *)
From Verif Require Import Sym SymFacts SymFuns SymProofs1.

Lemma xle_nb_l a b : xle a b -> a <> Bad.
Proof. destruct a, b; simpl; try tauto; congruence. Qed.
Lemma xle_nb_r a b : xle a b -> b <> Bad.
Proof. destruct a, b; simpl; try tauto; congruence. Qed.
Lemma xle_total a b : a <> Bad -> b <> Bad -> xle a b \/ xle b a.
Proof. destruct a, b; simpl; try tauto; try congruence; intros; lia. Qed.
Lemma xmul_nb a b : xmul a b <> Bad -> a <> Bad /\ b <> Bad.
Proof. destruct a, b; simpl; intros; split; congruence. Qed.
Lemma xadd_nb a b : xadd a b <> Bad -> a <> Bad /\ b <> Bad.
Proof. destruct a, b; simpl; intros; split; congruence. Qed.
Lemma xmax_nb a b : xmax a b <> Bad -> a <> Bad /\ b <> Bad.
Proof. destruct a, b; simpl; intros; split; congruence. Qed.
Lemma xmin_nb a b : xmin a b <> Bad -> a <> Bad /\ b <> Bad.
Proof. destruct a, b; simpl; intros; split; congruence. Qed.

Lemma xopp_invol a : xopp (xopp a) = a.
Proof. destruct a; simpl; auto. f_equal; lia. Qed.
Lemma xle_opp a b : xle a b -> xle (xopp b) (xopp a).
Proof. destruct a, b; simpl; try tauto; lia. Qed.
Lemma xsgn_opp x : xsgn_inf (- x) = xopp (xsgn_inf x).
Proof. tri x; subst; sgn; auto. Qed.
Lemma xmul_opp_l a b : xmul (xopp a) b = xopp (xmul a b).
Proof.
  destruct a, b; simpl; auto; rewrite ?xsgn_opp, ?xopp_invol; auto. f_equal; lia.
Qed.

Ltac sg := repeat (match goal with
  | H : context[xsgn_inf ?z] |- _ =>
      first [rewrite (xsgn_pos z) in H by lia | rewrite (xsgn_neg z) in H by lia
            | rewrite (xsgn_zero z) in H by lia]
  | |- context[xsgn_inf ?z] =>
      first [rewrite (xsgn_pos z) by lia | rewrite (xsgn_neg z) by lia | rewrite (xsgn_zero z) by lia]
  end; simpl in *).

Lemma xmul_mono_pos k x y :
  xle (Fin 0) k -> xle x y -> xmul k x <> Bad -> xmul k y <> Bad -> xle (xmul k x) (xmul k y).
Proof.
  destruct k as [k| | |], x as [x| | |], y as [y| | |]; simpl; try tauto; intros; try nia;
    try (tri k); try (tri x); try (tri y); sg; try tauto; try lia; try congruence.
Qed.
Lemma xmul_mono_neg k x y :
  xle k (Fin 0) -> xle x y -> xmul k x <> Bad -> xmul k y <> Bad -> xle (xmul k y) (xmul k x).
Proof.
  intros Hk Hxy H1 H2. apply xle_opp in Hk. simpl in Hk.
  assert (N : forall z, xopp z <> Bad <-> z <> Bad) by (intros []; simpl; split; congruence).
  pose proof (xmul_mono_pos (xopp k) x y Hk Hxy) as P. rewrite !xmul_opp_l, !N in P.
  specialize (P H1 H2). apply xle_opp in P. rewrite !xopp_invol in P. auto.
Qed.

(** Interval product: one of the four corners is below. *)
Lemma xmul_corner_lo a v b c w d :
  xle a v -> xle v b -> xle c w -> xle w d -> xmul v w <> Bad ->
  xmul a c <> Bad -> xmul a d <> Bad -> xmul b c <> Bad -> xmul b d <> Bad ->
  xle (xmul a c) (xmul v w) \/ xle (xmul a d) (xmul v w) \/
  xle (xmul b c) (xmul v w) \/ xle (xmul b d) (xmul v w).
Proof.
  intros Hav Hvb Hcw Hwd Nvw Nac Nad Nbc Nbd.
  assert (Nw := xle_nb_r _ _ Hcw). assert (Nv := xle_nb_r _ _ Hav).
  (* step 2: from an endpoint k in {a,b} with k*w <= v*w to a corner *)
  assert (S2 : forall k, xmul k w <> Bad -> xle (xmul k w) (xmul v w) ->
             xmul k c <> Bad -> xmul k d <> Bad ->
             xle (xmul k c) (xmul v w) \/ xle (xmul k d) (xmul v w)).
  { intros k Nkw Hk Nkc Nkd. assert (Nk := proj1 (xmul_nb _ _ Nkc)).
    destruct (xle_total (Fin 0) k) as [Hs|Hs]; auto; try congruence.
    - left. eapply xle_trans; [apply xmul_mono_pos; eauto|auto].
    - right. eapply xle_trans; [apply xmul_mono_neg; eauto|auto]. }
  (* degenerate w *)
  assert (D : xmul a w = Bad \/ xmul b w = Bad \/ (xmul a w <> Bad /\ xmul b w <> Bad)).
  { destruct (xmul a w), (xmul b w); try tauto; right; right; split; congruence. }
  assert (W0 : w = Fin 0 -> xle (xmul a c) (xmul v w) \/ xle (xmul a d) (xmul v w)).
  { intros ->. assert (E : xmul v (Fin 0) = Fin 0).
    { destruct v; simpl in *; try congruence; try (exfalso; apply Nvw; reflexivity). rewrite Z.mul_0_r; auto. }
    rewrite E. assert (Na := proj1 (xmul_nb _ _ Nac)).
    destruct (xle_total (Fin 0) a) as [Hs|Hs]; auto; try congruence.
    - left. clear - Hs Hcw Nac. destruct a as [a| | |], c as [c| | |]; simpl in *; try tauto; try nia;
        try (tri a); try (tri c); sg; try tauto; try lia; try congruence; try (simpl in *; lia).
    - right. clear - Hs Hwd Nad. destruct a as [a| | |], d as [d| | |]; simpl in *; try tauto; try nia;
        try (tri a); try (tri d); sg; try tauto; try lia; try congruence; try (simpl in *; lia). }
  destruct (xle_total (Fin 0) w) as [Hw|Hw]; auto; try congruence.
  - (* w >= 0: endpoint a *)
    destruct (xmul a w) eqn:Eaw; cycle 3.
    + (* a*w undefined *)
      destruct w as [w| | |]; try (simpl in Hw; tauto); try congruence.
      * assert (w = 0) as ->.
        { destruct a; simpl in Eaw; try discriminate; try (destruct (xmul_nb _ _ Nac); congruence);
            tri w; auto; revert Eaw; sg; discriminate. }
        destruct W0; auto.
      * (* w = PInf, a = 0 *)
        assert (a = Fin 0) as ->.
        { destruct a as [a| | |]; simpl in Eaw; try discriminate; try (destruct (xmul_nb _ _ Nac); congruence).
          tri a; subst; auto; revert Eaw; sg; discriminate. }
        left. assert (E : xmul v PInf = PInf).
        { destruct v as [v| | |]; simpl in *; try tauto. tri v; subst; sg; try lia; congruence. }
        rewrite E. destruct (xmul (Fin 0) c); simpl; auto; congruence.
    + rewrite <- Eaw in *. destruct (S2 a) as [|]; auto; try congruence.
      rewrite (xmul_comm a w), (xmul_comm v w). apply xmul_mono_pos; auto; rewrite xmul_comm; congruence.
    + rewrite <- Eaw in *. destruct (S2 a) as [|]; auto; try congruence.
      rewrite (xmul_comm a w), (xmul_comm v w). apply xmul_mono_pos; auto; rewrite xmul_comm; congruence.
    + rewrite <- Eaw in *. destruct (S2 a) as [|]; auto; try congruence.
      rewrite (xmul_comm a w), (xmul_comm v w). apply xmul_mono_pos; auto; rewrite xmul_comm; congruence.
  - (* w <= 0: endpoint b *)
    destruct (xmul b w) eqn:Ebw; cycle 3.
    + destruct w as [w| | |]; try (simpl in Hw; tauto); try congruence.
      * assert (w = 0) as ->.
        { destruct b; simpl in Ebw; try discriminate; try (destruct (xmul_nb _ _ Nbc); congruence);
            tri w; auto; revert Ebw; sg; discriminate. }
        destruct W0; auto.
      * assert (b = Fin 0) as ->.
        { destruct b as [b| | |]; simpl in Ebw; try discriminate; try (destruct (xmul_nb _ _ Nbc); congruence).
          tri b; subst; auto; revert Ebw; sg; discriminate. }
        left. assert (E : xmul v NInf = PInf).
        { destruct v as [v| | |]; simpl in *; try tauto. tri v; subst; sg; try lia; congruence. }
        rewrite E. destruct (xmul a c); simpl; auto; congruence.
    + rewrite <- Ebw in *. destruct (S2 b) as [|]; auto; try congruence.
      rewrite (xmul_comm b w), (xmul_comm v w). apply xmul_mono_neg; auto; rewrite xmul_comm; congruence.
    + rewrite <- Ebw in *. destruct (S2 b) as [|]; auto; try congruence.
      rewrite (xmul_comm b w), (xmul_comm v w). apply xmul_mono_neg; auto; rewrite xmul_comm; congruence.
    + rewrite <- Ebw in *. destruct (S2 b) as [|]; auto; try congruence.
      rewrite (xmul_comm b w), (xmul_comm v w). apply xmul_mono_neg; auto; rewrite xmul_comm; congruence.
Qed.

Lemma xmul_corner_hi a v b c w d :
  xle a v -> xle v b -> xle c w -> xle w d -> xmul v w <> Bad ->
  xmul a c <> Bad -> xmul a d <> Bad -> xmul b c <> Bad -> xmul b d <> Bad ->
  xle (xmul v w) (xmul a c) \/ xle (xmul v w) (xmul a d) \/
  xle (xmul v w) (xmul b c) \/ xle (xmul v w) (xmul b d).
Proof.
  intros Hav Hvb Hcw Hwd Nvw Nac Nad Nbc Nbd.
  assert (N : forall z, xopp z <> Bad <-> z <> Bad) by (intros []; simpl; split; congruence).
  pose proof (xmul_corner_lo (xopp b) (xopp v) (xopp a) c w d) as P.
  rewrite !xmul_opp_l, !N in P.
  specialize (P (xle_opp _ _ Hvb) (xle_opp _ _ Hav) Hcw Hwd Nvw Nbc Nbd Nac Nad).
  destruct P as [P|[P|[P|P]]]; apply xle_opp in P; rewrite !xopp_invol in P; auto.
Qed.

(** Value-level corner products. *)
Fixpoint xcorners (bs : list (xv * xv)) : list xv :=
  match bs with
  | [] => [Fin 1]
  | (lo, hi) :: bs' => map (xmul lo) (xcorners bs') ++ map (xmul hi) (xcorners bs')
  end.
Lemma corners_ev s bs acc :
  map (ev s) (corners bs acc) =
  map (xmul (ev s acc)) (xcorners (map (fun p => (ev s (fst p), ev s (snd p))) bs)).
Proof.
  revert acc; induction bs as [|[lo hi] bs IH]; intros acc; cbn [corners xcorners map fst snd].
  - rewrite xmul_1_r; auto.
  - rewrite map_app, !IH, map_app, !map_map. f_equal; apply map_ext; intros x;
      rewrite ev_smul, xmul_assoc; auto.
Qed.
Lemma map_xmul_1 l : map (xmul (Fin 1)) l = l.
Proof. rewrite <- (map_id l) at 2. apply map_ext. intros; apply xmul_1_l. Qed.

Definition within (p : xv * xv) (v : xv) : Prop := xle (fst p) v /\ xle v (snd p).

Lemma xcorners_bracket bs vs :
  Forall2 within bs vs -> xprod vs <> Bad -> Forall (fun c => c <> Bad) (xcorners bs) ->
  (exists c, In c (xcorners bs) /\ xle c (xprod vs)) /\
  (exists c, In c (xcorners bs) /\ xle (xprod vs) c).
Proof.
  induction 1 as [|[lo hi] v bs vs Hv Hr IH]; intros Hnb Hc.
  - simpl. split; exists (Fin 1); simpl; split; auto; lia.
  - change (xprod (v :: vs)) with (xmul v (xprod vs)) in *.
    destruct (xmul_nb _ _ Hnb) as [Nv Nw]. cbn [xcorners] in *.
    rewrite Forall_app, !Forall_map in Hc. destruct Hc as [Hlo Hhi].
    assert (Hr' : Forall (fun c => c <> Bad) (xcorners bs)).
    { eapply Forall_impl; [|exact Hlo]. simpl. intros c Hc. apply (xmul_nb _ _ Hc). }
    destruct (IH Nw Hr') as [(c & Ic & Lc) (d & Id & Ld)].
    destruct Hv as [Hv1 Hv2]. simpl in Hv1, Hv2.
    rewrite Forall_forall in Hlo, Hhi.
    pose proof (xmul_corner_lo lo v hi c (xprod vs) d Hv1 Hv2 Lc Ld Hnb (Hlo _ Ic) (Hlo _ Id) (Hhi _ Ic) (Hhi _ Id)) as L.
    pose proof (xmul_corner_hi lo v hi c (xprod vs) d Hv1 Hv2 Lc Ld Hnb (Hlo _ Ic) (Hlo _ Id) (Hhi _ Ic) (Hhi _ Id)) as U.
    split.
    + destruct L as [L|[L|[L|L]]]; eexists; (split; [|exact L]); apply in_or_app;
        rewrite !in_map_iff; eauto.
    + destruct U as [U|[U|[U|U]]]; eexists; (split; [|exact U]); apply in_or_app;
        rewrite !in_map_iff; eauto.
Qed.

Lemma fold_xmin_le l a : fold_left xmin l a <> Bad ->
  Forall (fun x => x <> Bad /\ xle (fold_left xmin l a) x) (a :: l).
Proof.
  revert a; induction l as [|b l IH]; intros a H; cbn [fold_left] in *.
  - constructor; auto. split; auto. apply xle_refl; auto.
  - specialize (IH _ H). inversion IH as [|? ? [N L] F]; subst.
    destruct (xmin_nb _ _ N) as [Na Nb].
    assert (xle (xmin a b) a /\ xle (xmin a b) b).
    { destruct a, b; simpl; try tauto; try lia; congruence. }
    constructor; [split; auto; eapply xle_trans; [exact L|tauto]|].
    constructor; [split; auto; eapply xle_trans; [exact L|tauto]|]. auto.
Qed.
Lemma fold_xmax_ge l a : fold_left xmax l a <> Bad ->
  Forall (fun x => x <> Bad /\ xle x (fold_left xmax l a)) (a :: l).
Proof.
  revert a; induction l as [|b l IH]; intros a H; cbn [fold_left] in *.
  - constructor; auto. split; auto. apply xle_refl; auto.
  - specialize (IH _ H). inversion IH as [|? ? [N L] F]; subst.
    destruct (xmax_nb _ _ N) as [Na Nb].
    assert (xle a (xmax a b) /\ xle b (xmax a b)).
    { destruct a, b; simpl; try tauto; try lia; congruence. }
    constructor; [split; auto; eapply xle_trans; [|exact L]; tauto|].
    constructor; [split; auto; eapply xle_trans; [|exact L]; tauto|]. auto.
Qed.
(** the fold value is one of its arguments *)
Lemma fold_xmax_in l a : In (fold_left xmax l a) (Bad :: a :: l).
Proof.
  revert a; induction l as [|b l IH]; intros a; cbn [fold_left]; [simpl; auto|].
  destruct (IH (xmax a b)) as [H|[H|H]]; [simpl; auto| |simpl; auto].
  rewrite <- H. destruct a as [x| | |], b as [y| | |]; simpl; auto.
  destruct (Z.max_spec x y) as [[_ ->]|[_ ->]]; auto.
Qed.
Lemma fold_xmin_in l a : In (fold_left xmin l a) (Bad :: a :: l).
Proof.
  revert a; induction l as [|b l IH]; intros a; cbn [fold_left]; [simpl; auto|].
  destruct (IH (xmin a b)) as [H|[H|H]]; [simpl; auto| |simpl; auto].
  rewrite <- H. destruct a as [x| | |], b as [y| | |]; simpl; auto.
  destruct (Z.min_spec x y) as [[_ ->]|[_ ->]]; auto.
Qed.

Lemma xadd_mono a b c d : xle a b -> xle c d -> xadd a c <> Bad -> xadd b d <> Bad -> xle (xadd a c) (xadd b d).
Proof. destruct a, b, c, d; simpl; try tauto; try congruence; lia. Qed.

Lemma fold_xadd_xsum l a : fold_left xadd l a = xadd a (xsum l).
Proof.
  revert a; induction l as [|b l IH]; intros a; cbn [fold_left xsum fold_right].
  - rewrite xadd_0_r; auto.
  - rewrite IH, xadd_assoc; auto.
Qed.
Lemma xsum_mono l m : Forall2 xle l m -> xsum l <> Bad -> xsum m <> Bad -> xle (xsum l) (xsum m).
Proof.
  induction 1 as [|a b l m Hab Hlm IH]; intros N M; [simpl; lia|].
  change (xsum (a :: l)) with (xadd a (xsum l)) in *. change (xsum (b :: m)) with (xadd b (xsum m)) in *.
  apply xadd_mono; auto. apply IH; [apply (xadd_nb _ _ N)|apply (xadd_nb _ _ M)].
Qed.

Lemma omap_forall2 {A B} (f : A -> option B) l bs :
  omap f l = Some bs -> Forall2 (fun a b => f a = Some b) l bs.
Proof.
  revert bs; induction l as [|a l IH]; simpl; intros bs H; [injection H as <-; constructor|].
  unfold opt_map2 in H. destruct (f a) eqn:E; [|discriminate].
  destruct (omap f l); [|discriminate]. injection H as <-. constructor; auto.
Qed.

(* ---------------------------------------------------------------- *)
(** Generic steps, for a lower function [lo] and an upper function [hi]. *)
Section Steps.
  Variable s : env.
  Variables lo hi : expr -> option expr.
  Definition lo_ok (e : expr) : Prop := forall m, lo e = Some m -> ev s e <> Bad -> ev s m <> Bad -> xle (ev s m) (ev s e).
  Definition hi_ok (e : expr) : Prop := forall m, hi e = Some m -> ev s e <> Bad -> ev s m <> Bad -> xle (ev s e) (ev s m).

  Lemma xsum_nb l : xsum l <> Bad -> Forall (fun x => x <> Bad) l.
  Proof.
    induction l as [|a l IH]; intros H; constructor.
    - apply (xadd_nb _ _ H).
    - apply IH. apply (xadd_nb _ _ H).
  Qed.
  Lemma xprod_nb l : xprod l <> Bad -> Forall (fun x => x <> Bad) l.
  Proof.
    induction l as [|a l IH]; intros H; constructor.
    - apply (xmul_nb _ _ H).
    - apply IH. apply (xmul_nb _ _ H).
  Qed.

  Lemma step_add_lo l bs m : Forall lo_ok l -> omap lo l = Some bs -> fold1 sadd bs = Some m ->
    ev s (EAdd l) <> Bad -> ev s m <> Bad -> xle (ev s m) (ev s (EAdd l)).
  Proof.
    intros Hl Ho Hf. apply omap_forall2 in Ho. destruct bs as [|b bs]; [discriminate|].
    injection Hf as <-. rewrite ev_fold_sadd, fold_xadd_xsum.
    change (xadd (ev s b) (xsum (map (ev s) bs))) with (xsum (map (ev s) (b :: bs))).
    cbn [ev]. intros N M. apply xsum_mono; auto.
    pose proof (xsum_nb _ N) as N'. pose proof (xsum_nb _ M) as M'. rewrite Forall_map in N', M'.
    clear N M. induction Ho as [|a c l' bs' Hac Hr IH]; constructor; inversion Hl; inversion N'; inversion M'; subst; auto.
  Qed.
  Lemma step_add_hi l bs m : Forall hi_ok l -> omap hi l = Some bs -> fold1 sadd bs = Some m ->
    ev s (EAdd l) <> Bad -> ev s m <> Bad -> xle (ev s (EAdd l)) (ev s m).
  Proof.
    intros Hl Ho Hf. apply omap_forall2 in Ho. destruct bs as [|b bs]; [discriminate|].
    injection Hf as <-. rewrite ev_fold_sadd, fold_xadd_xsum.
    change (xadd (ev s b) (xsum (map (ev s) bs))) with (xsum (map (ev s) (b :: bs))).
    cbn [ev]. intros N M. apply xsum_mono; auto.
    pose proof (xsum_nb _ N) as N'. pose proof (xsum_nb _ M) as M'. rewrite Forall_map in N', M'.
    clear N M. induction Ho as [|a c l' bs' Hac Hr IH]; constructor; inversion Hl; inversion N'; inversion M'; subst; auto.
  Qed.

  Lemma xmaxl_nb l : xmaxl l <> Bad -> l <> [] /\ Forall (fun x => x <> Bad) l /\ In (xmaxl l) l
                      /\ Forall (fun x => xle x (xmaxl l)) l.
  Proof.
    destruct l as [|a l]; [simpl; congruence|]. rewrite <- fold_left_xmax. intros H.
    split; [congruence|]. pose proof (fold_xmax_ge l a H) as F. split; [|split].
    - eapply Forall_impl; [|exact F]; simpl; tauto.
    - destruct (fold_xmax_in l a) as [E|E]; [congruence|auto].
    - eapply Forall_impl; [|exact F]; simpl; tauto.
  Qed.
  Lemma xminl_nb l : xminl l <> Bad -> l <> [] /\ Forall (fun x => x <> Bad) l /\ In (xminl l) l
                      /\ Forall (fun x => xle (xminl l) x) l.
  Proof.
    destruct l as [|a l]; [simpl; congruence|]. rewrite <- fold_left_xmin. intros H.
    split; [congruence|]. pose proof (fold_xmin_le l a H) as F. split; [|split].
    - eapply Forall_impl; [|exact F]; simpl; tauto.
    - destruct (fold_xmin_in l a) as [E|E]; [congruence|auto].
    - eapply Forall_impl; [|exact F]; simpl; tauto.
  Qed.

  (** min over all lower bounds is below each argument *)
  Lemma step_min_lo l bs m : Forall lo_ok l -> omap lo l = Some bs -> fold1 smin bs = Some m ->
    ev s m <> Bad -> forall e, In e l -> ev s e <> Bad -> xle (ev s m) (ev s e).
  Proof.
    intros Hl Ho Hf M e He Ne. apply omap_forall2 in Ho. destruct bs as [|b bs]; [discriminate|].
    injection Hf as <-. rewrite ev_fold_smin in *. pose proof (fold_xmin_le _ _ M) as F.
    set (mm := fold_left xmin (map (ev s) bs) (ev s b)) in *. clearbody mm.
    change (ev s b :: map (ev s) bs) with (map (ev s) (b :: bs)) in F. rewrite Forall_map in F.
    revert Hl He F. generalize (b :: bs) Ho. clear - Ne. intros bs Ho. induction Ho as [|a c l bs Hac Hr IH]; intros Hl He F; [destruct He|].
    apply Forall_cons_iff in Hl as [Ha Hl]; apply Forall_cons_iff in F as [[Fn Fl] F].
    destruct He as [->|He]; [|auto]. eapply xle_trans; [exact Fl|]. apply Ha; auto.
  Qed.
  Lemma step_max_hi l bs m : Forall hi_ok l -> omap hi l = Some bs -> fold1 smax bs = Some m ->
    ev s m <> Bad -> forall e, In e l -> ev s e <> Bad -> xle (ev s e) (ev s m).
  Proof.
    intros Hl Ho Hf M e He Ne. apply omap_forall2 in Ho. destruct bs as [|b bs]; [discriminate|].
    injection Hf as <-. rewrite ev_fold_smax in *. pose proof (fold_xmax_ge _ _ M) as F.
    set (mm := fold_left xmax (map (ev s) bs) (ev s b)) in *. clearbody mm.
    change (ev s b :: map (ev s) bs) with (map (ev s) (b :: bs)) in F. rewrite Forall_map in F.
    revert Hl He F. generalize (b :: bs) Ho. clear - Ne. intros bs Ho. induction Ho as [|a c l bs Hac Hr IH]; intros Hl He F; [destruct He|].
    apply Forall_cons_iff in Hl as [Ha Hl]; apply Forall_cons_iff in F as [[Fn Fl] F].
    destruct He as [->|He]; [|auto]. eapply xle_trans; [|exact Fl]. apply Ha; auto.
  Qed.

  Lemma step_mm_lo e l bs m : (e = EMax l \/ e = EMin l) ->
    Forall lo_ok l -> omap lo l = Some bs -> fold1 smin bs = Some m ->
    ev s e <> Bad -> ev s m <> Bad -> xle (ev s m) (ev s e).
  Proof.
    intros He Hl Ho Hf N M. destruct He as [-> | ->]; cbn [ev] in *.
    - destruct (xmaxl_nb _ N) as (_ & _ & I & _). apply in_map_iff in I as (a & Ea & Ia).
      rewrite <- Ea in *. eapply step_min_lo; eauto.
    - destruct (xminl_nb _ N) as (_ & _ & I & _). apply in_map_iff in I as (a & Ea & Ia).
      rewrite <- Ea in *. eapply step_min_lo; eauto.
  Qed.
  Lemma step_mm_hi e l bs m : (e = EMax l \/ e = EMin l) ->
    Forall hi_ok l -> omap hi l = Some bs -> fold1 smax bs = Some m ->
    ev s e <> Bad -> ev s m <> Bad -> xle (ev s e) (ev s m).
  Proof.
    intros He Hl Ho Hf N M. destruct He as [-> | ->]; cbn [ev] in *.
    - destruct (xmaxl_nb _ N) as (_ & _ & I & _). apply in_map_iff in I as (a & Ea & Ia).
      rewrite <- Ea in *. eapply step_max_hi; eauto.
    - destruct (xminl_nb _ N) as (_ & _ & I & _). apply in_map_iff in I as (a & Ea & Ia).
      rewrite <- Ea in *. eapply step_max_hi; eauto.
  Qed.

  Lemma corners_nonbad (bs : list (expr * expr)) :
    Forall (fun c => c <> Bad) (map (ev s) (corners bs (EInt 1))) ->
    Forall (fun p => ev s (fst p) <> Bad /\ ev s (snd p) <> Bad) bs.
  Proof.
    rewrite corners_ev. cbn [ev]. rewrite map_xmul_1.
    induction bs as [|[a b] bs IH]; intros H; constructor; cbn [map xcorners fst snd] in *.
    - rewrite Forall_app, !Forall_map in H. destruct H as [H1 H2].
      assert (Hne : exists c, In c (xcorners (map (fun p : expr * expr => (ev s (fst p), ev s (snd p))) bs))).
      { clear. induction bs as [|p bs [c IH]]; simpl; eauto. eexists. apply in_or_app; left. apply in_map; eauto. }
      destruct Hne as [c Hc]. rewrite Forall_forall in H1, H2.
      split; [apply (xmul_nb _ _ (H1 _ Hc))|apply (xmul_nb _ _ (H2 _ Hc))].
    - apply IH. rewrite Forall_app, !Forall_map in H. destruct H as [H1 _].
      eapply Forall_impl; [|exact H1]. intros c Hc. apply (xmul_nb _ _ Hc).
  Qed.

  Lemma mul_within l bs :
    Forall lo_ok l -> Forall hi_ok l ->
    Forall2 (fun a p => opt_map2 pair (lo a) (hi a) = Some p) l bs ->
    Forall (fun x => x <> Bad) (map (ev s) l) ->
    Forall (fun p => ev s (fst p) <> Bad /\ ev s (snd p) <> Bad) bs ->
    Forall2 within (map (fun p => (ev s (fst p), ev s (snd p))) bs) (map (ev s) l).
  Proof.
    intros Hlo Hhi Ho. induction Ho as [|a p l bs Hap Hr IH]; intros N P; simpl in *; constructor;
      apply Forall_cons_iff in Hlo as [Hlo1 Hlo2]; apply Forall_cons_iff in Hhi as [Hhi1 Hhi2];
      apply Forall_cons_iff in N as [N1 N2]; apply Forall_cons_iff in P as [[P1 P2] P3]; auto.
    unfold opt_map2 in Hap. destruct (lo a) eqn:E1; [|discriminate]. destruct (hi a) eqn:E2; [|discriminate].
    injection Hap as <-. simpl in *. split; simpl; auto.
  Qed.

  Lemma step_mul l bs :
    Forall lo_ok l -> Forall hi_ok l ->
    omap (fun a => opt_map2 pair (lo a) (hi a)) l = Some bs ->
    ev s (EMul l) <> Bad ->
    (forall m, fold1 smin (corners bs (EInt 1)) = Some m -> ev s m <> Bad -> xle (ev s m) (ev s (EMul l))) /\
    (forall m, fold1 smax (corners bs (EInt 1)) = Some m -> ev s m <> Bad -> xle (ev s (EMul l)) (ev s m)).
  Proof.
    intros Hlo Hhi Ho N. apply omap_forall2 in Ho. cbn [ev] in *.
    pose proof (xprod_nb _ N) as N'.
    assert (Br : Forall (fun c => c <> Bad) (map (ev s) (corners bs (EInt 1))) ->
      (exists c, In c (map (ev s) (corners bs (EInt 1))) /\ xle c (xprod (map (ev s) l))) /\
      (exists c, In c (map (ev s) (corners bs (EInt 1))) /\ xle (xprod (map (ev s) l)) c)).
    { intros H. pose proof (corners_nonbad _ H) as P. rewrite corners_ev in *. cbn [ev] in *. rewrite map_xmul_1 in *.
      apply xcorners_bracket; auto. apply mul_within; auto. }
    destruct (corners bs (EInt 1)) as [|c cs] eqn:Ec; [split; intros; discriminate|].
    split; intros m Hm Nm; injection Hm as <-.
    - rewrite ev_fold_smin in *. pose proof (fold_xmin_le _ _ Nm) as F.
      destruct Br as [(x & Ix & Lx) _]; [eapply Forall_impl; [|exact F]; simpl; tauto|].
      rewrite Forall_forall in F. destruct (F x Ix) as [_ Fx]. eapply xle_trans; eauto.
    - rewrite ev_fold_smax in *. pose proof (fold_xmax_ge _ _ Nm) as F.
      destruct Br as [_ (x & Ix & Lx)]; [eapply Forall_impl; [|exact F]; simpl; tauto|].
      rewrite Forall_forall in F. destruct (F x Ix) as [_ Fx]. eapply xle_trans; eauto.
  Qed.
End Steps.

(** No trunc_i32 anywhere (it is not monotone). *)
Fixpoint no_trunc (e : expr) : bool :=
  match e with
  | ETrunc _ => false
  | EInt _ | ESym _ | EInf | ENegInf => true
  | EAdd l | EMul l | EMax l | EMin l => forallb no_trunc l
  | EPow a _ | EIabs a | EZext a => no_trunc a
  | EIdiv a b | EImod a b | ECeilDiv a b => no_trunc a && no_trunc b
  end.

(** A valuation satisfies the (deprecated-bound) assumptions. *)
Definition sat_dep (s : env) (A : assumptions) : Prop :=
  forall x a, A x = Some a -> xle (ev s (lb_dep a)) (Fin (s x)) /\ xle (Fin (s x)) (ev s (ub_dep a)).
Definition sat_set (s : env) (A : assumptions) : Prop :=
  forall x a, A x = Some a ->
    (forall b, In b (lbs a) -> xle (ev s b) (Fin (s x))) /\
    (forall b, In b (ubs a) -> xle (Fin (s x)) (ev s b)).
Definition sat_tight (s : env) (A : assumptions) : Prop :=
  forall x a, A x = Some a ->
    (forall b, tlb a = Some b -> xle (ev s b) (Fin (s x))) /\
    (forall b, tub a = Some b -> xle (Fin (s x)) (ev s b)).

Definition no_trunc_A (A : assumptions) : Prop :=
  forall x a, A x = Some a ->
    no_trunc (lb_dep a) = true /\ no_trunc (ub_dep a) = true /\
    forallb no_trunc (lbs a) = true /\ forallb no_trunc (ubs a) = true /\
    (forall b, tlb a = Some b -> no_trunc b = true) /\ (forall b, tub a = Some b -> no_trunc b = true).

Lemma zext_le s (a b : expr) : ev s (EZext a) <> Bad -> ev s (EZext b) <> Bad ->
  xle (ev s a) (ev s b) -> xle (ev s (EZext a)) (ev s (EZext b)).
Proof.
  cbn [ev]. destruct (ev s a), (ev s b); simpl; try tauto; try congruence.
  unfold czext. destruct (in_int64 z), (in_int64 z0); simpl; try congruence; auto.
Qed.
Lemma zext_nb s a : ev s (EZext a) <> Bad -> ev s a <> Bad.
Proof. cbn [ev]. destruct (ev s a); simpl; congruence. Qed.

Lemma minmax_dep_sound s A ps d :
  sat_dep s A -> no_trunc_A A -> forall e, no_trunc e = true ->
  lo_ok s (minimum_d d ps A) e /\ hi_ok s (maximum_d d ps A) e.
Proof.
  intros HA HT. induction d as [|d IH]; intros e He; [split; intros m Hm; discriminate|].
  assert (LL : forall l, forallb no_trunc l = true -> Forall (lo_ok s (minimum_d d ps A)) l /\ Forall (hi_ok s (maximum_d d ps A)) l).
  { intros l Hl. rewrite forallb_forall in Hl. rewrite !Forall_forall. split; intros x Hx; apply IH; auto. }
  destruct e; cbn [no_trunc] in He; try discriminate; split; intros m Hm N M; cbn [minimum_d maximum_d] in Hm; try discriminate.
  - injection Hm as <-; apply xle_refl; auto.
  - injection Hm as <-; apply xle_refl; auto.
  - injection Hm as <-; apply xle_refl; auto.
  - injection Hm as <-; apply xle_refl; auto.
  - injection Hm as <-; apply xle_refl; auto.
  - injection Hm as <-; apply xle_refl; auto.
  - destruct (existsb (String.eqb x) ps); [injection Hm as <-; apply xle_refl; auto|].
    destruct (A x) as [a|] eqn:Ea; [|discriminate]. destruct (HA _ _ Ea) as [L U]. destruct (HT _ _ Ea) as (T1 & T2 & _).
    eapply xle_trans; [|exact L]. apply (proj1 (IH _ T1) m); auto. eapply xle_nb_l; eauto.
  - destruct (existsb (String.eqb x) ps); [injection Hm as <-; apply xle_refl; auto|].
    destruct (A x) as [a|] eqn:Ea; [|discriminate]. destruct (HA _ _ Ea) as [L U]. destruct (HT _ _ Ea) as (T1 & T2 & _).
    eapply xle_trans; [exact U|]. apply (proj2 (IH _ T2) m); auto. eapply xle_nb_r; eauto.
  - destruct (LL l He). destruct (omap _ l) eqn:Eo; [|discriminate]. eapply step_add_lo; eauto.
  - destruct (LL l He). destruct (omap _ l) eqn:Eo; [|discriminate]. eapply step_add_hi; eauto.
  - destruct (LL l He) as [L1 L2]. destruct (omap _ l) eqn:Eo; [|discriminate].
    apply (proj1 (step_mul s _ _ l _ L1 L2 Eo N) m); auto.
  - destruct (LL l He) as [L1 L2]. destruct (omap _ l) eqn:Eo; [|discriminate].
    apply (proj2 (step_mul s _ _ l _ L1 L2 Eo N) m); auto.
  - destruct (LL l He). destruct (omap _ l) eqn:Eo; [|discriminate]. eapply (step_mm_lo s _ (EMax l)); eauto.
  - destruct (LL l He). destruct (omap _ l) eqn:Eo; [|discriminate]. eapply (step_mm_hi s _ (EMax l)); eauto.
  - destruct (LL l He). destruct (omap _ l) eqn:Eo; [|discriminate]. eapply (step_mm_lo s _ (EMin l)); eauto.
  - destruct (LL l He). destruct (omap _ l) eqn:Eo; [|discriminate]. eapply (step_mm_hi s _ (EMin l)); eauto.
  - destruct (minimum_d d ps A e) as [m'|] eqn:Em; [|discriminate]. injection Hm as <-.
    apply zext_le; auto. apply (proj1 (IH e He) m'); auto using zext_nb.
  - destruct (maximum_d d ps A e) as [m'|] eqn:Em; [|discriminate]. injection Hm as <-.
    apply zext_le; auto. apply (proj2 (IH e He) m'); auto using zext_nb.
Qed.

Lemma ofilter_in {A B} (f : A -> option B) l b : In b (ofilter f l) -> exists a, In a l /\ f a = Some b.
Proof.
  induction l as [|a l IH]; simpl; [tauto|]. destruct (f a) eqn:E.
  - intros [<-|H]; eauto. destruct (IH H) as (c & ? & ?); eauto.
  - intros H. destruct (IH H) as (c & ? & ?); eauto.
Qed.

Lemma minmax_new_sound s A ps (tight : bool) d :
  (if tight then sat_tight s A else sat_set s A) -> no_trunc_A A -> forall e, no_trunc e = true ->
  lo_ok s (minimum_new_d d ps A tight) e /\ hi_ok s (maximum_new_d d ps A tight) e.
Proof.
  intros HA HT. induction d as [|d IH]; intros e He; [split; intros m Hm; discriminate|].
  assert (LL : forall l, forallb no_trunc l = true -> Forall (lo_ok s (minimum_new_d d ps A tight)) l /\ Forall (hi_ok s (maximum_new_d d ps A tight)) l).
  { intros l Hl. rewrite forallb_forall in Hl. rewrite !Forall_forall. split; intros x Hx; apply IH; auto. }
  destruct e; cbn [no_trunc] in He; try discriminate; split; intros m Hm N M; cbn [minimum_new_d maximum_new_d] in Hm; try discriminate.
  - injection Hm as <-; apply xle_refl; auto.
  - injection Hm as <-; apply xle_refl; auto.
  - destruct (existsb (String.eqb x) ps); [injection Hm as <-; apply xle_refl; auto|].
    destruct (A x) as [a|] eqn:Ea; [|discriminate].
    destruct (HT _ _ Ea) as (_ & _ & T3 & T4 & T5 & T6). destruct tight.
    + destruct (HA _ _ Ea) as [L U]. destruct (tlb a) as [t|]; [|discriminate].
      eapply xle_trans; [|exact (L _ eq_refl)]. apply (proj1 (IH _ (T5 _ eq_refl)) m); auto.
      eapply xle_nb_l; exact (L _ eq_refl).
    + destruct (HA _ _ Ea) as [L U].
      destruct (ofilter _ (lbs a)) as [|b bs] eqn:Ef; [discriminate|]. injection Hm as <-.
      rewrite ev_fold_smax in *. destruct (fold_xmax_in (map (ev s) bs) (ev s b)) as [E|I]; [congruence|].
      change (In (fold_left xmax (map (ev s) bs) (ev s b)) (map (ev s) (b :: bs))) in I.
      apply in_map_iff in I as (c & Ec & Ic). rewrite <- Ec in *. rewrite <- Ef in Ic.
      apply ofilter_in in Ic as (t & It & Et). rewrite forallb_forall in T3.
      eapply xle_trans; [|exact (L _ It)]. apply (proj1 (IH _ (T3 _ It)) c); auto. eapply xle_nb_l; exact (L _ It).
  - destruct (existsb (String.eqb x) ps); [injection Hm as <-; apply xle_refl; auto|].
    destruct (A x) as [a|] eqn:Ea; [|discriminate].
    destruct (HT _ _ Ea) as (_ & _ & T3 & T4 & T5 & T6). destruct tight.
    + destruct (HA _ _ Ea) as [L U]. destruct (tub a) as [t|]; [|discriminate].
      eapply xle_trans; [exact (U _ eq_refl)|]. apply (proj2 (IH _ (T6 _ eq_refl)) m); auto.
      eapply xle_nb_r; exact (U _ eq_refl).
    + destruct (HA _ _ Ea) as [L U].
      destruct (ofilter _ (ubs a)) as [|b bs] eqn:Ef; [discriminate|]. injection Hm as <-.
      rewrite ev_fold_smin in *. destruct (fold_xmin_in (map (ev s) bs) (ev s b)) as [E|I]; [congruence|].
      change (In (fold_left xmin (map (ev s) bs) (ev s b)) (map (ev s) (b :: bs))) in I.
      apply in_map_iff in I as (c & Ec & Ic). rewrite <- Ec in *. rewrite <- Ef in Ic.
      apply ofilter_in in Ic as (t & It & Et). rewrite forallb_forall in T4.
      eapply xle_trans; [exact (U _ It)|]. apply (proj2 (IH _ (T4 _ It)) c); auto. eapply xle_nb_r; exact (U _ It).
  - destruct (LL l He). destruct (omap _ l) eqn:Eo; [|discriminate]. eapply step_add_lo; eauto.
  - destruct (LL l He). destruct (omap _ l) eqn:Eo; [|discriminate]. eapply step_add_hi; eauto.
  - destruct (LL l He) as [L1 L2]. destruct (omap _ l) eqn:Eo; [|discriminate].
    apply (proj1 (step_mul s _ _ l _ L1 L2 Eo N) m); auto.
  - destruct (LL l He) as [L1 L2]. destruct (omap _ l) eqn:Eo; [|discriminate].
    apply (proj2 (step_mul s _ _ l _ L1 L2 Eo N) m); auto.
  - destruct (LL l He). destruct (omap _ l) eqn:Eo; [|discriminate]. eapply (step_mm_lo s _ (EMax l)); eauto.
  - destruct (LL l He). destruct (omap _ l) eqn:Eo; [|discriminate]. eapply (step_mm_hi s _ (EMax l)); eauto.
  - destruct (LL l He). destruct (omap _ l) eqn:Eo; [|discriminate]. eapply (step_mm_lo s _ (EMin l)); eauto.
  - destruct (LL l He). destruct (omap _ l) eqn:Eo; [|discriminate]. eapply (step_mm_hi s _ (EMin l)); eauto.
  - destruct (minimum_new_d d ps A tight e) as [m'|] eqn:Em; [|discriminate]. injection Hm as <-.
    apply zext_le; auto. apply (proj1 (IH e He) m'); auto using zext_nb.
  - destruct (maximum_new_d d ps A tight e) as [m'|] eqn:Em; [|discriminate]. injection Hm as <-.
    apply zext_le; auto. apply (proj2 (IH e He) m'); auto using zext_nb.
Qed.
