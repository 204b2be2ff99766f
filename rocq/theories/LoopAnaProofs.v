(** canonical_bound and stride (loop_analysis.cpp:257-345): proofs. *)
From Verif Require Import Sym SymFacts SymFuns SymProofs1 SymProofs2 SymProofs4 Lin IR PassCFG.

Lemma cnf_nonempty n : forall c N, cnf_fuel n c = Some N -> forall cl, In cl N -> cl <> [].
Proof.
  induction n as [|n IH]; [discriminate|]. intros c N H cl Hcl.
  destruct c; cbn [cnf_fuel] in H; try (injection H as <-; destruct Hcl as [<-|[]]; discriminate).
  - revert N H Hcl. induction l as [|a l IHl]; cbn [fold_right]; intros N H Hcl.
    + injection H as <-. destruct Hcl.
    + destruct (cnf_fuel n a) as [x|] eqn:Ex; [|discriminate].
      destruct (fold_right _ _ l) as [y|] eqn:Ey; [|discriminate]. injection H as <-.
      apply in_app_iff in Hcl as [Hcl|Hcl]; eauto.
  - destruct l as [|a l]; [discriminate|].
    assert (forall acc, (forall x, acc = Some x -> forall cl, In cl x -> cl <> []) ->
       fold_left (fun acc b => match acc, cnf_fuel n b with Some x, Some y => Some (distribute_or x y) | _, _ => None end) l acc = Some N ->
       forall cl, In cl N -> cl <> []) as G; [|eapply G; [|exact H|auto]; intros; eauto].
    clear H Hcl cl. induction l as [|b l IHl]; cbn [fold_left]; intros acc Ha H cl Hcl.
    + subst acc; eauto.
    + eapply IHl; [|exact H|exact Hcl]. intros x Hx. destruct acc as [xa|]; [|discriminate].
      destruct (cnf_fuel n b) as [y|] eqn:Ey; [|discriminate]. injection Hx as <-.
      intros c0 H0. unfold distribute_or in H0. apply in_concat in H0 as (m & Hm & Hc).
      apply in_map_iff in Hm as (p & <- & Hp). apply in_map_iff in Hc as (q & <- & Hq).
      specialize (Ha _ eq_refl _ Hp). destruct p; [congruence|discriminate].
  - destruct c; try discriminate; try (eapply IH; eauto; fail);
      destruct l as [|? [|? [|]]]; try discriminate; eapply IH; eauto.
Qed.

(** defined and strictly greater than the symbol's value *)
Definition above (s : env) (i : string) (q : expr) : Prop :=
  match ev s q with Fin z => s i < z | PInf => True | _ => False end.
Definition oabove (s : env) (i : string) (b : option expr) : Prop :=
  match b with Some q => above s i q | None => True end.
Definition odef (s : env) (b : option expr) : Prop :=
  match b with Some q => ev s q <> Bad | None => True end.

Lemma xmin_nb' a b : a <> Bad -> b <> Bad -> xmin a b <> Bad.
Proof. destruct a, b; simpl; congruence. Qed.
Lemma above_smin s i q r : ev s q <> Bad -> ev s r <> Bad -> (above s i (smin q r) <-> above s i q /\ above s i r).
Proof.
  intros Hq Hr. unfold above. rewrite ev_smin. destruct (ev s q), (ev s r); simpl; try congruence; try tauto; lia.
Qed.
Lemma lit_lt s i r t : cev s (CLt (ESym i) r) = Some t -> ev s r <> Bad /\ (t = true <-> above s i r).
Proof.
  cbn [cev ev]. unfold above. destruct (ev s r); simpl; intros H; try discriminate; injection H as <-; split; try discriminate;
    try tauto; try (split; [discriminate|tauto]).
  destruct (Z.leb_spec z (s i)); simpl; split; intros; try congruence; lia.
Qed.
Lemma lit_le s i r t : cev s (CLe (ESym i) r) = Some t -> ev s (saddn r (EInt 1)) <> Bad /\ (t = true <-> above s i (saddn r (EInt 1))).
Proof.
  cbn [cev ev]. intros H. unfold above, saddn. assert (ev s r <> Bad) as Nb by (destruct (ev s r); simpl in *; congruence).
  rewrite ev_snorm by (simpl; destruct (ev s r); simpl; congruence). simpl.
  destruct (ev s r); simpl in *; try congruence; injection H as <-; split; try discriminate; try tauto; try (split; [discriminate|tauto]).
  destruct (Z.leb_spec (s i) z); simpl; split; intros; try congruence; lia.
Qed.

Lemma bound_lits_sound s i l : forall b0 b, bound_lits i l b0 = Some b -> odef s b0 ->
  (forall lit, In lit l -> cev s lit <> None) ->
  odef s b /\ (oabove s i b <-> oabove s i b0 /\ forall lit, In lit l -> cev s lit = Some true).
Proof.
  induction l as [|a l IH]; intros b0 b H D Dl; cbn [bound_lits] in H.
  - injection H as <-. split; auto. split; [intros; split; auto; intros ? []|tauto].
  - destruct (cev s a) as [t|] eqn:Et; [|exfalso; eapply Dl; [left; reflexivity|auto]].
    assert (forall lit, In lit l -> cev s lit <> None) as Dl' by (intros; apply Dl; right; auto).
    assert (exists r, ev s r <> Bad /\ (t = true <-> above s i r) /\
      bound_lits i l (Some (match b0 with None => r | Some q => smin q r end)) = Some b) as (r & Nr & Ar & H').
    { destruct a; try discriminate; destruct a; try discriminate; destruct (String.eqb_spec i x); try discriminate; subst x.
      - destruct (lit_lt _ _ _ _ Et). eexists; repeat split; try apply H0; eauto; tauto.
      - destruct (lit_le _ _ _ _ Et). eexists; repeat split; try apply H0; eauto; tauto. }
    destruct (IH _ _ H') as [D2 E2]; auto.
    { destruct b0; simpl in *; auto. rewrite ev_smin. apply xmin_nb'; auto. }
    split; auto. rewrite E2. simpl. destruct b0 as [q|]; simpl in *.
    + rewrite above_smin by auto. rewrite <- Ar. split; intros [P Q]; split; try tauto.
      * intros lit [<-|Hl]; auto. rewrite Et. destruct P as [_ ->]; auto.
      * split; auto. specialize (Q a (or_introl eq_refl)). congruence.
      * intros; apply Q; auto.
    + rewrite <- Ar. split; intros [P Q]; split; auto.
      * intros lit [<-|Hl]; auto. rewrite Et, P; auto.
      * specialize (Q a (or_introl eq_refl)). congruence.
Qed.

Lemma canonical_bound_sound mono i c b s t :
  canonical_bound mono i c = Some b -> cev s c = Some t -> cev s (CLt (ESym i) b) = Some t.
Proof.
  unfold canonical_bound. destruct (negb mono); [discriminate|]. destruct (cnf c) as [N|] eqn:EN; [|discriminate].
  destruct (existsb _ N) eqn:Ex; [discriminate|]. destruct (bound_lits i (concat N) None) as [b'|] eqn:EB; [|discriminate].
  intros -> Et. pose proof (cnf_equiv _ _ _ _ EN Et) as Q.
  assert (Dl : forall lit, In lit (concat N) -> cev s lit <> None).
  { intros lit Hl B. apply in_concat in Hl as (cl & Hcl & Hl). pose proof (cnf_fuel_sound s _ _ _ _ EN Et) as V.
    unfold cnf_val in V. apply in_split in Hcl as (l1 & l2 & ->). rewrite map_app, oands_app in V. cbn [map oands] in V.
    assert (clause_val s cl = None) as Z.
    { unfold clause_val. apply in_split in Hl as (m1 & m2 & ->). rewrite map_app, oors_app. cbn [map oors]. rewrite B.
      destruct (oors (map (cev s) m1)); auto. }
    rewrite Z in V. destruct (oands (map (clause_val s) l1)); discriminate. }
  destruct (bound_lits_sound s i _ _ _ EB I Dl) as [Db Eb]. simpl in Db, Eb.
  assert (t = true <-> above s i b) as Ht.
  { rewrite Eb, Q. split.
    - intros H. split; auto. intros lit Hl. apply in_concat in Hl as (cl & Hcl & Hl).
      destruct (H cl Hcl) as (l' & Hl' & El'). rewrite existsb_false_in in Ex. specialize (Ex _ Hcl).
      apply Nat.ltb_ge in Ex. destruct cl as [|? [|]]; simpl in *; try lia; try tauto. destruct Hl as [<-|[]], Hl' as [<-|[]]; auto.
    - intros [_ H] cl Hcl. destruct cl as [|lit cl]; [exfalso; eapply cnf_nonempty; eauto|].
      exists lit. split; [left; auto|]. apply H. apply in_concat. exists (lit :: cl); split; auto; left; auto. }
  cbn [cev ev]. unfold above in Ht. destruct (ev s b) eqn:E; simpl; try congruence; f_equal.
  - destruct t; [assert (s i < z) by tauto; destruct (Z.leb_spec z (s i)); simpl; auto; lia|].
    destruct (Z.leb_spec z (s i)); simpl; auto. assert (false = true) by tauto. discriminate.
  - symmetry; tauto.
  - destruct t; auto. exfalso; tauto.
Qed.

Lemma stride_sound i u z s : stride i u = Some z -> eval s u = Some (s i + z).
Proof.
  unfold stride. destruct u; try discriminate. destruct l as [|a [|b [|]]]; try discriminate.
  destruct a; try discriminate; destruct b; try discriminate; destruct (String.eqb_spec x i); try discriminate; subst;
    intros [= ->]; unfold eval; simpl; f_equal; lia.
Qed.
