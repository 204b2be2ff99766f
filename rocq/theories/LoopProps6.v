(** Properties of LoopNormalization (C23). *)
From Verif Require Import Sym SymFacts SymFuns SymProofs1 SymProofs3 SymProofs4 IR IRFacts IRRefine PassCFG PassInline PassCFGProofs2 PassCFGProps LoopProps TypesProofs Subst Skew Normalize LoopProps5.
Local Open Scope string_scope.
Local Open Scope Z_scope.

(* ======================= C23 ======================= *)
Definition loop_of (i : string) (init : expr) (c : cond) (u : expr) (body : seq) : node := NLoop KFor i init c u body.
(** Whatever is accepted: everything but the loop variable ends up the same. *)
Definition C23_full : Prop := forall fuel A i init c u body n',
  normalize fuel A (loop_of i init c u body) = Some n' -> same_but i (one (loop_of i init c u body)) (one n').

(** Each update adds the same number [k], and the analysis sees that number. *)
Definition constant_step (A : assumptions) (i : string) (u : expr) (k : Z) : Prop :=
  (forall t, eval t u = Some (t i + k)) /\ - 2 ^ 31 <= k < 2 ^ 31 /\
  (forall m z, affine_int_coeffs u i A = Some (m, z) -> as_int m = Some 1 /\ as_int z = Some k).
(** nothing the expression reads is changed by the loop *)
Definition quiet (i : string) (body : seq) (e : expr) : Prop := forall x, In x (atoms e) -> x <> i /\ ~ In x (swrites body).
(** An inequation with the loop variable says [i <> w]; with step 1 or -1 it is a
    whole clause of the condition and the loop starts on the right side of [w]. *)
Definition ne_ok (i : string) (init : expr) (k : Z) (N : list (list cond)) (st : store) : Prop :=
  forall v0 cl a b, eval (env_of st) init = Some v0 -> In cl N -> In (CNe a b) cl -> uses a i || uses b i = true ->
    exists w, (forall v, cev (upd (env_of st) i v) (CNe a b) = Some (negb (v =? w))) /\
      (k = 1 -> cl = [CNe a b] /\ v0 <= w) /\ (k = -1 -> cl = [CNe a b] /\ w <= v0).
(** [i < max(init, b)] is only met in loops that count up, with an unchanged start. *)
Definition max_ok (i : string) (init : expr) (k : Z) (body : seq) (N : list (list cond)) : Prop :=
  forall cl p q, In cl N -> In (CLt (ESym i) (EMax [p; q])) cl -> p = init \/ q = init -> 0 < k /\ quiet i body init.
Definition new_init (n : node) : expr := match n with NLoop _ _ e _ _ _ => e | _ => EInt 0 end.

Theorem C23_normalize_partial : forall fuel A i init c u body n' N k,
  normalize fuel A (loop_of i init c u body) = Some n' -> cnf c = Some N ->
  (forall cl l, In cl N -> In l cl -> lit_finite l = true) ->
  constant_step A i u k ->
  (forall x, In x (i :: catoms c) -> ~ In x (swrites body)) ->
  max_ok i init k body N ->
  (k = -1 -> quiet i body init /\ quiet i body (new_init n') /\ no_inf (new_init n') = true) ->
  forall I st o st', ne_ok i init k N st -> run I (loop_of i init c u body) st o st' ->
  exists st'', run I n' st o st'' /\ (forall x idx, x <> i -> st'' x idx = st' x idx) /\ (s_only i body = false -> st'' = st').
Proof.
  intros fuel A i init c u body n' N k E EN FI (ST & KR & AF) W MX RO I st o st' NE R. unfold loop_of in *.
  unfold normalize in E. rewrite EN in E. destruct (mapO (mapO (simplify_cond fuel)) N) as [N1|] eqn:E1; [|discriminate].
  assert (Wi: ~ In i (swrites body)) by (apply W; left; auto).
  assert (Wc: forall x, In x (catoms c) -> ~ In x (swrites body)) by (intros x Hx; apply W; right; auto).
  assert (G1: run I (NLoop KFor i init (rebuild N1) u body) st o st').
  { inversion R; subst. econstructor; [eassumption|]. assert (RL : runl I i c u body (wr st i [] v) o st') by assumption.
    apply (cond_change I i c (rebuild N1) u body (fun _ => 0) (fun _ => True) []); [exact Wi|intros x []| |auto|exact RL|intros x []|exact Logic.I]. intros a _ _ b Hb. apply cev_rebuild. pose proof (cnf_fuel_sound (env_of a) _ c N _ EN Hb) as Q. eapply cnf_val_map; [exact E1| |exact Q].
    intros cl l l' q Hcl Hl El Ev. eapply simplify_cond_value; eauto. specialize (FI cl l Hcl Hl). destruct l; auto. }
  destruct (affine_int_coeffs u i A) as [[m z]|] eqn:EA.
  2:{ injection E as <-. exists st'. auto. }
  destruct (AF m z eq_refl) as [Em Ez]. rewrite Em, Ez in E. cbn [Z.eqb negb orb] in E.
  assert (Sw: swrap 32 k = k).
  { unfold swrap. change (2 ^ (32 - 1)) with (2 ^ 31) in *. change (2 ^ 32) with 4294967296 in *. change (2 ^ 31) with 2147483648 in *. rewrite Z.mod_small by lia. lia. }
  rewrite Sw in E. destruct (Z.eqb_spec k 0) as [K0|K0].
  { injection E as <-. exists st'. auto. }
  destruct (mapO (mapO (norm_lit k i init)) N) as [N2|] eqn:E2; [|discriminate].
  assert (G2: run I (NLoop KFor i init (rebuild N2) u body) st o st').
  { inversion R; subst. econstructor; [eassumption|]. assert (RL : runl I i c u body (wr st i [] v) o st') by assumption. assert (Ev: eval (env_of st) init = Some v) by assumption.
    apply (step2 I i init c u body N N2 (env_of st) k v); auto.
    - intros cl l Hcl Hl IN. destruct l; try discriminate. eapply NE; eauto.
    - intros cl l Hcl Hl IM. destruct l as [| | |a r| | | |]; try discriminate. destruct r as [ | | | | | | |[|p [|q [|]]]| | | | | | |]; try discriminate.
      cbn [is_max] in IM. apply andb_true_iff in IM as [M1 M2]. apply expr_eqb_eq in M1. subst a. eapply MX; eauto.
      apply orb_true_iff in M2 as [M2|M2]; apply expr_eqb_eq in M2; auto.
    - intros x Nx. rewrite IRFacts.wr_other; auto.
    - apply wr_same. }
  destruct (s_only i body) eqn:SO; cbn [negb] in E.
  2:{ injection E as <-. exists st'. auto. }
  destruct (proj1 (proj2 (only_free i)) _ SO) as [_ D].
  destruct (cnf (rebuild N2)) as [N3|] eqn:E3.
  2:{ injection E as <-. exists st'. repeat split; auto. }
  destruct (0 <? k).
  - injection E as <-. destruct init; try (exists st'; repeat split; auto; fail).
    destruct (shift_run I i z0 (rebuild N2) u N3 body k st o st' E3 Wi D ST G2) as (b' & Rb & S). exists b'. repeat split; auto. discriminate.
  - destruct (Z.eqb_spec k (-1)) as [Km|_].
    2:{ injection E as <-. exists st'. repeat split; auto. }
    destruct (RO Km) as (Q1 & Q2 & Q3). injection E as <-. unfold rotate in *.
    destruct N3 as [|[|[| | |l r| | | |] [|]] [|]]; try (exists st'; repeat split; auto; fail).
    destruct (expr_eqb r (ESym i)) eqn:Er; [|exists st'; repeat split; auto]. apply expr_eqb_eq in Er. subst r. cbn [new_init] in *.
    destruct (rotate_run I i init l (rebuild N2) u body E3 Wi D Q1 Q2 Q3) with (a := st) (o := o) (a' := st') as (b' & Rb & S); auto.
    + intros t. rewrite ST, Km. reflexivity.
    + exists b'. repeat split; auto. discriminate.
Qed.

(** ** Where it fails *)
Definition no_facts : assumptions := fun _ => None.
Definition norm_wrong (A : assumptions) (n : node) (st : store) (x : string) (idx : list Z) : Prop :=
  exists n', normalize 20 A n = Some n' /\ x <> "i" /\ differ 60 (one n) (one n') st x idx = true.
Ltac nwrong := eexists; split; [vm_compute; reflexivity|split; [discriminate|vm_compute; reflexivity]].
Definition ne3 : cond := CNe (ESym "i") (EInt 3).
Definition lt8 : cond := CLt (ESym "i") (EInt 8).
(** [i <> 3 && i < 8] becomes [i < 3 && i < 8] although the loop starts at 5. *)
Theorem C23_start_beyond_refuted : norm_wrong no_facts (loop_of "i" (EInt 5) (CAnd [ne3; lt8]) (nxt "i") (one (put "A" "i"))) st0 "A" [5].
Proof. nwrong. Qed.
(** The inequation is one of two alternatives. *)
Theorem C23_alternative_refuted : norm_wrong no_facts (loop_of "i" (EInt 0) (CAnd [COr [ne3; CLt (ESym "i") (EInt 6)]; lt8]) (nxt "i") (one (put "A" "i"))) st0 "A" [6].
Proof. nwrong. Qed.
(** A step of [n], known to be at least 1, counts as a step of 1. *)
Theorem C23_symbolic_step_refuted : norm_wrong (one_assum "n" (range 1 4)) (loop_of "i" (EInt 0) (CAnd [ne3; lt8]) (EAdd [ESym "i"; ESym "n"]) (one (put "A" "i"))) (wr st0 "n" [] 2) "A" [4].
Proof. nwrong. Qed.
(** Rotating a loop whose body changes the symbol it started at. *)
Theorem C23_rotated_start_refuted : norm_wrong no_facts (loop_of "i" (ESym "n") (CLt (EInt 0) (ESym "i")) (EAdd [EInt (-1); ESym "i"])
  (SCons (put "A" "i") [("n", EAdd [EInt (-1); ESym "n"])] SNil)) (wr st0 "n" [] 4) "A" [3].
Proof. nwrong. Qed.
Theorem C23_full_refuted : ~ C23_full.
Proof. intros F. destruct C23_start_beyond_refuted as (n' & E & N & H). eapply refute_same; [exact H|exact N|]. eapply F; exact E. Qed.
(** Shifting the loop changes the value the loop variable ends with. *)
Theorem C23_final_index_refuted : exists n', normalize 20 no_facts (loop_of "i" (EInt 3) lt8 (nxt "i") (one (put "A" "i"))) = Some n' /\
  differ 60 (one (loop_of "i" (EInt 3) lt8 (nxt "i") (one (put "A" "i")))) (one n') st0 "i" [] = true.
Proof. eexists; split; [vm_compute; reflexivity|vm_compute; reflexivity]. Qed.

(** [for (i = i; 0 < i; i--)] is rotated into a loop that never ends: the new
    condition [i < i + 1] uses the loop variable. *)
Definition countdown : node := loop_of "i" (ESym "i") (CLt (EInt 0) (ESym "i")) (EAdd [EInt (-1); ESym "i"]) (one (put "A" "i")).
Lemma spin I c u body a o a' : (forall x, cev x c = Some true) -> (forall x o y, runs I body x o y -> o = ONorm) -> ~ runl I "i" c u body a o a'.
Proof.
  intros C B R. remember "i" as i0 eqn:Ei in R. remember c as c0 eqn:Ec in R. remember u as u0 eqn:Eu in R. remember body as s0 eqn:Es in R. revert Ei Ec Eu Es.
  induction R as [i0 c0 u0 s0 st H|i0 c0 u0 s0 st o1 st1 v o0 st' H H0 H1 H2 R IH|i0 c0 u0 s0 st st' H H0|i0 c0 u0 s0 st r st' H H0]; intros Ei Ec Eu Es; subst.
  - rewrite C in H. discriminate.
  - apply IH; auto.
  - apply B in H0. discriminate.
  - apply B in H0. discriminate.
Qed.
Lemma block_norm I b a o a' : runs I (one (NBlock b)) a o a' -> o = ONorm.
Proof.
  intros R. inversion R; subst.
  - match goal with H : runs _ SNil _ _ _ |- _ => inversion H; subst end. reflexivity.
  - match goal with H : run _ (NBlock _) _ _ _ |- _ => inversion H; subst end. reflexivity.
Qed.
Theorem C23_countdown_refuted : exists n', normalize 20 no_facts countdown = Some n' /\
  (exists st', run I0 countdown (wr st0 "i" [] 2) ONorm st' /\ st' "A" [1] = 7) /\
  forall I st o st', ~ run I n' st o st'.
Proof.
  eexists. split; [vm_compute; reflexivity|]. split.
  - destruct (xnode I0 30 countdown (wr st0 "i" [] 2)) as [[o s]|] eqn:E; [|vm_compute in E; discriminate].
    assert (Q: match xnode I0 30 countdown (wr st0 "i" [] 2) with Some (ONorm, s) => s "A" [1] = 7 | _ => False end) by (vm_compute; reflexivity).
    rewrite E in Q. destruct o; try contradiction. exists s. split; [apply xnode_run in E; exact E|exact Q].
  - intros I st o st' R. inversion R; subst. match goal with H : runl _ _ _ _ _ _ _ _ |- _ => revert H end. apply spin.
    + intros x. cbn -[Z.add Z.leb]. apply f_equal. apply negb_true_iff. apply Z.leb_gt. lia.
    + apply block_norm.
Qed.

(** ** The hypotheses hold for real loops *)
(** counts up from 2 by 1 while [i <> n] and [i < max(2, m)]; shifted *)
Definition up : node := loop_of "i" (EInt 2) (CAnd [CNe (ESym "i") (ESym "n"); CLt (ESym "i") (EMax [EInt 2; ESym "m"])]) (EAdd [EInt 1; ESym "i"]) (one (put "A" "i")).
(** counts down from n by 1 while [i <> 0]; rotated *)
Definition down : node := loop_of "i" (ESym "n") (CNe (ESym "i") (EInt 0)) (EAdd [EInt (-1); ESym "i"]) (one (put "A" "i")).
Lemma const_step k : - 2 ^ 31 <= k < 2 ^ 31 -> constant_step no_facts "i" (EAdd [EInt k; ESym "i"]) k.
Proof.
  intros R. split; [|split; [exact R|]].
  - intros t. unfold eval. cbn. rewrite Z.add_0_r, Z.add_comm. reflexivity.
  - change (2 ^ 31) with 2147483648 in R. intros m z E.
    assert (affine_int_coeffs (EAdd [EInt k; ESym "i"]) "i" no_facts = Some (1, k)) as E'.
    { clear. cbn. rewrite ?Z.add_0_r. reflexivity. }
    assert (m = 1 /\ z = k) as [-> ->] by (split; congruence). split; [reflexivity|]. unfold as_int, in_int64, int64_min, int64_max. change (2 ^ 63) with 9223372036854775808. destruct (_ && _) eqn:B; [reflexivity|]. exfalso. apply andb_false_iff in B as [B|B]; apply Z.leb_gt in B; lia.
Qed.
Definition n5 : store := wr (wr st0 "n" [] 5) "m" [] 9.
Example C23_nonvacuous_up : exists n' N, normalize 20 no_facts up = Some n' /\ new_init n' = EInt 0 /\
  cnf (CAnd [CNe (ESym "i") (ESym "n"); CLt (ESym "i") (EMax [EInt 2; ESym "m"])]) = Some N /\
  (forall cl l, In cl N -> In l cl -> lit_finite l = true) /\ max_ok "i" (EInt 2) 1 (one (put "A" "i")) N /\ ne_ok "i" (EInt 2) 1 N n5 /\
  exists st', run I0 up n5 ONorm st' /\ st' "A" [4] = 7 /\ st' "A" [5] = 0.
Proof.
  eexists. eexists. split; [vm_compute; reflexivity|]. split; [reflexivity|]. split; [vm_compute; reflexivity|]. repeat split.
  - intros cl l [<-|[<-|[]]] [<-|[]]; reflexivity.
  - destruct H2.
  - destruct H2.
  - intros v0 cl a b E [<-|[<-|[]]] [Q|[]] _; try discriminate. injection Q as <- <-. exists 5. repeat split; try discriminate. unfold eval in E. cbn in E. assert (v0 = 2) by congruence. lia.
  - destruct (xnode I0 60 up n5) as [[o s]|] eqn:E; [|vm_compute in E; discriminate].
    assert (Q: match xnode I0 60 up n5 with Some (ONorm, s) => s "A" [4] = 7 /\ s "A" [5] = 0 | _ => False end) by (vm_compute; split; reflexivity).
    rewrite E in Q. destruct o; try contradiction. exists s. split; [apply xnode_run in E; exact E|exact Q].
Qed.
Example C23_nonvacuous_down : exists n' N, normalize 20 no_facts down = Some n' /\ new_init n' = EInt 1 /\
  cnf (CNe (ESym "i") (EInt 0)) = Some N /\ (forall cl l, In cl N -> In l cl -> lit_finite l = true) /\
  quiet "i" (one (put "A" "i")) (ESym "n") /\ quiet "i" (one (put "A" "i")) (EInt 1) /\ ne_ok "i" (ESym "n") (-1) N n5 /\
  exists st', run I0 down n5 ONorm st' /\ st' "A" [4] = 7 /\ st' "A" [0] = 0.
Proof.
  eexists. eexists. split; [vm_compute; reflexivity|]. split; [reflexivity|]. split; [vm_compute; reflexivity|]. repeat split.
  - intros cl l [<-|[]] [<-|[]]; reflexivity.
  - destruct H as [<-|[]]; discriminate.
  - destruct H as [<-|[]]. intros [H|[]]; discriminate.
  - elim H.
  - elim H.
  - intros v0 cl a b E [<-|[]] [Q|[]] _. injection Q as <- <-. exists 0. repeat split; try discriminate. unfold eval in E. cbn in E. assert (v0 = 5) by congruence. lia.
  - destruct (xnode I0 60 down n5) as [[o s]|] eqn:E; [|vm_compute in E; discriminate].
    assert (Q: match xnode I0 60 down n5 with Some (ONorm, s) => s "A" [4] = 7 /\ s "A" [0] = 0 | _ => False end) by (vm_compute; split; reflexivity).
    rewrite E in Q. destruct o; try contradiction. exists s. split; [apply xnode_run in E; exact E|exact Q].
Qed.
Print Assumptions C23_normalize_partial.
