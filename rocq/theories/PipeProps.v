(** * C83: pipelines *)
From Coq Require Import String List ZArith Bool Lia Wf_nat.
From Verif Require Import Sym SymFacts SymFuns Json Types Serial Dbg Pipe.
Import ListNotations.
Open Scope list_scope.
Open Scope nat_scope.

(** What every pass preserves the pipeline preserves. *)
Theorem C83_preserves {S} (R : S -> S -> Prop) ps : (forall s, R s s) -> (forall a b c, R a b -> R b c -> R a c) ->
  (forall p, In p ps -> forall s, R s (fst (p s))) -> forall s s' b, pipe ps s s' b -> R s s'.
Proof.
  intros Rr Rt H.
  assert (U : forall p, In p ps -> forall s s' a, until p s s' a -> R s s').
  { intros p I s s' a K. induction K as [s s' E|s s1 s' a E K IH]; pose proof (H p I s) as X; rewrite E in X; [exact X|eapply Rt; [exact X|exact IH]]. }
  assert (W : forall l, incl l ps -> forall s s' b, sweep l s s' b -> R s s').
  { intros l L s s' b K. induction K as [s|p l s s1 s' a b K1 K2 IH]; [apply Rr|]. eapply Rt; [apply (U p (L p (or_introl eq_refl)) _ _ _ K1)|]. apply IH. intros x J. apply L. right. exact J. }
  intros s s' b K. induction K as [s s' E|s s1 s' b E K IH]; [eapply W; [apply incl_refl|exact E]|]. eapply Rt; [eapply W; [apply incl_refl|exact E]|exact IH].
Qed.

Lemma until_false {S} (p : pass S) s s' : until p s s' false -> p s = (s', false).
Proof. intros K. inversion K; subst. assumption. Qed.
Lemma sweep_false {S} (ps : list (pass S)) : Forall honest ps -> forall s s', sweep ps s s' false -> s' = s /\ forall p, In p ps -> p s = (s, false).
Proof.
  induction ps as [|p ps IH]; intros H s s' K; inversion K as [|q l s0 s1 s2 a b U W E1]; subst.
  - split; [reflexivity|intros q []].
  - match goal with E : (_ || _)%bool = false |- _ => apply orb_false_iff in E; destruct E as (-> & ->) end. inversion H as [|? ? Hp Hl]; subst.
    apply until_false in U. pose proof (Hp _ _ U) as ->. destruct (IH Hl _ _ W) as (-> & X). split; [reflexivity|]. intros q [<-|J]; [exact U|exact (X q J)].
Qed.
(** When a pipeline of passes that report all their changes ends, no pass applies any more,
    and running the pipeline again changes nothing. *)
Theorem C83_nothing_left_partial {S} (ps : list (pass S)) s s' b : Forall honest ps -> pipe ps s s' b ->
  (forall p, In p ps -> p s' = (s', false)) /\ pipe ps s' s' false.
Proof.
  intros H K. assert (X : forall p, In p ps -> p s' = (s', false)).
  { induction K as [s s' E|s s1 s' b E K IH]; [|exact IH]. destruct (sweep_false ps H _ _ E) as (-> & X). exact X. }
  split; [exact X|]. apply p_stop. clear K H. induction ps as [|p ps IH]; [apply s_nil|].
  change false with (false || false)%bool. eapply s_cons; [apply u_stop; apply X; left; reflexivity|]. apply IH. intros q J. apply X. right. exact J.
Qed.
Lemma until_true {S} (p : pass S) s s' a : until p s s' a -> a = snd (p s).
Proof. intros K. inversion K as [? ? E|? ? ? ? E]; subst; rewrite E; reflexivity. Qed.
(** It reports whether some pass applies to the program it is given. *)
Theorem C83_report_partial {S} (ps : list (pass S)) s s' b : Forall honest ps -> pipe ps s s' b -> (b = true <-> exists p, In p ps /\ snd (p s) = true).
Proof.
  intros H K.
  assert (W : forall (l : list (pass S)) (s s' : S) b, Forall honest l -> sweep l s s' b -> (b = true <-> exists p : pass S, In p l /\ snd (p s) = true)).
  { clear. induction l as [|p l IH]; intros s s' b H K; inversion K as [|q l0 s0 s1 s2 a c U W E1]; subst.
    - split; [discriminate|intros (q & [] & _)].
    - inversion H as [|? ? Hp Hl]; subst. pose proof (until_true _ _ _ _ U) as Ea. destruct a.
      + cbn. split; [intros _|reflexivity]. exists p. split; [left; reflexivity|symmetry; exact Ea].
      + apply until_false in U. pose proof (Hp _ _ U) as ->. cbn. rewrite (IH _ _ _ Hl W). split.
        * intros (q & J & E). exists q. split; [right; exact J|exact E].
        * intros (q & [<-|J] & E); [congruence|exists q; split; assumption]. }
  inversion K as [? ? E|? s1 ? b' E K']; subst; exact (W ps s _ _ H E).
Qed.
(** The program it ends with and the report are determined by the program it starts with. *)
Theorem C83_deterministic {S} (ps : list (pass S)) s a b : pipe ps s a b -> forall a' b', pipe ps s a' b' -> a' = a /\ b' = b.
Proof.
  assert (U : forall p : pass S, forall s a b, until p s a b -> forall a' b', until p s a' b' -> a' = a /\ b' = b).
  { intros p s0 a0 b0 K. induction K as [s0 s' E|s0 s1 s' c E K IH]; intros a' b' L; inversion L as [? ? E'|? ? ? ? E' L']; subst; rewrite E in E'; inversion E'; subst; [split; reflexivity|].
    destruct (IH _ _ L') as (-> & _). split; reflexivity. }
  assert (W : forall l s a b, @sweep S l s a b -> forall a' b', sweep l s a' b' -> a' = a /\ b' = b).
  { intros l s0 a0 b0 K. induction K as [s0|p l s0 s1 s' x y K1 K2 IH]; intros a' b' L; inversion L as [|? ? ? ? ? ? ? L1 L2]; subst; [split; reflexivity|].
    destruct (U _ _ _ _ K1 _ _ L1) as (-> & ->). destruct (IH _ _ L2) as (-> & ->). split; reflexivity. }
  intros K. induction K as [s s' E|s s1 s' b E K IH]; intros a' b' L; inversion L as [? ? E'|? ? ? ? E' L']; subst; destruct (W _ _ _ _ E _ _ E') as (X & Y); try discriminate; subst; [split; reflexivity|].
  destruct (IH _ _ L') as (-> & _). split; reflexivity.
Qed.
(** It ends, if something gets smaller whenever a pass applies, and never larger. *)
Theorem C83_ends {S} (m : S -> nat) (ps : list (pass S)) :
  (forall p, In p ps -> forall s s' b, p s = (s', b) -> (m s' <= m s)%nat /\ (b = true -> (m s' < m s)%nat)) ->
  forall s, exists s' b, pipe ps s s' b /\ (m s' <= m s)%nat.
Proof.
  intros H.
  assert (U : forall p, In p ps -> forall n s, (m s <= n)%nat -> exists s' a, until p s s' a /\ (m s' <= m s)%nat /\ (a = true -> (m s' < m s)%nat)).
  { intros p I n. induction n as [|n IH]; intros s L; destruct (p s) as [s1 b] eqn:E; destruct (H p I _ _ _ E) as (A & B); destruct b.
    - specialize (B eq_refl). lia.
    - exists s1, false. split; [apply u_stop; exact E|split; [exact A|discriminate]].
    - specialize (B eq_refl). destruct (IH s1) as (s' & a & K & M & _); [lia|]. exists s', true. split; [eapply u_more; eassumption|split; [lia|intros _; lia]].
    - exists s1, false. split; [apply u_stop; exact E|split; [exact A|discriminate]]. }
  assert (W : forall l, incl l ps -> forall s, exists s' b, sweep l s s' b /\ (m s' <= m s)%nat /\ (b = true -> (m s' < m s)%nat)).
  { induction l as [|p l IH]; intros L s; [exists s, false; split; [apply s_nil|split; [lia|discriminate]]|].
    destruct (U p (L p (or_introl eq_refl)) (m s) s) as (s1 & a & K & M & N); [lia|]. destruct (IH (fun x J => L x (or_intror J)) s1) as (s' & b & K' & M' & N').
    exists s', (a || b)%bool. split; [eapply s_cons; eassumption|split; [lia|]]. intros E. apply orb_true_iff in E. destruct E as [E|E]; [specialize (N E)|specialize (N' E)]; lia. }
  assert (P : forall n s, (m s <= n)%nat -> exists s' b, pipe ps s s' b /\ (m s' <= m s)%nat).
  { induction n as [|n IH]; intros s L; destruct (W ps (incl_refl _) s) as (s1 & b & K & M & N); destruct b.
    - specialize (N eq_refl). lia.
    - exists s1, false. split; [apply p_stop; exact K|exact M].
    - specialize (N eq_refl). destruct (IH s1) as (s' & b & K' & M'); [lia|]. exists s', true. split; [eapply p_more; eassumption|lia].
    - exists s1, false. split; [apply p_stop; exact K|exact M]. }
  intros s. exact (P (m s) s (le_n _)).
Qed.
(** It never ends with a pass that always reports a change. *)
Theorem C83_never_ends {S} (ps : list (pass S)) p : In p ps -> (forall s, snd (p s) = true) -> forall s s' b, ~ pipe ps s s' b.
Proof.
  intros I H.
  assert (U : forall s s' a, ~ until p s s' a).
  { intros s s' a K. induction K as [s s' E|s s1 s' a E K IH]; [|exact IH]. specialize (H s). rewrite E in H. discriminate. }
  assert (W : forall l s s' b, In p l -> ~ sweep l s s' b).
  { intros l s s' b J K. induction K as [s|q l s s1 s' a b K1 K2 IH]; [destruct J|]. destruct J as [->|J]; [exact (U _ _ _ K1)|exact (IH J)]. }
  intros s s' b K. inversion K as [? ? E|? ? ? ? E]; subst; exact (W _ _ _ _ I E).
Qed.
(** The debug info propagation pass is one: no pipeline with it ends on any program. *)
Theorem C83_debug_info_refuted ps : In dbg_pass ps -> forall s s' b, ~ pipe ps s s' b.
Proof. intros I. apply (C83_never_ends ps dbg_pass I). reflexivity. Qed.
(** A pass that changes the program and does not report it can leave an earlier pass applicable. *)
Theorem C83_unreported_refuted : exists (p q : pass nat) s s', honest p /\ ~ honest q /\ pipe [p; q] s s' false /\ snd (p s') = true.
Proof.
  exists (fun n => match n with 1 => (0, true) | _ => (n, false) end), (fun n => match n with 0 => (1, false) | _ => (n, false) end), 0, 1.
  split; [|split; [|split]].
  - intros [|[|n]] s' E; inversion E; reflexivity.
  - intros H. specialize (H 0 1 eq_refl). discriminate.
  - apply p_stop. change false with (false || (false || false))%bool. eapply s_cons; [apply u_stop; reflexivity|]. eapply s_cons; [apply u_stop; reflexivity|apply s_nil].
  - reflexivity.
Qed.
(** Two honest passes that enable each other: halving even numbers, decrementing odd ones. *)
Example C83_hypotheses :
  let half : pass nat := fun n => if Nat.even n && negb (Nat.eqb n 0) then (Nat.div2 n, true) else (n, false) in
  let dec : pass nat := fun n => if Nat.odd n then (n - 1, true) else (n, false) in
  Forall honest [half; dec] /\ (forall p, In p [half; dec] -> forall s s' b, p s = (s', b) -> s' <= s /\ (b = true -> s' < s)) /\ pipe [half; dec] 6 0 true.
Proof.
  cbv zeta. split; [|split].
  - constructor; [|constructor; [|constructor]]; intros s s' E.
    + destruct (Nat.even s && negb (Nat.eqb s 0))%bool; inversion E; reflexivity.
    + destruct (Nat.odd s); inversion E; reflexivity.
  - intros p [<-|[<-|[]]] s s' b E.
    + destruct (Nat.even s && negb (Nat.eqb s 0))%bool eqn:G; inversion E; subst; [|split; [lia|discriminate]].
      apply andb_true_iff in G. destruct G as (_ & G). apply negb_true_iff, PeanoNat.Nat.eqb_neq in G. pose proof (PeanoNat.Nat.lt_div2 s). split; [|intros _]; lia.
    + destruct (Nat.odd s) eqn:G; inversion E; subst; [|split; [lia|discriminate]]. destruct s; [discriminate|]. split; [|intros _]; lia.
  - eapply p_more; [change true with (true || (true || false))%bool; eapply s_cons; [eapply u_more; [reflexivity|eapply u_stop; reflexivity]|eapply s_cons; [eapply u_more; [reflexivity|eapply u_stop; reflexivity]|apply s_nil]]|].
    cbn. eapply p_more; [change true with (true || (true || false))%bool; eapply s_cons; [eapply u_more; [reflexivity|eapply u_stop; reflexivity]|eapply s_cons; [eapply u_more; [reflexivity|eapply u_stop; reflexivity]|apply s_nil]]|].
    cbn. apply p_stop. change false with (false || (false || false))%bool. eapply s_cons; [apply u_stop; reflexivity|eapply s_cons; [apply u_stop; reflexivity|apply s_nil]].
Qed.
